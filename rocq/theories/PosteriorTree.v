(** Posteriors over PyTrees: the flat operators seen through flatten/unflatten. *)
From mathcomp Require Import all_ssreflect all_algebra.
From Verif Require Import Base PyTree TreeSpec Mv PyTreeProofs BasisProofs StackProofs MvProofs
  TreeOpsProofs GgnSpec GgnProofs Posterior PosteriorSpec PosteriorProofs.
Set Implicit Arguments.
Unset Strict Implicit.
Unset Printing Implicit Defensive.
Import GRing.Theory Num.Theory Order.TTheory.
Local Open Scope ring_scope.

Section Tree.
Variable R : rcfType.
Notation ptree := (tree (arr R)).

Lemma size_of_cv n (v : 'cV[R]_n) : size (of_cv v) = n.
Proof. by rewrite size_map size_enum_ord. Qed.
Lemma nth_of_cv n (v : 'cV[R]_n) (i : 'I_n) : nth 0 (of_cv v) i = v i ord0.
Proof. by rewrite (nth_map i) ?size_enum_ord // nth_ord_enum. Qed.
Lemma of_cvK n (v : 'cV[R]_n) : cv_of n (of_cv v) = v.
Proof. by apply/colP => i; rewrite mxE nth_of_cv. Qed.
Lemma cv_ofK n (s : seq R) : size s = n -> of_cv (cv_of n s) = s.
Proof.
move=> H; apply: (@eq_from_nth _ 0); first by rewrite size_of_cv H.
by move=> i; rewrite size_of_cv => Hi; rewrite (nth_of_cv _ (Ordinal Hi)) mxE.
Qed.

(** [fn] applies the flat operator [f] to the entries of trees of layout [t]. *)
Definition acts_flat (t : ptree) (f : 'cV[R]_(get_size t) -> 'cV[R]_(get_size t))
    (fn : seq ptree -> unit -> res ptree) : Prop :=
  forall u : ptree, wf_tree u -> same_layout t u ->
  exists w : ptree, [/\ fn [:: u] tt = Ok w, same_layout t w, wf_tree w &
    cv_of _ (entries w) = f (cv_of _ (entries u))].

Lemma wrap_acts_flat (t : ptree) (f : 'cV[R]_(get_size t) -> 'cV[R]_(get_size t)) : leaves t <> [::] ->
  acts_flat f (wrap_function (py_flat_fn f) (layout_flatten (LTree t)) (layout_unflatten (LTree t)) 0).
Proof.
move=> L0 u W S.
rewrite (@wrap_functionE _ _ _ _ _ 0%N _ _ u) //=.
have Lu : leaves u <> [::] by move=> E; move: L0; case: S => _; rewrite E; case: (leaves t).
rewrite full_flattenE //=.
have Hs : size (entries u) = get_size t by rewrite size_entries // -(nentries_same S).
rewrite Hs eqxx /=.
have [|w [-> S' W' E]] := @unflatten_ok R R t (of_cv (f (cv_of (get_size t) (entries u)))) L0.
  by rewrite size_of_cv.
by exists w; split=> //; rewrite E of_cvK.
Qed.

Section Method.
Variables (Curv Prec State : Type).

Lemma set_posterior_tree (t : ptree) (m : curv_method R (get_size t) Curv Prec State) curv pa lsf p :
  leaves t <> [::] -> set_posterior_fn m curv (LTree t) pa lsf = Ok (Some p) ->
  exists prec, [/\ to_precision m curv pa lsf = Ok prec, to_state m prec = Some (post_state p) &
    forall st, (exists fn, cov_mv p st = Ok fn /\ acts_flat (to_cov m st) fn) /\
               (exists fn, scale_mv p st = Ok fn /\ acts_flat (to_scale m st) fn)].
Proof.
move=> L0; rewrite /set_posterior_fn.
case: (to_precision m curv pa lsf) => [prec|//] /=.
case E: (to_state m prec) => [st|//] [<-] /=.
exists prec; split=> // s; split; eexists; (split; first by []); exact: wrap_acts_flat.
Qed.

Lemma set_posterior_flat n (m : curv_method R n Curv Prec State) curv l pa lsf p :
  (forall t, l <> LTree t) -> set_posterior_fn m curv l pa lsf = Ok (Some p) ->
  exists prec, [/\ to_precision m curv pa lsf = Ok prec, to_state m prec = Some (post_state p) &
    forall st (v : 'cV[R]_n),
      (exists fn, cov_mv p st = Ok fn /\
        fn [:: Leaf (Arr [:: n] (of_cv v))] tt = Ok (Leaf (Arr [:: n] (of_cv (to_cov m st v))))) /\
      (exists fn, scale_mv p st = Ok fn /\
        fn [:: Leaf (Arr [:: n] (of_cv v))] tt = Ok (Leaf (Arr [:: n] (of_cv (to_scale m st v)))))].
Proof.
move=> Hl; rewrite /set_posterior_fn.
case: (to_precision m curv pa lsf) => [prec|//] /=.
case E: (to_state m prec) => [st|//] [<-] /=.
exists prec; split=> // s v.
have Hf g : wrap_function (py_flat_fn g) (layout_flatten l) (layout_unflatten l) 0
    [:: Leaf (Arr [:: n] (of_cv v))] tt = Ok (Leaf (Arr [:: n] (of_cv (g v)))).
  rewrite (@wrap_functionE _ _ _ _ _ 0%N _ _ (Leaf (Arr [::] [::]))) //.
  by case: l Hl => [k|t|] Hl; [|by case: (Hl t)|];
    rewrite /= size_of_cv !eqxx /= of_cvK.
by split; eexists; (split; first by []); rewrite Hf.
Qed.
End Method.

(** The dense curvature of an operator that acts as the matrix [A]. *)
Lemma full_curvatureE (A : nat -> nat -> R) (t : ptree) mv :
  leaves t <> [::] -> (0 < get_size t)%N -> acts_as A t t mv ->
  let n := get_size t in
  create_full_curvature mv (LTree t) =
  Ok (Leaf (Arr [:: n; n] (flatten [seq [seq A j i | i <- iota 0 n] | j <- iota 0 n]))).
Proof.
move=> L0 H0 Ha /=; rewrite /create_full_curvature.
apply: (to_dense_acts_int (A := A)) => // u W S.
have [d Ed Hd] : exists2 d, u = Leaf (Arr [:: get_size t] d) & size d = get_size t.
  case: u S W => [[s d]|k ch] [//= _ [Es]]; rewrite /wf_tree /= andbT /wf_arr /= => /eqP Hd.
  by exists d; rewrite -?Es // Hd -Es /= muln1.
rewrite Ed.
have [x [Wx Sx Ex Ef]] := @flatten_functionE _ mv t d L0 Hd.
rewrite Ef; have [y [-> Sy Wy Ey]] := Ha x Wx Sx; rewrite /=.
have Ly : leaves y <> [::] by move=> E; move: L0; case: Sy => _; rewrite E; case: (leaves t).
rewrite full_flattenE //=; eexists; split; first by [].
- by split=> //=; congr [:: [:: _]]; rewrite size_entries // -(nentries_same Sy).
- by rewrite /wf_tree /= andbT /wf_arr /= muln1.
- by rewrite /entries /= !cats0 -/(entries y) Ey Ex {3 4}/nentries /= muln1 addn0 get_sizeE.
Qed.

Lemma mx_ofE (A : nat -> nat -> R) n :
  mx_of n (flatten [seq [seq A j i | i <- iota 0 n] | j <- iota 0 n]) = \matrix_(i, j) A i j.
Proof.
apply/matrixP => i j; rewrite !mxE (@nth_flatten_const _ _ _ n) ?size_map ?size_iota //.
- by rewrite !(nth_map 0%N) ?size_iota // ?nth_iota.
- by move=> k Hk; rewrite (nth_map 0%N) ?size_iota // size_map size_iota.
Qed.
Lemma cv_of_mkseq (f : nat -> R) n : cv_of n (mkseq f n) = \col_i f i.
Proof. by apply/colP => i; rewrite !mxE nth_mkseq. Qed.
End Tree.
