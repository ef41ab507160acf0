(** Proofs about Pushforward.v. *)
From Coq Require Import String.
From mathcomp Require Import all_ssreflect all_algebra.
From Verif Require Import Base PyTree TreeSpec PyTreeProofs BasisProofs StackProofs Mv MvProofs TreeOpsProofs.
From Verif Require Import EvalUtils Pushforward PushforwardSpec.
Set Implicit Arguments.
Unset Strict Implicit.
Unset Printing Implicit Defensive.
Import Order.TTheory GRing.Theory Num.Theory.
Local Open Scope ring_scope.

Section Gen.
Variable R : rcfType.
Notation ptree := (tree (arr R)).

Lemma matvec_comp (A B : nat -> nat -> R) m n k v :
  matvec A m n (matvec B n k v) = matvec (fun i j => \sum_(0 <= l < n) A i l * B l j) m k v.
Proof.
apply: eq_map => i.
rewrite (eq_big_nat _ _ (F2 := fun l => \sum_(0 <= j < k) A i l * B l j * nth 0 v j)); last first.
  move=> l /andP [_ Hl]; rewrite nth_mkseq // big_distrr /=.
  by apply: eq_bigr => j _; rewrite mulrA.
rewrite exchange_big_nat /=; apply: eq_bigr => j _; by rewrite big_distrl.
Qed.

Lemma acts_comp (A B : nat -> nat -> R) t1 t2 t3 f g :
  acts_as B t1 t2 g -> acts_as A t2 t3 f ->
  acts_as (fun i j => \sum_(0 <= l < nentries t2) A i l * B l j) t1 t3 (fun t => let! u := g t in f u).
Proof.
move=> Hg Hf t W S; have [u [Eu Su Wu Hu]] := Hg t W S.
have [w [Ew Sw Ww Hw]] := Hf u Wu Su.
by exists w; split=> //; rewrite ?Eu //= Hw Hu matvec_comp.
Qed.

Lemma acts_ext (A B : nat -> nat -> R) t1 t2 f g :
  (forall i j, (i < nentries t2)%N -> (j < nentries t1)%N -> A i j = B i j) ->
  (forall t, wf_tree t -> same_layout t1 t -> f t = g t) ->
  acts_as A t1 t2 f -> acts_as B t1 t2 g.
Proof.
move=> HAB Hfg H t W S; have [u [Eu Su Wu Hu]] := H t W S.
exists u; split=> //; first by rewrite -Hfg.
rewrite Hu /matvec; apply/eq_in_map => i; rewrite mem_iota add0n => /= Hi.
by apply: eq_big_nat => j /andP [_ Hj]; rewrite HAB.
Qed.

Lemma acts_layout (A : nat -> nat -> R) t1 t2 t1' t2' f :
  same_layout t1 t1' -> same_layout t2 t2' -> acts_as A t1 t2 f -> acts_as A t1' t2' f.
Proof.
move=> S1 S2 H t W S; have [|u [Eu Su Wu Hu]] := H t W; first exact: same_layout_trans S1 S.
exists u; split=> //; first exact: same_layout_trans (same_layout_sym S2) Su.
by rewrite -(nentries_same S1) -(nentries_same S2).
Qed.

Lemma leaf_layout (a b : arr R) : ashape a = ashape b -> same_layout (Leaf a) (Leaf b).
Proof. by move=> H; split=> //=; rewrite H. Qed.
Lemma layout_leaf (a : arr R) (u : ptree) : same_layout (Leaf a) u -> exists b, u = Leaf b /\ ashape b = ashape a.
Proof. by case: u => [b|k ch] [] //= _ [E]; exists b. Qed.
Lemma nentries_leaf (a : arr R) : nentries (Leaf a) = prodn (ashape a).
Proof. by rewrite /nentries /= addn0. Qed.
Lemma entries_leaf (a : arr R) : entries (Leaf a) = adata a.
Proof. by rewrite /entries /= cats0. Qed.
Lemma wf_leaf (a : arr R) : wf_tree (Leaf a) = (size (adata a) == prodn (ashape a)).
Proof. by rewrite /wf_tree /= andbT. Qed.
End Gen.

Section PushProofs.
Variable R : rcfType.
Notation ptree := (tree (arr R)).
Notation array := (arr R).
Variable X : Type.
Variables (Key : Type) (split : Key -> nat -> seq Key) (normal : Key -> seq nat -> seq R) (key0 : Key).
Variable model_fn : X -> ptree -> res array.
Variables ad_jvp ad_vjp : X -> ptree -> res ptree.
Variable expf : R -> R.
Variable var_predictive : string -> option (array -> array -> bool -> res array).
Variable cov_predictive : string -> option (array -> array -> res array).
Variables (t : ptree) (x1 x2 : X) (out1 out2 : array) (J1 J2 Sg : nat -> nat -> R).
Variable (ps : posterior_state R).
Hypothesis M1 : model_fn x1 t = Ok out1.
Hypothesis M2 : model_fn x2 t = Ok out2.
Hypothesis HJ1 : is_jacobian J1 t out1 (ad_jvp x1) (ad_vjp x1).
Hypothesis HJ2 : is_jacobian J2 t out2 (ad_jvp x2) (ad_vjp x2).
Hypothesis HS : acts_as Sg t t (ps_cov_mv ps).

(** the vjp reshapes its argument: any array with the right number of entries will do *)
Lemma pf_vjp_acts (a : array) : prodn (ashape a) = prodn (ashape out2) ->
  acts_as (fun p b => J2 b p) (Leaf a) t (pf_vjp model_fn ad_vjp t x2).
Proof.
move=> Ha u W S; have [b [E Eb]] := layout_leaf S; rewrite {u}E in W S *.
move: W; rewrite wf_leaf Eb Ha => Wb.
rewrite /pf_vjp M2 /= /arr_reshape Wb /=.
have [| |u [Eu Su Wu Hu]] := HJ2.2 (Leaf (Arr (ashape out2) (adata b))).
- by rewrite wf_leaf.
- exact: leaf_layout.
exists u; split=> //.
by rewrite Hu !nentries_leaf Ha !entries_leaf.
Qed.

Lemma kernel_acts (a : array) : prodn (ashape a) = prodn (ashape out2) ->
  acts_as (cov_entry (nentries t) J1 Sg J2) (Leaf a) (Leaf out1)
    (fun v => let! w := pf_vjp model_fn ad_vjp t x2 v in let! s := ps_cov_mv ps w in ad_jvp x1 s).
Proof.
move=> Ha; have H := acts_comp (pf_vjp_acts Ha) (acts_comp HS HJ1.1).
apply: (acts_ext _ _ H) => // i j _ _.
rewrite /cov_entry (eq_bigr (fun l => \sum_(0 <= p < nentries t) J1 i p * Sg p l * J2 j l)); last first.
  by move=> l _; rewrite big_distrl.
by rewrite exchange_big_nat.
Qed.
End PushProofs.

(** ** Linearised statistics *)
Section Lin.
Variable R : rcfType.
Notation ptree := (tree (arr R)).
Notation array := (arr R).
Variable X : Type.
Variable model_fn : X -> ptree -> res array.
Variables ad_jvp ad_vjp : X -> ptree -> res ptree.
Variables (t : ptree) (x : X) (out : array) (J Sg : nat -> nat -> R).
Variable (ps : posterior_state R).
Hypothesis M : model_fn x t = Ok out.
Hypothesis HJ : is_jacobian J t out (ad_jvp x) (ad_vjp x).
Hypothesis HS : acts_as Sg t t (ps_cov_mv ps).
Hypothesis n_gt0 : (0 < prodn (ashape out))%N.
Let n := prodn (ashape out).
Let C := cov_entry (nentries t) J Sg J.
Let the_cov_mv := output_cov_mv ad_jvp (pf_vjp model_fn ad_vjp t) ps x.

Definition the_var : array := Arr (ashape out) (mkseq (fun i => C i i) n).
(** A dense covariance: reversed output shape with one more axis. *)
Definition cov_ok (c : array) : Prop :=
  ashape c = rev (n :: ashape out) /\
  forall i idx, (i < n)%N -> valid_idx (ashape out) idx ->
    aget c (rcons (rev idx) i) = C (ravel_idx (ashape out) idx) i.

Lemma the_cov_acts (a : array) : prodn (ashape a) = n -> acts_as C (Leaf a) (Leaf out) the_cov_mv.
Proof. by move=> Ha; apply: (kernel_acts M HJ HJ HS). Qed.

Lemma lin_cov_dense (m : array) : ashape m = ashape out ->
  exists c, to_dense the_cov_mv (LTree (Leaf m)) None = Ok (Leaf c) /\ cov_ok c.
Proof.
move=> Em; have Ha := the_cov_acts (a := m); rewrite Em in Ha.
have [|D [ED DD SD GD]] := to_dense_acts None _ (Ha erefl).
  by rewrite nentries_leaf Em.
case: D ED DD SD GD => [c|] // ED DD /= [SD] GD.
exists c; split=> //; split; first by rewrite SD nentries_leaf Em.
move=> i idx Hi V; have := GD i 0%N idx; rewrite nentries_leaf Em /= add0n; exact.
Qed.

Lemma lin_var_diag : diagonal (Callable the_cov_mv) (LInt R n) None = Ok (mkseq (fun i => C i i) n).
Proof.
pose g i := match the_cov_mv (flat_basis R n i) with Ok u => u | Raise _ => Leaf out end.
have Hg i : (i < n)%N -> exists u, [/\ g i = u, same_layout (Leaf out) u, wf_tree u,
    the_cov_mv (flat_basis R n i) = Ok u & entries u = mkseq (fun k => C k i) n].
  move=> Hi; have Ha := @the_cov_acts (Arr [:: n] (at_set i (1:R) (nseq n 0))).
  have W : wf_tree (flat_basis R n i) by apply: wf_leaf1; rewrite at_set_unit size_mkseq.
  have [|u [Eu Su Wu Hu]] := Ha _ (flat_basis R n i) W (same_layout_refl _).
    by rewrite /= muln1.
  exists u; split=> //; first by rewrite /g Eu.
  by rewrite Hu flat_basisE !nentries_leaf /= muln1 matvec_unit.
rewrite (@diagonal_int _ _ n None g).
- congr Ok; apply/eq_in_map => i; rewrite mem_iota add0n => /= Hi.
  by have [u [-> _ _ _ ->]] := Hg i Hi; rewrite nth_mkseq.
- by move=> i Hi; have [u [-> _ _ -> _]] := Hg i Hi.
- by move=> i Hi; have [u [-> Su Wu _ _]] := Hg i Hi; rewrite Wu -(nentries_same Su) nentries_leaf Hi.
Qed.

(** for at most one axis, the diagonal of the dense covariance is the variance *)
Lemma cov_ok_diag (c : array) : cov_ok c -> (size (ashape out) <= 1)%N ->
  exists d, jnp_diag c = Ok d /\ d = mkseq (fun i => C i i) n.
Proof.
rewrite /cov_ok /n => -[Ec Hc] Hs; move: Ec Hc; case: (ashape out) Hs n_gt0 => [|k []] //= _ k0 Ec Hc.
- rewrite /jnp_diag Ec /rev /=; eexists; split; first by []; rewrite /mkseq /=.
  have := Hc 0%N [::] isT isT; by rewrite /aget Ec /= => ->.
- rewrite /jnp_diag Ec /rev /= muln1 minnn.
  eexists; split; first by []; apply/eq_in_map => i; rewrite mem_iota add0n => /= Hi.
  have := Hc i [:: i]; rewrite /= muln1 /valid_idx /= Hi /aget Ec /rev /= !muln1 !addn0 => ->; rewrite ?Hi //.
Qed.

(** for two or more axes it does not exist *)
Lemma cov_ok_diag_fails (c : array) : cov_ok c -> (2 <= size (ashape out))%N -> jnp_diag c = Raise ValueError.
Proof.
case=> Ec _ Hs; rewrite /jnp_diag Ec rev_cons.
case E: (rev (ashape out)) => [|a [|b [|c' l]]] //=.
- by move: Hs; rewrite -size_rev E.
- by move: Hs; rewrite -size_rev E.
Qed.

(** *** Any list of statistics after [lin_setup] *)
Definition stat_fn (o : lin_stat) : pushfn R X :=
  match o with
  | SMean => @lin_pred_mean R X | SCov => @lin_pred_cov R X
  | SVar => @lin_pred_var R X | SStd => @lin_pred_std R X
  | SSamples => @lin_samples R X
  end.
Variables (ds : dist_state R X) (kw : kwargs) (smp : array).
Let get_weight_samples_of (ds : dist_state R X) i := let! g := get_key (ds_get_weight_samples ds) in g i.
Let loop := (let! outs := lax_map (fun i => let! w := get_weight_samples_of ds i in
                                 let! d := ad_jvp x w in
                                 tree_add (Leaf out) d)
                       (kw_batch kw) (iota 0 (ds_num_samples ds)) in
  let! s := stack_trees outs in as_array s).

Record inv (done : seq lin_stat) (r : results R) (aux : auxd R) : Prop := Inv {
  i_map : r_map r = out;
  i_mean : r_pred_mean r = if done is [::] then None else Some out;
  i_cov : if SCov \in done then exists2 c, r_pred_cov r = Some c & cov_ok c else r_pred_cov r = None;
  i_var : r_pred_var r = if (SVar \in done) || (SStd \in done) then Some the_var else None;
  i_std : r_pred_std r = if SStd \in done then Some (arr_map Num.sqrt the_var) else None;
  i_smp : r_samples r = if SSamples \in done then Some smp else None;
  i_mc : r_mc_pred_act r = None;
  i_sp : r_special_pred_act r = None;
  i_acov : a_cov_mv aux = Some the_cov_mv;
  i_ajac : a_jac_mv aux = Some (ad_jvp x) }.

Lemma rcons_not_nil (T A : Type) (s : seq T) y (a b : A) : (if rcons s y is [::] then a else b) = b.
Proof. by case: s. Qed.
Lemma inv_mean done r aux : inv done r aux -> the_pred_mean r = out.
Proof. by case=> E1 E2 *; rewrite /the_pred_mean E1 E2; case: (done). Qed.
Lemma inv_ensure done r aux : inv done r aux -> ensure_pred_mean r = set_pred_mean out r.
Proof.
case=> E1 E2 *; rewrite /ensure_pred_mean; move: E2; case: (done) => [|? ?] E2; rewrite E2 ?E1 //.
by move: E2; case: (r) => a b c d e f g h /= ->.
Qed.

Lemma var_step done r aux (k : kwargs) : inv done r aux ->
  (size (ashape out) <= 1)%N \/ SCov \notin done ->
  lin_pred_var ds x k r aux = Ok (set_pred_var the_var (set_pred_mean out r), aux).
Proof.
move=> I H; rewrite /lin_pred_var (i_acov I) /= (inv_ensure I) /the_pred_mean /=.
have := i_cov I; case: ifP => Hc.
- case: H => [H|]; last by rewrite Hc.
  case=> c -> Hok /=; have [d [-> ->]] := cov_ok_diag Hok H.
  by rewrite /= /arr_reshape size_mkseq /= eqxx.
- move=> ->; rewrite lin_var_diag /=.
  by rewrite /= /arr_reshape size_mkseq /= eqxx.
Qed.

Definition ok_next (done : seq lin_stat) (o : lin_stat) : Prop :=
  match o with
  | SVar => (size (ashape out) <= 1)%N \/ SCov \notin done
  | SStd => (size (ashape out) <= 1)%N \/ SCov \notin done
  | SSamples => ds_get_weight_samples ds <> None /\ loop = Ok smp
  | _ => True
  end.

Lemma inv_step done r aux o : inv done r aux -> ok_next done o ->
  exists r' aux', stat_fn o ds x kw r aux = Ok (r', aux') /\ inv (rcons done o) r' aux'.
Proof.
move=> I; case: o => /= H.
- eexists; eexists; split; first by []; case: I => *.
  split=> //=; rewrite ?rcons_not_nil ?mem_rcons ?inE //=; congruence.
- rewrite /lin_pred_cov (inv_ensure I) (i_acov I) /the_pred_mean /=.
  have [c [-> Hc]] := lin_cov_dense (erefl (ashape out)).
  eexists; eexists; split; first by []; case: I => *.
  split=> //=; rewrite ?rcons_not_nil ?mem_rcons ?inE //=; by exists c.
- rewrite (var_step _ I H); eexists; eexists; split; first by []; case: I => *.
  by split=> //=; rewrite ?rcons_not_nil ?mem_rcons ?inE //=.
- rewrite /lin_pred_std (i_var I); case: ifP => Hv /=.
  + rewrite (i_var I) Hv /=; eexists; eexists; split; first by [].
    case: I => ? Im ? Iv *; split=> //=; rewrite ?rcons_not_nil ?mem_rcons ?inE //= ?orbT //.
    * by rewrite Im; case: (done) Hv.
    * by rewrite Iv Hv.
  + rewrite (var_step _ I H) /=; eexists; eexists; split; first by []; case: I => *.
    by split=> //=; rewrite ?rcons_not_nil ?mem_rcons ?inE //= ?orbT.
- case: H => Hg Hl; rewrite /lin_samples (inv_ensure I) (i_ajac I) /the_pred_mean /=.
  move: Hl; rewrite /loop /get_weight_samples_of; case: (ds_get_weight_samples ds) Hg => [g|] // _ /=.
  case: (lax_map _ _ _) => [outs|e] //=; case: (stack_trees outs) => [st|e] //= ->.
  eexists; eexists; split; first by []; case: I => *.
  by split=> //=; rewrite ?rcons_not_nil ?mem_rcons ?inE //=.
Qed.

(** what the loop of [finalize_fns] does *)
Lemma finalize_cons (A B : Type) (f : A -> B -> res (A * B)) fs r a r' a' :
  f r a = Ok (r', a') -> finalize_fns (f :: fs) r a = finalize_fns fs r' a'.
Proof. by move=> E; rewrite /finalize_fns /= E. Qed.
Lemma finalize_raise (A B : Type) (f : A -> B -> res (A * B)) fs r a e :
  f r a = Raise e -> finalize_fns (f :: fs) r a = Raise e.
Proof. by move=> E; rewrite /finalize_fns /= E. Qed.

Lemma inv_run_app rest ops done r aux : inv done r aux ->
  (forall l1 o l2, ops = l1 ++ o :: l2 -> ok_next (done ++ l1) o) ->
  exists r' aux', finalize_fns ([seq stat_fn o ds x kw | o <- ops] ++ rest) r aux = finalize_fns rest r' aux' /\
    inv (done ++ ops) r' aux'.
Proof.
elim: ops done r aux => [|o ops IH] done r aux I H.
  by exists r, aux; rewrite cats0.
have [|r' [aux' [E I']]] := inv_step I (o := o).
  by have := H [::] o ops erefl; rewrite cats0.
rewrite /= (finalize_cons _ E) -cat_rcons; apply: IH => // l1 o' l2 El.
by rewrite cat_rcons; apply: (H (o :: l1) o' l2); rewrite El.
Qed.
Lemma inv_run ops done r aux : inv done r aux ->
  (forall l1 o l2, ops = l1 ++ o :: l2 -> ok_next (done ++ l1) o) ->
  exists r' aux', finalize_fns [seq stat_fn o ds x kw | o <- ops] r aux = Ok r' /\ inv (done ++ ops) r' aux'.
Proof.
move=> I H; have [r' [aux' [E I']]] := inv_run_app [::] I H.
by exists r', aux'; split=> //; move: E; rewrite cats0.
Qed.

(** a variance after a covariance fails for predictions with several axes *)
Fixpoint var_after_cov (seen : bool) (ops : seq lin_stat) : bool :=
  match ops with
  | [::] => false
  | o :: os => (seen && (o == SVar)) || var_after_cov (seen || (o == SCov)) os
  end.
Lemma var_after_covP l1 l2 l3 seen : var_after_cov seen (l1 ++ SCov :: l2 ++ SVar :: l3).
Proof.
have H2 : forall l (s : bool), s -> var_after_cov s (l ++ SVar :: l3).
  by elim=> [|o l IH] s /= Hs; rewrite ?Hs ?eqxx //= IH ?Hs ?orbT.
elim: l1 seen => [|o l IH] seen /=; last by rewrite IH orbT.
by rewrite H2 orbT.
Qed.
Lemma var_after_cov_fails ops done r aux : inv done r aux -> (2 <= size (ashape out))%N ->
  (SSamples \in ops -> ok_next done SSamples) -> var_after_cov (SCov \in done) ops ->
  finalize_fns [seq stat_fn o ds x kw | o <- ops] r aux = Raise ValueError.
Proof.
move=> I H2; elim: ops done r aux I => [|o ops IH] done r aux I Hs //= Hv.
have Hcov : SCov \in done -> jnp_diag (odflt out (r_pred_cov r)) = Raise ValueError.
  by move=> Hc; have := i_cov I; rewrite Hc => -[c -> Hok] /=; apply: (cov_ok_diag_fails Hok).
have Hvar : SCov \in done -> lin_pred_var ds x kw r aux = Raise ValueError.
  move=> Hc; rewrite /lin_pred_var (i_acov I) /=; move: (Hcov Hc).
  by have := i_cov I; rewrite Hc => -[c -> Hok] /= ->.
have Hgo : ok_next done o -> (o != SVar) || (SCov \notin done) ->
   finalize_fns (stat_fn o ds x kw :: [seq stat_fn o ds x kw | o <- ops]) r aux = Raise ValueError.
  move=> Hok Ho; have [r' [aux' [E I']]] := inv_step I Hok.
  rewrite (finalize_cons _ E); apply: (IH _ _ _ I').
    by move=> Hi; apply: Hs; rewrite inE Hi orbT.
  move: Hv; rewrite mem_rcons inE [SCov == o]eq_sym [X in _ -> var_after_cov X _]orbC.
  case/orP=> // /andP [Hc Eo]; by move: Ho; rewrite Eo Hc.
case: o Hs Hv Hgo => Hs Hv Hgo.
- exact: Hgo.
- exact: Hgo.
- case Hc: (SCov \in done); last by apply: Hgo; rewrite /= ?Hc //; right.
  by apply: finalize_raise; rewrite /= Hvar.
- case Hc: (SCov \in done); last by apply: Hgo; rewrite /= ?Hc //; right.
  have := i_var I; case: ifP => Hd Iv.
    have [r' [aux' [E I']]] : exists r' aux', lin_pred_std ds x kw r aux = Ok (r', aux') /\ inv (rcons done SStd) r' aux'.
      rewrite /lin_pred_std Iv /= Iv /=; eexists; eexists; split; first by [].
      case: I => ? Im ? Iv' *; split=> //=; rewrite ?rcons_not_nil ?mem_rcons ?inE //= ?orbT //.
        by rewrite Im; case: (done) Hd.
    rewrite (finalize_cons (f := stat_fn SStd ds x kw) _ E); apply: (IH _ _ _ I').
      by move=> Hi; apply: Hs; rewrite inE Hi orbT.
    by move: Hv; rewrite Hc mem_rcons inE Hc /= ?orbT.
  by apply: finalize_raise; rewrite /= /lin_pred_std Iv Hvar.
- by apply: Hgo => //; apply: Hs; rewrite mem_head.
Qed.

Lemma inv_setup r aux : ds_jvp ds = Some ad_jvp -> ds_vjp ds = Some (pf_vjp model_fn ad_vjp t) ->
  ds_posterior ds = ps -> r = results0 out ->
  exists aux', lin_setup ds x kw r aux = Ok (r, aux') /\ inv [::] r aux'.
Proof.
move=> E1 E2 E3 ->; rewrite /lin_setup E1 E2 /=.
by eexists; split; first by []; split=> //=; rewrite E3.
Qed.
End Lin.

(** ** Weight samples *)
Section Weights.
Variable R : rcfType.
Notation ptree := (tree (arr R)).
Variables (Key : Type) (split : Key -> nat -> seq Key) (normal : Key -> seq nat -> seq R) (key0 : Key).
Hypothesis split_size : forall k n, size (split k n) = n.
Hypothesis normal_size : forall k s, size (normal k s) = prodn s.

Lemma zip_normal_shapes ks (l1 l2 : seq (arr R)) : map (@ashape R) l1 = map (@ashape R) l2 ->
  zip_normal normal ks l1 = zip_normal normal ks l2.
Proof. by elim: ks l1 l2 => [|k ks IH] [|a l1] [|b l2] //= [E1 /IH ->]; rewrite E1. Qed.
Lemma randn_like_layout k (m t : ptree) : same_layout m t ->
  randn_like split normal k m = randn_like split normal k t.
Proof.
move=> [D S]; rewrite /randn_like (zip_normal_shapes _ S) D.
by rewrite -(size_map (@ashape R)) S size_map.
Qed.

Lemma weight_samples (t m : ptree) (S : nat -> nat -> R) scale key N kw :
  (0 < N)%N -> wf_tree m -> same_layout t m -> acts_as S t t scale ->
  let keys := split (odflt key0 key) N in
  exists g eps, set_get_weight_sample split normal key0 key m scale N kw = Ok g /\
    forall i, (i < N)%N -> exists w,
      [/\ randn_like split normal (nth key0 keys i) t = Ok (eps i), same_layout t (eps i), wf_tree (eps i)
        & [/\ g i = Ok w, same_layout t w, wf_tree w &
           entries w = [seq p.1 + p.2 | p <- zip (entries m) (matvec S (nentries t) (nentries t) (entries (eps i)))]]].
Proof.
move=> N0 Wm Sm HS keys.
pose eps i := match randn_like split normal (nth key0 keys i) t with Ok e => e | Raise _ => t end.
have Heps i : [/\ randn_like split normal (nth key0 keys i) t = Ok (eps i), same_layout t (eps i) & wf_tree (eps i)].
  by have [e [E S1 W1]] := randn_likeP split_size normal_size (nth key0 keys i) t; rewrite /eps E.
pose f i := normal_like split normal (nth key0 keys i) m scale.
have Hf i : exists w, [/\ f i = Ok w, same_layout t w, wf_tree w &
     entries w = [seq p.1 + p.2 | p <- zip (entries m) (matvec S (nentries t) (nentries t) (entries (eps i)))]].
  have [E S1 W1] := Heps i; have [s [Es Ss Ws Hs]] := HS (eps i) W1 S1.
  have Em : randn_like split normal (nth key0 keys i) m = Ok (eps i).
    by rewrite (randn_like_layout _ (same_layout_sym Sm)).
  have [w [Ew Sw Ww Hw]] := normal_likeP Wm Em Es Ws (same_layout_trans (same_layout_sym Sm) Ss).
  by exists w; split=> //; [apply: same_layout_trans Sm Sw | rewrite Hw Hs].
pose wv i := match f i with Ok w => w | Raise _ => t end.
have Hw i : [/\ f i = Ok (wv i), same_layout t (wv i), wf_tree (wv i) &
     entries (wv i) = [seq p.1 + p.2 | p <- zip (entries m) (matvec S (nentries t) (nentries t) (entries (eps i)))]].
  by have [w [E1 E2 E3 E4]] := Hf i; rewrite /wv E1.
rewrite /set_get_weight_sample -/keys.
set f' := (fun idx : nat => match _ with [::] => _ | _ => _ end); have Hf' i : (i < N)%N -> f' i = f i.
  by move=> Hi; rewrite /f' (drop_nth key0) // split_size.
case Ep : (kw_precompute kw == Some false).
- rewrite (eqP Ep) precompute_off /=; exists f', eps; split=> // i Hi.
  have [A B Cc] := Heps i; have [E1 E2 E3 E4] := Hw i.
  by exists (wv i); split=> //; split=> //; rewrite Hf'.
- have Hus : mapM f' (iota 0 N) = Ok [seq wv i | i <- iota 0 N].
    apply: mapM_ok_in => i; rewrite mem_iota add0n => /= Hi; rewrite Hf' //.
    by have [-> _ _ _] := Hw i.
  have [|||get [-> Hget]] := @precompute_on R nat f' (iota 0 N) (kw_precompute kw)
     (kw_precompute_batch kw) _ t 0%N _ _ Hus.
  + by move/eqP: Ep.
  + by rewrite size_iota.
  + rewrite size_map size_iota => i Hi; rewrite (nth_map 0%N) ?size_iota // nth_iota //.
    by have [_ A B _] := Hw (0 + i)%N.
  exists get, eps; split=> // i Hi.
  have [A B Cc] := Heps i; have [E1 E2 E3 E4] := Hw i.
  exists (wv i); split=> //; split=> //.
  by rewrite Hget ?size_iota // nth_iota // add0n Hf'.
Qed.
End Weights.

(** ** Stacked predictions *)
Section Stack.
Variable R : rcfType.
Lemma stack_leaves (f : nat -> arr R) N s : (0 < N)%N ->
  (forall i, (i < N)%N -> ashape (f i) = s /\ size (adata (f i)) = prodn s) ->
  stack_trees [seq Leaf (f i) | i <- iota 0 N] = Ok (Leaf (Arr (N :: s) (flatten [seq adata (f i) | i <- iota 0 N]))).
Proof.
move=> N0 Hf; set ts := map _ _.
have Hsz : size ts = N by rewrite size_map size_iota.
have Hn i d : (i < N)%N -> nth d ts i = Leaf (f i).
  by move=> Hi; rewrite (nth_map 0%N) ?size_iota // nth_iota.
have [| | |S [ES DS SS WS [_ LS]]] := @stack_treesP R ts (Leaf (f 0%N)).
- by rewrite Hsz.
- rewrite Hsz => i Hi; rewrite Hn //; apply: leaf_layout.
  by rewrite (Hf i Hi).1 (Hf 0%N N0).1.
- by rewrite Hsz => i Hi; rewrite Hn // wf_leaf (Hf i Hi).1 (Hf i Hi).2.
rewrite ES; case: S DS LS {ES SS WS} => [a|] //= _ [->]; congr (Ok (Leaf (Arr _ _))).
  by rewrite Hsz (Hf 0%N N0).1.
by rewrite /ts -map_comp.
Qed.
Lemma stacked_member (f : nat -> arr R) N k i a :
  (forall i, (i < N)%N -> size (adata (f i)) = k) -> (i < N)%N -> (a < k)%N ->
  nth 0 (flatten [seq adata (f i) | i <- iota 0 N]) (i * k + a) = nth 0 (adata (f i)) a.
Proof.
move=> Hk Hi Ha; rewrite (@nth_flatten_const _ 0 _ k) //; last by rewrite size_map size_iota.
  by rewrite (nth_map 0%N) ?size_iota // nth_iota.
rewrite size_map size_iota => j Hj; by rewrite (nth_map 0%N) ?size_iota // nth_iota // Hk.
Qed.
Lemma size_stacked (f : nat -> arr R) N k :
  (forall i, (i < N)%N -> size (adata (f i)) = k) -> size (flatten [seq adata (f i) | i <- iota 0 N]) = (N * k)%N.
Proof.
move=> H; rewrite size_flatten /shape -map_comp.
suff G j : (j <= N)%N -> sumn [seq (size \o (fun i => adata (f i))) i | i <- iota 0 j] = (j * k)%N by apply: G.
elim: j => // j IH Hj; rewrite -[j.+1]addn1 iotaD map_cat sumn_cat IH ?(ltnW Hj) //= H // addn0.
by rewrite mulnDl mul1n.
Qed.
Lemma nth_zip_add (u v : seq R) i : size u = size v -> (i < size u)%N ->
  nth 0 [seq p.1 + p.2 | p <- zip u v] i = nth 0 u i + nth 0 v i.
Proof. by move=> E Hi; rewrite (nth_map (0, 0)) ?size_zip -?E ?minnn // nth_zip. Qed.
End Stack.

Section Loops.
Variable R : rcfType.
Notation ptree := (tree (arr R)).
Notation array := (arr R).
Variable X : Type.
Variables (t : ptree) (N : nat) (ws : nat -> seq R) (g : nat -> res ptree) (bs : option nat).
Hypothesis N0 : (0 < N)%N.
Hypothesis Hg : forall i, (i < N)%N -> exists w, [/\ g i = Ok w, same_layout t w, wf_tree w & entries w = ws i].

Lemma lin_loopP (J : nat -> nat -> R) (jvp : ptree -> res ptree) (out : array) :
  wf_arr out -> acts_as J t (Leaf out) jvp ->
  exists smp, [/\ (let! outs := lax_map (fun i => let! w := g i in let! d := jvp w in tree_add (Leaf out) d) bs (iota 0 N) in
                   let! s := stack_trees outs in as_array s) = Ok smp,
                  ashape smp = N :: ashape out, wf_arr smp &
    forall i a, (i < N)%N -> (a < prodn (ashape out))%N ->
      nth 0 (adata smp) (i * prodn (ashape out) + a) =
      nth 0 (adata out) a + \sum_(0 <= p < nentries t) J a p * nth 0 (ws i) p].
Proof.
move=> Wo HJ; pose n := prodn (ashape out).
pose row i := Arr (ashape out) (mkseq (fun a => nth 0 (adata out) a + \sum_(0 <= p < nentries t) J a p * nth 0 (ws i) p) n).
have Hrow i : (i < N)%N -> (let! w := g i in let! d := jvp w in tree_add (Leaf out) d) = Ok (Leaf (row i)).
  move=> Hi; have [w [-> Sw Ww Ew]] := Hg Hi; rewrite /=.
  have [d [-> Sd Wd Ed]] := HJ w Ww Sw; rewrite /=.
  have [b [Eb Sb]] := layout_leaf Sd; rewrite Eb in Sd Wd Ed *.
  have [|||r [-> Sr Wr Er]] := @tree_addP R (Leaf out) (Leaf b) => //.
    by rewrite wf_leaf; exact: Wo.
  have [c [Ec Sc]] := layout_leaf Sr; rewrite Ec in Sr Wr Er *; congr (Ok (Leaf _)).
  case: c Sc Ec Sr Wr Er => [sc dc] /= -> _ _ _; rewrite entries_leaf /= => ->.
  rewrite /row; congr Arr; rewrite !entries_leaf.
  have So : size (adata out) = n by apply/eqP.
  have Sb' : size (adata b) = n by rewrite -(entries_leaf b) Ed size_mkseq nentries_leaf.
  apply: (@eq_from_nth _ 0); first by rewrite size_map size_zip So Sb' minnn size_mkseq.
  rewrite size_map size_zip So Sb' minnn => a Ha.
  rewrite nth_zip_add ?So ?Sb' // nth_mkseq //; congr (_ + _).
  by rewrite -(entries_leaf b) Ed nth_mkseq ?nentries_leaf // Ew.
have Hs i : (i < N)%N -> ashape (row i) = ashape out /\ size (adata (row i)) = prodn (ashape out).
  by rewrite size_mkseq.
exists (Arr (N :: ashape out) (flatten [seq adata (row i) | i <- iota 0 N])); split=> //.
- rewrite lax_mapE (mapM_ok_in (g := fun i => Leaf (row i))); last first.
    by move=> i; rewrite mem_iota add0n => /= Hi; apply: Hrow.
  by rewrite /= (stack_leaves N0 Hs).
- have := @stack_leaves R row N (ashape out) N0 Hs; case: (@stack_treesP R [seq Leaf (row i) | i <- iota 0 N] (Leaf out)).
  + by rewrite size_map size_iota.
  + by rewrite size_map size_iota => i Hi; rewrite (nth_map 0%N) ?size_iota //.
  + rewrite size_map size_iota => i Hi; rewrite (nth_map 0%N) ?size_iota // nth_iota // add0n.
    by rewrite wf_leaf (Hs i Hi).2.
  by move=> S [-> _ _ WS _] [ES]; move: WS; rewrite ES wf_leaf.
- by move=> i a Hi Ha; rewrite (@stacked_member R row N n i a) ?nth_mkseq // => j Hj; rewrite size_mkseq.
Qed.

Lemma ens_loopP (model : ptree -> res array) (pred : nat -> array) (s : seq nat) :
  (forall i w, (i < N)%N -> g i = Ok w -> model w = Ok (pred i)) ->
  (forall i, (i < N)%N -> ashape (pred i) = s /\ wf_arr (pred i)) ->
  (let! outs := lax_map (fun i => let! w := g i in let! p := model w in Ok (Leaf p)) bs (iota 0 N) in
   let! st := stack_trees outs in as_array st) = Ok (Arr (N :: s) (flatten [seq adata (pred i) | i <- iota 0 N])).
Proof.
move=> Hm Hp; rewrite lax_mapE (mapM_ok_in (g := fun i => Leaf (pred i))); last first.
  move=> i; rewrite mem_iota add0n => /= Hi; have [w [Ew _ _ _]] := Hg Hi.
  by rewrite Ew /= (Hm i w).
rewrite /= (@stack_leaves _ _ _ s) // => i Hi; have [E /eqP W] := Hp i Hi; by rewrite E W E.
Qed.
End Loops.

(** ** Algebra of [J Sg J^T] *)
Section CovAlg.
Variable R : rcfType.
Implicit Types (J Sg S : nat -> nat -> R).
Lemma cov_entry_sym n J1 Sg J2 a b : sym_entries n Sg -> cov_entry n J1 Sg J2 a b = cov_entry n J2 Sg J1 b a.
Proof.
move=> H; rewrite /cov_entry exchange_big_nat /=; apply: eq_big_nat => q /andP [_ Hq].
by apply: eq_big_nat => p /andP [_ Hp]; rewrite (H p q) // mulrAC [J1 a p * _]mulrC mulrAC.
Qed.
Lemma cov_entry_quad m n J Sg (v : nat -> R) (w := fun p => \sum_(0 <= a < m) v a * J a p) :
  \sum_(0 <= a < m) \sum_(0 <= b < m) v a * cov_entry n J Sg J a b * v b =
  \sum_(0 <= p < n) \sum_(0 <= q < n) w p * Sg p q * w q.
Proof.
transitivity (\sum_(0 <= a < m) \sum_(0 <= b < m) \sum_(0 <= p < n) \sum_(0 <= q < n)
   (v a * J a p) * Sg p q * (v b * J b q)).
  apply: eq_bigr => a _; apply: eq_bigr => b _.
  rewrite /cov_entry big_distrr big_distrl /=; apply: eq_bigr => p _.
  rewrite big_distrr big_distrl /=; apply: eq_bigr => q _.
  by rewrite !mulrA [v a * J a p * Sg p q * J b q * v b]mulrAC.
rewrite (eq_bigr (fun a => \sum_(0 <= p < n) \sum_(0 <= b < m) \sum_(0 <= q < n)
   (v a * J a p) * Sg p q * (v b * J b q))); last by move=> a _; rewrite exchange_big_nat.
rewrite exchange_big_nat /=; apply: eq_bigr => p _.
transitivity (\sum_(0 <= a < m) \sum_(0 <= q < n) \sum_(0 <= b < m) v a * J a p * Sg p q * (v b * J b q)).
  by apply: eq_bigr => a _; rewrite exchange_big_nat.
rewrite exchange_big_nat /=; apply: eq_bigr => q _.
rewrite /w -mulrA big_distrl /=; apply: eq_bigr => a _.
by rewrite mulrA big_distrr.
Qed.
Lemma cov_entry_psd m n J Sg : psd_entries n Sg -> psd_entries m (cov_entry n J Sg J).
Proof. by move=> H v; rewrite cov_entry_quad; apply: H. Qed.
Lemma sum_delta n i (y : R) : (i < n)%N -> \sum_(0 <= a < n) (if a == i then y else 0) = y.
Proof.
move=> Hi; by rewrite big_mkord -big_mkcond (big_pred1 (Ordinal Hi)).
Qed.
Lemma psd_diag n Sg i : psd_entries n Sg -> (i < n)%N -> 0 <= Sg i i.
Proof.
move=> H Hi; have := H (fun j => if j == i then 1 else 0).
rewrite (eq_big_nat _ _ (F2 := fun a => if a == i then Sg i i else 0)); last first.
  move=> a /andP [_ Ha]; case: eqP => [->|_]; last first.
    by rewrite big_nat big1 // => b _; rewrite mul0r mul0r.
  rewrite (eq_big_nat _ _ (F2 := fun b => if b == i then Sg i i else 0)); last first.
    by move=> b _; case: eqP => [->|_]; rewrite ?mulr0 // mul1r mulr1.
  by rewrite sum_delta.
by rewrite sum_delta.
Qed.
Lemma cov_entry_sqrt n J Sg S a b : is_sqrt_of n S Sg ->
  cov_entry n J Sg J a b =
  \sum_(0 <= k < n) (\sum_(0 <= p < n) J a p * S p k) * (\sum_(0 <= q < n) J b q * S q k).
Proof.
move=> H; transitivity (\sum_(0 <= p < n) \sum_(0 <= q < n) \sum_(0 <= k < n) J a p * S p k * (J b q * S q k)).
  apply: eq_big_nat => p /andP [_ Hp]; apply: eq_big_nat => q /andP [_ Hq].
  rewrite (H p q) // big_distrr big_distrl /=; apply: eq_bigr => k _.
  by rewrite -!mulrA; congr (_ * (_ * _)); rewrite mulrC.
transitivity (\sum_(0 <= p < n) \sum_(0 <= k < n) \sum_(0 <= q < n) J a p * S p k * (J b q * S q k)).
  by apply: eq_bigr => p _; rewrite exchange_big_nat.
rewrite exchange_big_nat /=; apply: eq_bigr => k _.
rewrite big_distrl /=; apply: eq_bigr => p _; by rewrite big_distrr.
Qed.
End CovAlg.

(** ** Monte-Carlo averages of softmaxes *)
Section Mc.
Variable R : rcfType.
Variable expf : R -> R.
Lemma foldr_sum (T : Type) (f : T -> R) (l : seq T) : foldr +%R 0 (map f l) = \sum_(i <- l) f i.
Proof. by elim: l => [|a l IH] /=; rewrite ?big_nil // big_cons IH. Qed.
Lemma foldr_iota (f : nat -> R) N : foldr +%R 0 [seq f i | i <- iota 0 N] = \sum_(0 <= i < N) f i.
Proof. by rewrite foldr_sum /index_iota subn0. Qed.
Lemma sum_seq (xs : seq R) : foldr +%R 0 xs = \sum_(0 <= l < size xs) nth 0 xs l.
Proof. by rewrite -foldr_iota -{1}(mkseq_nth 0 xs). Qed.
Lemma mc_averageP (a : arr R) N k : ashape a = [:: N; k] -> wf_arr a ->
  mc_average expf a = Ok (Arr [:: k] [seq (\sum_(0 <= i < N)
     expf (nth 0 (adata a) (i * k + j)) / \sum_(0 <= l < k) expf (nth 0 (adata a) (i * k + l))) / N%:R | j <- iota 0 k]).
Proof.
move=> Ea /eqP Wa; rewrite /mc_average /rows Ea /=; congr (Ok (Arr _ _)).
have Wa' : size (adata a) = sumn (nseq N k) by rewrite Wa Ea sumn_nseq /= muln1 mulnC.
set rs := reshape _ _.
have Hsz : size rs = N by rewrite size_reshape size_nseq.
have Hrow i l : (i < N)%N -> (l < k)%N -> nth 0 (nth [::] rs i) l = nth 0 (adata a) (i * k + l).
  move=> Hi Hl; rewrite -[in RHS](reshapeKr (sh := nseq N k) (s := adata a)) -/rs ?Wa' //.
  rewrite (@nth_flatten_const _ 0 _ k) ?Hsz // => q Hq.
  rewrite -(nth_map [::] 0%N (fun s => size s)) ?Hsz //.
  rewrite -/(shape rs) reshapeKl ?Wa' // nth_nseq Hq //.
have Hrs i : (i < N)%N -> size (nth [::] rs i) = k.
  move=> Hi; rewrite -(nth_map [::] 0%N (fun s => size s)) ?Hsz //.
  by rewrite -/(shape rs) reshapeKl ?Wa' // nth_nseq Hi.
apply/eq_in_map => j; rewrite mem_iota add0n => /= Hj.
rewrite size_map Hsz -map_comp; congr (_ / _).
rewrite sum_seq size_map Hsz; apply: eq_big_nat => i /andP [_ Hi].
rewrite (nth_map [::]) ?Hsz //= /softmax_row -map_comp (nth_map 0) ?Hrs //= Hrow //; congr (_ / _).
rewrite sum_seq size_map Hrs //; apply: eq_big_nat => l /andP [_ Hl].
by rewrite (nth_map 0) ?Hrs // Hrow.
Qed.
Lemma softmax_mean_simplex (z : nat -> nat -> R) N k (m := fun j => (\sum_(0 <= i < N)
     expf (z i j) / \sum_(0 <= l < k) expf (z i l)) / N%:R) :
  (forall y, 0 < expf y) -> (0 < N)%N -> (0 < k)%N ->
  (forall j, (j < k)%N -> 0 < m j) /\ \sum_(0 <= j < k) m j = 1.
Proof.
move=> He N0 k0.
have Hs i : 0 < \sum_(0 <= l < k) expf (z i l).
  rewrite big_ltn //; apply: ltr_paddr => //; apply: sumr_ge0 => l _; exact: ltW.
have HN : 0 < N%:R :> R by rewrite ltr0n.
split.
- move=> j Hj; rewrite /m divr_gt0 // big_ltn //; apply: ltr_paddr; last by rewrite divr_gt0.
  by apply: sumr_ge0 => i _; rewrite divr_ge0 // ltW.
- rewrite /m -big_distrl /= exchange_big_nat /=.
  rewrite (eq_bigr (fun _ => 1)); last first.
    by move=> i _; rewrite -big_distrl /= divff // gt_eqF.
  rewrite big_const_nat subn0 iter_addr_0 divff // gt_eqF //.
Qed.
End Mc.

(** ** Ensemble statistics *)
Section Ensemble.
Variable R : rcfType.
Notation array := (arr R).
Variables (X : Type) (model_fn : X -> tree (arr R) -> res array) (N : nat) (s : seq nat) (pred : nat -> array) (out : array).
Hypothesis N0 : (0 < N)%N.
Hypothesis Hpred : forall i, (i < N)%N -> size (adata (pred i)) = prodn s.
Let k := prodn s.
Let P i j := nth 0 (adata (pred i)) j.
Let ens := Arr (N :: s) (flatten [seq adata (pred i) | i <- iota 0 N]).

Definition ens_fn (o : ens_stat) : pushfn R X :=
  match o with
  | EMean => @nonlin_pred_mean R X | ECov => @nonlin_pred_cov R X | EVar => @nonlin_pred_var R X
  | EStd => @nonlin_pred_std R X | ESamples => @nonlin_samples R X
  end.

Lemma ens_memberE i j : (i < N)%N -> (j < k)%N -> member ens k i j = P i j.
Proof. by move=> Hi Hj; rewrite /member /= (stacked_member Hpred). Qed.
Lemma ens_meanE j : (j < k)%N -> ens_mean ens N k j = avg N P j.
Proof.
move=> Hj; rewrite /ens_mean foldr_iota /avg; congr (_ / _).
by apply: eq_big_nat => i /andP [_ Hi]; rewrite ens_memberE.
Qed.
Lemma ens_crossE p q : (p < k)%N -> (q < k)%N -> ens_cross ens N k p q = codev N P p q.
Proof.
move=> Hp Hq; rewrite /ens_cross foldr_iota; apply: eq_big_nat => i /andP [_ Hi].
by rewrite !ens_memberE // !ens_meanE.
Qed.

Definition e_mean : array := Arr s [seq avg N P j | j <- iota 0 k].
Definition e_cov : array := Arr (if k == 1%N then [::] else [:: k; k])
  [seq codev N P (ij %/ k) (ij %% k) / (N.-1)%:R | ij <- iota 0 (k * k)].
Definition e_var (d : nat) : array := Arr s [seq codev N P j j / d%:R | j <- iota 0 k].
Definition e_std (d : nat) : array := Arr s [seq Num.sqrt (codev N P j j / d%:R) | j <- iota 0 k].
Definition e_samples : array :=
  Arr (minn 5 N :: s) (flatten [seq adata (pred i) | i <- iota 0 (minn 5 N)]).

Record einv (done : seq ens_stat) (r : results R) (aux : auxd R) : Prop := EInv {
  e_map : r_map r = out;
  e_imean : r_pred_mean r = if EMean \in done then Some e_mean else None;
  e_icov : r_pred_cov r = if ECov \in done then Some e_cov else None;
  e_seen : (divisors N done).1.1 = (ECov \in done);
  e_ivar : r_pred_var r = omap e_var (var_divisor N done);
  e_istd : r_pred_std r = omap e_std (std_divisor N done);
  e_ismp : r_samples r = if ESamples \in done then Some e_samples else None;
  e_imc : r_mc_pred_act r = None;
  e_isp : r_special_pred_act r = None;
  e_iacov : a_cov_mv aux = None;
  e_iens : a_pred_ensemble aux = Some ens }.

Lemma divisors_rcons done o : divisors N (rcons done o) = divisor_step N (divisors N done) o.
Proof. by rewrite /divisors foldl_rcons. Qed.

Lemma take_flatten_rows m : (m <= N)%N ->
  take (m * k) (flatten [seq adata (pred i) | i <- iota 0 N]) = flatten [seq adata (pred i) | i <- iota 0 m].
Proof.
move=> Hm; rewrite -(subnKC Hm) iotaD map_cat flatten_cat take_size_cat //.
rewrite size_flatten /shape -map_comp.
suff H j : (j <= N)%N -> sumn [seq (size \o (fun i => adata (pred i))) i | i <- iota 0 j] = (j * k)%N by apply: H.
elim: j => // j IH Hj; rewrite -[j.+1]addn1 iotaD map_cat sumn_cat IH ?(ltnW Hj) //= Hpred // addn0.
by rewrite mulnDl mul1n.
Qed.

Lemma einv_step done r aux o (ds : dist_state R X) (x : X) kw : einv done r aux ->
  kw_num_samples kw = None -> (o = ECov -> (1 < N)%N) ->
  exists r', ens_fn o ds x kw r aux = Ok (r', aux) /\ einv (rcons done o) r' aux.
Proof.
move=> I Hkw HN; case: o HN => /= HN.
- rewrite /nonlin_pred_mean (e_iens I) /=; eexists; split; first by [].
  case: I => A1 A2 A3 A4 A5 A6 *; split=> //=; rewrite /var_divisor /std_divisor ?divisors_rcons ?mem_rcons ?inE //=;
    try by move: A4 A5 A6; rewrite /var_divisor /std_divisor; case: (divisors N done) => [[c dv] dst] //= ->.
  congr (Some (Arr _ _)); apply/eq_in_map => j; rewrite mem_iota add0n => /= Hj.
  by rewrite ens_meanE.
- rewrite /nonlin_pred_cov (e_iens I) /= leqNgt HN //=; eexists; split; first by [].
  case: I => A1 A2 A3 A4 A5 A6 *; split=> //=; rewrite /var_divisor /std_divisor ?divisors_rcons ?mem_rcons ?inE //=;
    try by move: A4 A5 A6; rewrite /var_divisor /std_divisor; case: (divisors N done) => [[c dv] dst] //= ->.
  congr (Some (Arr _ _)); apply/eq_in_map => ij; rewrite mem_iota add0n => /= Hij.
  have k0 : (0 < k)%N by move: Hij; rewrite /k; case: (prodn s).
  by rewrite ens_crossE ?ltn_mod ?ltn_divLR.
- have Iv : nonlin_pred_var ds x kw r aux = Ok (set_pred_var (e_var (if ECov \in done then N.-1 else N)) r, aux).
    rewrite /nonlin_pred_var (e_icov I); case: ifP => Hc; rewrite (e_iens I) /=.
    + case: eqP => k1 /=.
        rewrite /arr_reshape !size_map size_iota -/k k1 /= ; congr (Ok (set_pred_var _ _, _)).
        by rewrite /e_var k1.
      rewrite minnn /= /arr_reshape size_map size_iota -/k eqxx /=; congr (Ok (set_pred_var (Arr _ _) _, _)).
      apply/eq_in_map => j; rewrite mem_iota add0n => /= Hj.
      have Hjj : (j * k + j < k * k)%N.
        by apply: (@leq_trans (j.+1 * k)); rewrite ?leq_mul2r ?Hj ?orbT // mulSn addnC ltn_add2r.
      rewrite (nth_map 0%N) ?size_iota // nth_iota // add0n.
      by rewrite divnMDl ?(leq_ltn_trans _ Hj) // divn_small // addn0 modnMDl modn_small.
    + congr (Ok (set_pred_var (Arr _ _) _, _)); apply/eq_in_map => j; rewrite mem_iota add0n => /= Hj.
      by rewrite ens_crossE.
  rewrite Iv; eexists; split; first by [].
  case: I => A1 A2 A3 A4 A5 A6 *; split=> //=; rewrite /var_divisor /std_divisor ?divisors_rcons ?mem_rcons ?inE //=;
    try by move: A4 A5 A6; rewrite /var_divisor /std_divisor; case: (divisors N done) => [[c dv] dst] //= ->.
- have Is : nonlin_pred_std ds x kw r aux = Ok (set_pred_std (e_std (odflt N (var_divisor N done))) r, aux).
    rewrite /nonlin_pred_std (e_ivar I); case E: (var_divisor N done) => [d|] /=.
    + by congr (Ok (set_pred_std (Arr _ _) _, _)); rewrite /= -map_comp.
    + rewrite (e_iens I) /=; congr (Ok (set_pred_std (Arr _ _) _, _)).
      by apply/eq_in_map => j; rewrite mem_iota add0n => /= Hj; rewrite ens_crossE.
  rewrite Is; eexists; split; first by [].
  case: I => A1 A2 A3 A4 A5 A6 *; split=> //=; rewrite /var_divisor /std_divisor ?divisors_rcons ?mem_rcons ?inE //=;
    try by move: A4 A5 A6; rewrite /var_divisor /std_divisor; case: (divisors N done) => [[c dv] dst] //= ->.
- rewrite /nonlin_samples (e_iens I) Hkw /= /arr_slice /= subn0 mul0n.
  eexists; split; first by [].
  case: I => A1 A2 A3 A4 A5 A6 *; split=> //=; rewrite /var_divisor /std_divisor ?divisors_rcons ?mem_rcons ?inE //=;
    try by move: A4 A5 A6; rewrite /var_divisor /std_divisor; case: (divisors N done) => [[c dv] dst] //= ->.
  congr (Some (Arr _ _)).
  by rewrite /slice drop0 subn0 take_flatten_rows // geq_minr.
Qed.

Lemma einv_run_app rest ops done r aux (ds : dist_state R X) (x : X) kw : einv done r aux ->
  kw_num_samples kw = None -> (ECov \in ops -> (1 < N)%N) ->
  exists r', finalize_fns ([seq ens_fn o ds x kw | o <- ops] ++ rest) r aux = finalize_fns rest r' aux /\
    einv (done ++ ops) r' aux.
Proof.
elim: ops done r => [|o ops IH] done r I Hkw HN; first by exists r; rewrite cats0.
have [|r' [E I']] := einv_step (o := o) ds x I Hkw.
  by move=> Eo; apply: HN; rewrite Eo mem_head.
rewrite /= (finalize_cons _ E) -cat_rcons; apply: IH => // Hc; apply: HN.
by rewrite inE Hc orbT.
Qed.
End Ensemble.
