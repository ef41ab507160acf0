(** Proofs about the GGN on PyTrees and its composition with posterior and pushforward. *)
From Coq Require Import Reals String.
From mathcomp Require Import all_ssreflect all_algebra.
From Verif Require Import Base RealStruct PyTree TreeSpec Mv PyTreeProofs BasisProofs StackProofs MvProofs
  TreeOpsProofs GgnSpec Ggn GgnProofs Posterior PosteriorSpec PosteriorProofs PosteriorTree
  PushforwardSpec PipelineSpec TreeGgn.
Set Implicit Arguments.
Unset Strict Implicit.
Unset Printing Implicit Defensive.
Import GRing.Theory Num.Theory Order.TTheory.
Local Open Scope ring_scope.

Section Generic.
Variable T : rcfType.
Notation ptree := (tree (arr T)).

Lemma entryE m n (A : 'M[T]_(m, n)) (i : 'I_m) (j : 'I_n) : entry A i j = A i j.
Proof. by rewrite /entry !valK. Qed.
Lemma of_entriesK m n (A : 'M[T]_(m, n)) : of_entries m n (entry A) = A.
Proof. by apply/matrixP => i j; rewrite mxE entryE. Qed.

Lemma cv_matvec (A : nat -> nat -> T) m n (v : seq T) :
  cv_of m (matvec A m n v) = of_entries m n A *m cv_of n v.
Proof.
apply/colP => i; rewrite !mxE nth_mkseq // big_mkord; apply: eq_bigr => j _.
by rewrite !mxE.
Qed.

Lemma cv_inj n (s1 s2 : seq T) : size s1 = n -> size s2 = n -> cv_of n s1 = cv_of n s2 -> s1 = s2.
Proof. by move=> H1 H2 E; rewrite -(cv_ofK H1) E cv_ofK. Qed.

Lemma acts_mx_as (t : ptree) (A : 'M[T]_(get_size t)) mv :
  acts_mx A mv -> acts_as (entry A) t t mv.
Proof.
move=> H u W S; have [w [E S' W' Ew]] := H u W S; exists w; split=> //.
apply: (@cv_inj (get_size t)).
- by rewrite size_entries // -(nentries_same S').
- by rewrite size_mkseq.
- by rewrite Ew cv_matvec of_entriesK.
Qed.

Lemma acts_as_mx (t1 t2 : ptree) (A : nat -> nat -> T) mv u : acts_as A t1 t2 mv ->
  wf_tree u -> same_layout t1 u ->
  exists w, [/\ mv u = Ok w, same_layout t2 w, wf_tree w &
    cv_of (nentries t2) (entries w) = of_entries (nentries t2) (nentries t1) A *m cv_of (nentries t1) (entries u)].
Proof.
move=> H W S; have [w [E S' W' Ew]] := H u W S; exists w; split=> //.
by rewrite Ew cv_matvec.
Qed.

Lemma zeros_likeP (t : ptree) :
  [/\ same_layout t (zeros_like t), wf_tree (zeros_like t) & entries (zeros_like t) = nseq (nentries t) 0].
Proof.
have H : leaves (zeros_like t) = [seq Arr (ashape a) (nseq (prodn (ashape a)) 0) | a <- leaves t]
  by rewrite /zeros_like leaves_tmap.
split.
- split; first by rewrite /zeros_like treedef_tmap.
  by rewrite H -map_comp; apply: eq_map.
- rewrite /wf_tree H all_map; elim: (leaves t) => //= a l ->; by rewrite /wf_arr /= size_nseq eqxx.
- rewrite /entries H /nentries; elim: (leaves t) => //= a l ->.
  by rewrite nseqD.
Qed.

Lemma cv_nseq0 n k : cv_of n (nseq k (0 : T)) = 0.
Proof. by apply/colP => i; rewrite !mxE nth_nseq if_same. Qed.

Lemma cv_add n (a b : seq T) : size a = n -> size b = n ->
  cv_of n [seq p.1 + p.2 | p <- zip a b] = cv_of n a + cv_of n b.
Proof.
move=> Ha Hb; apply/colP => i; rewrite !mxE (nth_map (0, 0)) ?size_zip ?Ha ?Hb ?minnn //.
by rewrite nth_zip ?Ha ?Hb.
Qed.
Lemma cv_scale n (c : T) (a : seq T) : size a = n -> cv_of n (map ( *%R c) a) = c *: cv_of n a.
Proof. by move=> Ha; apply/colP => i; rewrite !mxE (nth_map 0) ?Ha. Qed.
End Generic.

Section Ggn.
Notation ptree := (tree (arr R)).
Notation array := (arr R).
Variables (X : Type) (K : nat).
Variable model_fn : X -> ptree -> res array.
Variables ad_jvp ad_vjp : X -> ptree -> res ptree.
Variable t : ptree.
Notation n := (get_size t).
Variables (pred : X -> array) (J : X -> nat -> nat -> R).

(** What is assumed of a sample: a 1-D prediction of length [K] and
    automatic differentiation that computes products with [J]; the target is arbitrary. *)
Definition sample_ok (d : X * array) : Prop :=
  [/\ model_fn d.1 t = Ok (pred d.1), ashape (pred d.1) = [:: K], wf_arr (pred d.1) &
      is_jacobian (J d.1) t (pred d.1) (ad_jvp d.1) (ad_vjp d.1)].

Lemma nentries_leaf1 (a : array) : ashape a = [:: K] -> nentries (Leaf a) = K.
Proof. by rewrite /nentries /= => ->; rewrite /= muln1 addn0. Qed.

Lemma ggn_sampleP h d u : sample_ok d -> wf_tree u -> same_layout t u ->
  exists w, [/\ ggn_sample model_fn ad_jvp ad_vjp t (hessian_on_arrays false h) u d = Ok w,
    same_layout t w, wf_tree w &
    cv_of n (entries w) = (of_entries K n (J d.1))^T *m
      h (of_entries K n (J d.1) *m cv_of n (entries u)) (cv_of K (adata (pred d.1))) (cv_of K (adata d.2))].
Proof.
move=> [M Sh Wp [Hj Hv]] W S; rewrite /ggn_sample M /=.
have [jv [-> Sj Wj Ej]] := acts_as_mx Hj W S; rewrite /=.
have HK := nentries_leaf1 Sh.
have [e Ee He] : exists2 e, jv = Leaf (Arr [:: K] e) & size e = K.
  case: jv Sj Wj {Ej} => [[s e]|k ch] [//= _ [Es]]; rewrite /wf_tree /= andbT /wf_arr /= => /eqP Hd.
  by exists e; rewrite -?Sh ?Es // Hd -Es Sh /= muln1.
rewrite {}Ee in Sj Wj Ej *; rewrite /hessian_on_arrays /= eqxx He eqxx /=.
have Hp : size (adata (pred d.1)) = K by move/eqP: Wp => ->; rewrite Sh /= muln1.
rewrite Hp eqxx /=.
set y := h _ _ _; pose yt := Leaf (Arr [:: K] (of_cv y)) : ptree.
have Wy : wf_tree yt by rewrite /wf_tree /= andbT /wf_arr /= size_of_cv muln1.
have Sy' : same_layout (Leaf (pred d.1)) yt by split=> //=; rewrite Sh.
have [w [-> Sw Ww Ew]] := acts_as_mx Hv Wy Sy'; exists w; split=> //.
rewrite [LHS]Ew HK /=.
have -> : cv_of K (entries yt) = y by rewrite /entries /= cats0 of_cvK.
have -> : of_entries (nentries t) K (fun p a => J d.1 a p) = (of_entries K n (J d.1))^T.
  by apply/matrixP => i j; rewrite !mxE.
congr (_ *m _); rewrite /y; congr (h _ _ _).
by move: Ej; rewrite /entries /= cats0 HK.
Qed.

Lemma sum_treesP ts (f : nat -> 'cV[R]_n) :
  (forall i, (i < size ts)%N -> same_layout t (nth t ts i) /\ wf_tree (nth t ts i) /\
     cv_of n (entries (nth t ts i)) = f i) ->
  exists w, [/\ sum_trees (zeros_like t) ts = Ok w, same_layout t w, wf_tree w &
    cv_of n (entries w) = \sum_(0 <= i < size ts) f i].
Proof.
elim: ts f => [|u ts IH] f H /=.
  have [H1 H2 H3] := zeros_likeP t; exists (zeros_like t); split=> //.
  by rewrite H3 cv_nseq0 big_geq.
have [i Hi|w [-> Sw Ww Ew]] := IH (fun i => f i.+1); first exact: (H i.+1).
have /= [Su [Wu Eu]] := H 0%N isT.
have [|v [Ev Sv Wv Hv]] := @tree_addP _ u w Wu Ww.
  exact: same_layout_trans (same_layout_sym Su) Sw.
exists v; split=> //=; first exact: same_layout_trans Su Sv.
rewrite Hv cv_add ?size_entries // -?(nentries_same Su) -?(nentries_same Sw) //.
by rewrite Eu Ew big_nat_recl.
Qed.

(** The GGN on PyTrees acts on the entries as the flat operator of Ggn.v. *)
Lemma tree_ggn_mvP h factor data u : (forall d, List.In d data -> sample_ok d) -> wf_tree u -> same_layout t u ->
  exists w, [/\ tree_ggn_mv model_fn ad_jvp ad_vjp t (hessian_on_arrays false h) factor u data = Ok w,
    same_layout t w, wf_tree w &
    cv_of n (entries w) =
      factor *: \sum_(d <- data) (of_entries K n (J d.1))^T *m
        h (of_entries K n (J d.1) *m cv_of n (entries u)) (cv_of K (adata (pred d.1))) (cv_of K (adata d.2))].
Proof.
move=> Hd W S; rewrite /tree_ggn_mv.
pose F (d : X * array) := (of_entries K n (J d.1))^T *m
  h (of_entries K n (J d.1) *m cv_of n (entries u)) (cv_of K (adata (pred d.1))) (cv_of K (adata d.2)).
have [cs [-> Hc1 Hc2]] : exists cs, [/\ mapM (ggn_sample model_fn ad_jvp ad_vjp t (hessian_on_arrays false h) u) data = Ok cs,
    (forall i, (i < size cs)%N -> same_layout t (nth t cs i) /\ wf_tree (nth t cs i) /\
     cv_of n (entries (nth t cs i)) = nth 0 (map F data) i) & size cs = size data].
  elim: data Hd => [|d data IH] Hd; first by exists [::].
  have [|cs [E H1 H2]] := IH; first by move=> d' Hd'; apply: Hd; right.
  have [w [Ew Sw Ww Hw]] := ggn_sampleP h (Hd d (or_introl erefl)) W S.
  exists (w :: cs); rewrite /= Ew /= E /=; split=> //; last by rewrite H2.
  by case=> [|i] //= Hi; apply: H1.
have [w [Es Sw Ww Ew]] := sum_treesP Hc1.
rewrite /= Es /=; exists (tree_mul factor w); split=> //.
- exact: same_layout_trans Sw (same_layout_tmap _ _).
- exact: wf_tmap.
- rewrite entries_tmap_arr cv_scale ?size_entries // -?(nentries_same Sw) // Ew; congr (_ *: _).
  by rewrite Hc2 -(size_map F) -(big_nth 0 xpredT id) big_map.
Qed.
End Ggn.
