(** Property C50, continued: uncertainty from mini-batches. *)
From Coq Require Import Reals String.
From mathcomp Require Import all_ssreflect all_algebra.
From Verif Require Import Base RealStruct PyTree TreeSpec Mv PyTreeProofs MvProofs
  TreeOpsProofs GgnSpec Ggn GgnProofs Posterior PosteriorSpec PosteriorProofs PosteriorTree
  EvalUtils Pushforward PushforwardSpec PushforwardProofs PipelineSpec TreeGgn Pipeline PipelineProofs.
From Verif Require Import P_Ggn P_Posterior P_Pushforward P_Pipeline P_Monotone.
From Verif Require Import P_Minibatch.
Set Implicit Arguments.
Unset Strict Implicit.
Unset Printing Implicit Defensive.
Import GRing.Theory Num.Theory Order.TTheory.
Local Open Scope ring_scope.

(** The inverse is operator convex. *)
Lemma inv_convex (T : rcfType) n (I : finType) (P : pred I) (w : T) (A : I -> 'M[T]_n) (B : 'M[T]_n) :
  0 <= w -> w *+ #|P| = 1 -> (forall i, P i -> spd (A i)) -> spd B -> B = w *: (\sum_(i | P i) A i) ->
  loewner_le (invmx B) (w *: (\sum_(i | P i) invmx (A i))).
Proof.
move=> w0 w1 HA HB E; split.
  rewrite /symmetric linearB /= (spd_invmx_sym HB) linearZ /= raddf_sum /=; congr (_ *: _ - _).
  by apply: eq_bigr => i Pi; rewrite (spd_invmx_sym (HA i Pi)).
move=> x; rewrite mulmxBl dotvB subr_ge0; set y := invmx B *m x.
have Hq i : P i -> dotv x y *+ 2 - dotv y (A i *m y) <= dotv x (invmx (A i) *m x).
  move=> Pi; set u := invmx (A i) *m x.
  have Au : A i *m u = x by rewrite /u mulKVmx //; apply: spd_unit; exact: HA.
  have [_ PA] := spd_psd (HA i Pi); have := PA (u - y).
  rewrite mulmxBr Au dotvB !dotvBl.
  have -> : dotv u (A i *m y) = dotv y x by rewrite dotv_mul; have [-> _] := HA i Pi; rewrite Au dotvC.
  rewrite (dotvC u x) (dotvC y x) opprB addrA => H.
  by rewrite -subr_ge0; apply: le_trans H _; rewrite mulr2n opprB opprD !addrA [X in X - _ <= _]addrAC.
have By : B *m y = x by rewrite /y mulKVmx // spd_unit.
have -> : dotv x y = w * \sum_(i | P i) (dotv x y *+ 2 - dotv y (A i *m y)).
  rewrite big_split /= sumrN sumr_const mulrBr [w * (_ *+ #|P|)]mulrnAr -mulrnAl w1.
  have -> : w * (\sum_(i | P i) dotv y (A i *m y)) = dotv y (B *m y).
    by rewrite E -scalemxAl dotvZ mulmx_suml (big_morph (dotv _) (dotvD _) (dotv0 _)).
  by rewrite By mul1r mulr2n (dotvC y) addrK.
rewrite -scalemxAl dotvZ mulmx_suml (big_morph (dotv _) (dotvD _) (dotv0 _)); apply: ler_wpmul2l => //.
by apply: ler_sum => i; apply: Hq.
Qed.

Lemma prec_average (T : rcfType) n (I : finType) (P : pred I) (w : T) (C : I -> 'M[T]_n) (s tau lsf : T) :
  w *+ #|P| = 1 ->
  posterior_precision (w *: (\sum_(i | P i) C i)) s tau lsf =
  w *: (\sum_(i | P i) posterior_precision (C i) s tau lsf).
Proof.
move=> w1; rewrite /posterior_precision -scaler_sumr [w *: (_ *: _)]scalerA [w * _]mulrC -scalerA; congr (_ *: _).
rewrite big_split /= -scaler_sumr sumr_const scalerDr; congr (_ + _).
  by rewrite !scalerA mulrC.
by rewrite -[(_ *: 1%:M) *+ _]scaler_nat scalerA mulr_natr w1 scale1r.
Qed.

Section Average.
Variables (X Key : Type) (K : nat) (split : Key -> nat -> seq Key) (normal : Key -> seq nat -> seq R) (key0 : Key).
Variables (model_fn : X -> tree (arr R) -> res (arr R)) (ad_jvp ad_vjp : X -> tree (arr R) -> res (tree (arr R))).
Variables (t : tree (arr R)) (s : string) (pred : X -> arr R) (J : X -> nat -> nat -> R).
Variables (key : option Key) (kw : kwargs) (ops : seq lin_stat) (x : X).
Notation run := (@run X Key K split normal key0 model_fn ad_jvp ad_vjp t s key kw ops x).
Notation TP := (test_point model_fn ad_jvp ad_vjp t s pred J kw ops x).
Notation OK := (data_ok K model_fn ad_jvp ad_vjp t pred J).

(** Several runs whose GGN matrices average to that of one run. *)
Lemma average_var (I : finType) (P : I -> bool) w (ds : I -> seq (X * arr R)) ncs nts fs data nc nt f s2 tau lsf :
  TP -> OK data -> (forall i, P i -> OK (ds i)) ->
  curv_scaling_factor nc nt (size data) = Ok f ->
  (forall i, P i -> curv_scaling_factor (ncs i) (nts i) (size (ds i)) = Ok (fs i)) ->
  0 <= odflt 1 s2 -> 0 < tau -> 0 < lsf -> 0 <= w -> w *+ #|[pred i | P i]| = 1 ->
  ggn_matrix K (get_size t) s f pred J data = w *: (\sum_(i | P i) ggn_matrix K (get_size t) s (fs i) pred J (ds i)) ->
  exists (v : arr R) (vs : I -> arr R),
    [/\ reports (run data nc nt s2 tau lsf) v, ashape v = ashape (pred x),
     forall i, P i -> reports (run (ds i) (ncs i) (nts i) s2 tau lsf) (vs i) /\ ashape (vs i) = ashape (pred x) &
     forall j, nth 0 (adata v) j <= w * \sum_(i | P i) nth 0 (adata (vs i)) j].
Proof.
move=> HT Hd Hds Hf Hfs Hs Ht Hl w0 w1 E.
have [v [R1 A1 S1 E1]] := runP split normal key0 key HT Hd Hf Hs Ht Hl.
pose Q i u := P i ->
    [/\ reports (run (ds i) (ncs i) (nts i) s2 tau lsf) u, ashape u = ashape (pred x),
    size (adata u) = prodn (ashape (pred x)) &
    forall j : 'I_(prodn (ashape (pred x))), nth 0 (adata u) j =
      (of_entries (prodn (ashape (pred x))) (get_size t) (J x) *m
       invmx (posterior_precision (ggn_matrix K (get_size t) s (fs i) pred J (ds i)) (odflt 1 s2) tau lsf) *m
       (of_entries (prodn (ashape (pred x))) (get_size t) (J x))^T) j j].
have HQ i : exists u, Q i u.
  case Pi: (P i); last by exists v; rewrite /Q Pi.
  have [u Hu] := runP split normal key0 key HT (Hds i Pi) (Hfs i Pi) Hs Ht Hl; by exists u.
have [vs H] : exists vs : I -> arr R, forall i, Q i (vs i) by exact: (fin_all_exists HQ).
exists v, vs; split=> // [i /H []|j] //.
have [Hj|Hj] := ltnP j (prodn (ashape (pred x))); last first.
  by rewrite nth_default ?S1 // big1 ?mulr0 // => i /H [_ _ S _]; rewrite nth_default ?S.
rewrite (E1 (Ordinal Hj)).
under eq_bigr => i Pi do [have [_ _ _ Ei] := H i Pi; rewrite (Ei (Ordinal Hj))].
have [[n0 HL _ _] _] := HT.
set Jx := of_entries _ _ _.
have -> : forall F : I -> 'M[R]_(get_size t), w * (\sum_(i | P i) (Jx *m F i *m Jx^T) (Ordinal Hj) (Ordinal Hj)) =
    (Jx *m (w *: (\sum_(i | P i) F i)) *m Jx^T) (Ordinal Hj) (Ordinal Hj).
  by move=> F; rewrite -scalemxAr mulmx_sumr -scalemxAl mulmx_suml mxE summxE.
apply: loewner_diag; apply: inv_convex => // [i Pi||].
- apply: spd_precision => //; exact: ggn_matrix_psd (factor_ge0 (Hfs i Pi)).
- apply: spd_precision => //; exact: ggn_matrix_psd (factor_ge0 Hf).
- by rewrite E prec_average.
Qed.

(** C50.  Mini-batches of [b] different samples, all equally likely, with [num_total_samples] the size
    [n] of the data set: on average no predictive variance is smaller than that of the whole data set. *)
Theorem C50_minibatch_subsets n b (data : n.-tuple (X * arr R)) s2 tau lsf :
  TP -> OK data -> (0 < b <= n)%N -> 0 <= odflt 1 s2 -> 0 < tau -> 0 < lsf ->
  exists (v : arr R) (vs : {set 'I_n} -> arr R),
    [/\ reports (run data None None s2 tau lsf) v, ashape v = ashape (pred x),
     forall A : {set 'I_n}, #|A| = b ->
       reports (run (batch data A) None (Some n) s2 tau lsf) (vs A) /\ ashape (vs A) = ashape (pred x) &
     forall j, nth 0 (adata v) j <= 'C(n, b)%:R^-1 * \sum_(A : {set 'I_n} | #|A| == b) nth 0 (adata (vs A)) j].
Proof.
move=> HT Hd Hb Hs Ht Hl; have [b0 bn] := andP Hb; have n0 := leq_trans b0 bn.
have nn : n%:R != 0 :> R by rewrite pnatr_eq0 -lt0n.
have C0 : 'C(n, b)%:R != 0 :> R by rewrite pnatr_eq0 -lt0n bin_gt0.
have Ed : OK data -> forall A : {set 'I_n}, OK (batch data A).
  move=> _ A d Hin; apply: Hd; move: Hin; rewrite /batch; elim: (enum A) => //= i l IH [<-|/IH //].
  have := ltn_ord i; rewrite -[X in (_ < X)%N](size_tuple data) (tnth_nth (tnth data i)).
  by elim: (tval data) (val i) => //= y l' IH' [|m] Hm; [left | right; apply: IH'].
have F1 : curv_scaling_factor None None (size data) = Ok (1 : R).
  rewrite size_tuple /curv_scaling_factor; case: (n) nn => [|n' nn]; [by rewrite eqxx | by rewrite divff].
have F2 (A : {set 'I_n}) : #|A| == b -> curv_scaling_factor None (Some n) (size (batch data A)) = Ok (n%:R / b%:R : R).
  by move=> /eqP HA; rewrite /curv_scaling_factor size_map -cardE HA; case: (b) b0.
have W0 : 0 <= 'C(n, b)%:R^-1 :> R by rewrite invr_ge0 ler0n.
have W1 : 'C(n, b)%:R^-1 *+ #|[pred A : {set 'I_n} | #|A| == b]| = 1 :> R.
  have H := card_draws [finType of 'I_n] b; rewrite card_ord in H.
  rewrite (_ : #|_| = 'C(n, b)); first by rewrite -[LHS]mulr_natr mulVf.
  by rewrite -H; apply: eq_card => A; rewrite !inE.
have E : ggn_matrix K (get_size t) s 1 pred J data =
    'C(n, b)%:R^-1 *: (\sum_(A : {set 'I_n} | #|A| == b) ggn_matrix K (get_size t) s (n%:R / b%:R) pred J (batch data A)).
  rewrite /ggn_matrix scale1r -scaler_sumr.
  by rewrite (@subset_sums [lmodType R of 'M[R]_(get_size t)]) // scalerA mulVf // scale1r.
have [v [vs [H1 H2 H3 H4]]] := @average_var _ (fun A : {set 'I_n} => #|A| == b) _ (batch data)
  (fun=> None) (fun=> Some n) _ data None None 1 s2 tau lsf HT Hd (fun A _ => Ed Hd A) F1 F2 Hs Ht Hl W0 W1 E.
exists v, vs; split=> // A /eqP HA; exact: H3 HA.
Qed.

(** C50.  Equal batches that together make up the data set (one epoch): the same for their average. *)
Theorem C50_minibatch_epoch m b (batches : m.-tuple (seq (X * arr R))) s2 tau lsf :
  TP -> OK (flatten batches) -> (0 < m)%N -> (0 < b)%N -> (forall i, size (tnth batches i) = b) ->
  0 <= odflt 1 s2 -> 0 < tau -> 0 < lsf ->
  exists (v : arr R) (vs : 'I_m -> arr R),
    [/\ reports (run (flatten batches) None None s2 tau lsf) v, ashape v = ashape (pred x),
     forall i, reports (run (tnth batches i) None (Some (size (flatten batches))) s2 tau lsf) (vs i) /\
       ashape (vs i) = ashape (pred x) &
     forall j, nth 0 (adata v) j <= m%:R^-1 * \sum_i nth 0 (adata (vs i)) j].
Proof.
move=> HT Hd Hm Hb Hsz Hs Ht Hl.
have mn : m%:R != 0 :> R by rewrite pnatr_eq0 -lt0n.
have bn : b%:R != 0 :> R by rewrite pnatr_eq0 -lt0n.
have Ed i : true -> OK (tnth batches i).
  move=> _ d Hin; apply: Hd; have := ltn_ord i; rewrite -[X in (_ < X)%N](size_tuple batches).
  move: Hin; rewrite (tnth_nth [::]); elim: (tval batches) (val i) => //= y l IH [|k] Hin Hk.
    by apply/List.in_or_app; left.
  by apply/List.in_or_app; right; apply: IH Hin Hk.
have Sz : size (flatten batches) = (m * b)%N.
  rewrite size_flatten /shape sumnE big_map big_tuple (eq_bigr (fun=> b)) => [|i _]; last exact: Hsz.
  by rewrite sum_nat_const card_ord.
have F1 : curv_scaling_factor None None (size (flatten batches)) = Ok (1 : R).
  rewrite Sz /curv_scaling_factor; case: (m * b)%N (muln_gt0 m b) => [|k _]; first by rewrite Hm Hb.
  by rewrite divff // pnatr_eq0.
have F2 (i : 'I_m) : true -> curv_scaling_factor None (Some (size (flatten batches))) (size (tnth batches i)) = Ok (m%:R : R).
  by move=> _; rewrite Hsz Sz /curv_scaling_factor; case: (b) Hb bn => // b' _ bn; rewrite natrM mulfK.
have W0 : 0 <= m%:R^-1 :> R by rewrite invr_ge0 ler0n.
have W1 : m%:R^-1 *+ #|[pred i : 'I_m | true]| = 1 :> R by rewrite -[LHS]mulr_natr cardT size_enum_ord mulVf.
have E : ggn_matrix K (get_size t) s 1 pred J (flatten batches) =
    m%:R^-1 *: (\sum_(i : 'I_m | true) ggn_matrix K (get_size t) s m%:R pred J (tnth batches i)).
  by rewrite /ggn_matrix scale1r -scaler_sumr scalerA mulVf // scale1r big_flatten big_tuple.
have [v [vs [H1 H2 H3 H4]]] := @average_var _ (fun _ : 'I_m => true) _ (tnth batches)
  (fun=> None) (fun=> Some (size (flatten batches))) _ (flatten batches) None None 1 s2 tau lsf HT Hd Ed F1 F2 Hs Ht Hl W0 W1 E.
by exists v, vs; split=> // i; apply: H3.
Qed.
End Average.
Print Assumptions C50_minibatch_subsets.
Print Assumptions C50_minibatch_epoch.

(** Non-vacuity: the two observations of C50's example, one at a time. *)
Example C50_minibatch_example a b c d :
  exists (v : arr R) (vs : {set 'I_2} -> arr R),
    [/\ reports (ex_run [:: ex_y a b; ex_y c d] 1) v, ashape v = [:: 2%N] &
     forall j, nth 0 (adata v) j <= 'C(2, 1)%:R^-1 * \sum_(A : {set 'I_2} | #|A| == 1%N) nth 0 (adata (vs A)) j].
Proof.
have [v [vs [H1 H2 _ H4]]] := @C50_minibatch_subsets unit unit 2 (fun k n => nseq n k) (fun _ sh => nseq (prodn sh) 0) tt
  _ _ _ _ _ _ _ None _ _ _ 2 1 [tuple ex_y a b; ex_y c d] None 1 1 ex_test_point (@ex_data_ok a b c d) isT ler01 ltr01 ltr01.
by exists v, vs.
Qed.
