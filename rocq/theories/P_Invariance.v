(** Property C64: what the predictive distribution and the evidence do not depend on - how the
    parameters are laid out, ordered, rotated or scaled, and in which order the data come. *)
From Coq Require Import Reals Lra String List Permutation.
From mathcomp Require Import all_ssreflect all_algebra.
From Verif Require Import Base RealStruct RealSums PyTree TreeSpec Mv PyTreeProofs MvProofs
  TreeOpsProofs GgnSpec Ggn GgnProofs Posterior PosteriorSpec PosteriorProofs PosteriorTree
  EvalUtils Pushforward PushforwardSpec PushforwardProofs PipelineSpec TreeGgn Pipeline PipelineProofs
  PipelineApprox UnravelProofs Likelihood.
From Verif Require Import P_Ggn P_Posterior P_Pushforward P_Pipeline P_Monotone P_PipelineApprox P_Likelihood P_Evidence OrderProofs.
Set Implicit Arguments.
Unset Strict Implicit.
Unset Printing Implicit Defensive.
Import GRing.Theory Num.Theory Order.TTheory.
Local Open Scope ring_scope.

(** Two reports say the same: equal predictions, means, variances, standard deviations, and
    covariances of the same shape with the same entries. *)
Definition same_report (r1 r2 : results RR) : Prop :=
  [/\ r_map r1 = r_map r2, r_pred_mean r1 = r_pred_mean r2, r_pred_var r1 = r_pred_var r2,
      r_pred_std r1 = r_pred_std r2 &
      match r_pred_cov r1, r_pred_cov r2 with
      | None, None => True
      | Some a, Some b => ashape a = ashape b /\ (forall idx, valid_idx (ashape a) idx -> aget a idx = aget b idx)
      | _, _ => False
      end].

Lemma valid_idx_split s m idx : valid_idx (rev (m :: s)) idx ->
  exists i idx', [/\ (i < m)%N, valid_idx s idx' & idx = rcons (rev idx') i].
Proof.
move=> /valid_idx_rev; rewrite revK; case E : (rev idx) => [|i idx'] //.
rewrite valid_idx_cons => /andP[Hi Hv]; exists i, idx'; split=> //.
by rewrite -[idx]revK E rev_cons.
Qed.

Lemma report_same n1 n2 out (J1 J2 S1 S2 : nat -> nat -> R) ops r1 r2 :
  (forall i j, (i < prodn (ashape out))%N -> (j < prodn (ashape out))%N ->
     cov_entry n1 J1 S1 J1 i j = cov_entry n2 J2 S2 J2 i j) ->
  lin_report (R := RR) n1 out J1 S1 ops r1 -> lin_report (R := RR) n2 out J2 S2 ops r2 -> same_report r1 r2.
Proof.
move=> H [A1 A2 A3 A4 A5] [B1 B2 B3 B4 B5]; split; rewrite ?A1 ?A2 ?A4 ?A5 //.
- rewrite B4; case: ifP => // _; congr (Some (Arr _ _)).
  by apply/eq_in_map => i; rewrite mem_iota => /andP[_ Hi]; apply: H.
- rewrite B5; case: ifP => // _; congr (Some (Arr _ _)).
  by apply/eq_in_map => i; rewrite mem_iota => /andP[_ Hi]; rewrite H.
move: A3 B3; case: ifP => _; last by move=> -> ->.
move=> [a [-> Sa Ea]] [b [-> Sb Eb]]; split; first by rewrite Sa Sb.
move=> idx; rewrite Sa => /valid_idx_split [i [idx' [Hi Hv ->]]]; rewrite Ea // Eb //; apply: H => //.
exact: ravel_lt.
Qed.

(** ** Change of basis *)
Section Basis.
Variable T : rcfType.
(** The precision of the transformed curvature, its inverse, and what a transformed Jacobian makes of
    it. *)
Lemma basis_cov n1 n2 m (G1 : 'M[T]_n1) (Q : 'M[T]_(n1, n2)) (J1 : 'M[T]_(m, n1)) s2 tau1 tau2 lsf :
  let P1 := posterior_precision G1 s2 tau1 lsf in
  0 < tau1 -> 0 < tau2 -> spd P1 ->
  Q *m Q^T = (tau2 / tau1)%:M -> Q^T *m Q = (tau2 / tau1)%:M ->
  let P2 := posterior_precision (Q^T *m G1 *m Q) s2 tau2 lsf in
  (J1 *m Q) *m invmx P2 *m (J1 *m Q)^T = J1 *m invmx P1 *m J1^T.
Proof.
move=> P1 H1 H2 Sp QQ1 QQ2 P2.
set c := tau2 / tau1 in QQ1 QQ2.
have c0 : c != 0 by rewrite mulf_neq0 ?invr_eq0 ?gt_eqF.
have EP : P2 = Q^T *m P1 *m Q.
  rewrite /P2 /P1 /posterior_precision -scalemxAr -scalemxAl; congr (_ *: _).
  rewrite mulmxDr mulmxDl -!scalemxAr -!scalemxAl mulmx1 QQ2; congr (_ + _).
  by rewrite scalemx1 scale_scalar_mx /c mulrCA mulfV ?mulr1 // gt_eqF.
have U1 := spd_unit Sp.
have EI : P2 *m (c^-2 *: (Q^T *m invmx P1 *m Q)) = 1%:M.
  rewrite EP -scalemxAr !mulmxA -[_ *m Q *m Q^T]mulmxA QQ1 mul_mx_scalar -!scalemxAl.
  by rewrite -[_ *m P1 *m invmx P1]mulmxA mulmxV // mulmx1 QQ2 !scale_scalar_mx -expr2 mulVf // expf_neq0.
have U2 : P2 \in unitmx by have [] := mulmx1_unit EI.
have -> : invmx P2 = c^-2 *: (Q^T *m invmx P1 *m Q) by rewrite -[LHS]mulmx1 -EI mulKmx.
rewrite trmx_mul -scalemxAr -scalemxAl !mulmxA -[_ *m Q *m Q^T]mulmxA QQ1 mul_mx_scalar.
rewrite -!scalemxAl -!mulmxA [Q *m (Q^T *m _)]mulmxA QQ1 mul_scalar_mx -!scalemxAr scalerA scalerA.
by rewrite -mulrA -expr2 mulVf ?expf_neq0 // scale1r.
Qed.
End Basis.

Lemma ggn_basis (X : Type) K n1 n2 s f pred (J1 J2 : X -> nat -> nat -> R) (data : seq (X * arr R)) (Q : 'M[R]_(n1, n2)) :
  (forall d, List.In d data -> of_entries K n2 (J2 d.1) = of_entries K n1 (J1 d.1) *m Q) ->
  ggn_matrix K n2 s f pred J2 data = Q^T *m ggn_matrix K n1 s f pred J1 data *m Q.
Proof.
move=> H; rewrite /ggn_matrix -scalemxAr -scalemxAl; congr (_ *: _).
elim: data H => [|d data IH] H; first by rewrite !big_nil mulmx0 mul0mx.
rewrite !big_cons mulmxDr mulmxDl IH; last by move=> e He; apply: H; right.
congr (_ + _); rewrite (H d); last by left.
by rewrite trmx_mul !mulmxA.
Qed.

(** ** Two parametrisations of one model *)
Section TwoSetups.
Variables (X Key1 Key2 : Type) (K : nat).
Variables (split1 : Key1 -> nat -> seq Key1) (normal1 : Key1 -> seq nat -> seq R) (key01 : Key1).
Variables (split2 : Key2 -> nat -> seq Key2) (normal2 : Key2 -> seq nat -> seq R) (key02 : Key2).
Variables (model1 model2 : X -> tree (arr R) -> res (arr R)).
Variables (ad_jvp1 ad_vjp1 ad_jvp2 ad_vjp2 : X -> tree (arr R) -> res (tree (arr R))).
Variables (t1 t2 : tree (arr R)) (s : string) (pred : X -> arr R) (J1 J2 : X -> nat -> nat -> R).
Variables (key1 : option Key1) (key2 : option Key2) (kw : kwargs) (ops : seq lin_stat) (x : X).
Notation n1 := (get_size t1).
Notation n2 := (get_size t2).
Notation run1 := (run K split1 normal1 key01 model1 ad_jvp1 ad_vjp1 t1 s key1 kw ops x).
Notation run2 := (run K split2 normal2 key02 model2 ad_jvp2 ad_vjp2 t2 s key2 kw ops x).
Notation point1 := (test_point model1 ad_jvp1 ad_vjp1 t1 s pred J1 kw ops x).
Notation point2 := (test_point model2 ad_jvp2 ad_vjp2 t2 s pred J2 kw ops x).
Notation ok1 := (data_ok K model1 ad_jvp1 ad_vjp1 t1 pred J1).
Notation ok2 := (data_ok K model2 ad_jvp2 ad_vjp2 t2 pred J2).
Notation diag1 data nc nt s2 tau lsf :=
  (linearised_predictive split1 normal1 key01 model1 ad_jvp1 ad_vjp1 t1
     (laplace_posterior_diagonal K model1 ad_jvp1 ad_vjp1 t1 data s nc nt s2 lsf tau) key1
     (@lin_setup RR X :: [seq stat_fn o | o <- ops]) kw x).
Notation diag2 data nc nt s2 tau lsf :=
  (linearised_predictive split2 normal2 key02 model2 ad_jvp2 ad_vjp2 t2
     (laplace_posterior_diagonal K model2 ad_jvp2 ad_vjp2 t2 data s nc nt s2 lsf tau) key2
     (@lin_setup RR X :: [seq stat_fn o | o <- ops]) kw x).

(** The derivative of the second parametrisation is that of the first times [Q], at input [z]. *)
Definition jacobian_through (Q : 'M[R]_(n1, n2)) (z : X) : Prop :=
  forall i (q : 'I_n2), (i < prodn (ashape (pred z)))%N -> J2 z i q = \sum_(p < n1) J1 z i p * Q p q.

Lemma jacobian_mx Q z m : (m <= prodn (ashape (pred z)))%N -> jacobian_through Q z ->
  of_entries m n2 (J2 z) = of_entries m n1 (J1 z) *m Q.
Proof.
move=> Hm H; apply/matrixP => i q; rewrite !mxE H; last exact: leq_trans (ltn_ord _) Hm.
by apply: eq_bigr => p _; rewrite mxE.
Qed.

Lemma run_report (Key : Type) split normal (key0 : Key) model ad_jvp ad_vjp t J key data nc nt f s2 tau lsf :
  test_point model ad_jvp ad_vjp t s pred J kw ops x -> data_ok K model ad_jvp ad_vjp t pred J data ->
  curv_scaling_factor nc nt (size data) = Ok f -> 0 <= odflt 1 s2 -> 0 < tau -> 0 < lsf ->
  exists2 r, run K split normal key0 model ad_jvp ad_vjp t s key kw ops x data nc nt s2 tau lsf = Ok r &
    lin_report (R := RR) (get_size t) (pred x) (J x)
      (entry (invmx (posterior_precision (ggn_matrix K (get_size t) s f pred J data) (odflt 1 s2) tau lsf))) ops r.
Proof.
move=> [[n0 Hs Mx [P0 HJ N0 Hsm Hv]] Ho] Hd Hf Hs2 Ht Hl.
exact: (@C49_laplace_predictive X Key K split normal key0 model ad_jvp ad_vjp t data s nc nt f pred J
  s2 tau lsf key kw ops x n0 Hs Hf Hd Hs2 Ht Hl Mx P0 HJ N0 Hsm Ho).
Qed.

(** C64.  Rotating the parameters - and scaling them, if the prior precision is scaled with them - does
    not change the report of the full Laplace approximation, however the parameters are distributed
    over the leaves of the two PyTrees. *)
Theorem C64_full_reparametrisation data nc nt f s2 tau1 tau2 lsf (Q : 'M[R]_(n1, n2)) :
  point1 -> point2 -> ok1 data -> ok2 data ->
  curv_scaling_factor nc nt (size data) = Ok f -> 0 <= odflt 1 s2 -> 0 < tau1 -> 0 < tau2 -> 0 < lsf ->
  Q *m Q^T = (tau2 / tau1)%:M -> Q^T *m Q = (tau2 / tau1)%:M ->
  jacobian_through Q x -> (forall d, List.In d data -> jacobian_through Q d.1) ->
  exists r1 r2, [/\ run1 data nc nt s2 tau1 lsf = Ok r1, run2 data nc nt s2 tau2 lsf = Ok r2 & same_report r1 r2].
Proof.
move=> T1 T2 D1 D2 Hf Hs2 H1 H2 Hl Q1 Q2 HJ HD.
have [r1 E1 L1] := run_report split1 normal1 key01 key1 T1 D1 Hf Hs2 H1 Hl.
have [r2 E2 L2] := run_report split2 normal2 key02 key2 T2 D2 Hf Hs2 H2 Hl.
exists r1, r2; split=> //; apply: report_same L1 L2 => i j Hi Hj.
have := cov_entryE (T := RR) (J1 x) (J1 x) (invmx (posterior_precision (ggn_matrix K n1 s f pred J1 data) (odflt 1 s2) tau1 lsf))
  (Ordinal Hi) (Ordinal Hj) => /= ->.
have := cov_entryE (T := RR) (J2 x) (J2 x) (invmx (posterior_precision (ggn_matrix K n2 s f pred J2 data) (odflt 1 s2) tau2 lsf))
  (Ordinal Hi) (Ordinal Hj) => /= ->.
have Sp : spd (posterior_precision (ggn_matrix K n1 s f pred J1 data) (odflt 1 s2) tau1 lsf).
  apply: spd_precision => //; have [[_ Hs _ _] _] := T1.
  exact: (ggn_matrix_psd K n1 pred J1 data Hs (factor_ge0 Hf)).
rewrite (jacobian_mx _ HJ) // (@ggn_basis X K n1 n2 s f pred J1 J2 data Q).
  by rewrite (basis_cov (T := RR) _ H1 H2 Sp Q1 Q2).
move=> d Hd; apply: jacobian_mx (HD d Hd).
by have [_ -> _ _] := D1 d Hd; rewrite /= muln1.
Qed.

Lemma diag_report (Key : Type) split normal (key0 : Key) model ad_jvp ad_vjp t J key data nc nt f s2 tau lsf :
  test_point model ad_jvp ad_vjp t s pred J kw ops x -> data_ok K model ad_jvp ad_vjp t pred J data ->
  curv_scaling_factor nc nt (size data) = Ok f -> 0 <= odflt 1 s2 -> 0 < tau -> 0 < lsf ->
  exists2 r, linearised_predictive split normal key0 model ad_jvp ad_vjp t
     (laplace_posterior_diagonal K model ad_jvp ad_vjp t data s nc nt s2 lsf tau) key
     (@lin_setup RR X :: [seq stat_fn o | o <- ops]) kw x = Ok r &
    lin_report (R := RR) (get_size t) (pred x) (J x)
      (entry (diagonal_cov (ggn_matrix K (get_size t) s f pred J data) (odflt 1 s2) tau lsf)) ops r.
Proof.
move=> T Hd Hf Hs2 Ht Hl.
have [r [v [E H _ _]]] := C54_diagonal_predictive split normal key0 key T Hd Hf Hs2 Ht Hl.
by exists r.
Qed.

Lemma diagonal_cov_entry n (J : nat -> nat -> R) (A : 'M[R]_n) c tau lsf m (i j : 'I_m) :
  cov_entry n J (entry (diagonal_cov A c tau lsf)) J i j =
  \sum_(p < n) J i p * J j p * (lsf / (c * A p p + tau)).
Proof.
rewrite (cov_entryE (T := RR)) -mulmxA mxE; apply: eq_bigr => p _; rewrite mul_diag_mx !mxE.
by rewrite mulrCA mulrC -!mulrA.
Qed.

Lemma quad_entry K' n (A : 'M[R]_(K', n)) (H : 'M[R]_K') (q : 'I_n) :
  (A^T *m H *m A) q q = \sum_k \sum_l A l q * H l k * A k q.
Proof.
rewrite mxE; apply: eq_bigr => k _; rewrite mxE mulr_suml; apply: eq_bigr => l _; by rewrite mxE.
Qed.

Lemma ggn_diag_entry n1' n2' f data (q : 'I_n2') (p : 'I_n1') (c : R) :
  (forall d, List.In d data -> forall i : 'I_K, J2 d.1 i q = c * J1 d.1 i p) ->
  ggn_matrix K n2' s f pred J2 data q q = c ^+ 2 * ggn_matrix K n1' s f pred J1 data p p.
Proof.
rewrite /ggn_matrix !mxE mulrCA !summxE => HD; congr (_ * _).
elim: data HD => [|d data IH] HD; first by rewrite !big_nil mulr0.
rewrite !big_cons mulrDr IH; last by move=> z Hz; apply: HD; right.
congr (_ + _); rewrite !quad_entry big_distrr; apply: eq_bigr => k _.
rewrite big_distrr; apply: eq_bigr => l _; rewrite ![of_entries _ _ _ _ _]mxE !HD; try by left.
by rewrite /= expr2 -!mulrA; congr (_ * _); rewrite [RHS]mulrCA; congr (_ * _); rewrite [RHS]mulrCA.
Qed.

(** The diagonal approximation keeps its report when the parameters are permuted, change sign, or are
    scaled together with the prior. *)
Theorem C64_diagonal_reordering data nc nt f s2 tau1 tau2 lsf (sg : 'I_n2 -> 'I_n1) (e : 'I_n2 -> R) :
  point1 -> point2 -> ok1 data -> ok2 data ->
  curv_scaling_factor nc nt (size data) = Ok f -> 0 <= odflt 1 s2 -> 0 < tau1 -> 0 < tau2 -> 0 < lsf ->
  bijective sg -> (forall q, e q ^+ 2 = tau2 / tau1) ->
  (forall z, z = x \/ (exists y, List.In (z, y) data) ->
     forall i (q : 'I_n2), (i < prodn (ashape (pred z)))%N -> J2 z i q = e q * J1 z i (sg q)) ->
  exists r1 r2, [/\ diag1 data nc nt s2 tau1 lsf = Ok r1, diag2 data nc nt s2 tau2 lsf = Ok r2 & same_report r1 r2].
Proof.
move=> T1 T2 D1 D2 Hf Hs2 H1 H2 Hl [sg' K1 K2] He HJ.
have [r1 E1 L1] := diag_report split1 normal1 key01 key1 T1 D1 Hf Hs2 H1 Hl.
have [r2 E2 L2] := diag_report split2 normal2 key02 key2 T2 D2 Hf Hs2 H2 Hl.
exists r1, r2; split=> //; apply: report_same L1 L2 => i j Hi Hj.
rewrite -[i]/(val (Ordinal Hi)) -[j]/(val (Ordinal Hj)) !diagonal_cov_entry /=.
have Hb : bijective sg by exists sg'.
rewrite (reindex sg) /=; last exact: onW_bij.
have [[_ Hs _ _] _] := T1.
apply: eq_bigr => q _; rewrite !(HJ x (or_introl erefl)) //.
have -> : ggn_matrix K n2 s f pred J2 data q q = e q ^+ 2 * ggn_matrix K n1 s f pred J1 data (sg q) (sg q).
  apply: ggn_diag_entry => -[z y] Hd k; apply: HJ; first by right; exists y.
  by have [_ /= -> _ _] := D1 _ Hd; rewrite /= muln1.
rewrite [e q * _ * (e q * _)]mulrACA -[e q * e q]expr2 He.
have G0 : 0 <= ggn_matrix K n1 s f pred J1 data (sg q) (sg q).
  exact: (psd_diag (T := RR) _ (ggn_matrix_psd K n1 pred J1 data Hs (factor_ge0 Hf))).
set g := ggn_matrix _ _ _ _ _ _ _ _ _ in G0 *.
have -> : odflt 1 s2 * (tau2 / tau1 * g) + tau2 = tau2 / tau1 * (odflt 1 s2 * g + tau1).
  by rewrite mulrDr mulrCA divfK // gt_eqF.
have c0 : tau2 / tau1 != 0 by rewrite gt_eqF // divr_gt0.
by rewrite invfM [lsf * (_ * _)]mulrCA [in RHS]mulrACA divff // mul1r.
Qed.

(** The same for the full approximation, as the special case of a change of basis. *)
Theorem C64_full_reordering data nc nt f s2 tau1 tau2 lsf (sg : 'I_n2 -> 'I_n1) (e : 'I_n2 -> R) :
  point1 -> point2 -> ok1 data -> ok2 data ->
  curv_scaling_factor nc nt (size data) = Ok f -> 0 <= odflt 1 s2 -> 0 < tau1 -> 0 < tau2 -> 0 < lsf ->
  bijective sg -> (forall q, e q ^+ 2 = tau2 / tau1) ->
  (forall z, z = x \/ (exists y, List.In (z, y) data) ->
     forall i (q : 'I_n2), (i < prodn (ashape (pred z)))%N -> J2 z i q = e q * J1 z i (sg q)) ->
  exists r1 r2, [/\ run1 data nc nt s2 tau1 lsf = Ok r1, run2 data nc nt s2 tau2 lsf = Ok r2 & same_report r1 r2].
Proof.
move=> T1 T2 D1 D2 Hf Hs2 H1 H2 Hl [sg' K1 K2] He HJ.
pose Q : 'M[R]_(n1, n2) := \matrix_(p, q) (e q *+ (p == sg q)).
have Hthru z : z = x \/ (exists y, List.In (z, y) data) -> jacobian_through Q z.
  move=> Hz i q Hi; rewrite (HJ z Hz) // (bigD1 (sg q)) //= big1 ?addr0.
    by rewrite mxE eqxx mulr1n mulrC.
  by move=> p Hp; rewrite mxE (negPf Hp) mulr0n mulr0.
apply: (C64_full_reparametrisation T1 T2 D1 D2 Hf Hs2 H1 H2 Hl (Q := Q)).
- apply/matrixP => p p'; rewrite !mxE (bigD1 (sg' p)) //= big1 ?addr0.
    by rewrite !mxE K2 eqxx mulr1n mulrnAr -expr2 He eq_sym.
  move=> q Hq; rewrite !mxE; case: (eqVneq p (sg q)) Hq => [->|_ _]; first by rewrite K1 eqxx.
  by rewrite mulr0n mul0r.
- apply/matrixP => q q'; rewrite !mxE (bigD1 (sg q)) //= big1 ?addr0.
    rewrite !mxE eqxx mulr1n mulrnAr (can_eq K1); case: eqP => [->|_]; by rewrite ?mulr0n // !mulr1n -expr2 He.
  by move=> p Hp; rewrite !mxE (negPf Hp) mulr0n mul0r.
- by apply: Hthru; left.
- by move=> [z y] Hd; apply: Hthru; right; exists y.
Qed.
End TwoSetups.
Print Assumptions C64_full_reparametrisation.
Print Assumptions C64_full_reordering.
Print Assumptions C64_diagonal_reordering.

(** ** Order of the data *)
Lemma ggn_matrix_perm (X : Type) K n s f pred J (data data' : seq (X * arr R)) :
  Permutation data data' -> ggn_matrix K n s f pred J data = ggn_matrix K n s f pred J data'.
Proof.
move=> H; rewrite /ggn_matrix; congr (_ *: _).
elim: H => [|d l l' _ IH|d d' l|l l' l'' _ IH1 _ IH2] //.
- by rewrite !big_cons IH.
- by rewrite !big_cons addrCA.
- by rewrite IH1.
Qed.

(** The order in which the training data are listed does not matter, for either approximation. *)
Theorem C64_data_order :
  forall (X Key : Type) (K : nat) split normal (key0 : Key) model ad_jvp ad_vjp t s pred J key kw ops (x : X)
    data data' nc nt f s2 tau lsf,
  Permutation data data' ->
  test_point model ad_jvp ad_vjp t s pred J kw ops x -> data_ok K model ad_jvp ad_vjp t pred J data ->
  curv_scaling_factor nc nt (size data) = Ok f -> 0 <= odflt 1 s2 -> 0 < tau -> 0 < lsf ->
  let full d := run K split normal key0 model ad_jvp ad_vjp t s key kw ops x d nc nt s2 tau lsf in
  let diag d := linearised_predictive split normal key0 model ad_jvp ad_vjp t
     (laplace_posterior_diagonal K model ad_jvp ad_vjp t d s nc nt s2 lsf tau) key
     (@lin_setup RR X :: [seq stat_fn o | o <- ops]) kw x in
  (exists r r', [/\ full data = Ok r, full data' = Ok r' & same_report r r']) /\
  (exists r r', [/\ diag data = Ok r, diag data' = Ok r' & same_report r r']).
Proof.
move=> X Key K split normal key0 model ad_jvp ad_vjp t s pred J key kw ops x data data' nc nt f s2 tau lsf
  HP T D Hf Hs2 Ht Hl full diag.
have D' : data_ok K model ad_jvp ad_vjp t pred J data'.
  by move=> d Hd; apply: D; apply: Permutation_in Hd; apply: Permutation_sym.
have Hf' : curv_scaling_factor nc nt (size data') = Ok f.
  have Esz (l : seq (X * arr R)) : size l = List.length l by elim: l => //= a l ->.
  by rewrite Esz -(Permutation_length HP) -Esz.
split.
- have [r1 E1 L1] := run_report split normal key0 key T D Hf Hs2 Ht Hl.
  have [r2 E2 L2] := run_report split normal key0 key T D' Hf' Hs2 Ht Hl.
  exists r1, r2; split=> //; apply: report_same L1 L2 => i j _ _.
  by rewrite (ggn_matrix_perm K _ s f pred J HP).
- have [r1 E1 L1] := diag_report split normal key0 key T D Hf Hs2 Ht Hl.
  have [r2 E2 L2] := diag_report split normal key0 key T D' Hf' Hs2 Ht Hl.
  exists r1, r2; split=> //; apply: report_same L1 L2 => i j _ _.
  by rewrite (ggn_matrix_perm K _ s f pred J HP).
Qed.
Print Assumptions C64_data_order.

(** ** Evidence *)
Lemma loss_map_same K (f1 f2 : R -> R) (l : loss_out K) : (forall r, f1 r = f2 r) -> loss_map f1 l = loss_map f2 l.
Proof.
move=> H; case: l => [r|vs] /=; first by rewrite H.
by congr PerEntry; apply: eq_map => v; apply/colP => i; rewrite !mxE H.
Qed.

Lemma norm_basis P (Q : 'M[R]_P) c (p : 'cV[R]_P) : Q^T *m Q = c%:M ->
  \sum_i (Q *m p) i ord0 ^+ 2 = c * \sum_i p i ord0 ^+ 2.
Proof.
move=> HQ; have E (v : 'cV[R]_P) : \sum_i v i ord0 ^+ 2 = (v^T *m v) ord0 ord0.
  by rewrite mxE; apply: eq_bigr => i _; rewrite mxE expr2.
by rewrite !E trmx_mul mulmxA -[_ *m Q^T *m Q]mulmxA HQ mul_mx_scalar -scalemxAl mxE.
Qed.

(** The log marginal likelihood of the full curvature is the same in rotated parameters, and in scaled
    ones if the prior precision is scaled with them: whatever the loss, the noise and the scaling
    factor. *)
Theorem C64_evidence :
  forall (P K : nat) (X : Type) (model : X -> 'cV[R]_P -> 'cV[R]_K)
    (C Q : 'M[R]_P) (s2 sg : option R) data params loss_fn (lsf tau1 tau2 : R),
  let model2 x p := model x (Q *m p) in
  let pa tau := MllPrior (@PriorArguments RR (Some tau) s2) sg in
  psd (R := RR) C -> 0 <= odflt 1 s2 -> 0 < tau1 -> 0 < tau2 -> 0 < lsf ->
  Q^T *m Q = (tau2 / tau1)%:M ->
  marginal_log_likelihood model2 (FullCurv (Q^T *m C *m Q)) (pa tau2) data params loss_fn lsf =
  marginal_log_likelihood model (FullCurv C) (pa tau1) data (Q *m params) loss_fn lsf.
Proof.
move=> P K X model C Q s2 sg data params loss_fn lsf tau1 tau2 model2 pa HC Hs H1 H2 Hl HQ.
have c0 : 0 < tau2 / tau1 by rewrite divr_gt0.
set c := tau2 / tau1 in HQ c0.
have Hsp : 0 < \det (posterior_precision C (odflt 1 s2) tau1 lsf).
  by apply: spd_det_gt0; apply: (spd_precision (R := RR)).
set P1 := posterior_precision C (odflt 1 s2) tau1 lsf in Hsp.
have EP : posterior_precision (Q^T *m C *m Q) (odflt 1 s2) tau2 lsf = Q^T *m P1 *m Q.
  rewrite /P1 /posterior_precision -scalemxAr -scalemxAl; congr (_ *: _).
  rewrite mulmxDr mulmxDl -!scalemxAr -!scalemxAl mulmx1 HQ; congr (_ + _).
  by rewrite scalemx1 scale_scalar_mx /c mulrCA mulfV ?mulr1 // gt_eqF.
have ED : \det (Q^T *m P1 *m Q) = c ^+ P * \det P1.
  rewrite !det_mulmx mulrAC -det_mulmx HQ det_scalar //.
have key : log_prior tau2 params - evidence P (full_log_det (Q^T *m P1 *m Q)) =
    log_prior tau1 (Q *m params) - evidence P (full_log_det P1).
  rewrite /log_prior /evidence /full_log_det ED (norm_basis _ HQ) !gtr0_norm ?mulr_gt0 ?exprn_gt0 //.
  rewrite [ln (c ^+ P * _)]lnM ?exprn_gt0 // lnX // [ln c]lnM ?invr_gt0 // lnV //.
  set S := \sum_i _; have -> : - 2%:R^-1 * tau1 * (tau2 / tau1 * S) = - 2%:R^-1 * tau2 * S.
    by rewrite -!mulrA; congr (_ * _); rewrite mulrCA; congr (_ * _); rewrite mulrA mulfV ?mul1r // gt_eqF.
  move: S (\det P1) (P%:R : R) => S D p; numR; eqR; field.
have Es t : get_sigma_squared (mp_prior (pa t)) = odflt 1 s2 by exact: sigma_default.
rewrite /marginal_log_likelihood /marginal_log_likelihood_with.
have Hl2 f1 f2 : f1 data params = f2 data (Q *m params) ->
    (let! prec := full_curvature_to_precision (Q^T *m C *m Q) (mp_prior (pa tau2)) lsf in
      full_marginal_log_likelihood prec f1 (pa tau2) params data) =
    (let! prec := full_curvature_to_precision C (mp_prior (pa tau1)) lsf in
      full_marginal_log_likelihood prec f2 (pa tau1) (Q *m params) data) :> res (loss_out K).
  move=> E; rewrite /full_curvature_to_precision /= !Es /full_marginal_log_likelihood /marginal_from /joint_log_likelihood /=.
  rewrite -/(posterior_precision _ _ _ _) EP E; congr Ok.
  rewrite -/(posterior_precision C (odflt 1 s2) tau1 lsf) -/P1.
  move: (log_prior tau2 params) (log_prior tau1 (Q *m params)) key => a b key.
  case: (f2 data (Q *m params)) => [r|vs] /=.
    by rewrite -!addrA key.
  congr PerEntry; rewrite -!map_comp; apply: eq_map => v; apply/colP => i; rewrite /= !mxE.
  by rewrite -!addrA key.
case: loss_fn => [s|g] /=; last exact: Hl2.
by case: ifP => _; [exact: Hl2|case: ifP => _ //; exact: Hl2].
Qed.
Print Assumptions C64_evidence.

(** ** Non-vacuity, and rotations under the diagonal approximation *)
(** Any matrix of entries is the Jacobian of some pair of operators. *)
Definition mat_op (A : nat -> nat -> R) (tin tout : tree (arr R)) (u : tree (arr R)) : res (tree (arr R)) :=
  pytree_unflatten tout (matvec (R := RR) A (nentries tout) (nentries tin) (entries u)).
Lemma mat_op_jacobian A t (out : arr R) : leaves t <> [::] ->
  is_jacobian (R := RR) A t out (mat_op A t (Leaf out)) (mat_op (fun p a => A a p) (Leaf out) t).
Proof.
move=> L0; split=> u W S.
- have [||w [E1 E2 E3 E4]] := @unflatten_ok R R (Leaf out) (matvec (R := RR) A (nentries (Leaf out)) (nentries t) (entries u)) => //.
    by rewrite size_mkseq.
  by exists w; split.
- have [||w [E1 E2 E3 E4]] := @unflatten_ok R R t (matvec (R := RR) (fun p a => A a p) (nentries t) (nentries (Leaf out)) (entries u)) => //.
    by rewrite size_mkseq.
  by exists w; split.
Qed.

Section Example.
Let out : arr R := Arr [:: 1%N] [:: 3%:R].
(** One array with two entries, and a dictionary of two arrays with one entry each. *)
Let t1 : tree (arr R) := Leaf (Arr [:: 2%N] [:: 1; 2%:R]).
Let t2 : tree (arr R) := Node (NDict [:: "a"%string; "b"%string]) [:: Leaf (Arr [:: 1%N] [:: 1]); Leaf (Arr [:: 1%N] [:: 2%:R])].
(** The first parameter, and the first parameter in axes rotated by the angle with sine 3/5. *)
Let J1 (_ : unit) (i p : nat) : R := if p == 0%N then 1 else 0.
Let J2 (_ : unit) (i q : nat) : R := if q == 0%N then 3%:R / 5%:R else 4%:R / 5%:R.
Let Q : 'M[R]_(get_size t1, get_size t2) :=
  \matrix_(p, q) (if (p : nat) == 0%N then J2 tt 0 q else if (q : nat) == 0%N then - (4%:R / 5%:R) else 3%:R / 5%:R).
Let model (_ : unit) (_ : tree (arr R)) : res (arr R) := Ok out.
Let jv J (t : tree (arr R)) (z : unit) := mat_op (J z) t (Leaf out).
Let vj (J : unit -> nat -> nat -> R) (t : tree (arr R)) (z : unit) := mat_op (fun p a => J z a p) (Leaf out) t.
Let data : seq (unit * arr R) := [:: (tt, out)].
Let full J t := run 1 (fun k n => nseq n k) (fun _ sh => nseq (prodn sh) 0) tt model (jv J t) (vj J t) t "mse" None
  (kw0 None) [:: SVar] tt data None None None 1 1.
Let diag J t := linearised_predictive (fun k n => nseq n k) (fun _ sh => nseq (prodn sh) 0) tt model (jv J t) (vj J t) t
  (laplace_posterior_diagonal 1 model (jv J t) (vj J t) t data "mse" None None None 1 1) None
  (@lin_setup RR unit :: [seq stat_fn o | o <- [:: SVar]]) (kw0 None) tt.

Lemma rot_point J t : leaves t <> [::] -> (0 < get_size t)%N ->
  test_point model (jv J t) (vj J t) t "mse" (fun _ => out) J (kw0 None) [:: SVar] tt.
Proof. by move=> L0 S0; split; [split=> //; [left | split=> //; apply: mat_op_jacobian] | left]. Qed.
Lemma rot_data J t : leaves t <> [::] -> data_ok 1 model (jv J t) (vj J t) t (fun _ => out) J data.
Proof. by move=> L0 d [<-|//]; split=> //; apply: mat_op_jacobian. Qed.
Lemma rot_through z : @jacobian_through unit t1 t2 (fun _ => out) J1 J2 Q z.
Proof.
move=> i q _; rewrite big_ord_recl big1 ?addr0 => [|p _].
  by rewrite mxE /= /J1 /= mul1r.
by rewrite /J1 /= mul0r.
Qed.
Lemma rot_orth : Q *m Q^T = (1 / 1)%:M /\ Q^T *m Q = (1 / 1)%:M.
Proof.
rewrite divr1; split; apply/matrixP => -[[|[|//]] Hi] [[|[|//]] Hj]; rewrite !mxE big_ord_recl big_ord_recl big_ord0 !mxE /= /J2 /= addr0.
all: by rewrite ?mulr1n ?mulr0n; numR; eqR; field.
Qed.

(** Non-vacuity: one array against a rotated dictionary of two arrays. *)
Example C64_example : exists r1 r2, [/\ full J1 t1 = Ok r1, full J2 t2 = Ok r2 & same_report r1 r2].
Proof.
have [O1 O2] := rot_orth.
have L1 : leaves t1 <> [::] by []. have L2 : leaves t2 <> [::] by [].
exact: (@C64_full_reparametrisation unit unit unit 1 _ _ _ _ _ _ model model (jv J1 t1) (vj J1 t1) (jv J2 t2) (vj J2 t2)
  t1 t2 "mse" (fun _ => out) J1 J2 None None (kw0 None) [:: SVar] tt data None None 1 None 1 1 1 Q
  (@rot_point J1 t1 L1 isT) (@rot_point J2 t2 L2 isT) (@rot_data J1 t1 L1) (@rot_data J2 t2 L2)
  ex_factor ler01 ltr01 ltr01 ltr01 O1 O2 (@rot_through _) (fun d _ => @rot_through d.1)).
Qed.

Lemma rot_hessian (z : 'cV[R]_1) : loss_hessian "mse" z = 2%:R%:M.
Proof. by rewrite /loss_hessian /=. Qed.

(** Claim "rotating the parameters does not change the report of the diagonal approximation": false.
    Here the hypotheses of [C64_full_reparametrisation] hold, the full approximation reports the same
    for both parametrisations, and the diagonal one reports the variance 1/3 for the first and
    9/43 + 16/57 for the second. *)
Theorem C64_diagonal_rotation_refuted :
  exists r1 r2 v1 v2,
    [/\ diag J1 t1 = Ok r1 /\ diag J2 t2 = Ok r2, r_pred_var r1 = Some v1 /\ r_pred_var r2 = Some v2,
        adata v1 = [:: 3%:R^-1], adata v2 = [:: 9%:R / 43%:R + 16%:R / 57%:R] & ~ same_report r1 r2].
Proof.
have L1 : leaves t1 <> [::] by []. have L2 : leaves t2 <> [::] by [].
have [r1 [v1 [A1 _ [A2 A3] A4]]] := @C54_diagonal_predictive unit unit 1 (fun k n => nseq n k) (fun _ sh => nseq (prodn sh) 0) tt
  _ _ _ _ _ _ _ None _ _ _ data None None 1 None 1 1 (@rot_point J1 t1 L1 isT) (@rot_data J1 t1 L1) ex_factor ler01 ltr01 ltr01.
have [r2 [v2 [B1 _ [B2 B3] B4]]] := @C54_diagonal_predictive unit unit 1 (fun k n => nseq n k) (fun _ sh => nseq (prodn sh) 0) tt
  _ _ _ _ _ _ _ None _ _ _ data None None 1 None 1 1 (@rot_point J2 t2 L2 isT) (@rot_data J2 t2 L2) ex_factor ler01 ltr01 ltr01.
have G J t (p : 'I_(get_size t)) : ggn_matrix 1 (get_size t) "mse" 1 (fun _ => out) J data p p = 2%:R * J tt 0%N p ^+ 2.
  rewrite /ggn_matrix /= big_cons big_nil addr0 scale1r quad_entry big_ord1 big_ord1 !mxE.
  by rewrite eqxx mulr1n /= [_ * 2%:R]mulrC -mulrA -expr2.
have V (v : arr R) c : size (adata v) = 1%N -> nth 0 (adata v) 0 = c -> adata v = [:: c].
  by case: (adata v) => [//|a [|//]] _ /= ->.
have E1 : adata v1 = [:: 3%:R^-1].
  apply: V A3 _; have [-> _] := A4 ord0.
  transitivity (\sum_(p < get_size t1) J1 tt 0%N p ^+ 2 * (1 / (1 * (2%:R * J1 tt 0%N p ^+ 2) + 1))).
    by apply: eq_bigr => p _; rewrite G.
  rewrite !big_ord_recl big_ord0 /= /J1 /= expr1n expr0n /= !mulr0 !mul0r !addr0 !mulr1 !mul1r.
  by rewrite -(natrD _ 2 1).
have E2 : adata v2 = [:: 9%:R / 43%:R + 16%:R / 57%:R].
  apply: V B3 _; have [-> _] := B4 ord0.
  transitivity (\sum_(p < get_size t2) J2 tt 0%N p ^+ 2 * (1 / (1 * (2%:R * J2 tt 0%N p ^+ 2) + 1))).
    by apply: eq_bigr => p _; rewrite G.
  rewrite !big_ord_recl big_ord0 /= /J2 /= !expr2 !addr0 !mul1r.
  have P (a b : R) : 0 <= a -> a = b * (2%:R * a + 1) -> a / (2%:R * a + 1) = b.
    move=> H E; rewrite {1}E mulfK // gt_eqF // ltr_paddl ?ltr01 // mulr_ge0 ?ler0n //.
  have Q0 (a b : nat) : 0 <= a%:R / b%:R * (a%:R / b%:R) :> R by rewrite -expr2 sqr_ge0.
  by congr (_ + _); apply: P (Q0 _ _) _; numR; eqR; field.
exists r1, r2, v1, v2; split=> //.
move=> [_ _ E _ _]; move: E; rewrite A2 B2 => -[E]; move: E1; rewrite E E2 => -[H].
have E9 : 9%:R / 43%:R + 16%:R / 57%:R = 3%:R^-1 + 128%:R / 19%:R / 43%:R :> R by numR; eqR; field.
move: H; rewrite E9 => /eqP; rewrite -subr_eq0 addrAC subrr add0r !mulf_eq0 !invr_eq0 !pnatr_eq0.
by [].
Qed.
End Example.
Print Assumptions C64_diagonal_rotation_refuted.
