(** Property C66, continued: the marginal likelihood with curvature estimated from mini-batches. *)
From Coq Require Import Reals String.
From mathcomp Require Import all_ssreflect all_algebra.
From Verif Require Import Base RealStruct RealSums PyTree Mv GgnSpec Ggn GgnProofs Posterior PosteriorSpec PosteriorProofs
  PushforwardSpec PipelineSpec LowRankSolvers LowRankSpec Likelihood.
From Verif Require Import P_Ggn P_Pipeline P_Posterior P_Monotone P_Likelihood OrderProofs P_Compare P_Evidence P_EvidenceShape P_Minibatch LanczosProofs.
Set Implicit Arguments.
Unset Strict Implicit.
Unset Printing Implicit Defensive.
Import GRing.Theory Num.Theory Order.TTheory.
Local Open Scope ring_scope.
Notation RR := [rcfType of R].

(** The logarithm of the determinant is concave. *)
Lemma lndet_concave n (I : finType) (Q : pred I) (w : R) (B : I -> 'M[R]_n) (C : 'M[R]_n) :
  0 <= w -> w *+ #|Q| = 1 -> (forall i, Q i -> spd (R := RR) (B i)) -> spd (R := RR) C ->
  C = w *: (\sum_(i | Q i) B i) -> w * (\sum_(i | Q i) ln (\det (B i))) <= ln (\det C).
Proof.
move=> w0 w1 HB HC E; rewrite -subr_le0.
have -> : w * (\sum_(i | Q i) ln (\det (B i))) - ln (\det C) = w * (\sum_(i | Q i) (ln (\det (B i)) - ln (\det C))).
  by rewrite sumrB sumr_const mulrBr [w * (_ *+ _)]mulrnAr -mulrnAl w1 mul1r.
apply: (@le_trans _ _ (w * (\sum_(i | Q i) (\tr (invmx C *m B i) - n%:R)))).
  by apply: ler_wpmul2l => //; apply: ler_sum => i Qi; apply: lndet_le => //; apply: HB.
rewrite sumrB sumr_const mulrBr [w * (_ *+ _)]mulrnAr -mulrnAl w1 mul1r.
rewrite (_ : w * _ = n%:R) ?subrr //.
by rewrite -raddf_sum /= -mulmx_sumr -mxtraceZ scalemxAr -E mulVmx ?mxtrace1 // (spd_unit HC).
Qed.

(** Hypotheses as for the prior precision: a loss with a scalar value, [sigma_squared], ["sigma"], loss
    scaling and parameters as given. *)
Section Evidence.
Variables (P K : nat) (X : Type) (model : X -> 'cV[R]_P -> 'cV[R]_K) (s2 sg : option R) (lsf tau L : R)
  (data : seq (X * 'cV[R]_K)) (params : 'cV[R]_P) (loss_fn : closs_arg K) (full_fn : seq (X * 'cV[R]_K) -> 'cV[R]_P -> loss_out K).
Hypotheses (Hs : 0 <= odflt 1 s2) (Hl : 0 < lsf) (Ht : 0 < tau)
  (Ec : concatenate_model_and_loss_fn model loss_fn = Ok full_fn) (El : full_fn data params = Scalar K L).
Let mll A :=
  marginal_log_likelihood model (FullCurv A) (MllPrior (@PriorArguments RR (Some tau) s2) sg) data params loss_fn lsf.

(** C66.  Curvature estimates never understate the marginal likelihood on average: the marginal likelihood
    of the mean of finitely many curvatures, all equally likely, is at most the mean of theirs. *)
Theorem C66_average_curvature (I : finType) (Q : I -> bool) (m : nat) (A : I -> 'M[R]_P) :
  #|[pred i | Q i]| = m -> (0 < m)%N -> (forall i, Q i -> psd (R := RR) (A i)) ->
  exists (v : R) (vs : I -> R),
    [/\ mll (m%:R^-1 *: (\sum_(i | Q i) A i)) = Ok (Scalar K v), (forall i, Q i -> mll (A i) = Ok (Scalar K (vs i))) &
        v <= m%:R^-1 * (\sum_(i | Q i) vs i)].
Proof.
move=> Hm m0 HA; set w : R := m%:R^-1; set M := w *: _.
have mn : m%:R != 0 :> R by rewrite pnatr_eq0 -lt0n.
have w0 : 0 <= w by rewrite invr_ge0 ler0n.
have w1 : w *+ #|Q| = 1 by rewrite -[LHS]mulr_natr (_ : #|Q| = m) ?mulVf // -Hm; apply: eq_card.
have HM : psd (R := RR) M.
  apply: psd_scale => //; elim/big_ind: _ => //; last by move=> B C; apply: (@psd_add RR).
  exact: (@psd0 RR).
exists (- (L / (2%:R * odflt 1 sg)) + 2%:R^-1 * (P%:R * ln lsf) +
    2%:R^-1 * (P%:R * ln tau - tau * square_norm params - ln (\det (odflt 1 s2 *: M + tau%:M)))).
exists (fun i => - (L / (2%:R * odflt 1 sg)) + 2%:R^-1 * (P%:R * ln lsf) +
    2%:R^-1 * (P%:R * ln tau - tau * square_norm params - ln (\det (odflt 1 s2 *: A i + tau%:M)))).
split; [exact: (evidence_value sg HM Hs Hl Ec El Ht) | by move=> i Qi; exact: (evidence_value sg (HA i Qi) Hs Hl Ec El Ht) |].
set c := _ + 2%:R^-1 * (P%:R * ln lsf); set d := P%:R * ln tau - _.
have -> : w * (\sum_(i | Q i) (c + 2%:R^-1 * (d - ln (\det (odflt 1 s2 *: A i + tau%:M))))) =
    c + 2%:R^-1 * (d - w * (\sum_(i | Q i) ln (\det (odflt 1 s2 *: A i + tau%:M)))).
  have AV (e : R) (f : I -> R) : w * (\sum_(i | Q i) (e + f i)) = e + w * (\sum_(i | Q i) f i).
    by rewrite big_split /= sumr_const mulrDr [w * (_ *+ _)]mulrnAr -mulrnAl w1 mul1r.
  by rewrite AV -mulr_sumr mulrCA AV sumrN mulrN.
rewrite ler_add2l ler_pmul2l ?invr_gt0 ?ltr0n // ler_add2l ler_opp2.
apply: (lndet_concave w0 w1) => [i Qi||]; try by apply: spd_shift => //; apply: psd_scale => //; exact: HA.
rewrite big_split /= sumr_const scalerDr -scaler_sumr; congr (_ + _).
  by rewrite /M !scalerA mulrC.
by rewrite -[_ *+ _]scaler_nat scalerA mulr_natr w1 scale1r.
Qed.

(** C66.  The same for the GGN matrices of mini-batches of [b] different samples ([num_total_samples] the
    size of the data set). *)
Theorem C66_minibatch_curvature n b (train : n.-tuple (X * 'cV[R]_K)) jac loss loss_hess whole
    (G : 'M[R]_P) (Gs : {set 'I_n} -> 'M[R]_P) :
  let ggn d := create_ggn_mv model jac params d loss None (Some n) loss_hess in
  (0 < b <= n)%N -> ggn train = Ok whole -> (forall v, whole v = G *m v) ->
  (forall A : {set 'I_n}, #|A| = b -> psd (R := RR) (Gs A) /\
     exists mv, ggn (batch train A) = Ok mv /\ forall v, mv v = Gs A *m v) ->
  exists (v : R) (vs : {set 'I_n} -> R),
    [/\ mll G = Ok (Scalar K v), (forall A : {set 'I_n}, #|A| = b -> mll (Gs A) = Ok (Scalar K (vs A))) &
        v <= 'C(n, b)%:R^-1 * (\sum_(A : {set 'I_n} | #|A| == b) vs A)].
Proof.
move=> ggn Hb Ew EG HG.
have [mvs [E1 E2]] := C16_minibatch_without_replacement Hb Ew.
have -> : G = 'C(n, b)%:R^-1 *: (\sum_(A : {set 'I_n} | #|A| == b) Gs A).
  apply/matrixP => i j.
  have D (N : 'M[R]_P) : N i j = (N *m delta_mx j ord0 : 'cV[R]_P) i ord0 by rewrite -colE mxE.
  rewrite (D G) -EG -E2 [RHS]D -scalemxAl mulmx_suml; congr (fun_of_matrix (_ *: _) _ _).
  apply: eq_bigr => A /eqP HA; have [_ [mv [Em EM]]] := HG A HA; rewrite -EM.
  by have := E1 A HA; rewrite -/(ggn _) Em => -[->].
have H := card_draws [finType of 'I_n] b; rewrite card_ord in H.
have [|||v [vs [H1 H2 H3]]] := @C66_average_curvature _ (fun A : {set 'I_n} => #|A| == b) 'C(n, b) Gs.
- by rewrite -H; apply: eq_card => A; rewrite !inE.
- by rewrite bin_gt0; case/andP: Hb.
- by move=> A /eqP /HG [].
by exists v, vs; split=> // A /eqP HA; apply: H2.
Qed.
End Evidence.
Print Assumptions C66_average_curvature.
Print Assumptions C66_minibatch_curvature.

(** Non-vacuity: two samples of a model with one parameter, one at a time. *)
Example C66_minibatch_example (y1 y2 : 'cV[R]_1) :
  let train := [tuple (tt, y1); (tt, y2)] in
  let ggn d := create_ggn_mv (fun (_ : unit) (p : 'cV[R]_1) => p) (fun _ _ => 1%:M) 0 d (LossStr "mse"%string) None (Some 2%N) None in
  exists whole (G : 'M[R]_1) (Gs : {set 'I_2} -> 'M[R]_1),
    [/\ ggn train = Ok whole, (forall v, whole v = G *m v) &
     forall A : {set 'I_2}, #|A| = 1%N -> psd (R := RR) (Gs A) /\
       exists mv, ggn (batch train A) = Ok mv /\ forall v, mv v = Gs A *m v].
Proof.
move=> train ggn.
have H (d : seq (unit * 'cV[R]_1)) : (0 < size d)%N -> exists mv, ggn d = Ok mv /\
    forall v, mv v = (2%:R / (size d)%:R * (2 * size d)%:R)%:M *m v.
  case: d => // d0 d _; eexists; split; first reflexivity.
  move=> v; cbv beta; rewrite ggn_mvE [RHS]mul_scalar_mx -scalerA; congr (_ *: _).
  rewrite (eq_bigr (fun=> 2%:R *: v)) => [|i _]; last by rewrite trmx1 !mul1mx.
  by rewrite big_const_seq count_predT iter_addr_0 -scaler_nat scalerA -natrM mulnC.
have [whole [E1 E2]] := H train isT.
exists whole, (2%:R / 2%:R * (2 * 2)%:R)%:M, (fun=> (2%:R / 1%:R * (2 * 1)%:R)%:M); split=> // A HA.
have S : size (batch train A) = 1%N by rewrite size_map -cardE.
have [|mv [M1 M2]] := H (batch train A); first by rewrite S.
split; last by exists mv; split=> // v; rewrite M2 S.
split=> [|v]; first by rewrite /symmetric tr_scalar_mx.
by rewrite mul_scalar_mx dotvZ !mulr_ge0 ?invr_ge0 ?ler0n // (@dotvv_ge0 RR).
Qed.
