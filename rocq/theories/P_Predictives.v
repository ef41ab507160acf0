(** C37: closed-form predictives. *)
From Coq Require Import Reals Lra.
From mathcomp Require Import all_ssreflect all_algebra.
From Verif Require Import Base PyTree RealStruct RealSums Ggn GgnSpec Predictives PredictivesProofs.
Set Implicit Arguments.
Unset Strict Implicit.
Unset Printing Implicit Defensive.
Import GRing.Theory Num.Theory Order.TTheory.
Local Open Scope ring_scope.

(** A probability vector. *)
Definition is_distribution (n : nat) (p : 'cV[R]_n) :=
  (forall i, 0 < p i ord0 <= 1) /\ \sum_i p i ord0 = 1.

(** mean_field_0 is a probability vector whatever the mean and the variances. *)
Theorem C37_mean_field_0_distribution :
  forall (n : nat) (mean var : 'cV[R]_n.+1), is_distribution (mean_field_0_predictive mean var).
Proof.
move=> n mean var; split; last exact: softmax_sum.
by move=> i; rewrite softmax_gt0 softmax_le1.
Qed.
Print Assumptions C37_mean_field_0_distribution.

(** ... and it is the softmax of the logits divided by [sqrt (1 + pi/8 var)]. *)
Theorem C37_mean_field_0_value :
  forall (n : nat) (mean var : 'cV[R]_n.+1) i,
  let z k := mean k ord0 / sqrt (1 + PI / 8%:R * var k ord0) in
  mean_field_0_predictive mean var i ord0 = exp (z i) / \sum_k exp (z k).
Proof.
move=> n mean var i z; rewrite !mxE; congr (_ / _).
by apply: eq_bigr => k _; rewrite mxE.
Qed.
Print Assumptions C37_mean_field_0_value.

(** All three mean-field predictives are the softmax of the mean when there is no uncertainty. *)
Theorem C37_zero_variance :
  forall (n : nat) (mean : 'cV[R]_n.+1),
  mean_field_0_predictive mean 0 = class_probs mean /\
  mean_field_1_predictive mean 0 = class_probs mean /\
  mean_field_2_predictive mean 0 = class_probs mean.
Proof.
move=> n mean; rewrite -[class_probs mean]/(softmax mean); split; [|split].
- rewrite /mean_field_0_predictive; congr (softmax _); apply/matrixP => i j.
  by rewrite [j]ord1 !mxE mulr0 addr0 sqrtR1 divr1.
- rewrite -invsum_softmax; apply/matrixP => i j; rewrite !mxE; congr (_^-1).
  by apply: eq_bigr => k _; rewrite !mxE !addr0 mulr0 addr0 sqrtR1 divr1.
- rewrite -invsum_softmax; apply/matrixP => i j; rewrite !mxE; congr (_^-1).
  by apply: eq_bigr => k _; rewrite !mxE !mulr0 subr0 !addr0 mulr0 addr0 sqrtR1 divr1.
Qed.
Print Assumptions C37_zero_variance.

(** mean_field_1 and mean_field_2 give values in (0, 1]. *)
Theorem C37_mean_field_1_range :
  forall (n : nat) (mean var : 'cV[R]_n.+1) (cov : 'M[R]_n.+1) i,
  0 < mean_field_1_predictive mean var i ord0 <= 1 /\
  0 < mean_field_2_predictive mean cov i ord0 <= 1.
Proof.
move=> n mean var cov i; split.
- pose e i j := (mean j ord0 - mean i ord0) / sqrt (1 + LAMBDA_0 * (var i ord0 + var j ord0)).
  have e0 k : e k k = 0 by rewrite /e subrr mul0r.
  by have := invsum_gt0 e0 i; have := invsum_le1 e0 i; rewrite !mxE => -> ->.
- pose e i j := (mean j ord0 - mean i ord0) / sqrt (1 + LAMBDA_0 * (cov i i + cov j j - 2%:R * cov i j)).
  have e0 k : e k k = 0 by rewrite /e subrr mul0r.
  by have := invsum_gt0 e0 i; have := invsum_le1 e0 i; rewrite !mxE => -> ->.
Qed.
Print Assumptions C37_mean_field_1_range.

(** With a diagonal covariance mean_field_2 is mean_field_1, except that it sees no variance
    in the difference of a class with itself, which does not matter. *)
Theorem C37_mean_field_2_diagonal :
  forall (n : nat) (mean : 'cV[R]_n.+1) (var : 'cV[R]_n.+1),
  mean_field_2_predictive mean (diag_mx var^T) = mean_field_1_predictive mean var.
Proof.
move=> n mean var; apply/matrixP => i j; rewrite !mxE; congr (_^-1); apply: eq_bigr => k _.
rewrite !mxE !eqxx !mulr1n; case: (i =P k) => [->|_]; first by rewrite subrr !mul0r.
by rewrite mulr0n mulr0 subr0.
Qed.
Print Assumptions C37_mean_field_2_diagonal.

(** Equal variances: mean_field_1 is mean_field_0 with the doubled variance, in particular a
    probability vector. *)
Theorem C37_mean_field_1_equal_variances :
  forall (n : nat) (mean : 'cV[R]_n.+1) (v : R),
  mean_field_1_predictive mean (const_mx v) = mean_field_0_predictive mean (const_mx (v + v)).
Proof.
move=> n mean v; rewrite /mean_field_0_predictive -invsum_softmax.
apply/matrixP => i j; rewrite !mxE; congr (_^-1); apply: eq_bigr => k _.
by rewrite !mxE mulrBl.
Qed.
Print Assumptions C37_mean_field_1_equal_variances.

(** Two classes: mean_field_1 (and 2, for a symmetric covariance) is a probability vector. *)
Lemma two_class (x y : R) : x = - y -> (1 + exp x)^-1 + (1 + exp y)^-1 = 1.
Proof.
move=> ->; have := sigmoidN y; rewrite /sigmoid opprK !div1r => ->.
by rewrite addrC subrK.
Qed.
Theorem C37_two_classes :
  forall (mean var : 'cV[R]_2) (cov : 'M[R]_2), cov^T = cov ->
  is_distribution (mean_field_1_predictive mean var) /\
  is_distribution (mean_field_2_predictive mean cov).
Proof.
move=> mean var cov Hc; split; split.
- by move=> i; case: (C37_mean_field_1_range mean var cov i).
- rewrite !(big_ord_recl, big_ord0) !mxE !(big_ord_recl, big_ord0) !subrr !mul0r !expR0 !addr0.
  rewrite [exp _ + 1]addrC; apply: two_class.
  by rewrite -mulNr opprB [var ord0 _ + _]addrC.
- by move=> i; case: (C37_mean_field_1_range mean var cov i).
- rewrite !(big_ord_recl, big_ord0) !mxE !(big_ord_recl, big_ord0) !subrr !mul0r !expR0 !addr0.
  rewrite [exp _ + 1]addrC; apply: two_class.
  rewrite -[RHS]mulNr opprB [cov ord0 ord0 + _]addrC.
  by have -> : cov (lift ord0 ord0) ord0 = cov ord0 (lift ord0 ord0) by rewrite -{1}Hc mxE.
Qed.
Print Assumptions C37_two_classes.

(** Only differences of logits matter to mean_field_1 and mean_field_2: adding a constant to the
    mean changes nothing, adding a constant to the whole covariance changes nothing. *)
Theorem C37_shift_invariance :
  forall (n : nat) (mean var : 'cV[R]_n.+1) (cov : 'M[R]_n.+1) (c d : R),
  mean_field_1_predictive (mean + const_mx c) var = mean_field_1_predictive mean var /\
  mean_field_2_predictive (mean + const_mx c) (cov + const_mx d) = mean_field_2_predictive mean cov.
Proof.
move=> n mean var cov c d; split; apply/matrixP => i j; rewrite !mxE; congr (_^-1); apply: eq_bigr => k _;
  rewrite !mxE opprD addrACA subrr addr0 //.
suff -> : cov i i + d + (cov k k + d) - 2%:R * (cov i k + d) = cov i i + cov k k - 2%:R * cov i k by [].
by rewrite addrACA mulrDr opprD [LHS]addrACA [2%:R * d]mulr_natl -mulr2n subrr addr0.
Qed.
Print Assumptions C37_shift_invariance.

(** mean_field_1 is not normalised in general: three classes, one uncertain, give total 83/84. *)
Theorem C37_mean_field_1_not_normalised_refuted :
  exists mean var : 'cV[R]_3, (forall i, 0 <= var i ord0) /\
    \sum_i mean_field_1_predictive mean var i ord0 = 83%:R / 84%:R.
Proof.
pose L2 := ln 2%:R.
pose mean : 'cV[R]_3 := \col_i (if i == ord0 then L2 + L2 else 0).
pose var : 'cV[R]_3 := \col_i (if i == ord_max then 3%:R / LAMBDA_0 else 0).
have Hl : LAMBDA_0 != 0 by rewrite gt_eqF ?LAMBDA_gt0.
exists mean, var; split.
  move=> i; rewrite mxE; case: ifP => // _; by rewrite divr_ge0 ?ler0n // ltW // LAMBDA_gt0.
have S4 : sqrt (1 + 3%:R : R) = 2%:R.
  have -> : 1 + 3%:R = Rsqr 2%:R by rewrite /Rsqr RmultE -natrM -[1]/(1%:R) -natrD.
  by rewrite sqrt_Rsqr //; apply/RleP; rewrite ler0n.
have E2 : exp L2 = 2%:R by rewrite /L2 exp_ln //; apply/RltP; rewrite ltr0n.
have E4 : exp (L2 + L2) = 4%:R by rewrite expD E2 -natrM.
have N2 : exp (- L2) = 2%:R^-1 by rewrite expN E2.
have N4 : exp (- (L2 + L2)) = 4%:R^-1 by rewrite expN E4.
have H2 : (L2 + L2) / 2%:R = L2 by rewrite -mulr2n -[L2 *+ 2]mulr_natr mulfK // pnatr_eq0.
rewrite !(big_ord_recl, big_ord0) !mxE !(big_ord_recl, big_ord0) !mxE /=.
rewrite ?subrr ?subr0 ?sub0r ?addr0 ?add0r ?mulr0 ?mul0r ?addr0 ?sqrtR1 ?divr1.
rewrite ![LAMBDA_0 * _]mulrC !divfK // S4 ?mulNr H2 ?E2 ?E4 ?N2 ?N4 ?expR0.
have -> : 1 + (4%:R^-1 + 2%:R^-1) = 7%:R / 4%:R :> R by numR; field.
have -> : 4%:R + (1 + 1) = 6%:R :> R by rewrite -[1]/(1%:R) -!natrD.
have -> : 2%:R + (1 + 1) = 4%:R :> R by rewrite -[1]/(1%:R) -!natrD.
rewrite invf_div; have -> : 4%:R / 7%:R = 48%:R / 84%:R :> R.
  by apply/eqP; rewrite eqr_div ?pnatr_eq0 // -!natrM.
have -> : 6%:R^-1 = 14%:R / 84%:R :> R by rewrite -div1r; apply/eqP; rewrite eqr_div ?pnatr_eq0 // mul1r -!natrM.
have -> : 4%:R^-1 = 21%:R / 84%:R :> R by rewrite -div1r; apply/eqP; rewrite eqr_div ?pnatr_eq0 // mul1r -!natrM.
by rewrite -!mulrDl -!natrD.
Qed.
Print Assumptions C37_mean_field_1_not_normalised_refuted.

(** ** The Laplace bridge *)

(** A 1-D mean, which is what every prediction for one input is, is an IndexError. *)
Theorem C37_laplace_bridge_1d_refuted :
  forall (n : nat) (mean var : 'cV[R]_n) (use_correction : bool),
  laplace_bridge (MeanVar1 mean var) use_correction = Raise IndexError.
Proof. by []. Qed.
Print Assumptions C37_laplace_bridge_1d_refuted.

Lemma sqrtR_ge0 (x : R) : 0 <= sqrt x.
Proof. by apply/RleP; apply: sqrt_pos. Qed.

Lemma bridge_pos a b (mean var : 'M[R]_(a.+1, b.+2)) : (forall i j, 0 < var i j) ->
  forall i j, 0 < (1 - 2%:R / (b.+2)%:R + exp (mean i j) * (\sum_i exp (- mean i j)) / (b.+2)%:R ^+ 2) / var i j.
Proof.
move=> Hv i j; apply: divr_gt0 => //; apply: ltr_paddl.
  by rewrite subr_ge0 ler_pdivr_mulr ?ltr0n // mul1r ler_nat.
rewrite divr_gt0 ?exprn_gt0 ?ltr0n // mulr_gt0 ?exp_gt0 // big_ord_recl ltr_paddr ?exp_gt0 //.
by apply: sumr_ge0 => k _; apply/ltW/exp_gt0.
Qed.

(** For a 2-D mean of at least two columns all entries are positive and sum to one over the whole
    array (not over each input). *)
Theorem C37_laplace_bridge_total :
  forall (a b : nat) (mean var : 'M[R]_(a.+1, b.+2)) (use_correction : bool) (p : 'M[R]_(a.+1, b.+2)),
  (forall i j, 0 < var i j) ->
  laplace_bridge (MeanVar2 mean var) use_correction = Ok p ->
  (forall i j, 0 < p i j) /\ \sum_i \sum_j p i j = 1.
Proof.
move=> a b mean var uc p Hv [<-] {p}; rewrite /laplace_bridge2.
set m' := (if uc then _ else mean); set v' := (if uc then _ else var).
have Hv' i j : 0 < v' i j.
  rewrite /v'; case: {m'}uc @v'; last exact: Hv.
  rewrite mxE divr_gt0 // divr_gt0 // ?sqrtR_gt0 ?divr_gt0 ?ltr0n //.
  by rewrite big_ord_recl ltr_paddr // sumr_ge0 // => k _; apply/ltW.
set d := \matrix_(i, j) _.
have Hd i j : 0 < d i j by rewrite mxE; apply: bridge_pos.
have Hs : 0 < \sum_i \sum_j d i j.
  rewrite big_ord_recl ltr_paddr //.
    by apply: sumr_ge0 => i _; apply: sumr_ge0 => j _; apply/ltW.
  by rewrite big_ord_recl ltr_paddr // sumr_ge0 // => j _; apply/ltW.
split; last by apply: dirichlet_total; rewrite gt_eqF.
by move=> i j; rewrite mxE mulr_gt0 ?invr_gt0.
Qed.
Print Assumptions C37_laplace_bridge_total.

(** On a single row of logits, shape [(1, C)], where the result is a distribution over the classes,
    the prediction does not depend on the logits: it is uniform with the correction, and proportional
    to the inverse variances without. *)
Theorem C37_laplace_bridge_row_refuted :
  forall (b : nat) (mean var : 'rV[R]_b.+2), (forall j, 0 < var ord0 j) ->
  laplace_bridge (MeanVar2 mean var) true = Ok (const_mx (b.+2)%:R^-1 : 'rV_b.+2) /\
  laplace_bridge (MeanVar2 mean var) false =
    Ok (\row_j ((var ord0 j)^-1 / \sum_k (var ord0 k)^-1) : 'rV_b.+2).
Proof.
move=> b mean var Hv.
pose K : R := (1 - 2%:R / (b.+2)%:R + 1 / (b.+2)%:R ^+ 2).
have HK : 0 < K.
  apply: ltr_paddl; first by rewrite subr_ge0 ler_pdivr_mulr ?ltr0n // mul1r ler_nat.
  by rewrite divr_gt0 ?ltr01 ?exprn_gt0 ?ltr0n.
have E1 (m v : 'rV[R]_b.+2) :
   dirichlet_predictive (\matrix_(i, j) ((1 - 2%:R / (b.+2)%:R +
      exp (m i j) * (\sum_k exp (- m k j)) / (b.+2)%:R ^+ 2) / v i j)) =
   \row_j ((v ord0 j)^-1 / \sum_k (v ord0 k)^-1).
  have -> : \matrix_(i, j) ((1 - 2%:R / (b.+2)%:R +
      exp (m i j) * (\sum_k exp (- m k j)) / (b.+2)%:R ^+ 2) / v i j) = \row_j (K / v ord0 j).
    apply/matrixP => i j; rewrite !mxE ord1 big_ord_recl big_ord0 addr0 expN mulfV // gt_eqF ?exp_gt0 //.
  apply/matrixP => i j; rewrite !mxE big_ord_recl big_ord0 addr0.
  under eq_bigr do rewrite mxE.
  by rewrite -mulr_sumr invfM mulrACA mulVf ?mul1r 1?mulrC // gt_eqF.
split; last by rewrite /= /laplace_bridge2 E1.
rewrite /= /laplace_bridge2 E1; congr Ok; apply/matrixP => i j; rewrite !mxE.
pose s := sqrt ((b.+2)%:R / 2%:R : R).
have Hs : 0 < s by rewrite sqrtR_gt0 // divr_gt0 ?ltr0n.
have E k : var ord0 k / ((\sum_i0 var i0 k) / s) = s.
  by rewrite big_ord_recl big_ord0 addr0 invf_div mulrCA mulfV ?mulr1 // gt_eqF.
rewrite E; under eq_bigr do rewrite mxE E.
by rewrite sumr_const card_ord -[s^-1 *+ _]mulr_natl invfM invrK mulrCA mulVf ?mulr1 // gt_eqF.
Qed.
Print Assumptions C37_laplace_bridge_row_refuted.

Example C37_example :
  let mean : 'cV[R]_3 := \col_i (i : nat)%:R in let var : 'cV[R]_3 := const_mx 1 in
  is_distribution (mean_field_0_predictive mean var) /\
  is_distribution (mean_field_1_predictive mean var) /\
  laplace_bridge (MeanVar2 mean^T var^T) true = Ok (const_mx 3%:R^-1).
Proof.
move=> mean var; split; first exact: C37_mean_field_0_distribution.
split; first by rewrite C37_mean_field_1_equal_variances; exact: C37_mean_field_0_distribution.
have H : forall j, 0 < var^T ord0 j by move=> j; rewrite !mxE ltr01.
by have [] := C37_laplace_bridge_row_refuted mean^T H.
Qed.
