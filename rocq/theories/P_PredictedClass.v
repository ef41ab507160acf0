(** Property C37, continued: the closed-form predictives and the predicted class. *)
From Coq Require Import Reals Lra.
From mathcomp Require Import all_ssreflect all_algebra.
From Verif Require Import Base PyTree RealStruct RealSums Ggn GgnSpec Predictives PredictivesProofs P_Predictives.
Set Implicit Arguments.
Unset Strict Implicit.
Unset Printing Implicit Defensive.
Import GRing.Theory Num.Theory Order.TTheory.
Local Open Scope ring_scope.

Lemma exp_leq (x y : R) : x <= y -> exp x <= exp y.
Proof.
rewrite le_eqVlt => /orP [/eqP -> //|H]; apply: ltW.
by apply/RltP; apply: exp_increasing; apply/RltP.
Qed.
Lemma exp_ltq (x y : R) : x < y -> exp x < exp y.
Proof. by move=> /RltP H; apply/RltP; apply: exp_increasing. Qed.
Lemma exp_gt0q (x : R) : 0 < exp x.
Proof. by apply/RltP; exact: exp_pos. Qed.
Lemma sqrt_leq (x y : R) : x <= y -> sqrt x <= sqrt y.
Proof. by move=> /RleP H; apply/RleP; apply: sqrt_le_1_alt. Qed.
Lemma sqrt_gt0q (x : R) : 0 < x -> 0 < sqrt x.
Proof. by move=> /RltP H; apply/RltP; apply: sqrt_lt_R0. Qed.
Lemma scale_gt0 (v : R) : 0 <= v -> 0 < sqrt (1 + LAMBDA_0 * v).
Proof. by move=> Hv; apply: sqrt_gt0q; rewrite ltr_paddr ?ltr01 // mulr_ge0 // ltW // LAMBDA_gt0. Qed.

(** A negative logit difference, scaled by a larger standard deviation, is closer to zero. *)
Lemma scaled_le (d v w : R) : d <= 0 -> 0 <= v -> v <= w ->
  d / sqrt (1 + LAMBDA_0 * v) <= d / sqrt (1 + LAMBDA_0 * w) <= 0.
Proof.
move=> Hd Hv Hw; have Hw0 := le_trans Hv Hw; have S1 := scale_gt0 Hv; have S2 := scale_gt0 Hw0.
apply/andP; split; last by rewrite mulr_le0_ge0 // invr_ge0 ltW.
rewrite -subr_ge0 -mulrBr mulr_le0 // subr_le0 lef_pinv ?posrE //.
by apply: sqrt_leq; rewrite ler_add2l ler_wpmul2l // ltW // LAMBDA_gt0.
Qed.

(** Sums of such terms over the classes. *)
Lemma top_sum (n : nat) (d v w : 'I_n.+1 -> R) :
  (forall j, d j <= 0) -> (forall j, 0 <= v j /\ v j <= w j) ->
  let S (u : 'I_n.+1 -> R) := (\sum_j exp (d j / sqrt (1 + LAMBDA_0 * u j)))^-1 in
  [/\ n.+1%:R^-1 <= S w, S w <= S v & S v <= (\sum_j exp (d j))^-1].
Proof.
move=> Hd Hv S.
have P (e : 'I_n.+1 -> R) : 0 < \sum_j exp (e j).
  by rewrite big_ord_recl ltr_paddr ?exp_gt0q // sumr_ge0 // => j _; exact/ltW/exp_gt0q.
split; rewrite lef_pinv ?posrE ?P ?ltr0n //.
- have -> : n.+1%:R = \sum_(j < n.+1) (1 : R) by rewrite sumr_const card_ord.
  apply: ler_sum => j _; rewrite -[X in _ <= X]expR0; apply: exp_leq.
  by have [H0 H1] := Hv j; have /andP [_ H] := scaled_le (Hd j) (le_trans H0 H1) (lexx _); exact: H.
- by apply: ler_sum => j _; apply: exp_leq; have [H0 H1] := Hv j; have /andP [H _] := scaled_le (Hd j) H0 H1; exact: H.
- apply: ler_sum => j _; apply: exp_leq; have [H0 _] := Hv j; have /andP [H _] := scaled_le (Hd j) (lexx _) H0.
  by move: H; rewrite mulr0 addr0 sqrtR1 divr1.
Qed.
Lemma softmax_inv (n : nat) (m : 'cV[R]_n.+1) i : softmax m i ord0 = (\sum_j exp (m j ord0 - m i ord0))^-1.
Proof. by rewrite -invsum_softmax mxE. Qed.

(** The confidence in the class with the largest logit is at most that of the plain softmax, at
    least that of a blind guess, and decreases when variances grow: mean_field_1 ... *)
Theorem C37_mean_field_1_confidence :
  forall (n : nat) (mean v w : 'cV[R]_n.+1) i,
  (forall j, mean j ord0 <= mean i ord0) -> (forall j, 0 <= v j ord0 /\ v j ord0 <= w j ord0) ->
  [/\ n.+1%:R^-1 <= mean_field_1_predictive mean w i ord0,
      mean_field_1_predictive mean w i ord0 <= mean_field_1_predictive mean v i ord0 &
      mean_field_1_predictive mean v i ord0 <= class_probs mean i ord0].
Proof.
move=> n mean v w i Hm Hv; rewrite -[class_probs mean]/(softmax mean) softmax_inv !mxE.
have [||H1 H2 H3] := @top_sum n (fun j => mean j ord0 - mean i ord0) (fun j => v i ord0 + v j ord0) (fun j => w i ord0 + w j ord0).
- by move=> j; rewrite subr_le0.
- by move=> j; have [A1 A2] := Hv i; have [B1 B2] := Hv j; split; [exact: addr_ge0 | exact: ler_add].
by split.
Qed.

(** ... mean_field_2, in the variance of the difference of two logits ... *)
Definition spread (n : nat) (cov : 'M[R]_n) (i j : 'I_n) : R := cov i i + cov j j - 2%:R * cov i j.
Theorem C37_mean_field_2_confidence :
  forall (n : nat) (mean : 'cV[R]_n.+1) (A B : 'M[R]_n.+1) i,
  (forall j, mean j ord0 <= mean i ord0) -> (forall j, 0 <= spread A i j /\ spread A i j <= spread B i j) ->
  [/\ n.+1%:R^-1 <= mean_field_2_predictive mean B i ord0,
      mean_field_2_predictive mean B i ord0 <= mean_field_2_predictive mean A i ord0 &
      mean_field_2_predictive mean A i ord0 <= class_probs mean i ord0].
Proof.
move=> n mean A B i Hm Hv; rewrite -[class_probs mean]/(softmax mean) softmax_inv !mxE.
have [||H1 H2 H3] := @top_sum n (fun j => mean j ord0 - mean i ord0) (spread A i) (spread B i).
- by move=> j; rewrite subr_le0.
- exact: Hv.
by split.
Qed.

(** which holds for covariance matrices in the Loewner order. *)
Lemma spread_form (n : nat) (A : 'M[R]_n) i j : A^T = A ->
  let u : 'cV[R]_n := delta_mx i ord0 - delta_mx j ord0 in (u^T *m A *m u) ord0 ord0 = spread A i j.
Proof.
move=> As u; have -> : u^T = delta_mx ord0 i - delta_mx ord0 j by rewrite /u linearB /= !trmx_delta.
rewrite /u mulmxBr !mulmxBl -!rowE -!colE !mxE /spread.
have -> : A j i = A i j by rewrite -[in LHS]As mxE.
by rewrite opprB addrACA mulr_natl mulr2n opprD.
Qed.
Theorem C37_mean_field_2_covariances :
  forall (n : nat) (mean : 'cV[R]_n.+1) (A B : 'M[R]_n.+1) i,
  (forall j, mean j ord0 <= mean i ord0) -> A^T = A -> B^T = B ->
  (forall u : 'cV[R]_n.+1, 0 <= (u^T *m A *m u) ord0 ord0 /\ (u^T *m A *m u) ord0 ord0 <= (u^T *m B *m u) ord0 ord0) ->
  [/\ n.+1%:R^-1 <= mean_field_2_predictive mean B i ord0,
      mean_field_2_predictive mean B i ord0 <= mean_field_2_predictive mean A i ord0 &
      mean_field_2_predictive mean A i ord0 <= class_probs mean i ord0].
Proof.
move=> n mean A B i Hm HA HB Hq; apply: C37_mean_field_2_confidence => // j.
by rewrite -!spread_form.
Qed.

(** ... and mean_field_0 when all classes have the same variance (half of it enters mean_field_1). *)
Lemma mf0_half (n : nat) (mean : 'cV[R]_n.+1) (v : R) :
  mean_field_0_predictive mean (const_mx v) = mean_field_1_predictive mean (const_mx (v / 2%:R)).
Proof.
rewrite C37_mean_field_1_equal_variances; congr (mean_field_0_predictive _ (const_mx _)).
by rewrite -mulrDl -mulr2n -mulr_natr mulfK // pnatr_eq0.
Qed.
Theorem C37_mean_field_0_confidence :
  forall (n : nat) (mean : 'cV[R]_n.+1) (v w : R) i,
  (forall j, mean j ord0 <= mean i ord0) -> 0 <= v -> v <= w ->
  [/\ n.+1%:R^-1 <= mean_field_0_predictive mean (const_mx w) i ord0,
      mean_field_0_predictive mean (const_mx w) i ord0 <= mean_field_0_predictive mean (const_mx v) i ord0 &
      mean_field_0_predictive mean (const_mx v) i ord0 <= class_probs mean i ord0].
Proof.
move=> n mean v w i Hm Hv Hw; rewrite !mf0_half; apply: C37_mean_field_1_confidence => // j; rewrite !mxE.
split; [by rewrite divr_ge0 ?ler0n | by rewrite ler_pmul2r ?invr_gt0 ?ltr0n].
Qed.

(** With one variance for all classes, and with two classes in mean_field_1 and 2, the order of the
    classes is that of the logits. *)
Theorem C37_order_kept :
  forall (n : nat) (mean : 'cV[R]_n.+1) (v : R) i j, 0 <= v ->
  (mean_field_0_predictive mean (const_mx v) i ord0 <= mean_field_0_predictive mean (const_mx v) j ord0) =
    (mean i ord0 <= mean j ord0) /\
  (mean_field_1_predictive mean (const_mx v) i ord0 <= mean_field_1_predictive mean (const_mx v) j ord0) =
    (mean i ord0 <= mean j ord0).
Proof.
have H n (mean : 'cV[R]_n.+1) (v : R) i j : 0 <= v ->
  (mean_field_0_predictive mean (const_mx v) i ord0 <= mean_field_0_predictive mean (const_mx v) j ord0) =
    (mean i ord0 <= mean j ord0).
  move=> Hv; rewrite !C37_mean_field_0_value ler_pmul2r; last first.
    rewrite invr_gt0 big_ord_recl ltr_paddr ?exp_gt0q // sumr_ge0 // => k _; exact/ltW/exp_gt0q.
  rewrite !mxE -/LAMBDA_0; apply/idP/idP => [|Hm]; last by apply: exp_leq; rewrite ler_pmul2r // invr_gt0 scale_gt0.
  apply: contraTT; rewrite -!ltNge => Hm; apply: exp_ltq; rewrite ltr_pmul2r // invr_gt0; exact: scale_gt0.
move=> n mean v i j Hv; split; first exact: H.
by rewrite C37_mean_field_1_equal_variances; apply: H; apply: addr_ge0.
Qed.

Theorem C37_two_classes_order :
  forall (mean v : 'cV[R]_2) (A : 'M[R]_2) (i j : 'I_2),
  (forall k, 0 <= v k ord0) -> (forall k l, 0 <= spread A k l) -> A^T = A ->
  (mean_field_1_predictive mean v i ord0 <= mean_field_1_predictive mean v j ord0) = (mean i ord0 <= mean j ord0) /\
  (mean_field_2_predictive mean A i ord0 <= mean_field_2_predictive mean A j ord0) = (mean i ord0 <= mean j ord0).
Proof.
have K (e : 'I_2 -> 'I_2 -> R) (mean : 'cV[R]_2) (i j : 'I_2) : (forall k l, 0 <= e k l) -> (forall k l, e k l = e l k) ->
  ((\sum_k exp ((mean k ord0 - mean i ord0) / sqrt (1 + LAMBDA_0 * e i k)))^-1 <=
   (\sum_k exp ((mean k ord0 - mean j ord0) / sqrt (1 + LAMBDA_0 * e j k)))^-1) = (mean i ord0 <= mean j ord0).
  move=> He Es.
  have two (k : 'I_2) : k = ord0 \/ k = lift ord0 ord0.
    by case: k => -[|[|//]] Hk; [left | right]; apply: val_inj.
  pose t := (mean (lift ord0 ord0) ord0 - mean ord0 ord0) / sqrt (1 + LAMBDA_0 * e ord0 (lift ord0 ord0)).
  have S0 := scale_gt0 (He ord0 (lift ord0 ord0)).
  have F0 : \sum_k exp ((mean k ord0 - mean ord0 ord0) / sqrt (1 + LAMBDA_0 * e ord0 k)) = 1 + exp t.
    by rewrite !big_ord_recl big_ord0 subrr mul0r expR0 addr0.
  have F1 : \sum_k exp ((mean k ord0 - mean (lift ord0 ord0) ord0) / sqrt (1 + LAMBDA_0 * e (lift ord0 ord0) k)) = 1 + exp (- t).
    by rewrite !big_ord_recl big_ord0 subrr mul0r expR0 addr0 addrC Es -mulNr opprB.
  have Q x : 0 < 1 + exp x by rewrite ltr_paddl ?exp_gt0q // ler01.
  have T : (t <= - t) = (mean (lift ord0 ord0) ord0 <= mean ord0 ord0).
    rewrite -subr_ge0 -opprD oppr_ge0 -mulr2n pmulrn_lle0 // /t pmulr_lle0 ?invr_gt0 // subr_le0 //.
  have T' : (- t <= t) = (mean ord0 ord0 <= mean (lift ord0 ord0) ord0).
    rewrite -subr_ge0 opprK -mulr2n pmulrn_lge0 // /t pmulr_lge0 ?invr_gt0 // subr_ge0 //.
  have M x y : (exp x <= exp y) = (x <= y).
    apply/idP/idP => [|H]; last exact: exp_leq.
    by apply: contraTT; rewrite -!ltNge => H; apply: exp_ltq.
  by case: (two i) => ->; case: (two j) => ->; rewrite ?F0 ?F1 ?lexx // lef_pinv ?posrE ?Q // ler_add2l M ?T ?T'.
move=> mean v A i j Hv HA As; split; rewrite !mxE.
- by apply: (K (fun k l => v k ord0 + v l ord0)) => [k l|k l]; rewrite ?addr_ge0 ?Hv // addrC.
- apply: (K (spread A)) => // k l; rewrite /spread [A k k + _]addrC; congr (_ - _ * _).
  by rewrite -[in LHS]As mxE.
Qed.

(** With different variances the most likely class can change: mean_field_0 already for two classes,
    mean_field_1 and (the same with a diagonal covariance) mean_field_2 for three. *)
Theorem C37_class_changes_refuted :
  (exists mean var : 'cV[R]_2, (forall k, 0 <= var k ord0) /\
     (mean (lift ord0 ord0) ord0 < mean ord0 ord0 /\
      mean_field_0_predictive mean var ord0 ord0 < mean_field_0_predictive mean var (lift ord0 ord0) ord0)) /\
  (exists (mean var : 'cV[R]_3) (i j : 'I_3), (forall k, 0 <= var k ord0) /\
     [/\ (forall k, mean k ord0 <= mean i ord0), mean j ord0 < mean i ord0,
         mean_field_1_predictive mean var i ord0 < mean_field_1_predictive mean var j ord0 &
         mean_field_2_predictive mean (diag_mx var^T) i ord0 < mean_field_2_predictive mean (diag_mx var^T) j ord0]).
Proof.
have L0 := LAMBDA_gt0.
have V0 : 0 <= 15%:R / LAMBDA_0 by rewrite divr_ge0 ?ler0n // ltW.
have S4 : sqrt (1 + LAMBDA_0 * (15%:R / LAMBDA_0)) = 4%:R.
  rewrite mulrC divfK ?gt_eqF //.
  have -> : 1 + 15%:R = Rsqr 4%:R by rewrite /Rsqr RmultE -natrM -[1]/(1%:R) -natrD.
  by rewrite sqrt_Rsqr //; apply/RleP; rewrite ler0n.
split.
  exists (\col_k nth 0 [:: 2%:R; 1] k), (\col_k nth 0 [:: 15%:R / LAMBDA_0; 0] k); split.
    by case=> -[|[|//]] Hk; rewrite mxE /=.
  rewrite !mxE /=; split; first by rewrite -[1]/(1%:R) ltr_nat.
  rewrite ltr_pmul2r; last first.
    rewrite invr_gt0 big_ord_recl ltr_paddr ?exp_gt0q // sumr_ge0 // => k _; exact/ltW/exp_gt0q.
  rewrite /= S4 mulr0 addr0 sqrtR1 divr1; apply: exp_ltq.
  by rewrite ltr_pdivr_mulr ?ltr0n // mul1r ltr_nat.
pose a := ln (10%:R / 9%:R : R); pose b := ln (2%:R : R).
pose mean : 'cV[R]_3 := \col_k nth 0 [:: 4%:R * a; 0; - (4%:R * b)] k.
pose var : 'cV[R]_3 := \col_k nth 0 [:: 15%:R / LAMBDA_0; 0; 0] k.
have P9 : 0 < 10%:R / 9%:R :> R by rewrite divr_gt0 ?ltr0n.
have Ea : exp a = 10%:R / 9%:R by rewrite /a exp_ln //; exact/RltP.
have Eb : exp b = 2%:R by rewrite /b exp_ln //; apply/RltP; rewrite ltr0n.
have L1 (z : R) : 1 < z -> 0 < ln z.
  by move=> /RltP Hz; apply/RltP; have := ln_increasing 1 z Rlt_0_1 Hz; rewrite ln_1.
have a0 : 0 < a.
  by apply: L1; rewrite ltr_pdivl_mulr ?ltr0n // mul1r ltr_nat.
have b0 : 0 < b.
  by apply: L1; rewrite -[X in X < _]/(1%:R) ltr_nat.
have F4 : (4%:R : R) != 0 by rewrite pnatr_eq0.
have H : mean_field_1_predictive mean var ord0 ord0 < mean_field_1_predictive mean var (lift ord0 ord0) ord0.
  rewrite !mxE !(big_ord_recl, big_ord0) !mxE /=.
  rewrite !subrr !mul0r expR0 !addr0 !add0r S4 ?sub0r ?subr0.
  rewrite !mulr0 addr0 sqrtR1 divr1.
  rewrite -opprD -mulrDr !mulNr ![4%:R * _ / 4%:R]mulrAC !divff // !mul1r !expN expD.
  have -> : exp (4%:R * b) = 16%:R.
    have -> : 4%:R * b = b + (b + (b + b)) by rewrite mulr_natl !mulrS mulr0n addr0.
    by rewrite !expD Eb -!natrM.
  rewrite Ea Eb [(2%:R * _)^-1]invfM !invf_div.
  have -> : 1 + (9%:R / 10%:R + 2%:R^-1 * (9%:R / 10%:R)) = 47%:R / 20%:R :> R by numR; field.
  have -> : 10%:R / 9%:R + (1 + 16%:R^-1) = 313%:R / 144%:R :> R by numR; field.
  rewrite !invf_div.
  by rewrite ltr_pdivl_mulr ?ltr0n // mulrAC ltr_pdivr_mulr ?ltr0n // -!natrM ltr_nat.
exists mean, var, ord0, (lift ord0 ord0); split.
  by case=> -[|[|[|//]]] Hk; rewrite mxE /=.
split; last by rewrite !C37_mean_field_2_diagonal.
- case=> -[|[|[|//]]] Hk; rewrite !mxE //=; first by rewrite mulr_ge0 ?ler0n // ltW.
  by apply: (@le_trans _ _ 0); [rewrite oppr_le0 | ]; rewrite mulr_ge0 ?ler0n // ltW.
- by rewrite !mxE /= mulr_gt0 ?ltr0n.
- exact: H.
Qed.
Print Assumptions C37_mean_field_1_confidence.
Print Assumptions C37_mean_field_2_confidence.
Print Assumptions C37_mean_field_2_covariances.
Print Assumptions C37_mean_field_0_confidence.
Print Assumptions C37_order_kept.
Print Assumptions C37_two_classes_order.
Print Assumptions C37_class_changes_refuted.

(** Non-vacuity: two logits, unit and doubled variances. *)
Example C37_confidence_example :
  let mean : 'cV[R]_2 := \col_k nth 0 [:: 2%:R; 1] k in
  (forall j, mean j ord0 <= mean ord0 ord0) /\
  (forall j, 0 <= (const_mx 1 : 'cV[R]_2) j ord0 /\ (const_mx 1 : 'cV[R]_2) j ord0 <= (const_mx 2%:R : 'cV[R]_2) j ord0).
Proof.
split; last by move=> j; rewrite !mxE ler01 ler1n.
by case=> -[|[|//]] Hk; rewrite !mxE //= -[1]/(1%:R) ler_nat.
Qed.
