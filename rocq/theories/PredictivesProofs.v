(** Facts about Predictives.v. *)
From Coq Require Import Reals Lra.
From mathcomp Require Import all_ssreflect all_algebra.
From Verif Require Import Base PyTree RealStruct RealSums Ggn Predictives.
Set Implicit Arguments.
Unset Strict Implicit.
Unset Printing Implicit Defensive.
Import GRing.Theory Num.Theory Order.TTheory.
Local Open Scope ring_scope.

Lemma LAMBDA_gt0 : 0 < LAMBDA_0.
Proof. by rewrite divr_gt0 ?ltr0n //; apply/RltP; exact: PI_RGT_0. Qed.
Lemma sqrtR1 : sqrt (1 : R) = 1.
Proof. exact: sqrt_1. Qed.
Lemma expR0 : exp (0 : R) = 1.
Proof. exact: exp_0. Qed.
Lemma expN (x : R) : exp (- x) = (exp x)^-1.
Proof. by rewrite -RoppE exp_Ropp RinvE // gt_eqF ?exp_gt0. Qed.
Lemma sqrtR_gt0 (x : R) : 0 < x -> 0 < sqrt x.
Proof. by move=> /RltP H; apply/RltP; apply: sqrt_lt_R0. Qed.

(** Rows [1 / sum_j exp (e i j)] with [e i i = 0]. *)
Section Rows.
Variables (n : nat) (e : 'I_n.+1 -> 'I_n.+1 -> R).
Hypothesis e0 : forall i, e i i = 0.
Definition invsum : 'cV[R]_n.+1 := \col_i (\sum_j exp (e i j))^-1.
Lemma rowsum_ge1 i : 1 <= \sum_j exp (e i j).
Proof.
rewrite (bigD1 i) //= e0 expR0 ler_addl; apply: sumr_ge0 => j _; exact/ltW/exp_gt0.
Qed.
Lemma invsum_gt0 i : 0 < invsum i ord0.
Proof. by rewrite mxE invr_gt0; apply: lt_le_trans (rowsum_ge1 i). Qed.
Lemma invsum_le1 i : invsum i ord0 <= 1.
Proof. by rewrite mxE invf_le1 ?rowsum_ge1 //; apply: lt_le_trans (rowsum_ge1 i). Qed.
End Rows.

Lemma invsum_softmax n (z : 'cV[R]_n.+1) :
  \col_i (\sum_j exp (z j ord0 - z i ord0))^-1 = softmax z :> 'cV_n.+1.
Proof.
apply/matrixP => i j; rewrite !mxE.
have -> : \sum_k exp (z k ord0 - z i ord0) = (\sum_k exp (z k ord0)) * (exp (z i ord0))^-1.
  by rewrite mulr_suml; apply: eq_bigr => k _; rewrite expD expN.
by rewrite invfM invrK mulrC.
Qed.

Lemma dirichlet_total a b (p : 'M[R]_(a, b)) : \sum_i \sum_j p i j != 0 ->
  \sum_i \sum_j dirichlet_predictive p i j = 1.
Proof.
move=> H; rewrite -[RHS](mulVf H) mulr_sumr; apply: eq_bigr => i _.
by rewrite mulr_sumr; apply: eq_bigr => j _; rewrite mxE.
Qed.
