(** Model of laplax/eval/predictives.py over the real numbers.
    Means and variances are 1-D arrays (columns); [laplace_bridge] also exists for 2-D arrays. *)
From Coq Require Import Reals.
From mathcomp Require Import all_ssreflect all_algebra.
From Verif Require Import Base PyTree RealStruct Ggn.
Set Implicit Arguments.
Unset Strict Implicit.
Unset Printing Implicit Defensive.
Import GRing.Theory Num.Theory Order.TTheory.
Local Open Scope ring_scope.

(** predictives.py:8 [LAMBDA_0 = math.pi / 8]. *)
Definition LAMBDA_0 : R := PI / 8%:R.

(** predictives.py:55-62 [mean_field_0_predictive]. *)
Definition mean_field_0_predictive (n : nat) (mean var : 'cV[R]_n) : 'cV[R]_n :=
  softmax (\col_i (mean i ord0 / sqrt (1 + LAMBDA_0 * var i ord0))).

(** predictives.py:65-76 [mean_field_1_predictive]:
    [mu_diff[i, j] = mean[j] - mean[i]], rows are summed. *)
Definition mean_field_1_predictive (n : nat) (mean var : 'cV[R]_n) : 'cV[R]_n :=
  \col_i (\sum_j exp ((mean j ord0 - mean i ord0) / sqrt (1 + LAMBDA_0 * (var i ord0 + var j ord0))))^-1.

(** predictives.py:79-88 [mean_field_2_predictive]. *)
Definition mean_field_2_predictive (n : nat) (mean : 'cV[R]_n) (cov : 'M[R]_n) : 'cV[R]_n :=
  \col_i (\sum_j exp ((mean j ord0 - mean i ord0)
                      / sqrt (1 + LAMBDA_0 * (cov i i + cov j j - 2%:R * cov i j))))^-1.

(** predictives.py:44-52 [dirichlet_predictive]: [jnp.sum] without an axis. *)
Definition dirichlet_predictive (a b : nat) (p : 'M[R]_(a, b)) : 'M[R]_(a, b) :=
  (\sum_i \sum_j p i j)^-1 *: p.

(** predictives.py:11-41 [laplace_bridge] on a 2-D array of shape [(a, b)]:
    [num_classes = mean.shape[1]], but sums along axis 0. *)
Definition laplace_bridge2 (a b : nat) (mean var : 'M[R]_(a, b)) (use_correction : bool) : 'M[R]_(a, b) :=
  let num_classes := b%:R : R in
  let c j := (\sum_i var i j) / sqrt (num_classes / 2%:R) in
  let mean' := if use_correction then \matrix_(i, j) (mean i j / sqrt (c j)) else mean in
  let var' := if use_correction then \matrix_(i, j) (var i j / c j) else var in
  let sum_exp_neg j := \sum_i exp (- mean' i j) in
  dirichlet_predictive (\matrix_(i, j)
    ((1 - 2%:R / num_classes + exp (mean' i j) * sum_exp_neg j / num_classes ^+ 2) / var' i j)).

(** The same function on equally shaped arrays of one or two axes ([mean.shape[1]] of a 1-D array is
    an [IndexError]); more axes, and broadcasting, are left out. *)
Inductive mean_var : Type :=
  | MeanVar1 n of 'cV[R]_n & 'cV[R]_n
  | MeanVar2 a b of 'M[R]_(a, b) & 'M[R]_(a, b).
Definition pred_type (x : mean_var) : Type :=
  match x with MeanVar1 n _ _ => 'cV[R]_n | MeanVar2 a b _ _ => 'M[R]_(a, b) end.
Definition laplace_bridge (x : mean_var) (use_correction : bool) : res (pred_type x) :=
  match x return res (pred_type x) with
  | MeanVar1 _ _ _ => Raise IndexError
  | MeanVar2 a b mean var => Ok (laplace_bridge2 mean var use_correction)
  end.
