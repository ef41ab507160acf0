(** Model of laplax/eval/likelihood.py over the real numbers.
    Parameters are flat column vectors ([full_flatten(params)]; [get_size(params)] is their length).
    [jnp.log] of a non-positive number is nan/-inf in jax and 0 in Coq: theorems assume the
    arguments positive. *)
From Coq Require Import Reals String.
From mathcomp Require Import all_ssreflect all_algebra.
From Verif Require Import Base PyTree RealStruct Ggn Posterior.
Set Implicit Arguments.
Unset Strict Implicit.
Unset Printing Implicit Defensive.
Import GRing.Theory Num.Theory Order.TTheory.
Local Open Scope ring_scope.

(** [prior_arguments], with the key ["sigma"] that only this file reads. *)
Record mll_prior := MllPrior { mp_prior : prior_arguments [rcfType of R]; mp_sigma : option R }.

Section Joint.
Variables (P K : nat).
Variable D : Type.     (* batches of data *)

(** Scalars broadcast over a non-scalar loss. *)
Definition loss_map (f : R -> R) (l : loss_out K) : loss_out K :=
  match l with
  | Scalar r => Scalar K (f r)
  | PerEntry vs => PerEntry (map (fun v : 'cV[R]_K => \col_i f (v i ord0)) vs)
  end.

(** likelihood.py:39-89 [joint_log_likelihood]. *)
Definition log_prior (tau : R) (params : 'cV[R]_P) : R :=
  let params_square_norm := \sum_i params i ord0 ^+ 2 in
  let log_prior_term1 := - 2%:R^-1 * tau * params_square_norm in
  let log_prior_term2 := - 2%:R^-1 * P%:R * (ln (2%:R * PI) - ln tau) in
  log_prior_term1 + log_prior_term2.
Definition joint_log_likelihood (full_fn : D -> 'cV[R]_P -> loss_out K) (pa : mll_prior)
    (params : 'cV[R]_P) (data : D) : res (loss_out K) :=
  let! tau := get_prior_prec (mp_prior pa) in
  let sigma := odflt 1 (mp_sigma pa) in
  Ok (loss_map (fun l => - (1 / (2%:R * sigma)) * l + log_prior tau params) (full_fn data params)).

(** likelihood.py:128-133, 182-187, 239-246: [evidence] from the log determinant. *)
Definition evidence (log_det_H : R) : R := - 2%:R^-1 * P%:R * ln (2%:R * PI) + 2%:R^-1 * log_det_H.
Definition marginal_from (log_det_H : R) (full_fn : D -> 'cV[R]_P -> loss_out K) (pa : mll_prior)
    (params : 'cV[R]_P) (data : D) : res (loss_out K) :=
  let! log_likelihood := joint_log_likelihood full_fn pa params data in
  Ok (loss_map (fun l => l - evidence log_det_H) log_likelihood).

(** likelihood.py:92-135 [full_marginal_log_likelihood]; [jnp.linalg.slogdet(A)[1]] is
    [log |det A|]. *)
Definition full_log_det (prec : 'M[R]_P) : R := ln `|\det prec|.
Definition full_marginal_log_likelihood (prec : 'M[R]_P) := marginal_from (full_log_det prec).
(** likelihood.py:138-189 [diagonal_marginal_log_likelihood]. *)
Definition diagonal_log_det (prec : 'cV[R]_P) : R := \sum_i ln (prec i ord0).
Definition diagonal_marginal_log_likelihood (prec : 'cV[R]_P) := marginal_from (diagonal_log_det prec).
(** likelihood.py:192-248 [low_rank_marginal_log_likelihood]. *)
Definition low_rank_log_det (r : nat) (prec : low_rank_terms [rcfType of R] P r) : R :=
  r%:R * ln (lr_scalar prec) + \sum_i ln (1 + lr_scalar prec * lr_S prec i ord0).
Definition low_rank_marginal_log_likelihood (r : nat) (prec : low_rank_terms [rcfType of R] P r) :=
  marginal_from (low_rank_log_det prec).

(** A curvature estimate together with the [curv_type] it belongs to (likelihood.py:251-256; the
    types LANCZOS and LOBPCG share one function).  Other keys are the subject of C30. *)
Inductive curv_estimate : Type :=
  | FullCurv of 'M[R]_P
  | DiagonalCurv of 'cV[R]_P
  | LowRankCurv r of low_rank_terms [rcfType of R] P r.

(** likelihood.py:259-317 [marginal_log_likelihood], given the result of
    [concatenate_model_and_loss_fn] for the chosen [vmap_over_data]. *)
Definition marginal_log_likelihood_with (concatenated : res (D -> 'cV[R]_P -> loss_out K))
    (curv : curv_estimate) (pa : mll_prior) (data : D) (params : 'cV[R]_P) (lsf : R) : res (loss_out K) :=
  let! full_fn := concatenated in
  match curv with
  | FullCurv c =>
      let! prec := full_curvature_to_precision c (mp_prior pa) lsf in
      full_marginal_log_likelihood prec full_fn pa params data
  | DiagonalCurv c =>
      let! prec := diagonal_curvature_to_precision c (mp_prior pa) lsf in
      diagonal_marginal_log_likelihood prec full_fn pa params data
  | LowRankCurv r c =>
      let! prec := low_rank_curvature_to_precision c (mp_prior pa) lsf in
      low_rank_marginal_log_likelihood prec full_fn pa params data
  end.
End Joint.

(** likelihood.py:259-317 [marginal_log_likelihood] with [vmap_over_data=True] (False: Batched.v). *)
Definition marginal_log_likelihood (P K : nat) (X : Type) (model : X -> 'cV[R]_P -> 'cV[R]_K)
    (curv : curv_estimate P) (pa : mll_prior) (data : seq (X * 'cV[R]_K)) (params : 'cV[R]_P)
    (loss_fn : closs_arg K) (lsf : R) : res (loss_out K) :=
  marginal_log_likelihood_with (concatenate_model_and_loss_fn model loss_fn) curv pa data params lsf.
