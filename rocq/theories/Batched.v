(** Model of laplax/curv/ggn.py, laplax/curv/hessian.py and [concatenate_model_and_loss_fn] with
    [vmap_over_data=False]: the model is called once on the whole batch and returns an array of shape
    (N, K).  Flat parameters as in Ggn.v.  [jvpB]/[vjpB] stand for the linearised forward pass and its
    [jax.linear_transpose]. *)
From Coq Require Import Reals String.
From mathcomp Require Import all_ssreflect all_algebra.
From Verif Require Import Base RealStruct Ggn Posterior Likelihood.
Set Implicit Arguments.
Unset Strict Implicit.
Unset Printing Implicit Defensive.
Import GRing.Theory.
Local Open Scope ring_scope.

Section Batched.
Variables (XB : Type) (P K N : nat).
Notation out := 'M[R]_(N, K).
Variable modelB : XB -> 'cV[R]_P -> out.
Variables (jvpB : XB -> 'cV[R]_P -> 'cV[R]_P -> out) (vjpB : XB -> 'cV[R]_P -> out -> 'cV[R]_P).

(** ggn.py:24-53 on an (N, K) array. *)
Definition bce_hessian_mvB (jv z : out) : out :=
  \matrix_(i, j) (sigmoid (z i j) * (1 - sigmoid (z i j)) * jv i j).
(** ggn.py:56-87 on an (N, K) array: [jax.nn.softmax] normalises the last axis;
    [prob.reshape(1, -1) @ jv] contracts [N * K] with [N] entries, a TypeError unless these agree;
    the (1, K) result broadcasts over the rows. *)
Definition softmax_rows (z : out) : out := \matrix_(i, j) softmax (row i z)^T j ord0.
Definition flat_at (a : out) (l : nat) : R :=
  match insub (l %/ K)%N, insub (l %% K)%N with Some i, Some j => a i j | _, _ => 0 end.
Definition ce_hessian_mvB (jv z : out) : res out :=
  let prob := softmax_rows z in
  if (N * K)%N == N then
    let dotp j := \sum_(l < N) flat_at prob l * jv l j in
    let off_diag_jv : out := \matrix_(i, j) (prob i j * dotp j) in
    let diag_jv : out := \matrix_(i, j) (prob i j * jv i j) in
    Ok (diag_jv - off_diag_jv)
  else Raise TypeError.

(** A callable loss gets all predictions and targets at once; [hvp y z jv] is the product with its
    Hessian at [z] that automatic differentiation supplies (hessian.py:24-43). *)
Inductive loss_argB : Type :=
  | BLossMissing
  | BLossStr of string
  | BLossCallable of (out -> out -> out -> out).

(** ggn.py:117-197 [create_loss_hessian_mv], not vmapped (ggn.py:250-251). *)
Definition create_loss_hessian_mvB (loss_fn : loss_argB) : res (out -> out -> out -> res out) :=
  match loss_fn with
  | BLossMissing => Raise ValueError
  | BLossStr s =>
      if String.eqb s "binary_cross_entropy" then Ok (fun jv z _ => Ok (bce_hessian_mvB jv z))
      else if String.eqb s "cross_entropy" then Ok (fun jv z _ => ce_hessian_mvB jv z)
      else if String.eqb s "mse" then Ok (fun jv _ _ => Ok (2%:R *: jv))
      else if String.eqb s "none" then Ok (fun jv _ _ => Ok jv)
      else Raise ValueError
  | BLossCallable hvp => Ok (fun jv z y => Ok (hvp y z jv))
  end.

(** ggn.py:253-269 [ggn_mv]. *)
Definition ggn_mvB (params : 'cV[R]_P) (hess : out -> out -> out -> res out) (factor : R)
    (vec : 'cV[R]_P) (data : XB * out) : res 'cV[R]_P :=
  let z := modelB data.1 params in
  let! hjv := hess (jvpB data.1 params vec) z data.2 in
  let arr := vjpB data.1 params hjv in
  Ok (factor *: arr).

(** ggn.py:205-271 and 274-359 with [loss_fn] given; [data["input"].shape[0]] is [N]. *)
Definition create_ggn_mv_without_dataB (params : 'cV[R]_P) (loss_fn : loss_argB) (factor : R) :
    res ('cV[R]_P -> XB * out -> res 'cV[R]_P) :=
  let! hess := create_loss_hessian_mvB loss_fn in
  Ok (ggn_mvB params hess factor).
Definition create_ggn_mvB (params : 'cV[R]_P) (data : XB * out) (loss_fn : loss_argB)
    (num_curv num_total : option nat) : res ('cV[R]_P -> res 'cV[R]_P) :=
  if loss_fn is BLossMissing then Raise ValueError
  else
    let! factor := curv_scaling_factor num_curv num_total N in
    let! mv := create_ggn_mv_without_dataB params loss_fn factor in
    Ok (fun vec => mv vec data).

(** curv/utils.py:128-199 [concatenate_model_and_loss_fn]: the loss of the whole batch at once.  The
    result is read as in Ggn.v: a number, or one row per sample. *)
Definition rows_list (a : out) : seq 'cV[R]_K := [seq (row i a)^T | i <- enum 'I_N].
Definition concatenate_model_and_loss_fnB (loss_fn : closs_arg K) :
    res (XB * out -> 'cV[R]_P -> loss_out K) :=
  match loss_fn with
  | CLossStr s =>
      if String.eqb s "mse" then
        Ok (fun (data : XB * out) p => Scalar K (\sum_i \sum_j ((modelB data.1 p - data.2) i j) ^+ 2))
      else if String.eqb s "cross_entropy" then
        Ok (fun (data : XB * out) p => PerEntry
              (rows_list (\matrix_(i, j) log_sigmoid_cross_entropy (modelB data.1 p i j) (data.2 i j))))
      else Raise ValueError
  | CLossCallable f =>
      Ok (fun (data : XB * out) p => Scalar K (f (rows_list (modelB data.1 p)) (rows_list data.2)))
  end.

(** hessian.py:46-105 and 108-183. *)
Variable hvp_oracle : ('cV[R]_P -> R) -> 'cV[R]_P -> 'cV[R]_P -> 'cV[R]_P.
Definition create_hessian_mvB (params : 'cV[R]_P) (data : XB * out) (loss_fn : closs_arg K)
    (num_curv num_total : option nat) : res ('cV[R]_P -> res 'cV[R]_P) :=
  let! factor := curv_scaling_factor num_curv num_total N in
  let! f := concatenate_model_and_loss_fnB loss_fn in
  Ok (fun vec => let! h := hvp hvp_oracle (f data) params vec in Ok (factor *: h)).

(** likelihood.py:259-317 [marginal_log_likelihood] with the default [vmap_over_data=False]. *)
Definition marginal_log_likelihoodB (curv : curv_estimate P) (pa : mll_prior) (data : XB * out)
    (params : 'cV[R]_P) (loss_fn : closs_arg K) (lsf : R) : res (loss_out K) :=
  marginal_log_likelihood_with (concatenate_model_and_loss_fnB loss_fn) curv pa data params lsf.
End Batched.
Arguments BLossMissing {K N}.
Arguments BLossStr {K N} _.
