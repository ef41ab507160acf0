(** Model of laplax/curv/ggn.py, laplax/curv/hessian.py and of
    [concatenate_model_and_loss_fn] in laplax/curv/utils.py.

    Parameters are flat column vectors (the PyTree layer is the subject of C01-C09), a model
    is [model x p] with Jacobian [jac x p] in the parameters; [jax.linearize] and
    [jax.linear_transpose] are multiplication with the Jacobian and its transpose. *)
From Coq Require Import Reals String.
From mathcomp Require Import all_ssreflect all_algebra.
From Verif Require Import Base RealStruct.
Set Implicit Arguments.
Unset Strict Implicit.
Unset Printing Implicit Defensive.
Import GRing.Theory.
Local Open Scope ring_scope.

(** jax.nn.sigmoid and jax.nn.softmax (the latter without the numerically motivated shift by
    the maximum, which does not change the value: [softmax_shift] in RealSums.v). *)
Definition sigmoid (z : R) : R := 1 / (1 + exp (- z)).
Definition softmax (n : nat) (z : 'cV[R]_n) : 'cV[R]_n :=
  \col_i (exp (z i ord0) / \sum_j exp (z j ord0)).

Section Losses.
Variable K : nat.
Notation pred := 'cV[R]_K.

(** ggn.py:24-53 *)
Definition bce_hessian_mv (jv z : pred) : pred :=
  \col_i (sigmoid (z i ord0) * (1 - sigmoid (z i ord0)) * jv i ord0).
(** ggn.py:56-87 *)
Definition ce_hessian_mv (jv z : pred) : pred :=
  let prob := softmax z in
  let dotp := (prob^T *m jv) ord0 ord0 in
  let off_diag_jv := \col_i (prob i ord0 * dotp) in
  let diag_jv := \col_i (prob i ord0 * jv i ord0) in
  diag_jv - off_diag_jv.
(** ggn.py:90-114 *)
Definition mse_hessian_mv (jv : pred) : pred := 2%:R *: jv.

(** The [loss_fn] argument: None, a string or LossFn member (a StrEnum member equals its
    string), or a callable.  For a callable [hess y z] is the Hessian of [loss(., y)] at
    [z], which [hvp] multiplies with (hessian.py:24-43). *)
Inductive loss_arg : Type :=
  | LossMissing
  | LossStr of string
  | LossCallable of (pred -> pred -> 'M[R]_K).

(** ggn.py:117-197 [create_loss_hessian_mv]; the result maps jv, pred, target. *)
Definition create_loss_hessian_mv (loss_fn : loss_arg) : res (pred -> pred -> pred -> pred) :=
  match loss_fn with
  | LossMissing => Raise ValueError
  | LossStr s =>
      if String.eqb s "binary_cross_entropy" then Ok (fun jv z _ => bce_hessian_mv jv z)
      else if String.eqb s "cross_entropy" then Ok (fun jv z _ => ce_hessian_mv jv z)
      else if String.eqb s "mse" then Ok (fun jv _ _ => mse_hessian_mv jv)
      else if String.eqb s "none" then Ok (fun jv _ _ => jv)
      else Raise ValueError
  | LossCallable hess => Ok (fun jv z y => hess y z *m jv)
  end.
End Losses.
Arguments LossMissing {K}.
Arguments LossStr {K} _.

Section GGN.
Variables (X : Type) (P K : nat).
Variables (model : X -> 'cV[R]_P -> 'cV[R]_K) (jac : X -> 'cV[R]_P -> 'M[R]_(K, P)).
Notation hessian_fn := ('cV[R]_K -> 'cV[R]_K -> 'cV[R]_K -> 'cV[R]_K).
Notation batch := (seq (X * 'cV[R]_K)).

(** ggn.py:253-269: the operator built by [create_ggn_mv_without_data] with
    [vmap_over_data=True]; the transposed linear map sums over the batch. *)
Definition ggn_mv (params : 'cV[R]_P) (hess : hessian_fn) (factor : R)
    (vec : 'cV[R]_P) (data : batch) : 'cV[R]_P :=
  let z := [seq model d.1 params | d <- data] in
  let jvp := [seq jac d.1 params *m vec | d <- data] in
  let hjv := [seq hess q.1 q.2.1 q.2.2 | q <- zip jvp (zip z [seq d.2 | d <- data])] in
  let arr := foldr +%R 0 [seq (jac q.1.1 params)^T *m q.2 | q <- zip data hjv] in
  factor *: arr.

(** ggn.py:205-271 [create_ggn_mv_without_data]: an explicit [loss_hessian_mv] wins. *)
Definition create_ggn_mv_without_data (params : 'cV[R]_P) (loss_fn : loss_arg K) (factor : R)
    (loss_hessian : option hessian_fn) : res ('cV[R]_P -> batch -> 'cV[R]_P) :=
  let! hess := match loss_hessian with
               | Some h => Ok h
               | None => create_loss_hessian_mv loss_fn
               end in
  Ok (ggn_mv params hess factor).

(** ggn.py:339-345 and hessian.py:163-169: the scaling factor; Python division by an
    integer zero raises. *)
Definition curv_scaling_factor (num_curv num_total : option nat) (n_data : nat) : res R :=
  let nc := if num_curv is Some n then n else n_data in
  let nt := if num_total is Some n then n else nc in
  if nc is 0 then Raise ZeroDivisionError else Ok (nt%:R / nc%:R).

(** ggn.py:274-359 [create_ggn_mv]. *)
Definition create_ggn_mv (params : 'cV[R]_P) (data : batch) (loss_fn : loss_arg K)
    (num_curv num_total : option nat) (loss_hessian : option hessian_fn) :
    res ('cV[R]_P -> 'cV[R]_P) :=
  match loss_fn, loss_hessian with
  | LossMissing, None => Raise ValueError
  | LossStr _, Some _ | LossCallable _, Some _ => Raise ValueError
  | _, _ =>
      let! factor := curv_scaling_factor num_curv num_total (size data) in
      let! mv := create_ggn_mv_without_data params loss_fn factor loss_hessian in
      Ok (fun vec => mv vec data)
  end.

(** api.py:667-668 in [laplace]: the factor handed to [GGN]. *)
Definition laplace_factor (num_curv num_total : nat) : res R :=
  if num_total is 0 then Raise ZeroDivisionError else Ok (num_curv%:R / num_total%:R).
(** api.py:558-611 [GGN] for one batch (the loader case is C13), and api.py:667-684: the
    curvature operator [laplace] hands to [estimate_curvature].  The shape check of
    api.py:604-609 always succeeds on vectors of one size. *)
Definition GGN (params : 'cV[R]_P) (data : batch) (loss_fn : loss_arg K) (factor : R) :
    res ('cV[R]_P -> 'cV[R]_P) :=
  let! mv := create_ggn_mv_without_data params loss_fn factor None in
  Ok (fun vec => mv vec data).
Definition laplace_ggn_mv (params : 'cV[R]_P) (data : batch) (loss_fn : loss_arg K)
    (num_curv num_total : nat) : res ('cV[R]_P -> 'cV[R]_P) :=
  let! factor := laplace_factor num_curv num_total in
  GGN params data loss_fn factor.
End GGN.

(** curv/utils.py:103-125 [log_sigmoid_cross_entropy], one entry. *)
Definition log_sigmoid (z : R) : R := ln (sigmoid z).
Definition log_sigmoid_cross_entropy (z y : R) : R :=
  - y * log_sigmoid z - (1 - y) * log_sigmoid (- z).

Section Concat.
Variables (X : Type) (P K : nat).
Variables (model : X -> 'cV[R]_P -> 'cV[R]_K).
Notation batch := (seq (X * 'cV[R]_K)).

(** Output of the combined function: a scalar, or one array entry per sample and output. *)
Inductive loss_out : Type := Scalar of R | PerEntry of seq 'cV[R]_K.
(** The callable receives the stacked predictions and targets and returns a scalar. *)
Inductive closs_arg : Type :=
  | CLossStr of string
  | CLossCallable of (seq 'cV[R]_K -> seq 'cV[R]_K -> R).

(** curv/utils.py:128-199 [concatenate_model_and_loss_fn] with [vmap_over_data=True]. *)
Definition concatenate_model_and_loss_fn (loss_fn : closs_arg) :
    res (batch -> 'cV[R]_P -> loss_out) :=
  match loss_fn with
  | CLossStr s =>
      if String.eqb s "mse" then
        Ok (fun (data : batch) p => Scalar (foldr +%R 0
              [seq \sum_i ((model d.1 p - d.2) i ord0) ^+ 2 | d <- data]))
      else if String.eqb s "cross_entropy" then
        Ok (fun (data : batch) p => PerEntry
              (map (fun d : X * 'cV[R]_K =>
                      \col_i log_sigmoid_cross_entropy (model d.1 p i ord0) (d.2 i ord0)) data))
      else Raise ValueError
  | CLossCallable f =>
      Ok (fun (data : batch) p => Scalar (f [seq model d.1 p | d <- data] [seq d.2 | d <- data]))
  end.

(** hessian.py:24-43 [hvp]: [jax.jvp(jax.grad(func), ...)], which demands a scalar output.
    [hvp_oracle f p v] stands for the value computed by automatic differentiation; the
    theorems say which vectors it may be ([is_hvp] in GgnSpec.v). *)
Variable hvp_oracle : ('cV[R]_P -> R) -> 'cV[R]_P -> 'cV[R]_P -> 'cV[R]_P.
Definition hvp (f : 'cV[R]_P -> loss_out) (p v : 'cV[R]_P) : res 'cV[R]_P :=
  match f p with
  | Scalar _ => Ok (hvp_oracle (fun q => if f q is Scalar r then r else 0) p v)
  | PerEntry _ => Raise TypeError
  end.

(** hessian.py:46-105 and 108-183. *)
Definition create_hessian_mv_without_data (params : 'cV[R]_P) (loss_fn : closs_arg) (factor : R) :
    res ('cV[R]_P -> batch -> res 'cV[R]_P) :=
  let! f := concatenate_model_and_loss_fn loss_fn in
  Ok (fun vec data => let! h := hvp (f data) params vec in Ok (factor *: h)).
Definition create_hessian_mv (params : 'cV[R]_P) (data : batch) (loss_fn : closs_arg)
    (num_curv num_total : option nat) : res ('cV[R]_P -> res 'cV[R]_P) :=
  let! factor := curv_scaling_factor num_curv num_total (size data) in
  let! mv := create_hessian_mv_without_data params loss_fn factor in
  Ok (fun vec => mv vec data).
End Concat.
