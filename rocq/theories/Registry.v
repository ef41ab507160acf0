(** Model of laplax/register.py and of the tables in laplax/curv/cov.py:51-86,
    laplax/eval/likelihood.py and laplax/api.py (calibration_options). *)
From Coq Require Import String.
From mathcomp Require Import all_ssreflect.
From Verif Require Import Base.
Set Implicit Arguments.
Unset Strict Implicit.
Unset Printing Implicit Defensive.

(** A Python dict with string keys (members of [CurvApprox] compare and hash as their string
    values, since it is a StrEnum). *)
Definition dict (F : Type) : Type := string -> option F.
Definition dict_set (F : Type) (d : dict F) (k : string) (v : F) : dict F :=
  fun k' => if String.eqb k' k then Some v else d k'.
Definition dict_get (F : Type) (d : dict F) (k : string) : res F :=
  if d k is Some v then Ok v else Raise KeyError.

Section Registry.
(** Functions are opaque values; a function is truthy. *)
Variable F : Type.

(** The six tables of the curvature registry. *)
Record registry := Registry {
  methods : dict F;             (* CURVATURE_METHODS *)
  precision_methods : dict F;   (* CURVATURE_PRECISION_METHODS *)
  to_posterior_state : dict F;  (* CURVATURE_TO_POSTERIOR_STATE *)
  state_to_scale : dict F;      (* CURVATURE_STATE_TO_SCALE *)
  state_to_cov : dict F;        (* CURVATURE_STATE_TO_COV *)
  marginal_ll : dict F }.       (* CURVATURE_MARGINAL_LOG_LIKELIHOOD *)

(** The keyword arguments of register.py:50-69. *)
Record registration := Registration {
  create_curvature_fn : option F;
  curvature_to_precision_fn : option F;
  prec_to_posterior_fn : option F;
  posterior_state_to_scale_fn : option F;
  posterior_state_to_cov_fn : option F;
  marginal_log_likelihood_fn : option F;
  default : option string }.

(** [fn or TABLE[default]] (the default is only looked up when [fn] is None; [TABLE[None]] fails
    like any other missing key). *)
Definition fn_or_default (fn : option F) (table : dict F) (default : option string) : res F :=
  match fn, default with
  | Some f, _ => Ok f
  | None, Some d => dict_get table d
  | None, None => Raise KeyError
  end.

(** Statements that may raise half-way: the registry at that point is kept. *)
Definition assign (fn : option F) (get : registry -> dict F) (set : registry -> dict F -> registry)
    (name : string) (default : option string) (k : registry -> registry * res unit)
    (r : registry) : registry * res unit :=
  match fn_or_default fn (get r) default with
  | Ok f => k (set r (dict_set (get r) name f))
  | Raise e => (r, Raise e)
  end.

(** register.py:50-147 [register_curvature_method]. *)
Definition register_curvature_method (name : string) (a : registration) (r : registry) :
    registry * res unit :=
  if (if default a is None then true else false) &&
     ~~ [&& isSome (create_curvature_fn a), isSome (curvature_to_precision_fn a),
            isSome (prec_to_posterior_fn a), isSome (posterior_state_to_scale_fn a),
            isSome (posterior_state_to_cov_fn a) & isSome (marginal_log_likelihood_fn a)]
  then (r, Raise ValueError)
  else
    let: Registration f1 f2 f3 f4 f5 f6 d := a in
    assign f1 methods (fun r t => Registry t (precision_methods r) (to_posterior_state r)
                                    (state_to_scale r) (state_to_cov r) (marginal_ll r)) name d
    (assign f2 precision_methods (fun r t => Registry (methods r) t (to_posterior_state r)
                                    (state_to_scale r) (state_to_cov r) (marginal_ll r)) name d
    (assign f3 to_posterior_state (fun r t => Registry (methods r) (precision_methods r) t
                                    (state_to_scale r) (state_to_cov r) (marginal_ll r)) name d
    (assign f4 state_to_scale (fun r t => Registry (methods r) (precision_methods r)
                                    (to_posterior_state r) t (state_to_cov r) (marginal_ll r)) name d
    (assign f5 state_to_cov (fun r t => Registry (methods r) (precision_methods r)
                                    (to_posterior_state r) (state_to_scale r) t (marginal_ll r)) name d
    (assign f6 marginal_ll (fun r t => Registry (methods r) (precision_methods r)
                                    (to_posterior_state r) (state_to_scale r) (state_to_cov r) t) name d
    (fun r => (r, Ok tt))))))) r.

(** A program that performs registrations one after the other, catching exceptions. *)
Definition register_all (h : seq (string * registration)) (r : registry) : registry :=
  foldl (fun r c => (register_curvature_method c.1 c.2 r).1) r h.

(** The functions laplax itself registers. *)
Inductive laplax_fn : Set :=
  | create_full_curvature | create_diagonal_curvature | create_low_rank_curvature
  | create_low_rank_curvature_lobpcg
  | full_curvature_to_precision | diagonal_curvature_to_precision | low_rank_curvature_to_precision
  | full_prec_to_posterior_state | diagonal_prec_to_posterior_state | low_rank_prec_to_posterior_state
  | full_posterior_state_to_scale | diagonal_posterior_state_to_scale | low_rank_posterior_state_to_scale
  | full_posterior_state_to_cov | diagonal_posterior_state_to_cov | low_rank_posterior_state_to_cov
  | full_marginal_log_likelihood | diagonal_marginal_log_likelihood | low_rank_marginal_log_likelihood.
Definition table4 (a b c d : F) : dict F :=
  fun k => if String.eqb k "full" then Some a else if String.eqb k "diagonal" then Some b
           else if String.eqb k "lanczos" then Some c else if String.eqb k "lobpcg" then Some d
           else None.
(** cov.py:51-86, likelihood.py:251-256: the tables after import. *)
Definition initial_registry (fn : laplax_fn -> F) : registry := Registry
  (table4 (fn create_full_curvature) (fn create_diagonal_curvature) (fn create_low_rank_curvature)
          (fn create_low_rank_curvature_lobpcg))
  (table4 (fn full_curvature_to_precision) (fn diagonal_curvature_to_precision)
          (fn low_rank_curvature_to_precision) (fn low_rank_curvature_to_precision))
  (table4 (fn full_prec_to_posterior_state) (fn diagonal_prec_to_posterior_state)
          (fn low_rank_prec_to_posterior_state) (fn low_rank_prec_to_posterior_state))
  (table4 (fn full_posterior_state_to_scale) (fn diagonal_posterior_state_to_scale)
          (fn low_rank_posterior_state_to_scale) (fn low_rank_posterior_state_to_scale))
  (table4 (fn full_posterior_state_to_cov) (fn diagonal_posterior_state_to_cov)
          (fn low_rank_posterior_state_to_cov) (fn low_rank_posterior_state_to_cov))
  (table4 (fn full_marginal_log_likelihood) (fn diagonal_marginal_log_likelihood)
          (fn low_rank_marginal_log_likelihood) (fn low_rank_marginal_log_likelihood)).

(** register.py:27-42 [register_calibration_method]. *)
Definition register_calibration_method (name : string) (fn : F) (options : dict F) : dict F :=
  dict_set options name fn.
End Registry.
