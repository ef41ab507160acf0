(** Model of the calibration objectives of laplax/api.py (lines 221-409) on top of the pushforward,
    predictive, metric and evaluation models, over the real numbers.

    The metric functions receive the stacked entries of the predictive as keyword arguments.  Data are
    points (input, target); the JIT compilation of the objectives is not modelled. *)
From Coq Require Import Reals String SpecFloat.
From mathcomp Require Import all_ssreflect all_algebra.
From Verif Require Import Base RealStruct PyTree Mv Ggn Posterior EvalUtils Pushforward Predictives Metrics GridSearch Api.
Set Implicit Arguments.
Unset Strict Implicit.
Unset Printing Implicit Defensive.
Import GRing.Theory Num.Theory.
Local Open Scope ring_scope.

Section Objectives.
Notation RR := [rcfType of R].
Notation ptree := (tree (arr R)).
Notation array := (arr R).
Variables (X Key : Type).
Variables (split : Key -> nat -> seq Key) (normal : Key -> seq nat -> seq R) (key0 : Key).
Variable model_fn : X -> ptree -> res array.
Variables ad_jvp ad_vjp : X -> ptree -> res ptree.

(** ** The predictive tables of pushforward.py:98-103 on 1-D arrays ([laplace_bridge] raises
    IndexError there, see Predictives.v); other numbers of axes are left out. *)
Definition of_cv (k : nat) (v : 'cV[R]_k) : array := Arr [:: k] [seq v i ord0 | i <- enum 'I_k].
Definition on_vector (T : Type) (f : forall k, 'cV[R]_k -> res T) (a : array) : res T :=
  match ashape a with [:: k] => f k (cv_of k (adata a)) | _ => Raise Unmodelled end.
Definition var_table (name : string) : option (array -> array -> bool -> res array) :=
  let with_var (f : forall k, 'cV[R]_k -> 'cV[R]_k -> res array) m v :=
    on_vector (fun k mean => f k mean (cv_of k (adata v))) m in
  if String.eqb name "laplace_bridge" then
    Some (fun m v c => with_var (fun k mean var =>
            let! p := laplace_bridge (MeanVar1 mean var) c in Ok (of_cv p)) m v)
  else if String.eqb name "mean_field_0" then
    Some (fun m v _ => with_var (fun k mean var => Ok (of_cv (mean_field_0_predictive mean var))) m v)
  else if String.eqb name "mean_field_1" then
    Some (fun m v _ => with_var (fun k mean var => Ok (of_cv (mean_field_1_predictive mean var))) m v)
  else None.
Definition cov_table (name : string) : option (array -> array -> res array) :=
  if String.eqb name "mean_field_2" then
    Some (fun m c => on_vector (fun k mean =>
      Ok (of_cv (mean_field_2_predictive mean (\matrix_(i, j) nth 0 (adata c) (i * k + j)%N)))) m)
  else None.

(** ** The predictive built by api.py *)

(** The results dictionary: Pushforward.v's, and the key pred_act that api.py adds. *)
Definition presults : Type := (results RR * option array)%type.
Notation apushfn := (dist_state RR X -> X -> kwargs -> presults -> auxd RR -> res (presults * auxd RR)).
Definition lift_fn (f : pushfn RR X) : apushfn := fun ds x kw r aux =>
  let! st := f ds x kw r.1 aux in Ok ((st.1, r.2), st.2).

(** api.py:221-231 [get_pred_act]. *)
Definition get_pred_act : apushfn := fun _ _ _ r aux =>
  let p := if r_mc_pred_act r.1 is Some a then Some a else r.2 in
  let p := if r_special_pred_act r.1 is Some a then Some a else p in
  Ok ((r.1, p), aux).

(** [partial(lin_special_pred_act, special_pred_type=predictive_type)] (api.py:267-272): a keyword of
    the call replaces the one of the partial application. *)
Definition with_special (name : string) (kw : kwargs) : kwargs :=
  Kwargs (kw_num_samples kw) (Some (odflt name (kw_special_pred_type kw))) (kw_use_correction kw) (kw_batch kw) (kw_precompute kw)
    (kw_precompute_batch kw).

(** The functions api.py:258-285 puts into the list. *)
Definition fn_of (f : pf_fn (pushfn RR X)) : apushfn :=
  match f with
  | LinSetup => lift_fn (@lin_setup RR X)
  | LinPredMean => lift_fn (@lin_pred_mean RR X)
  | LinPredStd => lift_fn (@lin_pred_std RR X)
  | LinMcPredAct => lift_fn (@lin_mc_pred_act RR X exp)
  | LinSpecialPredAct name => fun ds x kw =>
      lift_fn (@lin_special_pred_act RR X var_table cov_table) ds x (with_special name kw)
  | NonlinSetup => lift_fn (nonlin_setup model_fn)
  | NonlinPredMean => lift_fn (@nonlin_pred_mean RR X)
  | NonlinPredStd => lift_fn (@nonlin_pred_std RR X)
  | NonlinMcPredAct => lift_fn (@nonlin_mc_pred_act RR X exp)
  | GetPredAct => get_pred_act
  | CustomFn g => lift_fn g
  end.

(** pushforward.py:779-823 [set_prob_predictive] on the larger dictionary. *)
Definition api_predictive (mean : ptree) (ds : dist_state RR X) (fns : seq (pf_fn (pushfn RR X)))
    (kw : kwargs) (x : X) : res presults :=
  let! pred_map := model_fn x mean in
  finalize_fns [seq fn_of f ds x kw | f <- fns] (results0 pred_map, None) (aux0 RR).

(** Values of the stacked dictionary: arrays, or integer labels (0-d targets). *)
Inductive value := VArr (a : array) | VLabel (l : nat).

Definition entries_of (r : presults) : sdict value :=
  let e k (o : option array) := if o is Some a then [:: (k, VArr a)] else [::] in
  [:: ("map"%string, VArr (r_map r.1))] ++ e "pred_mean"%string (r_pred_mean r.1)
  ++ e "pred_cov"%string (r_pred_cov r.1) ++ e "pred_var"%string (r_pred_var r.1)
  ++ e "pred_std"%string (r_pred_std r.1) ++ e "samples"%string (r_samples r.1)
  ++ e "mc_pred_act"%string (r_mc_pred_act r.1) ++ e "special_pred_act"%string (r_special_pred_act r.1)
  ++ e "pred_act"%string r.2.

(** api.py:791-799 with pushforward.py:826-943: the predictive for given posterior; [num_samples]
    and the key are the arguments of [calibration]. *)
Definition build_predictive (mean : ptree) (key : Key) (num_samples : nat)
    (pf : pf_setter * seq (pf_fn (pushfn RR X))) (ps : posterior_state RR) :
    res (X -> res (sdict value)) :=
  let kw n := Kwargs n None None None None None in
  match pf.1 with
  | SetLinPushforward =>
      let! ds := get_dist_state split normal key0 model_fn ad_jvp ad_vjp mean ps true num_samples
                   (Some key) (kw (Some num_samples)) in
      Ok (fun x => rmap entries_of (api_predictive mean ds pf.2 (kw (Some num_samples)) x))
  | SetNonlinPushforward =>
      let! ds := get_dist_state split normal key0 model_fn ad_jvp ad_vjp mean ps false num_samples
                   (Some key) (kw None) in
      Ok (fun x => rmap entries_of (api_predictive mean ds pf.2 (kw None) x))
  end.

(** ** Metrics on stacked entries *)

(** A required keyword parameter. *)
Definition arg (d : sdict (seq value)) (k : string) : res (seq value) :=
  if sget d k is Some vs then Ok vs else Raise TypeError.
(** The array whose rows are the given values (equal shapes). *)
Definition val_array (v : value) : array := match v with VArr a => a | VLabel l => Arr [::] [:: l%:R] end.
Definition stack_values (vs : seq value) : array :=
  let rows := map val_array vs in
  Arr (size rows :: ashape (head (Arr [::] [::]) rows)) (flatten (map (@adata R) rows)).

(** [jax.nn.one_hot]: a new last axis of length [C]; entries are compared with the class numbers. *)
Definition one_hot_array (C : nat) (a : array) : array :=
  Arr (rcons (ashape a) C)
      (flatten [seq [seq (if x == c%:R then 1 else 0) | c <- iota 0 C] | x <- adata a]).

(** metrics.py:420-472 [nll_gaussian] and 334-347 [chi_squared_zero] with keyword arguments. *)
Definition metric_nll (d : sdict (seq value)) : res R :=
  let! m := arg d "pred_mean" in let! s := arg d "pred_std" in let! y := arg d "target" in
  nll_gaussian (stack_values m) (stack_values s) (stack_values y) true.
Definition metric_chi2_zero (d : sdict (seq value)) : res R :=
  let! m := arg d "pred_mean" in let! s := arg d "pred_std" in let! y := arg d "target" in
  chi_squared_zero (stack_values m) (stack_values s) (stack_values y).
(** api.py:294-299 [nll_gaussian_classification]; the stacked mean has at least one axis. *)
Definition metric_nll_classification (d : sdict (seq value)) : res R :=
  let! m := arg d "pred_mean" in let! s := arg d "pred_std" in let! y := arg d "target" in
  let m := stack_values m in
  nll_gaussian m (stack_values s) (one_hot_array (last 0%N (ashape m)) (stack_values y)) true.

(** Rows of a list of 1-D values (what [axis=-1] and the class axis mean below). *)
Definition value_rows (vs : seq value) : res (seq (seq R)) :=
  mapM (fun v => match v with
                 | VArr a => if ashape a is [:: _] then Ok (adata a) else Raise Unmodelled
                 | VLabel _ => Raise Unmodelled
                 end) vs.
(** Targets of [correctness]: labels, or rows of scores. *)
Definition value_targets (vs : seq value) : res (targets [realFieldType of R]) :=
  match mapM (fun v => if v is VLabel l then Ok l else Raise Unmodelled) vs with
  | Ok ls => Ok (Labels _ ls)
  | Raise _ => let! rs := value_rows vs in Ok (Rows rs)
  end.
(** api.py:366-375, the local function [ece]. *)
Definition metric_ece (d : sdict (seq value)) : res R :=
  let! m := arg d "map" in let! p := arg d "pred_act" in let! y := arg d "target" in
  let! probs := value_rows p in
  let! scores := value_rows m in
  let! t := value_targets y in
  let! c := correctness scores t in
  expected_calibration_error (map (@jmax [realFieldType of R]) probs)
    [seq (if b then 1 else 0) | b <- c] 15.

(** ** The objectives *)

Variables (mean : ptree) (key : Key) (num_samples : nat).
(** [posterior_fn({"prior_prec": tau})] with [loss_scaling_factor = 1.0], and
    [marginal_log_likelihood] as a function of the prior precision (Likelihood.v). *)
Variable posterior_fn : R -> res (posterior_state RR).
Variable mll : seq (X * value) -> R -> res R.

Definition objective_metric (kind : objective_kind) : sdict (seq value) -> res R :=
  match kind with
  | NllObjective true => metric_nll_classification
  | NllObjective false => metric_nll
  | Chi2Objective => metric_chi2_zero
  | EceObjective => metric_ece
  | MllObjective => fun _ => Raise Unmodelled     (* not used *)
  end.

(** api.py:302-409 with calibrate.py:26-66: the objective as a function of the prior precision. *)
Definition objective_value (kind : objective_kind) (pf : pf_setter * seq (pf_fn (pushfn RR X)))
    (data : seq (X * value)) (prior_prec : R) : res R :=
  if kind is MllObjective then let! m := mll data prior_prec in Ok (- m)
  else evaluate_for_given_prior_arguments
         (fun tau => let! ps := posterior_fn tau in build_predictive mean key num_samples pf ps)
         (objective_metric kind) data prior_prec.

(** As grid_search sees it: values are rounded to floating point, by an unspecified [rnd]; [points]
    cuts a batch into its points. *)
Variables (A : Type) (points : A * A -> seq (X * value)) (rnd : R -> spec_float).
Definition objective_at (kind : objective_kind) (pf : pf_setter * seq (pf_fn (pushfn RR X))) (xy : A * A)
    (i : nat) (prior_prec : R) : res spec_float :=
  rmap rnd (objective_value kind pf (points xy) prior_prec).
End Objectives.
