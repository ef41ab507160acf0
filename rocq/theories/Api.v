(** Model of laplax/api.py and laplax/enums.py. *)
From Coq Require Import String Ascii ZArith Reals SpecFloat.
From mathcomp Require Import all_ssreflect.
From Verif Require Import Base PyTree Loader Registry EvalUtils GridSearch.
Set Implicit Arguments.
Unset Strict Implicit.
Unset Printing Implicit Defensive.

(** * Enumerations *)

(** [str.lower] on ASCII strings (other characters are left out: a Coq string is a byte string). *)
Definition lower_ascii (c : ascii) : ascii :=
  let n := nat_of_ascii c in
  if (65 <= n) && (n <= 90) then ascii_of_nat (n + 32) else c.
Fixpoint lower (s : string) : string :=
  if s is String c s' then String (lower_ascii c) (lower s') else EmptyString.

(** enums.py: the classes used by api.py with the values of their members. *)
Inductive enum_cls : Set :=
  | LossFn | CurvApprox | LowRankMethod | CalibrationErrorNorm | CalibrationObjective
  | CalibrationMethod | PushforwardType | Predictive | DefaultMetrics.
Definition members (c : enum_cls) : seq string :=
  match c with
  | LossFn => [:: "mse"; "cross_entropy"; "binary_cross_entropy"; "none"]
  | CurvApprox => [:: "full"; "diagonal"; "lanczos"; "lobpcg"]
  | LowRankMethod => [:: "lanczos"; "lobpcg"]
  | CalibrationErrorNorm => [:: "l1"; "inf"]
  | CalibrationObjective => [:: "nll"; "chi_squared"; "marginal_log_likelihood"; "ece"]
  | CalibrationMethod => [:: "grid_search"]
  | PushforwardType => [:: "linear"; "nonlinear"]
  | Predictive => [:: "mc_bridge"; "laplace_bridge"; "mean_field_0"; "mean_field_1"; "mean_field_2"; "none"]
  | DefaultMetrics => [:: "classification"; "regression"]
  end%string.

(** An argument that ought to be an enum member or a string: a member of some StrEnum (which is also
    a string), a string, or something else (for which [.lower] is an AttributeError). *)
Inductive enum_arg := EMember (c : enum_cls) (v : string) | EStr (s : string) | EOther.
Definition str_of (a : enum_arg) : option string :=
  match a with EMember _ v => Some v | EStr s => Some s | EOther => None end.

Definition cls_eqb (c d : enum_cls) : bool :=
  match c, d with
  | LossFn, LossFn | CurvApprox, CurvApprox | LowRankMethod, LowRankMethod
  | CalibrationErrorNorm, CalibrationErrorNorm | CalibrationObjective, CalibrationObjective
  | CalibrationMethod, CalibrationMethod | PushforwardType, PushforwardType
  | Predictive, Predictive | DefaultMetrics, DefaultMetrics => true
  | _, _ => false
  end.

(** [enum_cls(s)]. *)
Definition enum_call (c : enum_cls) (s : string) : res string :=
  if has (String.eqb s) (members c) then Ok s else Raise ValueError.

(** api.py:192-218 [_convert_to_enum]; the result is the value of the member, or the string itself
    with [str_default]. *)
Definition convert_to_enum (c : enum_cls) (value : enum_arg) (str_default : bool) : res string :=
  match value with
  | EMember d v =>
      if cls_eqb c d then Ok v
      else match enum_call c (lower v) with
           | Ok m => Ok m
           | Raise e => if str_default then Ok v else Raise e
           end
  | EStr s =>
      match enum_call c (lower s) with
      | Ok m => Ok m
      | Raise e => if str_default then Ok s else Raise e
      end
  | EOther => Raise AttributeError
  end.

(** api.py:782: [predictive_type != Predictive.NONE] -- comparison of strings, before the
    conversion to an enum. *)
Definition is_classification (predictive_type : enum_arg) : bool :=
  if str_of predictive_type is Some s then ~~ String.eqb s "none" else true.

(** * Pushforward functions *)

(** The functions api.py may put into the list, or one of the caller's. *)
Inductive pf_fn (F : Type) :=
  | LinSetup | LinPredMean | LinPredStd | LinMcPredAct | LinSpecialPredAct (special_pred_type : string)
  | NonlinSetup | NonlinPredMean | NonlinPredStd | NonlinMcPredAct
  | GetPredAct | CustomFn (f : F).
Arguments LinSetup {F}. Arguments LinPredMean {F}. Arguments LinPredStd {F}.
Arguments LinMcPredAct {F}. Arguments LinSpecialPredAct {F} _.
Arguments NonlinSetup {F}. Arguments NonlinPredMean {F}. Arguments NonlinPredStd {F}.
Arguments NonlinMcPredAct {F}. Arguments GetPredAct {F}.

Inductive pf_setter := SetLinPushforward | SetNonlinPushforward.

(** api.py:94-99. *)
Definition SPECIAL_PREDICTIVES : seq string :=
  [:: "laplace_bridge"; "mean_field_0"; "mean_field_1"; "mean_field_2"]%string.
Definition mems (s : string) (l : seq string) : bool := has (String.eqb s) l.

(** api.py:234-291 [_setup_pushforward]. *)
Definition setup_pushforward (F : Type) (pushforward_type predictive_type : enum_arg)
    (pushforward_fns : option (seq F)) : res (pf_setter * seq (pf_fn F)) :=
  let! pf := convert_to_enum PushforwardType pushforward_type false in
  let! pred := convert_to_enum Predictive predictive_type false in
  let fns := map (@CustomFn F) (odflt [::] pushforward_fns) in
  if String.eqb pf "linear" then
    if nilp fns then
      let base := [:: LinSetup; LinPredMean; LinPredStd] in
      if String.eqb pred "mc_bridge" then Ok (SetLinPushforward, base ++ [:: LinMcPredAct; GetPredAct])
      else if mems pred SPECIAL_PREDICTIVES then
        Ok (SetLinPushforward, base ++ [:: LinSpecialPredAct pred; GetPredAct])
      else if ~~ String.eqb pred "none" then Raise ValueError
      else Ok (SetLinPushforward, base)
    else Ok (SetLinPushforward, fns)
  else if String.eqb pf "nonlinear" then
    if nilp fns then
      let base := [:: NonlinSetup; NonlinPredMean; NonlinPredStd] in
      if String.eqb pred "mc_bridge" then Ok (SetNonlinPushforward, base ++ [:: NonlinMcPredAct])
      else if mems pred SPECIAL_PREDICTIVES then Raise ValueError
      else Ok (SetNonlinPushforward, base)
    else Ok (SetNonlinPushforward, fns)
  else Raise ValueError.

(** * Calibration objectives *)

Inductive objective_kind :=
  | NllObjective (classification : bool)   (* nll_gaussian_classification or nll_gaussian *)
  | Chi2Objective | MllObjective | EceObjective.

(** The arguments of [_build_calibration_objective] that may be [None]. *)
Record objective_args (C M P T : Type) := ObjectiveArgs {
  oa_curv_estimate : option C; oa_model_fn : option M; oa_params : option P;
  oa_curv_type : option T; oa_vmap_over_data : option bool }.

(** api.py:110-119 [_check_if_none] on these arguments. *)
Definition any_none (C M P T : Type) (a : objective_args C M P T) : bool :=
  ~~ [&& isSome (oa_curv_estimate a), isSome (oa_model_fn a), isSome (oa_params a),
         isSome (oa_curv_type a) & isSome (oa_vmap_over_data a)].

(** api.py:412-487 [_build_calibration_objective]. *)
Definition build_calibration_objective (C M P T : Type) (objective_type : enum_arg)
    (a : objective_args C M P T) (is_classification : bool) : res objective_kind :=
  let! o := convert_to_enum CalibrationObjective objective_type false in
  if String.eqb o "marginal_log_likelihood" && any_none a then Raise ValueError
  else if ~~ isSome (oa_model_fn a) || ~~ isSome (oa_curv_type a) then Raise ValueError
  else if is_classification && String.eqb o "chi_squared" then Raise ValueError
  else if ~~ is_classification && String.eqb o "ece" then Raise ValueError
  else if String.eqb o "nll" then Ok (NllObjective is_classification)
  else if String.eqb o "chi_squared" then Ok Chi2Objective
  else if String.eqb o "marginal_log_likelihood" then Ok MllObjective
  else if String.eqb o "ece" then Ok EceObjective
  else Raise ValueError.

(** * Data arguments *)

Section Data.
(** Arrays, and [a[i]] for an array. *)
Variable A : Type.
Variable aitem : A -> nat -> res A.

(** A batch: a tuple, a list or a dict of arrays, or any other object (an array). *)
Inductive batch := BTuple (xs : seq A) | BList (xs : seq A) | BDict (d : sdict A) | BOther (a : A).

(** The [data] argument: a tuple, list or dict; another iterable, which yields batches and which may
    be an iterator (usable once) or not (an array is an iterable of its rows); or something that
    cannot be iterated. *)
Inductive data_arg :=
  | DTuple (xs : seq A) | DList (xs : seq A) | DDict (d : sdict A)
  | DIterable (one_shot : bool) (bs : seq batch)
  | DOther.

(** A transformed batch is used through its entries input and target. *)
Definition batch_transform : Type := batch -> res (A * A).

(** util/loader.py:21-34 [input_target_split]. *)
Definition split_transform : batch_transform := fun b =>
  match b with
  | BTuple xs | BList xs => Loader.input_target_split xs
  | BDict _ => Raise KeyError
  | BOther a => let! x := aitem a 0 in let! y := aitem a 1 in Ok (x, y)
  end.
(** util/utils.py [identity]: the batch itself, whose entries are then looked up (with a string, a
    TypeError for tuples, lists and arrays). *)
Definition identity_transform : batch_transform := fun b =>
  match b with
  | BDict d => let! x := sindex d "input" in let! y := sindex d "target" in Ok (x, y)
  | _ => Raise TypeError
  end.

(** api.py:122-147 [_validate_and_get_transform]. *)
Definition validate_and_get_transform (b : option batch) : res batch_transform :=
  match b with
  | Some (BTuple xs) | Some (BList xs) =>
      if size xs != 2 then Raise ValueError else Ok split_transform
  | Some (BDict d) =>
      if ~~ shas d "input" || ~~ shas d "target" then Raise ValueError else Ok identity_transform
  | _ => Raise ValueError
  end.

(** The data argument seen as a batch ([None] for an object of another type). *)
Definition as_batch (d : data_arg) : option batch :=
  match d with
  | DTuple xs => Some (BTuple xs) | DList xs => Some (BList xs) | DDict e => Some (BDict e)
  | _ => None
  end.

(** api.py:150-151 [_is_data_loader]. *)
Definition is_data_loader (d : data_arg) : bool := if d is DIterable _ _ then true else false.

(** [next(iter(data))] for a data loader, together with the data left in it. *)
Definition next_iter (one_shot : bool) (bs : seq batch) : res (batch * seq batch) :=
  if bs is b :: bs' then Ok (b, if one_shot then bs' else bs) else Raise StopIteration.

(** What [_validate_and_get_transform(next(iter(data)) if _is_data_loader(data) else data)] returns,
    and the data argument afterwards. *)
Definition peek_transform (d : data_arg) : res (batch_transform * data_arg) :=
  match d with
  | DIterable o bs =>
      let! p := next_iter o bs in
      let! t := validate_and_get_transform (Some p.1) in Ok (t, DIterable o p.2)
  | _ => let! t := validate_and_get_transform (as_batch d) in Ok (t, d)
  end.

(** An operator returned by [_maybe_wrap_loader_or_batch]: bound to one batch, or a DataLoaderMV. *)
Section Operator.
Variables (Y S : Type) (reduce : Y -> option S -> res (Y * S)).
Variable mv_fn : Y -> A * A -> res Y.

Inductive operator :=
  | SingleBatch (data : A * A)
  | Streaming (one_shot : bool) (bs : seq batch) (transform : batch_transform).

(** api.py:154-189 [_maybe_wrap_loader_or_batch] with the default reduction.  A list is not a
    tuple: it becomes the loader, and its elements the batches. *)
Definition maybe_wrap_loader_or_batch (d : data_arg) (transform : option batch_transform) :
    res operator :=
  let! td := (if transform is Some t then Ok (t, d) else peek_transform d) in
  match td.2 with
  | DTuple xs => rmap SingleBatch (td.1 (BTuple xs))
  | DDict e => rmap SingleBatch (td.1 (BDict e))
  | DList xs => Ok (Streaming false (map BOther xs) td.1)
  | DIterable o bs => Ok (Streaming o bs td.1)
  | DOther => Raise TypeError       (* not iterable; raised by the first call *)
  end.

(** util/loader.py:163-199, 305-323: one call of the operator, and the operator afterwards (a
    one-shot iterator is exhausted; what an exception leaves in it is not modelled). *)
Definition operator_call (op : operator) (v : Y) : res (Y * operator) :=
  match op with
  | SingleBatch d => let! y := mv_fn v d in Ok (y, op)
  | Streaming o bs t =>
      let! y := process_batches (mv_fn v) t reduce bs in
      Ok (y, Streaming o (if o then [::] else bs) t)
  end.

(** api.py:558-611 [GGN]: wrap, test on the parameters, compare the shapes. *)
Variable same_shapes : Y -> Y -> bool.
Definition ggn (params : Y) (d : data_arg) (transform : option batch_transform) : res operator :=
  let! op := maybe_wrap_loader_or_batch d transform in
  let! t := operator_call op params in
  if same_shapes t.1 params then Ok t.2 else Raise ValueError.

(** api.py:614-706 [laplace] up to the curvature estimate: the factor is computed from integers by a
    division in floating point, [methods] is the table CURVATURE_METHODS, and an estimator is a
    function of the operator (whose calls it threads, for the sake of one-shot iterators). *)
Definition laplace (E : Type) (methods : dict (operator -> res E)) (params : Y) (d : data_arg)
    (curv_type : enum_arg) (num_total_samples : nat) : res E :=
  let! ct := convert_to_enum CurvApprox curv_type false in
  if num_total_samples is 0 then Raise ZeroDivisionError
  else
    let! op := ggn params d None in
    let! estimator := dict_get methods ct in
    estimator op.
End Operator.

(** * Calibration *)

Section Calibration.
Variables C M P T : Type.        (* curvature estimate, model, parameters, curvature type *)
Variable F : Type.               (* custom pushforward functions *)
Variable K : Type.               (* values of further keyword arguments *)
Variable Q : Type.               (* prior arguments returned by custom calibration methods *)

(** The [calibration_kwargs] that api.py:820-823 reads, and the others. *)
Record calibration_kwargs := CalibrationKwargs {
  ck_log_prior_prec_min : option R; ck_log_prior_prec_max : option R;
  ck_grid_size : option nat; ck_patience : option (option Z);
  ck_others : sdict K }.

(** The prior arguments returned: [{"prior_prec": p}] or those of a custom method. *)
Inductive prior_result := PriorPrec (p : R) | PriorCustom (q : Q).

(** The objective as a function of the prior precision (or of the prior arguments in general, for
    custom methods), given kind, pushforward and data; the first argument counts the calls. *)
Variable objective_at : objective_kind -> pf_setter * seq (pf_fn F) -> A * A -> nat -> R -> res spec_float.
Definition custom_objective : Type := (objective_kind * (pf_setter * seq (pf_fn F)) * (A * A))%type.

(** The table [calibration_options], without the entry "grid_search". *)
Variable custom_methods : sdict (custom_objective -> calibration_kwargs -> res Q).

(** The entry "grid_search": by default [optimize_prior_prec] (api.py:101-103), called with its default
    [max_iterations]; register.py:27-42 can replace it.  It gets the objective and the four values of
    api.py:843-849, and gives the calls of the objective that it makes and its outcome. *)
Definition search_method : Type := (nat -> R -> res spec_float) -> R -> R -> nat -> option Z -> seq R * res R.
Definition builtin_search : search_method := fun objective lo hi n patience =>
  optimize_prior_prec objective lo hi n patience None.

(** api.py:709-868 [calibration]: the calls of the objective made by the grid search, and the
    outcome. *)
Definition calibration_by (search : search_method) (d : data_arg) (predictive_type pushforward_type : enum_arg)
    (pushforward_fns : option (seq F)) (a : objective_args C M P T)
    (calibration_objective calibration_method : enum_arg) (ck : calibration_kwargs) :
    seq R * res prior_result :=
  let fail e := ([::], Raise e) in
  match setup_pushforward pushforward_type predictive_type pushforward_fns with
  | Raise e => fail e
  | Ok pf =>
  match build_calibration_objective calibration_objective a (is_classification predictive_type) with
  | Raise e => fail e
  | Ok kind =>
  match convert_to_enum CalibrationMethod calibration_method true with
  | Raise e => fail e
  | Ok method =>
      let get_data := let! b := (if as_batch d is Some b then Ok b else Raise ValueError) in
                      let! t := validate_and_get_transform (Some b) in t b in
      if String.eqb method "grid_search" then
        match get_data with
        | Raise e => fail e
        | Ok xy =>
            let: (calls, out) := search (objective_at kind pf xy)
                (odflt (-3)%R (ck_log_prior_prec_min ck)) (odflt 3%R (ck_log_prior_prec_max ck))
                (odflt 50 (ck_grid_size ck)) (odflt None (ck_patience ck)) in
            (calls, rmap PriorPrec out)
        end
      else match sget custom_methods method with
           | Some f => match get_data with
                       | Raise e => fail e
                       | Ok xy => ([::], rmap PriorCustom (f (kind, pf, xy) ck))
                       end
           | None => fail ValueError
           end
  end end end.

(** The same with the table as it is after import. *)
Definition calibration := calibration_by builtin_search.
End Calibration.

(** * Evaluation *)

Section Evaluation.
Variables (V X F : Type).        (* per-point values, per-point inputs, custom pushforward functions *)

(** A Python function with the given required keyword parameters, and with or without a [**kwargs]
    parameter: TypeError for a missing or an unexpected keyword. *)
Definition py_function (required : seq string) (var_kwargs : bool) (body : sdict V -> res V)
    (args : sdict V) : res V :=
  if all (shas args) required && (var_kwargs || all (fun k => mems k required) (skeys args))
  then body args else Raise TypeError.

(** The bodies of the metric functions are opaque here (they are modelled in Metrics.v). *)
Variables f_rmse f_chi2 f_nll f_crps : sdict V -> res V.
Variables f_conf_map f_conf_pred f_corr_map f_corr_pred f_nll_class : sdict V -> res V.

(** eval/metrics.py:482-493 [DEFAULT_REGRESSION_METRICS]. *)
Definition DEFAULT_REGRESSION_METRICS : res (seq (step V)) :=
  let! s := apply_fns
    [:: PyCallable "estimate_rmse" (py_function [:: "pred_mean"; "target"]%string true f_rmse);
        PyCallable "chi_squared" (py_function [:: "pred_mean"; "pred_std"; "target"]%string true f_chi2);
        PyCallable "nll_gaussian" (py_function [:: "pred_mean"; "pred_std"; "target"]%string true f_nll);
        PyCallable "crps_gaussian" (py_function [:: "pred_mean"; "pred_std"; "target"]%string true f_crps)]
    (Some [:: "rmse"; "chi^2"; "nll"; "crps"]%string) "results"
    [:: ("pred_mean", "pred_mean"); ("pred_std", "pred_std"); ("target", "target")]%string in
  Ok [:: s].

(** api.py:512-538: the default classification metrics. *)
Definition DEFAULT_CLASSIFICATION_METRICS : res (seq (step V)) :=
  let! s1 := apply_fns
    [:: PyCallable "<lambda>" (py_function [:: "map"]%string true f_conf_map);
        PyCallable "<lambda>" (py_function [:: "pred_act"]%string true f_conf_pred);
        PyCallable "<lambda>" (py_function [:: "map"; "target"]%string true f_corr_map);
        PyCallable "<lambda>" (py_function [:: "pred_mean"; "target"]%string true f_corr_pred)]
    (Some [:: "confidences_map"; "confidences_pred"; "correctness_map"; "correctness_pred"]%string)
    "results" [::] in
  let! s2 := apply_fns
    [:: PyCallable "<lambda>" (py_function [:: "pred_mean"; "pred_std"; "target"]%string false f_nll_class)]
    (Some [:: "nll_gaussian"]%string) "results" [::] in
  Ok [:: s1; s2].

(** The [metrics] argument: a string (or StrEnum member), a callable, a list or tuple, or something
    else. *)
Inductive metrics_arg :=
  | MStr (a : enum_arg) | MCallable (s : step V) | MSeq (l : seq (step V)) | MOther.

(** api.py:490-550 [_resolve_metrics]. *)
Definition resolve_metrics (m : metrics_arg) : res (seq (step V)) :=
  match m with
  | MStr a =>
      let! d := convert_to_enum DefaultMetrics a false in
      if String.eqb d "regression" then DEFAULT_REGRESSION_METRICS
      else if String.eqb d "classification" then DEFAULT_CLASSIFICATION_METRICS
      else Raise ValueError
  | MCallable s => Ok [:: s]
  | MSeq l => if nilp l then Raise ValueError else Ok l
  | MOther => Raise ValueError
  end.

(** The points of a transformed batch (along the leading axis), the predictive built by the
    pushforward, and the value [True]. *)
Variable points : A * A -> seq (data_point V X).
Variable build_predictive : pf_setter * seq (pf_fn F) -> res (X -> res (sdict V)).
Variable vtrue : V.

(** api.py:871-977 [evaluation]: per-point metric values, concatenated over the batches of a loader
    ([reduce] is not used then) or reduced by [reduce].  The keyword [has_batch=True] of line 967
    ends up with the metric functions. *)
Definition evaluation (O : Type) (d : data_arg) (m : metrics_arg)
    (predictive_type pushforward_type : enum_arg) (pushforward_fns : option (seq F))
    (reduce : seq V -> res O) : res (sdict (seq V) + sdict O) :=
  let! ml := resolve_metrics m in
  let! pf := setup_pushforward pushforward_type predictive_type pushforward_fns in
  let! pred_fn := build_predictive pf in
  let! td := peek_transform d in
  match td.2, as_batch d with
  | DIterable _ bs, _ =>
      let! r := evaluate_metrics_on_generator pred_fn bs (Some ml) None
                  (fun b => let! xy := td.1 b in Ok (points xy)) (fun ws => Ok (flatten ws))
                  [:: ("has_batch"%string, vtrue)] in
      Ok (inl r.1)
  | _, Some b =>
      let! xy := td.1 b in
      let! r := evaluate_metrics_on_dataset pred_fn (points xy) (Some ml) None reduce [::] in
      Ok (inr r.1)
  | _, None => Raise ValueError
  end.
End Evaluation.

End Data.
