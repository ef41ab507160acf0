(** Model of laplax/eval/utils.py (and of [evaluate_for_given_prior_arguments] of
    laplax/eval/calibrate.py:26-66, which has the same shape). *)
From Coq Require Import String.
From mathcomp Require Import all_ssreflect.
From Verif Require Import Base.
Set Implicit Arguments.
Unset Strict Implicit.
Unset Printing Implicit Defensive.

(** eval/utils.py:28-53 [finalize_fns]: threads [results, aux] through the functions and returns the
    results.  The keyword arguments, equal for all functions, are part of the closures. *)
Definition finalize_fns (A B : Type) (fns : seq (A -> B -> res (A * B))) (results : A) (aux : B) : res A :=
  let fix go fns st :=
    match fns with
    | [::] => Ok st.1
    | f :: fs => let! st' := f st.1 st.2 in go fs st'
    end in go fns (results, aux).

(** ** Python dicts with string keys, in insertion order *)

Definition sdict (V : Type) : Type := seq (string * V).

(** [d.get(k)]. *)
Fixpoint sget (V : Type) (d : sdict V) (k : string) : option V :=
  match d with
  | [::] => None
  | (k', v) :: d' => if String.eqb k' k then Some v else sget d' k
  end.

(** [k in d]. *)
Definition shas (V : Type) (d : sdict V) (k : string) : bool := isSome (sget d k).

(** [d[k]]. *)
Definition sindex (V : Type) (d : sdict V) (k : string) : res V :=
  if sget d k is Some v then Ok v else Raise KeyError.

(** [d[k] = v]: the position of an existing key is kept, a new key goes last. *)
Fixpoint sset (V : Type) (d : sdict V) (k : string) (v : V) : sdict V :=
  match d with
  | [::] => [:: (k, v)]
  | (k', v') :: d' => if String.eqb k' k then (k', v) :: d' else (k', v') :: sset d' k v
  end.

(** [d.keys()]. *)
Definition skeys (V : Type) (d : sdict V) : seq string := map fst d.

(** The keyword arguments of [f( **d1, **d2 )]: TypeError when both give the same keyword. *)
Definition merge_kwargs (V : Type) (d1 d2 : sdict V) : res (sdict V) :=
  if has (fun k => shas d1 k) (skeys d2) then Raise TypeError else Ok (d1 ++ d2).

Section Eval.
(** Values (arrays), opaque here. *)
Variable V : Type.

(** A positional argument of [apply_fns]: a callable with its [__name__] and what it does with its
    keyword arguments, or something that is not callable. *)
Inductive pyobj := PyCallable (name : string) (call : sdict V -> res V) | PyOther.

(** An element of a metrics list: called with [results], [aux] and the keyword arguments. *)
Definition step : Type := sdict V -> sdict V -> sdict V -> res (sdict V * sdict V).

Fixpoint all_callable (fs : seq pyobj) : res (seq (string * (sdict V -> res V))) :=
  match fs with
  | [::] => Ok [::]
  | PyCallable n c :: fs' => let! r := all_callable fs' in Ok ((n, c) :: r)
  | PyOther :: _ => Raise TypeError
  end.

(** eval/utils.py:133-140: the key-value pairs; [kwargs] maps argument names to entry names. *)
Fixpoint lookup_kwargs (kwargs : sdict string) (results aux : sdict V) (kvp : sdict V) : res (sdict V) :=
  match kwargs with
  | [::] => Ok kvp
  | (k, v) :: kwargs' =>
      match sget results v with
      | Some x => lookup_kwargs kwargs' results aux (sset kvp k x)
      | None =>
          match sget aux v with
          | Some x => lookup_kwargs kwargs' results aux (sset kvp k x)
          | None => Raise ValueError
          end
      end
  end.

(** eval/utils.py:146-156: the names under which results are stored. *)
Definition func_names (names : option (seq string)) (funcs : seq (string * (sdict V -> res V))) :
    res (seq string) :=
  match names with
  | None => Ok (map fst funcs)
  | Some ns => if size ns == size funcs then Ok ns else Raise ValueError
  end.

(** eval/utils.py:159-170.  [kvp = None] means that the key-value pairs are the dictionary [aux]
    itself (line 143), so that with [field="aux"] a later function sees the results of the earlier
    ones. *)
Fixpoint apply_loop (fns : seq ((sdict V -> res V) * string)) (field : string)
    (kvp : option (sdict V)) (local_kwargs results aux : sdict V) : res (sdict V * sdict V) :=
  match fns with
  | [::] => Ok (results, aux)
  | (f, n) :: fns' =>
      let! args := merge_kwargs (if kvp is Some d then d else aux) local_kwargs in
      let! r := f args in
      if String.eqb field "results" then apply_loop fns' field kvp local_kwargs (sset results n r) aux
      else if String.eqb field "aux" then apply_loop fns' field kvp local_kwargs results (sset aux n r)
      else Raise ValueError
  end.

(** eval/utils.py:93-172 [apply_fns]: the outer result is that of building the step. *)
Definition apply_fns (funcs : seq pyobj) (names : option (seq string)) (field : string)
    (kwargs : sdict string) : res step :=
  let! fs := all_callable funcs in
  Ok (fun results aux local_kwargs =>
    let! kvp := (if kwargs is [::] then Ok None
                 else rmap Some (lookup_kwargs kwargs results aux [::])) in
    let! ns := func_names names fs in
    apply_loop (zip (map snd fs) ns) field kvp local_kwargs results aux).

(** eval/utils.py:176-202: a dict mapping, or a list which stands for [{k: k for k in mapping}]. *)
Inductive mapping := MapDict (m : sdict string) | MapList (ks : seq string).
Definition mapping_items (m : mapping) : sdict string :=
  match m with
  | MapDict d => d
  | MapList ks => foldl (fun d k => sset d k k) [::] ks
  end.

(** eval/utils.py:204-208. *)
Inductive where_ := InResults | InAux.
Definition parse_field (s : string) : option where_ :=
  if String.eqb s "results" then Some InResults
  else if String.eqb s "aux" then Some InAux else None.

Definition pick (w : where_) (st : sdict V * sdict V) : sdict V :=
  match w with InResults => st.1 | InAux => st.2 end.
Definition put (w : where_) (st : sdict V * sdict V) (d : sdict V) : sdict V * sdict V :=
  match w with InResults => (d, st.2) | InAux => (st.1, d) end.

(** eval/utils.py:214-215. *)
Fixpoint transfer_loop (items : sdict string) (fld acc : where_) (st : sdict V * sdict V) :
    res (sdict V * sdict V) :=
  match items with
  | [::] => Ok st
  | (k, v) :: items' =>
      let! x := sindex (pick acc st) v in
      transfer_loop items' fld acc (put fld st (sset (pick fld st) k x))
  end.

(** eval/utils.py:175-218 [transfer_entry]. *)
Definition transfer_entry (m : mapping) (field access_from : string) : res step :=
  match parse_field field, parse_field access_from with
  | Some fld, Some acc => Ok (fun results aux _ => transfer_loop (mapping_items m) fld acc (results, aux))
  | _, _ => Raise ValueError
  end.

(** ** Evaluation on data sets *)

(** Inputs; a data point is a dictionary with the entries input and target. *)
Variable X : Type.
Definition data_point : Type := (X * V)%type.

(** [{**pred_fn(dp["input"]), "target": dp["target"]}] (eval/utils.py:82, 275, 345). *)
Definition with_target (pred_fn : X -> res (sdict V)) (dp : data_point) : res (sdict V) :=
  let! p := pred_fn dp.1 in Ok (sset p "target"%string dp.2).

(** What [jax.lax.map] and [jax.vmap] make of the dictionaries returned for the points: one
    dictionary whose entries stack those of the points.  JAX traces the function once, so that all
    points have the same keys; the model answers [Unmodelled] when they do not, and for an empty
    leading axis.  (JAX also sorts the keys, which no Python dict comparison can see.) *)
Definition stack_dicts (ds : seq (sdict V)) : res (sdict (seq V)) :=
  match ds with
  | [::] => Raise Unmodelled
  | d0 :: _ =>
      if all (fun d => all2 String.eqb (skeys d) (skeys d0)) ds then
        mapM (fun k => rmap (pair k) (mapM (fun d => sindex d k) ds)) (skeys d0)
      else Raise Unmodelled
  end.

(** [jax.lax.map(f, data, batch_size=...)] and [jax.vmap(f)(data)] (the batch size has no effect on
    the values). *)
Definition map_points (f : data_point -> res (sdict V)) (data : seq data_point) :
    res (sdict (seq V)) :=
  let! ds := mapM f data in stack_dicts ds.

(** eval/utils.py:56-90 [evaluate_on_dataset]. *)
Definition evaluate_on_dataset (pred_fn : X -> res (sdict V)) (data : seq data_point) :
    res (sdict (seq V)) :=
  map_points (with_target pred_fn) data.

(** eval/calibrate.py:26-66 [evaluate_for_given_prior_arguments]; the prior arguments are of any
    type, the metric receives the stacked entries as keyword arguments. *)
Definition evaluate_for_given_prior_arguments (P M : Type) (set_prob_predictive : P -> res (X -> res (sdict V)))
    (metric : sdict (seq V) -> res M) (data : seq data_point) (prior : P) : res M :=
  let! prob_predictive := set_prob_predictive prior in
  let! r := map_points (with_target prob_predictive) data in
  metric r.

(** eval/utils.py:259-272 and 329-342: the metrics list, and what has become of the list object the
    caller passed (it is extended in place). *)
Definition metrics_list (metrics : option (seq step)) (metrics_dict : option (sdict pyobj)) :
    res (seq step * option (seq step)) :=
  let! from_dict := (match metrics_dict with
                     | Some md => let! s := apply_fns (map snd md) (Some (skeys md)) "results" [::] in
                                  Ok [:: s]
                     | None => Ok [::]
                     end) in
  match metrics, metrics_dict with
  | None, None => Raise ValueError
  | None, Some _ => Ok (from_dict, None)
  | Some l, Some _ => Ok (l ++ from_dict, Some (l ++ from_dict))
  | Some l, None => Ok (l, Some l)
  end.

(** eval/utils.py:274-276 and 344-346; [kwargs] are the keyword arguments of the evaluation
    function, which all reach every metric. *)
Definition evaluate_data_point (metrics : seq step) (kwargs : sdict V)
    (pred_fn : X -> res (sdict V)) (dp : data_point) : res (sdict V) :=
  let! pred := with_target pred_fn dp in
  finalize_fns (map (fun s r a => s r a kwargs) metrics) [::] pred.

(** eval/utils.py:221-286 [evaluate_metrics_on_dataset]; returns the metrics together with the
    caller's list afterwards. *)
Definition evaluate_metrics_on_dataset (O : Type) (pred_fn : X -> res (sdict V)) (data : seq data_point)
    (metrics : option (seq step)) (metrics_dict : option (sdict pyobj)) (reduce : seq V -> res O)
    (kwargs : sdict V) : res (sdict O * option (seq step)) :=
  let! ml := metrics_list metrics metrics_dict in
  let! ev := map_points (evaluate_data_point ml.1 kwargs pred_fn) data in
  let! out := mapM (fun e => rmap (pair e.1) (reduce e.2)) ev in
  Ok (out, ml.2).

(** eval/utils.py:356-367: combination of the per-batch dictionaries. *)
Definition combine_results (W O : Type) (reduce : seq W -> res O) (all_results : seq (sdict W)) :
    res (sdict O) :=
  match all_results with
  | [::] => Ok [::]
  | r0 :: _ =>
      mapM (fun k => let! ws := mapM (fun r => sindex r k) all_results in rmap (pair k) (reduce ws))
           (skeys r0)
  end.

(** eval/utils.py:289-367 [evaluate_metrics_on_generator] with [vmap_over_data=True]: every
    (transformed) element of the generator is a batch of points. *)
Definition evaluate_metrics_on_generator (B O : Type) (pred_fn : X -> res (sdict V)) (gen : seq B)
    (metrics : option (seq step)) (metrics_dict : option (sdict pyobj))
    (transform : B -> res (seq data_point)) (reduce : seq (seq V) -> res O) (kwargs : sdict V) :
    res (sdict O * option (seq step)) :=
  let! ml := metrics_list metrics metrics_dict in
  let! rs := mapM (fun b => let! d := transform b in
                            map_points (evaluate_data_point ml.1 kwargs pred_fn) d) gen in
  let! out := combine_results reduce rs in
  Ok (out, ml.2).

(** The same with [vmap_over_data=False]: every element of the generator is handed to the prediction
    function as it is. *)
Definition evaluate_metrics_on_generator_novmap (B O : Type) (pred_fn : X -> res (sdict V)) (gen : seq B)
    (metrics : option (seq step)) (metrics_dict : option (sdict pyobj))
    (transform : B -> res data_point) (reduce : seq V -> res O) (kwargs : sdict V) :
    res (sdict O * option (seq step)) :=
  let! ml := metrics_list metrics metrics_dict in
  let! rs := mapM (fun b => let! d := transform b in
                            evaluate_data_point ml.1 kwargs pred_fn d) gen in
  let! out := combine_results reduce rs in
  Ok (out, ml.2).

End Eval.
Arguments transfer_entry {V} m field access_from.
