(** Model of the keyword dictionaries of laplax/eval/pushforward.py: which keywords the functions
    read, and which ones collide with their parameters (Pushforward.v starts from the values read).

    A dictionary [d] holds what is left in [**kwargs] after the parameters in the signature have
    been bound.  Values of a type no documented use of the keyword has are left out (Unmodelled), and
    checked when the function is built, not when they are used. *)
From Coq Require Import String.
From mathcomp Require Import all_ssreflect all_algebra.
From Verif Require Import Base PyTree Mv EvalUtils Pushforward.
Set Implicit Arguments.
Unset Strict Implicit.
Unset Printing Implicit Defensive.
Import GRing.Theory Num.Theory.
Local Open Scope ring_scope.
Local Open Scope string_scope.

Section Keywords.
Variable R : rcfType.
Notation ptree := (tree (arr R)).
Notation array := (arr R).
Variable X : Type.
Variables (Key : Type) (split : Key -> nat -> seq Key) (normal : Key -> seq nat -> seq R) (key0 : Key).
Variable model_fn : X -> ptree -> res array.
Variables ad_jvp ad_vjp : X -> ptree -> res ptree.

Inductive kwval : Type :=
  | KwNone | KwBool of bool | KwInt of nat | KwStr of string | KwKey of Key | KwTree of ptree | KwOther.
Notation kwdict := (sdict kwval).

(** [kwargs.get(k)] as an integer, a flag, a string or a key, or None. *)
Definition kget_int (d : kwdict) (k : string) : res (option nat) :=
  match sget d k with
  | None | Some KwNone => Ok None | Some (KwInt n) => Ok (Some n) | _ => Raise Unmodelled
  end.
Definition kget_bool (d : kwdict) (k : string) : res (option bool) :=
  match sget d k with
  | None | Some KwNone => Ok None | Some (KwBool b) => Ok (Some b) | _ => Raise Unmodelled
  end.
Definition kget_key (d : kwdict) (k : string) : res (option Key) :=
  match sget d k with
  | None | Some KwNone => Ok None | Some (KwKey v) => Ok (Some v) | _ => Raise Unmodelled
  end.
(** [kwargs.get(k, kwargs.get(k'))]: the second keyword counts only if the first is absent. *)
Definition kget_int2 (d : kwdict) (k k' : string) : res (option nat) :=
  if shas d k then kget_int d k else kget_int d k'.
(** A keyword with a default that is not None: [special_pred_type], [use_correction]. *)
Definition kget_str (d : kwdict) (k : string) : res (option string) :=
  match sget d k with None => Ok None | Some (KwStr s) => Ok (Some s) | _ => Raise Unmodelled end.
Definition kget_flag (d : kwdict) (k : string) : res (option bool) :=
  match sget d k with None => Ok None | Some (KwBool b) => Ok (Some b) | _ => Raise Unmodelled end.
Definition any_of (ks : seq string) (d : kwdict) : bool := has (shas d) ks.

(** The values that pushforward.py:82-89 (precompute), 111 and 122 (predictive), 253-255 and 703-705
    (batch sizes) and ops.py:72 read; [batch] is the function's own batch-size keyword.
    [mv_jittable] (609) only selects compilation. *)
Definition read_kwargs (batch : string) (num_samples : option nat) (d : kwdict) : res kwargs :=
  let! special := kget_str d "special_pred_type" in
  let! correction := kget_flag d "use_correction" in
  let! bs := kget_int2 d batch "weight_batch_size" in
  let! pre := kget_bool d "set_get_weight_sample_precompute" in
  let! pbs := kget_int d "precompute_list_batch_size" in
  Ok (Kwargs num_samples special correction bs pre pbs).

(** Calls that pass parameters next to [**kwargs] raise TypeError when [kwargs] has the same name:
    pushforward.py:913-919 and 859-867 ([get_dist_state]); 204-210 ([set_get_weight_sample]) and
    82-89 ([precompute_list], whose own parameter [precompute] is among them); 922-928 and 870-876
    ([set_prob_predictive]); 814-821 ([finalize_fns]). *)
Definition dist_state_names := [:: "posterior_state"; "linearized"].
Definition sampling_names := [:: "scale_mv"; "func"; "items"; "precompute"].
Definition predictive_names := [:: "fns"; "results"; "aux"; "input"].

(** pushforward.py:814-821: [pred_map] is computed before the call. *)
Definition predict_kw (mean : ptree) (d : kwdict) (predict : X -> res (results R)) (x : X) : res (results R) :=
  let! _ := model_fn x mean in
  if any_of predictive_names d then Raise TypeError else predict x.

(** pushforward.py:888-943 [set_lin_pushforward]. *)
Definition lin_pushforward_kw (mean : ptree) (ps : posterior_state R) (fns : seq (pushfn R X)) (d : kwdict) :
    res (X -> res (results R)) :=
  if any_of dist_state_names d then Raise TypeError else
  let! n := (if sget d "num_samples" is Some KwNone then Raise TypeError else kget_int d "num_samples") in
  let! key := kget_key d "key" in
  if (0 < odflt 0 n)%N && any_of sampling_names d then Raise TypeError else
  let! kw := read_kwargs "lin_samples_batch_size" n d in
  let! predict := set_lin_pushforward split normal key0 model_fn ad_jvp ad_vjp mean ps key fns kw in
  if shas d "dist_state" then Raise TypeError else Ok (predict_kw mean d predict).

(** pushforward.py:826-885 [set_nonlin_pushforward]: [key] and [num_samples] are parameters. *)
Definition nonlin_pushforward_kw (mean : ptree) (ps : posterior_state R) (key : Key) (num_samples : option nat)
    (fns : seq (pushfn R X)) (d : kwdict) : res (X -> res (results R)) :=
  if any_of dist_state_names d then Raise TypeError else
  if (0 < odflt 100 num_samples)%N && any_of sampling_names d then Raise TypeError else
  let! kw := read_kwargs "nonlin_setup_batch_size" None d in
  let! predict := set_nonlin_pushforward split normal key0 model_fn ad_jvp ad_vjp mean ps key num_samples fns kw in
  if shas d "dist_state" then Raise TypeError else Ok (predict_kw mean d predict).

(** pushforward.py:946-1013 [set_posterior_gp_kernel]: [num_samples=0] is passed on, the mean under
    another name.  [if output_layout:] takes the truth value of the layout: the integer 0, empty
    containers and arrays of one entry 0 are false, an array of any other size than one has none
    (ValueError). *)
Definition kget_layout (d : kwdict) : res (option (layout R)) :=
  match sget d "output_layout" with
  | None | Some KwNone => Ok None
  | Some (KwInt n) => Ok (if n == 0%N then None else Some (LInt R n))
  | Some (KwTree (Node _ [::])) => Ok None
  | Some (KwTree (Node _ _ as t)) => Ok (Some (LTree t))
  | Some (KwTree (Leaf a)) =>
      match adata a with
      | [:: x] => Ok (if x == 0 then None else Some (LTree (Leaf a)))
      | _ => Raise ValueError
      end
  | _ => Raise Unmodelled
  end.
Definition gp_kernel_kw (mean : ptree) (ps : posterior_state R) (d : kwdict) :
    res (kernel R X * dist_state R X) :=
  if any_of ("num_samples" :: "mean_params" :: dist_state_names) d then Raise TypeError else
  let! dense := kget_bool d "dense" in
  let! l := (if odflt false dense then kget_layout d else Ok None) in
  set_posterior_gp_kernel split normal key0 model_fn ad_jvp ad_vjp mean ps (odflt false dense) l
    (Kwargs None None None None None None).
End Keywords.
