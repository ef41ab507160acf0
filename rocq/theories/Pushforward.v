(** Model of laplax/eval/pushforward.py over an arbitrary real closed field.

    Predictions are arrays of any shape, parameters are PyTrees.  Automatic differentiation is an
    oracle: [ad_jvp x], [ad_vjp x] are the products with the Jacobian of [model_fn x] at the mean
    parameters and with its transpose.  The PRNG is an oracle as in PyTree.v.  [expf] is the
    exponential used by softmax; the closed-form predictives of Predictives.v are parameters. *)
From Coq Require Import String.
From mathcomp Require Import all_ssreflect all_algebra.
From Verif Require Import Base PyTree Mv EvalUtils.
Set Implicit Arguments.
Unset Strict Implicit.
Unset Printing Implicit Defensive.
Import GRing.Theory Num.Theory.
Local Open Scope ring_scope.

Section Push.
Variable R : rcfType.
Notation ptree := (tree (arr R)).
Notation array := (arr R).
Variable X : Type.
Variables (Key : Type) (split : Key -> nat -> seq Key) (normal : Key -> seq nat -> seq R) (key0 : Key).
Variable model_fn : X -> ptree -> res array.
Variables ad_jvp ad_vjp : X -> ptree -> res ptree.
Variable expf : R -> R.
Variable var_predictive : string -> option (array -> array -> bool -> res array).
Variable cov_predictive : string -> option (array -> array -> res array).

(** The part of a [Posterior] (curv/cov.py) used here: [cov_mv(state)], [scale_mv(state)]. *)
Record posterior_state := PosteriorState { ps_cov_mv : ptree -> res ptree; ps_scale_mv : ptree -> res ptree }.

(** The keys a [dist_state] may have. *)
Record dist_state := DistState {
  ds_posterior : posterior_state;
  ds_num_samples : nat;
  ds_jvp : option (X -> ptree -> res ptree);
  ds_vjp : option (X -> ptree -> res ptree);
  ds_get_weight_samples : option (nat -> res ptree) }.

(** The keys of [results] and [aux]. *)
Record results := Results {
  r_map : array;
  r_pred_mean : option array;
  r_pred_cov : option array;
  r_pred_var : option array;
  r_pred_std : option array;
  r_samples : option array;
  r_mc_pred_act : option array;
  r_special_pred_act : option array }.
Record auxd := Aux {
  a_cov_mv : option (ptree -> res ptree);
  a_jac_mv : option (ptree -> res ptree);
  a_pred_ensemble : option array }.
Definition set_pred_mean v r := Results (r_map r) (Some v) (r_pred_cov r) (r_pred_var r) (r_pred_std r)
  (r_samples r) (r_mc_pred_act r) (r_special_pred_act r).
Definition set_pred_cov v r := Results (r_map r) (r_pred_mean r) (Some v) (r_pred_var r) (r_pred_std r)
  (r_samples r) (r_mc_pred_act r) (r_special_pred_act r).
Definition set_pred_var v r := Results (r_map r) (r_pred_mean r) (r_pred_cov r) (Some v) (r_pred_std r)
  (r_samples r) (r_mc_pred_act r) (r_special_pred_act r).
Definition set_pred_std v r := Results (r_map r) (r_pred_mean r) (r_pred_cov r) (r_pred_var r) (Some v)
  (r_samples r) (r_mc_pred_act r) (r_special_pred_act r).
Definition set_samples v r := Results (r_map r) (r_pred_mean r) (r_pred_cov r) (r_pred_var r) (r_pred_std r)
  (Some v) (r_mc_pred_act r) (r_special_pred_act r).
Definition set_mc_pred_act v r := Results (r_map r) (r_pred_mean r) (r_pred_cov r) (r_pred_var r) (r_pred_std r)
  (r_samples r) (Some v) (r_special_pred_act r).
Definition set_special_pred_act v r := Results (r_map r) (r_pred_mean r) (r_pred_cov r) (r_pred_var r)
  (r_pred_std r) (r_samples r) (r_mc_pred_act r) (Some v).

(** Keyword arguments reaching the pushforward functions. *)
Record kwargs := Kwargs {
  kw_num_samples : option nat;
  kw_special_pred_type : option string;
  kw_use_correction : option bool;
  kw_batch : option nat;        (* lin_samples_batch_size / nonlin_setup_batch_size / weight_batch_size *)
  kw_precompute : option bool;  (* set_get_weight_sample_precompute *)
  kw_precompute_batch : option nat }.

Definition pushfn := dist_state -> X -> kwargs -> results -> auxd -> res (results * auxd).

(** [d[k]] on an optional key. *)
Definition get_key (A : Type) (o : option A) : res A := if o is Some v then Ok v else Raise KeyError.
(** Values that must be arrays. *)
Definition as_array (t : ptree) : res array := if t is Leaf a then Ok a else Raise Unmodelled.

(** pushforward.py:47-89 [set_get_weight_sample]. *)
Definition set_get_weight_sample (key : option Key) (mean_params : ptree) (scale_mv : ptree -> res ptree)
    (num_samples : nat) (kw : kwargs) : res (nat -> res ptree) :=
  let keys := split (odflt key0 key) num_samples in
  let get_weight_sample idx :=
    match drop idx keys with
    | k :: _ => normal_like split normal k mean_params scale_mv
    | [::] => Raise Unmodelled
    end in
  let! look := precompute_list get_weight_sample (iota 0 num_samples) (kw_precompute kw) (kw_precompute_batch kw) in
  Ok (match look with ByIndex f => f | ByItem f => f end).

(** pushforward.py:145-213 [get_dist_state]; [vjp] reshapes its argument to the output shape. *)
Definition pf_vjp (mean_params : ptree) (x : X) (v : ptree) : res ptree :=
  let! out := model_fn x mean_params in
  let! a := as_array v in
  let! a' := arr_reshape (ashape out) (adata a) in
  ad_vjp x (Leaf a').
Definition get_dist_state (mean_params : ptree) (ps : posterior_state) (linearized : bool)
    (num_samples : nat) (key : option Key) (kw : kwargs) : res dist_state :=
  let jvp := if linearized then Some ad_jvp else None in
  let vjp := if linearized then Some (pf_vjp mean_params) else None in
  if (0 < num_samples)%N then
    let weight_sample_mean := if linearized then zeros_like mean_params else mean_params in
    let! g := set_get_weight_sample key weight_sample_mean (ps_scale_mv ps) num_samples kw in
    Ok (DistState ps num_samples jvp vjp (Some g))
  else Ok (DistState ps num_samples jvp vjp None).

(** ** Linearised pushforward *)

(** pushforward.py:462-496 [set_output_mv]. *)
Definition output_cov_mv (jvp vjp : X -> ptree -> res ptree) (ps : posterior_state) (x : X) (v : ptree) :=
  let! w := vjp x v in let! s := ps_cov_mv ps w in jvp x s.
(** pushforward.py:499-550 [lin_setup]. *)
Definition lin_setup : pushfn := fun ds x _ r aux =>
  let! jvp := get_key (ds_jvp ds) in
  let! vjp := get_key (ds_vjp ds) in
  Ok (r, Aux (Some (output_cov_mv jvp vjp (ds_posterior ds) x)) (Some (jvp x)) (a_pred_ensemble aux)).
(** pushforward.py:553-577 [lin_pred_mean]. *)
Definition lin_pred_mean : pushfn := fun _ _ _ r aux => Ok (set_pred_mean (r_map r) r, aux).
Definition ensure_pred_mean (r : results) : results :=
  if r_pred_mean r is Some _ then r else set_pred_mean (r_map r) r.
Definition the_pred_mean (r : results) : array := odflt (r_map r) (r_pred_mean r).
(** pushforward.py:580-612 [lin_pred_var]: the fallback [aux["cov_mv"]] is evaluated in any case. *)
Definition lin_pred_var : pushfn := fun _ _ _ r aux =>
  let! cov_mv := get_key (a_cov_mv aux) in
  let cov := if r_pred_cov r is Some c then Dense c else Callable cov_mv in
  let r := ensure_pred_mean r in
  let pred_mean := the_pred_mean r in
  let! d := diagonal cov (LInt R (prodn (ashape pred_mean))) None in
  let! v := arr_reshape (ashape pred_mean) d in
  Ok (set_pred_var v r, aux).
(** pushforward.py:615-638 [lin_pred_std]; [sqrt] of a negative number (nan in jax) is 0 here. *)
Definition lin_pred_std : pushfn := fun ds x kw r aux =>
  let! st := (if r_pred_var r is Some _ then Ok (r, aux) else lin_pred_var ds x kw r aux) in
  let! var := get_key (r_pred_var st.1) in
  Ok (set_pred_std (arr_map Num.sqrt var) st.1, st.2).
(** pushforward.py:641-666 [lin_pred_cov]. *)
Definition lin_pred_cov : pushfn := fun _ _ _ r aux =>
  let r := ensure_pred_mean r in
  let! cov_mv := get_key (a_cov_mv aux) in
  let! d := to_dense cov_mv (LTree (Leaf (the_pred_mean r))) None in
  let! c := as_array d in
  Ok (set_pred_cov c r, aux).
(** pushforward.py:669-707 [lin_samples]. *)
Definition lin_samples : pushfn := fun ds _ kw r aux =>
  let r := ensure_pred_mean r in
  let! jac_mv := get_key (a_jac_mv aux) in
  let! get_weight_samples := get_key (ds_get_weight_samples ds) in
  let! outs := lax_map (fun i => let! w := get_weight_samples i in
                                 let! d := jac_mv w in
                                 tree_add (Leaf (the_pred_mean r)) d)
                       (kw_batch kw) (iota 0 (ds_num_samples ds)) in
  let! s := stack_trees outs in
  let! a := as_array s in
  Ok (set_samples a r, aux).

(** Rows of a 2-D array; [jax.nn.softmax(a, axis=1)] followed by [jnp.mean(., axis=0)].  Samples of
    more or fewer axes are left out. *)
Definition rows (a : array) : res (seq (seq R)) :=
  match ashape a with [:: n; k] => Ok (reshape (nseq n k) (adata a)) | _ => Raise Unmodelled end.
Definition softmax_row (xs : seq R) : seq R :=
  let e := map expf xs in [seq x / foldr +%R 0 e | x <- e].
Definition mean_rows (k : nat) (rs : seq (seq R)) : seq R :=
  [seq foldr +%R 0 [seq nth 0 row j | row <- rs] / (size rs)%:R | j <- iota 0 k].
Definition mc_average (samples : array) : res array :=
  match ashape samples with
  | [:: n; k] =>
      let! rs := rows samples in Ok (Arr [:: k] (mean_rows k (map softmax_row rs)))
  | _ => Raise Unmodelled
  end.
(** pushforward.py:737-761 [lin_mc_pred_act]. *)
Definition lin_mc_pred_act : pushfn := fun ds x kw r aux =>
  let! st := (if r_samples r is Some _ then Ok (r, aux) else lin_samples ds x kw r aux) in
  let! s := get_key (r_samples st.1) in
  let! m := mc_average s in
  Ok (set_mc_pred_act m st.1, st.2).

(** ** Ensemble pushforward *)

(** pushforward.py:221-258 [nonlin_setup]. *)
Definition nonlin_setup : pushfn := fun ds x kw r aux =>
  let! outs := lax_map (fun i => let! g := get_key (ds_get_weight_samples ds) in
                                 let! w := g i in
                                 let! p := model_fn x w in Ok (Leaf p))
                       (kw_batch kw) (iota 0 (ds_num_samples ds)) in
  let! s := stack_trees outs in
  let! a := as_array s in
  Ok (r, Aux (a_cov_mv aux) (a_jac_mv aux) (Some a)).
(** An ensemble of [n] members of shape [s]: member [i], entry [j]. *)
Definition member (a : array) (k i j : nat) : R := nth 0 (adata a) (i * k + j)%N.
Definition ens_mean (a : array) (n k j : nat) : R :=
  foldr +%R 0 [seq member a k i j | i <- iota 0 n] / n%:R.
(** [sum_i (x_ia - m_a) (x_ib - m_b)] *)
Definition ens_cross (a : array) (n k p q : nat) : R :=
  foldr +%R 0 [seq (member a k i p - ens_mean a n k p) * (member a k i q - ens_mean a n k q) | i <- iota 0 n].
(** pushforward.py:261-281 [nonlin_pred_mean]. *)
Definition nonlin_pred_mean : pushfn := fun _ _ _ r aux =>
  let! e := get_key (a_pred_ensemble aux) in
  match ashape e with
  | n :: s => Ok (set_pred_mean (Arr s [seq ens_mean e n (prodn s) j | j <- iota 0 (prodn s)]) r, aux)
  | [::] => Raise Unmodelled
  end.
(** pushforward.py:284-306 [nonlin_pred_cov]: [jnp.cov(., rowvar=False)] divides by [n - 1], and
    squeezes a 1 x 1 result to 0-d.  Ensembles of fewer than two members are left out. *)
Definition nonlin_pred_cov : pushfn := fun _ _ _ r aux =>
  let! e := get_key (a_pred_ensemble aux) in
  match ashape e with
  | n :: s =>
      if (n <= 1)%N then Raise Unmodelled else
      let k := prodn s in
      let data := [seq ens_cross e n k (ij %/ k) (ij %% k) / (n.-1)%:R | ij <- iota 0 (k * k)] in
      Ok (set_pred_cov (Arr (if k == 1%N then [::] else [:: k; k]) data) r, aux)
  | [::] => Raise Unmodelled
  end.
(** pushforward.py:309-339 [nonlin_pred_var]: [jnp.var] divides by [n]. *)
Definition nonlin_pred_var : pushfn := fun _ _ _ r aux =>
  match r_pred_cov r with
  | Some c =>
      let! d := (match ashape c with
                 | [:: k; k'] => Ok [seq nth 0 (adata c) (i * k' + i)%N | i <- iota 0 (minn k k')]
                 | [::] | [:: _] => Ok (adata c)
                 | _ => Raise Unmodelled
                 end) in
      let! e := get_key (a_pred_ensemble aux) in
      let! v := arr_reshape (behead (ashape e)) d in
      Ok (set_pred_var v r, aux)
  | None =>
      let! e := get_key (a_pred_ensemble aux) in
      match ashape e with
      | n :: s => let k := prodn s in
          Ok (set_pred_var (Arr s [seq ens_cross e n k j j / n%:R | j <- iota 0 k]) r, aux)
      | [::] => Raise Unmodelled
      end
  end.
(** pushforward.py:342-365 [nonlin_pred_std]. *)
Definition nonlin_pred_std : pushfn := fun _ _ _ r aux =>
  match r_pred_var r with
  | Some v => Ok (set_pred_std (arr_map Num.sqrt v) r, aux)
  | None =>
      let! e := get_key (a_pred_ensemble aux) in
      match ashape e with
      | n :: s => let k := prodn s in
          Ok (set_pred_std (Arr s [seq Num.sqrt (ens_cross e n k j j / n%:R) | j <- iota 0 k]) r, aux)
      | [::] => Raise Unmodelled
      end
  end.
(** pushforward.py:368-391 [nonlin_samples] ([num_samples: int = 5]). *)
Definition nonlin_samples : pushfn := fun _ _ kw r aux =>
  let! e := get_key (a_pred_ensemble aux) in
  let! s := tree_slice 0%N (odflt 5%N (kw_num_samples kw)) (Leaf e) in
  let! a := as_array s in
  Ok (set_samples a r, aux).
(** pushforward.py:421-445 [nonlin_mc_pred_act]. *)
Definition nonlin_mc_pred_act : pushfn := fun ds x kw r aux =>
  let! st := (if r_samples r is Some _ then Ok (r, aux) else nonlin_samples ds x kw r aux) in
  let! s := get_key (r_samples st.1) in
  let! m := mc_average s in
  Ok (set_mc_pred_act m st.1, st.2).

(** pushforward.py:92-137 [special_pred_act]: the variance fallback is [lin_pred_var] also for the
    ensemble; unknown names are looked up in the covariance table. *)
Definition special_pred_act (linearized : bool) : pushfn := fun ds x kw r aux =>
  let! st := (if r_pred_mean r is Some _ then Ok (r, aux)
              else (if linearized then lin_pred_mean else nonlin_pred_mean) ds x kw r aux) in
  let! pred_mean := get_key (r_pred_mean st.1) in
  let t := odflt "mean_field_0"%string (kw_special_pred_type kw) in
  match var_predictive t with
  | Some pred_fn =>
      let! st := (if r_pred_var st.1 is Some _ then Ok st else lin_pred_var ds x kw st.1 st.2) in
      let! pred_var := get_key (r_pred_var st.1) in
      let! pred := pred_fn pred_mean pred_var (odflt true (kw_use_correction kw)) in
      Ok (set_special_pred_act pred st.1, st.2)
  | None =>
      let! pred_fn := get_key (cov_predictive t) in
      let! st := (if r_pred_cov st.1 is Some _ then Ok st
                  else (if linearized then lin_pred_cov else nonlin_pred_cov) ds x kw st.1 st.2) in
      let! pred_cov := get_key (r_pred_cov st.1) in
      let! pred := pred_fn pred_mean pred_cov in
      Ok (set_special_pred_act pred st.1, st.2)
  end.
(** pushforward.py:394-418, 710-734. *)
Definition nonlin_special_pred_act := special_pred_act false.
Definition lin_special_pred_act := special_pred_act true.

(** pushforward.py:448-455, 764-771: the default lists. *)
Definition DEFAULT_NONLIN_FINALIZE_FNS :=
  [:: nonlin_setup; nonlin_pred_mean; nonlin_pred_cov; nonlin_pred_var; nonlin_pred_std; nonlin_samples].
Definition DEFAULT_LIN_FINALIZE_FNS :=
  [:: lin_setup; lin_pred_mean; lin_pred_cov; lin_pred_var; lin_pred_std; lin_samples].

(** pushforward.py:779-823 [set_prob_predictive]. *)
Definition results0 (m : array) : results := Results m None None None None None None None.
Definition aux0 : auxd := Aux None None None.
Definition set_prob_predictive (mean_params : ptree) (ds : dist_state) (fns : seq pushfn) (kw : kwargs)
    (x : X) : res results :=
  let! pred_map := model_fn x mean_params in
  finalize_fns [seq f ds x kw | f <- fns] (results0 pred_map) aux0.

(** pushforward.py:826-885 [set_nonlin_pushforward] (default [num_samples = 100], which is not passed
    on to the functions) and 888-943 [set_lin_pushforward] (where it is one of the kwargs).
    [ps] is [posterior_fn(prior_arguments, loss_scaling_factor)]. *)
Definition set_nonlin_pushforward (mean_params : ptree) (ps : posterior_state) (key : Key)
    (num_samples : option nat) (fns : seq pushfn) (kw : kwargs) : res (X -> res results) :=
  let! ds := get_dist_state mean_params ps false (odflt 100%N num_samples) (Some key) kw in
  Ok (set_prob_predictive mean_params ds fns (Kwargs None (kw_special_pred_type kw) (kw_use_correction kw)
        (kw_batch kw) (kw_precompute kw) (kw_precompute_batch kw))).
Definition set_lin_pushforward (mean_params : ptree) (ps : posterior_state) (key : option Key)
    (fns : seq pushfn) (kw : kwargs) : res (X -> res results) :=
  let! ds := get_dist_state mean_params ps true (odflt 0%N (kw_num_samples kw)) key kw in
  Ok (set_prob_predictive mean_params ds fns kw).

(** pushforward.py:946-1013 [set_posterior_gp_kernel]; [if output_layout] is modelled as [is not
    None] (truthiness of arrays and empty containers left out).  Extra keyword arguments only matter
    for sampling. *)
Definition kernel_mv (vec : ptree) (x1 x2 : X) (ds : dist_state) : res ptree :=
  let! vjp := get_key (ds_vjp ds) in
  let! w := vjp x2 vec in
  let! s := ps_cov_mv (ds_posterior ds) w in
  let! jvp := get_key (ds_jvp ds) in
  jvp x1 s.
(** The product kernel takes the [dist_state] as its last argument; the dense one has it bound. *)
Inductive kernel : Type :=
  | KernelMv of (ptree -> X -> X -> dist_state -> res ptree)
  | KernelDense of (X -> X -> res ptree).
Definition set_posterior_gp_kernel (mean : ptree) (ps : posterior_state) (dense : bool)
    (output_layout : option (layout R)) (kw : kwargs) : res (kernel * dist_state) :=
  let! ds := get_dist_state mean ps true 0%N None kw in
  if dense then
    match output_layout with
    | Some l => Ok (KernelDense (fun x1 x2 => to_dense (fun v => kernel_mv v x1 x2 ds) l None), ds)
    | None => Raise ValueError
    end
  else Ok (KernelMv kernel_mv, ds).
End Push.
