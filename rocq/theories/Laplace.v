(** The function [laplace] of laplax/api.py as a whole: a batch or a loader, any of the four built-in
    approximations, and the posterior it returns applied to prior arguments. *)
From Coq Require Import Reals String.
From mathcomp Require Import all_ssreflect all_algebra.
From Verif Require Import Base RealStruct PyTree Mv Loader Registry Ggn Posterior LowRankSolvers EvalUtils
  Pushforward TreeGgn PipelineApprox Api.
Set Implicit Arguments.
Unset Strict Implicit.
Unset Printing Implicit Defensive.
Import GRing.Theory Num.Theory.
Local Open Scope ring_scope.

Section Laplace.
Notation RR := [rcfType of R].
Notation ptree := (tree (arr R)).
Notation array := (arr R).
Variables (X Key : Type) (K : nat).
Variable model_fn : X -> ptree -> res array.
Variables ad_jvp ad_vjp : X -> ptree -> res ptree.
(** Stacked arrays [A], [a[i]], and the samples in a pair (inputs, targets). *)
Variables (A : Type) (aitem : A -> nat -> res A) (points : A * A -> seq (X * array)).
(** [jnp.linalg.eigh], [jax.random.normal] and the other oracles of LowRankSolvers.v. *)
Variable eigh : forall k : nat, 'M[R]_k -> 'cV[R]_k * 'M[R]_k.
Variables (normal1 : Key -> nat -> seq R) (normal2 : Key -> forall n r, 'M[R]_(n, r)) (key0 : Key).
Variables (eps : R) (qr : forall a c, 'M[R]_(a, c) -> 'M[R]_(a, c))
  (svd : forall k, 'M[R]_k -> 'M[R]_k * 'cV[R]_k * 'M[R]_k).
Variable jax_lobpcg : forall n k : nat, (forall c, 'M[R]_(n, c) -> res 'M[R]_(n, c)) ->
  'M[R]_(n, k) -> nat -> option R -> res ('cV[R]_k * 'M[R]_(n, k) * nat).

(** api.py:585-591 (in [GGN]): the operator still waiting for its batch. *)
Definition batch_ggn (params : ptree) (loss : string) (factor : R) : res (ptree -> A * A -> res ptree) :=
  let! mv := tree_create_ggn_mv_without_data model_fn ad_jvp ad_vjp params (@LossStr K loss) factor in
  Ok (fun v xy => mv v (points xy)).

(** api.py:603-609: a result of another structure or with other shapes is a ValueError either way. *)
Definition same_shapes (u params : ptree) : bool :=
  is_ok (tmap2 (fun a b => if ashape a == ashape b then Ok tt else Raise ValueError) u params).

Section Estimators.
Variables (params : ptree) (mv_fn : ptree -> A * A -> res ptree).

(** The loader operator of api.py:181-189 (default reduction [reduce_add]). *)
Definition stream (bs : seq (batch A)) (tr : batch_transform A) : loader_mv RR (batch A) (A * A) ptree :=
  new_loader_mv mv_fn bs tr (@reduce_add RR).

(** The operator as a function: calling it. *)
Definition operator_mv (op : operator A) : ptree -> res ptree :=
  match op with
  | SingleBatch d => fun v => mv_fn v d
  | Streaming _ bs tr => loader_call (stream bs tr)
  end.

(** [unflatten] and [flatten] of create_pytree_flattener (flatten.py:71-123) on 1-D arrays as trees. *)
Definition unflatten_leaf (u : ptree) : res ptree :=
  if u is Leaf (Arr [:: _] d) then pytree_unflatten params d else Raise Unmodelled.
Definition flatten_leaf (u : ptree) : res ptree :=
  let! v := full_flatten u in Ok (Leaf (Arr [:: size v] v)).

(** full.py:23-55 [create_full_curvature]: the singledispatch functions [wrap_function] and [to_dense]
    take the branch for loaders (loader.py:355-362, 375-402) on a loader operator. *)
Definition full_estimate (op : operator A) : res ptree :=
  match op with
  | SingleBatch d => create_full_curvature (fun v => mv_fn v d) (LTree params)
  | Streaming _ bs tr =>
      loader_to_dense (wrap_loader (stream bs tr) (Some unflatten_leaf) (Some flatten_leaf))
        (LInt RR (get_size params)) None
  end.
(** diagonal.py:17-38 [create_diagonal_curvature]; loader.py:365-372. *)
Definition diagonal_estimate (op : operator A) : res (seq R) :=
  match op with
  | SingleBatch d => create_diagonal_curvature (fun v => mv_fn v d) (LTree params)
  | Streaming _ bs tr =>
      let! a := loader_diagonal (stream bs tr) (LTree params) in
      if a is Leaf (Arr _ d) then Ok d else Raise Unmodelled
  end.

(** The keyword arguments of [lobpcg_lowrank] (lobpcg.py:281-292). *)
Record lobpcg_args := LobpcgArgs {
  lo_key : option Key; lo_rank : nat; lo_tol : option R; lo_mv_dtype : option dtype;
  lo_calc_dtype : dtype; lo_return_dtype : option dtype; lo_mv_jit : bool }.

Variables (la : lanczos_args Key) (lo : lobpcg_args).
Variables (pa : prior_arguments RR) (lsf : R).

(** cov.py:24-37 [CURVATURE_METHODS] followed by [set_posterior_fn] (cov.py:133-207) for the same
    approximation, applied to prior arguments: [laplace(...)[0](pa, lsf)].  low_rank.py:21-60 calls
    [lanczos_lowrank] or [lobpcg_lowrank]; these call the operator (curv/utils.py:53-100, where
    [wrap_function] of a loader operator only surrounds its calls). *)
Definition posterior_methods : dict (operator A -> res (flagged (posterior_state RR))) := fun name =>
  if String.eqb name "full" then Some (fun op =>
    let! c := full_estimate op in
    if c is Leaf (Arr _ d) then
      Ok (flift (let! post := set_posterior_fn (full_method RR (get_size params)) (mx_of (get_size params) d)
                                (LTree params) pa lsf in operators_of post))
    else Raise Unmodelled)
  else if String.eqb name "diagonal" then Some (fun op =>
    let! d := diagonal_estimate op in
    Ok (flift (let! post := set_posterior_fn (diagonal_method RR (get_size params)) (cv_of (get_size params) d)
                              (LTree params) pa lsf in operators_of post)))
  else if String.eqb name "lanczos" then Some (fun op => Ok (
    fbind (lanczos_lowrank (R := RR) eigh normal1 (Callable (operator_mv op)) (la_key la) (la_b la) (LTree params)
             (la_rank la) (la_tol la) (la_mv_dtype la) (la_calc_dtype la) (la_return_dtype la) (la_full la))
      (fun r => flift (let! post := set_posterior_fn (low_rank_method RR (res_n r) (res_r r)) (res_terms r)
                                      (LTree params) pa lsf in operators_of post))))
  else if String.eqb name "lobpcg" then Some (fun op => Ok (
    fbind (lobpcg_lowrank (R := RR) eigh normal2 key0 eps qr svd jax_lobpcg (Callable (operator_mv op))
             (lo_key lo) (LTree params) (lo_rank lo) (lo_tol lo) (lo_mv_dtype lo) (lo_calc_dtype lo)
             (lo_return_dtype lo) (lo_mv_jit lo))
      (fun r => flift (let! post := set_posterior_fn (low_rank_method RR (res_n r) (res_r r)) (res_terms r)
                                      (LTree params) pa lsf in operators_of post))))
  else None.
End Estimators.

(** api.py:614-706 [laplace], then the returned function on prior arguments.  The factor is
    [num_curv_samples / num_total_samples]; a bad loss name is found by [GGN], after the checks of the
    curvature name and of the division. *)
Definition laplace_call (params : ptree) (d : data_arg A) (loss : string) (curv_type : enum_arg)
    (num_curv num_total : nat) (la : lanczos_args Key) (lo : lobpcg_args)
    (pa : prior_arguments RR) (lsf : R) : flagged (posterior_state RR) :=
  let run mv_fn := laplace aitem (@reduce_add RR) mv_fn same_shapes
                     (posterior_methods params mv_fn la lo pa lsf) params d curv_type num_total in
  fbind (flift (match batch_ggn params loss (num_curv%:R / num_total%:R) with
                | Ok mv_fn => run mv_fn
                | Raise e =>
                    let! _ := convert_to_enum CurvApprox curv_type false in
                    if num_total is 0 then Raise ZeroDivisionError else Raise e
                end)) id.
End Laplace.
