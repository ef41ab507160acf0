(** The workflow of Pipeline.v with the other curvature approximations of laplax: diagonal and
    low-rank (Lanczos).  The low-rank route runs under the global flag [jax_enable_x64]. *)
From Coq Require Import Reals String.
From mathcomp Require Import all_ssreflect all_algebra.
From Verif Require Import Base RealStruct PyTree Mv Ggn Posterior LowRankSolvers EvalUtils Pushforward TreeGgn.
Set Implicit Arguments.
Unset Strict Implicit.
Unset Printing Implicit Defensive.
Import GRing.Theory Num.Theory.
Local Open Scope ring_scope.

Section PipelineApprox.
Notation RR := [rcfType of R].
Notation ptree := (tree (arr R)).
Notation array := (arr R).
Variables (X Key : Type) (K : nat).
Variables (split : Key -> nat -> seq Key) (normal : Key -> seq nat -> seq R) (key0 : Key).
Variable model_fn : X -> ptree -> res array.
Variables ad_jvp ad_vjp : X -> ptree -> res ptree.
(** [jnp.linalg.eigh] and [jax.random.normal(key, (size,))]. *)
Variable eigh : forall k : nat, 'M[R]_k -> 'cV[R]_k * 'M[R]_k.
Variable normal1 : Key -> nat -> seq R.

(** cov.py:169-205: the operators of the posterior at its own state ([posterior.cov_mv(posterior.state)]).
    A posterior without a real state (NaN in the code) is outside the model. *)
Definition operators_of (State : Type) (post : option (posterior RR State)) : res (posterior_state RR) :=
  if post is Some p then
    let! cov := cov_mv p (post_state p) in
    let! scale := scale_mv p (post_state p) in
    Ok (PosteriorState (fun u => cov [:: u] tt) (fun u => scale [:: u] tt))
  else Raise Unmodelled.

(** api.py:614-706 [laplace] with ["diagonal"] for a single batch: ggn.py:274-359, cov.py:101-207. *)
Definition laplace_posterior_diagonal (params : ptree) (data : seq (X * array)) (loss : string)
    (num_curv num_total : option nat) (sigma_squared : option R) (lsf prior_prec : R) :
    res (posterior_state RR) :=
  let! mv := tree_create_ggn_mv model_fn ad_jvp ad_vjp params data (@LossStr K loss) num_curv num_total in
  let! post := create_posterior_fn_diagonal mv (LTree params) (PriorArguments (Some prior_prec) sigma_squared)
                 lsf (get_size params) in
  operators_of post.

(** The keyword arguments of [lanczos_lowrank] (lanczos.py:146-158). *)
Record lanczos_args := LanczosArgs {
  la_key : option Key; la_b : option (seq R); la_rank : nat; la_tol : R;
  la_mv_dtype : option dtype; la_calc_dtype : dtype; la_return_dtype : option dtype; la_full : bool }.

(** The same with ["lanczos"]: low_rank.py:21-60 [create_low_rank_curvature] calls [lanczos_lowrank]
    with the keyword arguments of [laplace]. *)
Definition laplace_posterior_lanczos (params : ptree) (data : seq (X * array)) (loss : string)
    (num_curv num_total : option nat) (a : lanczos_args) (sigma_squared : option R) (lsf prior_prec : R) :
    flagged (posterior_state RR) :=
  fbind (flift (tree_create_ggn_mv model_fn ad_jvp ad_vjp params data (@LossStr K loss) num_curv num_total))
    (fun mv =>
  fbind (lanczos_lowrank (R := RR) eigh normal1 (Callable mv) (la_key a) (la_b a) (LTree params) (la_rank a) (la_tol a)
           (la_mv_dtype a) (la_calc_dtype a) (la_return_dtype a) (la_full a))
    (fun r =>
  flift (let! post := set_posterior_fn (low_rank_method RR (res_n r) (res_r r)) (res_terms r) (LTree params)
                        (PriorArguments (Some prior_prec) sigma_squared) lsf in
         operators_of post))).

(** pushforward.py:888-943 [set_lin_pushforward] on a posterior, then the predictive at [x]. *)
Definition linearised_predictive (params : ptree) (ps : res (posterior_state RR)) (key : option Key)
    (fns : seq (pushfn RR X)) (kw : kwargs) (x : X) : res (results RR) :=
  let! ps := ps in
  let! predict := set_lin_pushforward split normal key0 model_fn ad_jvp ad_vjp params ps key fns kw in
  predict x.
End PipelineApprox.
