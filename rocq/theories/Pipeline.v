(** The documented workflow as one function: GGN over a data set, full posterior, linearised
    pushforward (the calls of laplax/api.py:614-706 [laplace] with ["full"] and ["ggn"], and of
    api.py:234-291 [_setup_pushforward] with ["linear"], for a single batch). *)
From Coq Require Import Reals String.
From mathcomp Require Import all_ssreflect all_algebra.
From Verif Require Import Base RealStruct PyTree Mv Ggn Posterior EvalUtils Pushforward TreeGgn.
Set Implicit Arguments.
Unset Strict Implicit.
Unset Printing Implicit Defensive.
Import GRing.Theory Num.Theory.
Local Open Scope ring_scope.

Section Pipeline.
Notation ptree := (tree (arr R)).
Notation array := (arr R).
Variables (X Key : Type) (K : nat).
Variables (split : Key -> nat -> seq Key) (normal : Key -> seq nat -> seq R) (key0 : Key).
Variable model_fn : X -> ptree -> res array.
Variables ad_jvp ad_vjp : X -> ptree -> res ptree.

(** ggn.py:274-359 [create_ggn_mv], cov.py:133-252 [create_posterior_fn] with [set_posterior_fn]: the
    posterior as a function of the prior precision.  A posterior without a real scale factor (NaN in
    the code) is outside the model. *)
Definition laplace_posterior (params : ptree) (data : seq (X * array)) (loss : string)
    (num_curv num_total : option nat) (sigma_squared : option R) (lsf prior_prec : R) :
    res (posterior_state [rcfType of R]) :=
  let! mv := tree_create_ggn_mv model_fn ad_jvp ad_vjp params data (@LossStr K loss) num_curv num_total in
  let! post := create_posterior_fn_full mv (LTree params) (PriorArguments (Some prior_prec) sigma_squared) lsf
                 (get_size params) in
  if post is Some p then
    let! cov := cov_mv p (post_state p) in
    let! scale := scale_mv p (post_state p) in
    Ok (PosteriorState (fun u => cov [:: u] tt) (fun u => scale [:: u] tt))
  else Raise Unmodelled.

(** pushforward.py:888-943 [set_lin_pushforward] on it, then the predictive at [x]. *)
Definition laplace_predictive (params : ptree) (data : seq (X * array)) (loss : string)
    (num_curv num_total : option nat) (sigma_squared : option R) (prior_prec lsf : R) (key : option Key)
    (fns : seq (pushfn [rcfType of R] X)) (kw : kwargs) (x : X) : res (results [rcfType of R]) :=
  let! ps := laplace_posterior params data loss num_curv num_total sigma_squared lsf prior_prec in
  let! predict := set_lin_pushforward split normal key0 model_fn ad_jvp ad_vjp params ps key fns kw in
  predict x.

(** The same with pushforward.py:826-885 [set_nonlin_pushforward] (["nonlinear"] in api.py:276-285). *)
Definition laplace_ensemble (params : ptree) (data : seq (X * array)) (loss : string)
    (num_curv num_total : option nat) (sigma_squared : option R) (prior_prec lsf : R) (key : Key)
    (num_samples : option nat) (fns : seq (pushfn [rcfType of R] X)) (kw : kwargs) (x : X) :
    res (results [rcfType of R]) :=
  let! ps := laplace_posterior params data loss num_curv num_total sigma_squared lsf prior_prec in
  let! predict := set_nonlin_pushforward split normal key0 model_fn ad_jvp ad_vjp params ps key num_samples fns kw in
  predict x.
End Pipeline.
