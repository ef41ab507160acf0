(** Model of laplax/eval/likelihood.py on PyTrees of parameters and arrays of data: the functions of
    Likelihood.v with their arguments as laplax passes them, and the marginal-likelihood objective of
    laplax/api.py on the curvature that [laplace] estimates. *)
From Coq Require Import Reals String.
From mathcomp Require Import all_ssreflect all_algebra.
From Verif Require Import Base RealStruct PyTree Mv Posterior Ggn Likelihood EvalUtils Objectives TreeGgn.
Set Implicit Arguments.
Unset Strict Implicit.
Unset Printing Implicit Defensive.
Import GRing.Theory Num.Theory.
Local Open Scope ring_scope.

Section TreeMll.
Notation RR := [rcfType of R].
Notation ptree := (tree (arr R)).
Notation array := (arr R).
Variables (X : Type) (K : nat).
Variable model_fn : X -> ptree -> res array.
Variables ad_jvp ad_vjp : X -> ptree -> res ptree.

(** A loss given by name, or a function of the stacked predictions and targets that returns a number. *)
Inductive tloss_arg : Type := TLossStr of string | TLossCallable of (seq array -> seq array -> res R).

(** curv/utils.py:169-176: [jnp.sum((model_fn(input, params) - target) ** 2)], sample by sample;
    broadcasting between different shapes is left out. *)
Definition squared_error (z y : array) : res R :=
  if (ashape z == ashape y) && (size (adata z) == size (adata y))
  then Ok (foldr +%R 0 [seq (p.1 - p.2) ^+ 2 | p <- zip (adata z) (adata y)])
  else Raise Unmodelled.

(** curv/utils.py:128-199 [concatenate_model_and_loss_fn] with [vmap_over_data=True].  (The array that
    "cross_entropy" gives is the subject of C38.) *)
Definition tree_full_fn (loss_fn : tloss_arg) : res (seq (X * array) -> ptree -> res R) :=
  match loss_fn with
  | TLossStr s =>
      if String.eqb s "mse" then
        Ok (fun data params =>
          let! es := mapM (fun d : X * array => let! z := model_fn d.1 params in squared_error z d.2) data in
          Ok (foldr +%R 0 es))
      else if String.eqb s "cross_entropy" then Ok (fun _ _ => Raise Unmodelled)
      else Raise ValueError
  | TLossCallable f =>
      Ok (fun data params =>
        let! zs := mapM (fun d : X * array => model_fn d.1 params) data in f zs [seq d.2 | d <- data])
  end.

(** likelihood.py:39-89 [joint_log_likelihood]. *)
Definition tree_joint_log_likelihood (full_fn : seq (X * array) -> ptree -> res R) (pa : mll_prior)
    (params : ptree) (data : seq (X * array)) : res R :=
  let! flat := full_flatten params in
  let params_square_norm := foldr +%R 0 [seq x ^+ 2 | x <- flat] in
  let! tau := get_prior_prec (mp_prior pa) in
  let log_prior_term1 := - 2%:R^-1 * tau * params_square_norm in
  let log_prior_term2 := - 2%:R^-1 * (get_size params)%:R * (ln (2%:R * PI) - ln tau) in
  let sigma := odflt 1 (mp_sigma pa) in
  let! l := full_fn data params in
  Ok (- (1 / (2%:R * sigma)) * l + (log_prior_term1 + log_prior_term2)).

(** likelihood.py:251-317 [marginal_log_likelihood], with the three functions of the table. *)
Definition tree_marginal_log_likelihood (params : ptree) (curv : curv_estimate (get_size params))
    (pa : mll_prior) (data : seq (X * array)) (loss_fn : tloss_arg) (lsf : R) : res R :=
  let! full_fn := tree_full_fn loss_fn in
  let! log_det_H :=
    match curv with
    | FullCurv c => let! prec := full_curvature_to_precision c (mp_prior pa) lsf in Ok (full_log_det prec)
    | DiagonalCurv c => let! prec := diagonal_curvature_to_precision c (mp_prior pa) lsf in Ok (diagonal_log_det prec)
    | LowRankCurv r c => let! prec := low_rank_curvature_to_precision c (mp_prior pa) lsf in Ok (low_rank_log_det prec)
    end in
  let! j := tree_joint_log_likelihood full_fn pa params data in
  Ok (j - evidence (get_size params) log_det_H).

(** The arrays of a batch of points; integer labels have no place in a squared error (left out). *)
Definition array_points (data : seq (X * value)) : res (seq (X * array)) :=
  mapM (fun d : X * value => if d.2 is VArr a then Ok (d.1, a) else Raise Unmodelled) data.

(** api.py:376-409 [_make_mll_objective] (without the sign): the marginal likelihood of a batch as a
    function of the prior precision, the only prior argument that calibration passes; the curvature is
    the one [laplace] returns (api.py:614-706, with "full"), the loss scaling factor the default. *)
Definition mll_of_laplace (params : ptree) (train : seq (X * array)) (loss : string)
    (num_curv num_total : option nat) (mll_loss : tloss_arg) (data : seq (X * value)) (prior_prec : R) : res R :=
  let! mv := tree_create_ggn_mv model_fn ad_jvp ad_vjp params train (@LossStr K loss) num_curv num_total in
  let! c := create_full_curvature mv (LTree params) in
  if c is Leaf (Arr _ d) then
    let! data := array_points data in
    tree_marginal_log_likelihood (FullCurv (mx_of (get_size params) d))
      (MllPrior (@PriorArguments RR (Some prior_prec) None) None) data mll_loss 1
  else Raise Unmodelled.
End TreeMll.
