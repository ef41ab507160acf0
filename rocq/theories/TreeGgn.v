(** Model of the GGN operator of laplax/curv/ggn.py on PyTrees of parameters: the flat operator of
    Ggn.v with its arguments as laplax passes them.

    Automatic differentiation is an oracle as in Pushforward.v: [ad_jvp x], [ad_vjp x] are the
    products with the Jacobian of [model_fn x] at [params] and with its transpose. *)
From Coq Require Import Reals String.
From mathcomp Require Import all_ssreflect all_algebra.
From Verif Require Import Base RealStruct PyTree Mv Posterior Ggn.
Set Implicit Arguments.
Unset Strict Implicit.
Unset Printing Implicit Defensive.
Import GRing.Theory Num.Theory.
Local Open Scope ring_scope.

Section TreeGgn.
Notation ptree := (tree (arr R)).
Notation array := (arr R).
Variables (X : Type) (K : nat).
Variable model_fn : X -> ptree -> res array.
Variables ad_jvp ad_vjp : X -> ptree -> res ptree.

(** A loss Hessian on vectors of length [K] as a function on 1-D arrays ([jv], [pred], [target]);
    predictions of other shapes are left out, and so are targets of another size if the loss is a
    function ([reads_target]); the built-in losses ignore the target (ggn.py:51, 83, 113, 174), which may
    then be a class label or anything else. *)
Definition hessian_on_arrays (reads_target : bool) (h : 'cV[R]_K -> 'cV[R]_K -> 'cV[R]_K -> 'cV[R]_K) (jv : ptree)
    (z y : array) : res ptree :=
  if jv is Leaf (Arr [:: k] d) then
    if [&& k == K, size d == K, size (adata z) == K & ~~ reads_target || (size (adata y) == K)]
    then Ok (Leaf (Arr [:: K] (of_cv (h (cv_of K d) (cv_of K (adata z)) (cv_of K (adata y))))))
    else Raise Unmodelled
  else Raise Unmodelled.

(** ggn.py:255-267 for one sample: forward pass, [jvp], loss Hessian, transpose. *)
Definition ggn_sample (params : ptree) (hess : ptree -> array -> array -> res ptree) (vec : ptree)
    (d : X * array) : res ptree :=
  let! z := model_fn d.1 params in
  let! jv := ad_jvp d.1 vec in
  let! hjv := hess jv z d.2 in
  ad_vjp d.1 hjv.

(** The transpose of a batched linear map sums over the batch (zeros for an empty one). *)
Fixpoint sum_trees (zero : ptree) (ts : seq ptree) : res ptree :=
  if ts is t :: ts' then let! s := sum_trees zero ts' in tree_add t s else Ok zero.

(** ggn.py:253-269 [ggn_mv] with [vmap_over_data=True]. *)
Definition tree_ggn_mv (params : ptree) (hess : ptree -> array -> array -> res ptree) (factor : R)
    (vec : ptree) (data : seq (X * array)) : res ptree :=
  let! cs := mapM (ggn_sample params hess vec) data in
  let! s := sum_trees (zeros_like params) cs in
  Ok (tree_mul factor s).

(** ggn.py:205-271 and 274-359 with [loss_fn] given. *)
Definition tree_create_ggn_mv_without_data (params : ptree) (loss_fn : loss_arg K) (factor : R) :
    res (ptree -> seq (X * array) -> res ptree) :=
  let! h := create_loss_hessian_mv loss_fn in
  Ok (tree_ggn_mv params (hessian_on_arrays (if loss_fn is LossCallable _ then true else false) h) factor).
Definition tree_create_ggn_mv (params : ptree) (data : seq (X * array)) (loss_fn : loss_arg K)
    (num_curv num_total : option nat) : res (ptree -> res ptree) :=
  if loss_fn is LossMissing then Raise ValueError
  else
    let! factor := curv_scaling_factor num_curv num_total (size data) in
    let! mv := tree_create_ggn_mv_without_data params loss_fn factor in
    Ok (fun vec => mv vec data).
End TreeGgn.
