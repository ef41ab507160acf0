(** Model of laplax/util/mv.py and laplax/util/ops.py. *)
From Coq Require Import String.
From mathcomp Require Import all_ssreflect all_algebra.
From Verif Require Import Base PyTree.
Set Implicit Arguments.
Unset Strict Implicit.
Unset Printing Implicit Defensive.
Import GRing.Theory.

(** Multi-indices of a shape in C order, and the C-order position of a multi-index. *)
Fixpoint indices (s : seq nat) : seq (seq nat) :=
  match s with
  | [::] => [:: [::]]
  | n :: s' => flatten [seq [seq i :: r | r <- indices s'] | i <- iota 0 n]
  end.
Fixpoint ravel_idx (s idx : seq nat) : nat :=
  match s, idx with
  | _ :: s', i :: idx' => i * prodn s' + ravel_idx s' idx'
  | _, _ => 0
  end.

Section Mv.
Local Open Scope ring_scope.
Variable R : ringType.
Notation ptree := (tree (arr R)).

(** types.py [Layout = PyTree | int], plus [None]. *)
Inductive layout : Type := LInt of nat | LTree of ptree | LNone.

(** The first argument of [diagonal]: a callable or a dense matrix.  An array is a PyTree
    leaf, so callables on flat vectors and on PyTrees have one type. *)
Inductive operand : Type :=
  | Callable of (ptree -> res ptree)
  | Dense of arr R.

(** [jnp.diag]: the diagonal of a 2-D array; a 1-D array becomes the diagonal of a square
    matrix (of which the model keeps the data only); other arrays are a ValueError. *)
Definition jnp_diag (m : arr R) : res (seq R) :=
  match ashape m with
  | [:: r; c] => Ok [seq nth 0 (adata m) (i * c + i)%N | i <- iota 0 (minn r c)]
  | [:: n] => Ok (flatten [seq [seq (if i == j then nth 0 (adata m) i else 0) | j <- iota 0 n] | i <- iota 0 n])
  | _ => Raise ValueError
  end.

(** mv.py:65-67: [zero_vec.at[idx].set(1.0)]. *)
Definition flat_basis (n i : nat) : ptree := Leaf (Arr [:: n] (at_set i (1:R) (nseq n 0))).

(** mv.py:18-84 [diagonal]; the result is the data of a 1-D array.  [bs] is
    [kwargs.get("diagonal_batch_size")]; [mv_jittable] only selects jit (identity). *)
Definition diagonal (op : operand) (l : layout) (bs : option nat) : res (seq R) :=
  match op, l with
  | Callable _, LNone => Raise TypeError
  | Dense m, _ => jnp_diag m
  | Callable mv, LInt n =>
      lax_map (fun i => let! y := mv (flat_basis n i) in tree_vec_get y i) bs (iota 0 n)
  | Callable mv, LTree t =>
      lax_map (fun i => let! b := basis_vector_from_index i t in
                        let! y := mv b in tree_vec_get y i) bs (iota 0 (get_size t))
  end.

(** [jnp.transpose]: reverses all axes. *)
Definition arr_transpose (a : arr R) : arr R :=
  Arr (rev (ashape a))
      [seq nth 0 (adata a) (ravel_idx (ashape a) (rev idx)) | idx <- indices (rev (ashape a))].

(** mv.py:87-123 [to_dense].  [isinstance(layout, PyTree)] holds for every object
    (jaxtyping's unparametrised PyTree), so [None] is a PyTree without leaves and the
    final [else] is unreachable.  [lax.map] maps over the leading axis of the identity. *)
Definition to_dense (mv : ptree -> res ptree) (l : layout) (bs : option nat) : res ptree :=
  let! identity_rows :=
    (match l with
     | LInt n => Ok [seq Leaf (Arr [:: n] [seq (if i == j then 1 else 0 : R) | j <- iota 0 n])
                    | i <- iota 0 n]
     | LTree t => let! e := eye_like t in mapM (fun i => tree_get i e) (iota 0 (get_size t))
     | LNone => let t : ptree := Node NNone [::] in
                let! e := eye_like t in mapM (fun i => tree_get i e) (iota 0 (get_size t))
     end) in
  let! outs := lax_map mv bs identity_rows in
  let! stacked := stack_trees outs in
  Ok (tmap arr_transpose stacked).
End Mv.

(** ops.py:22-38 [str_to_bool]. *)
Definition str_to_bool (s : string) : res bool :=
  if String.eqb s "True"%string then Ok true
  else if String.eqb s "False"%string then Ok false else Raise ValueError.

(** ops.py:46-80 [precompute_list].  [items] are the elements along the leading axis; the
    returned function is applied to an index when precomputed and to an item otherwise
    (laplax only uses [items = jnp.arange(n)]-like keys indexed by position).  The default
    is [DEFAULT_PRECOMPUTE_LIST = True] (ops.py:15). *)
Inductive lookup (A I : Type) : Type :=
  | ByIndex of (nat -> res (tree (arr A)))
  | ByItem of (I -> res (tree (arr A))).
Definition precompute_list (A I : Type) (func : I -> res (tree (arr A))) (items : seq I)
    (precompute : option bool) (bs : option nat) : res (lookup A I) :=
  let p := if precompute is Some b then b else true in
  if p then
    let! outs := lax_map func bs items in
    let! precomputed := stack_trees outs in
    Ok (ByIndex I (fun i => tree_get i precomputed))
  else Ok (ByItem func).
