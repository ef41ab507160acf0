(** Specification vocabulary for PyTrees, independent of the algorithms in PyTree.v. *)
From mathcomp Require Import all_ssreflect all_algebra.
From Verif Require Import Base PyTree Mv.
Set Implicit Arguments.
Unset Strict Implicit.
Unset Printing Implicit Defensive.

(** Same containers in the same places, and leaf shapes equal leaf by leaf. *)
Definition same_layout (A B : Type) (t : tree (arr A)) (u : tree (arr B)) : Prop :=
  treedef t = treedef u /\ map (@ashape A) (leaves t) = map (@ashape B) (leaves u).

(** All leaves are real arrays: the amount of data fits the shape. *)
Definition wf_tree (A : Type) (t : tree (arr A)) : bool := all (@wf_arr A) (leaves t).

(** The entries of a tree, leaf after leaf, each in C order. *)
Definition entries (A : Type) (t : tree (arr A)) : seq A := flatten (map (@adata A) (leaves t)).

(** Total number of entries according to the shapes. *)
Definition nentries (A : Type) (t : tree (arr A)) : nat :=
  sumn (map (fun a => prodn (ashape a)) (leaves t)).

(** The unit vector [e_i] of length [n] (zero vector if [i >= n]). *)
Definition unit_vec (R : ringType) (n i : nat) : seq R :=
  mkseq (fun j => if j == i then 1%R else 0%R) n.

(** Multi-indices: [idx] is a valid index of an array of shape [s]. *)
Definition valid_idx (s idx : seq nat) : bool :=
  (size s == size idx) && all (fun p => p.1 < p.2) (zip idx s).

(** [t] has the layout of [t0] and entries [f 0, f 1, ...]. *)
Definition tree_is (A : Type) (t0 : tree (arr A)) (f : nat -> A) (t : tree (arr A)) : Prop :=
  [/\ same_layout t0 t, wf_tree t & entries t = mkseq f (nentries t0)].

(** All trees of a list are well formed and have the layout of [t0]. *)
Definition rows_ok (A : Type) (t0 : tree (arr A)) (ts : seq (tree (arr A))) : Prop :=
  forall i, i < size ts -> same_layout t0 (nth t0 ts i) /\ wf_tree (nth t0 ts i).

Section Operators.
Local Open Scope ring_scope.
Variable R : ringType.
Notation ptree := (tree (arr R)).

(** Entry of an array at a multi-index. *)
Definition aget (a : arr R) (idx : seq nat) : R := nth 0 (adata a) (ravel_idx (ashape a) idx).

(** Position of the first entry of leaf number [lf] in the flattened tree. *)
Definition leaf_offset (t : ptree) (lf : nat) : nat :=
  sumn (take lf (map (fun a => prodn (ashape a)) (leaves t))).

(** Matrices as functions of two indices; [matvec A m n v] is the product with the
    [m x n] matrix. *)
Definition matvec (A : nat -> nat -> R) (m n : nat) (v : seq R) : seq R :=
  mkseq (fun i => \sum_(0 <= j < n) A i j * nth 0 v j) m.

(** [mv] maps trees of layout [tin] to trees of layout [tout], acting on the entries as
    the matrix [A]. *)
Definition acts_as (A : nat -> nat -> R) (tin tout : ptree) (mv : ptree -> res ptree) : Prop :=
  forall t, wf_tree t -> same_layout tin t ->
  exists u, [/\ mv t = Ok u, same_layout tout u, wf_tree u
              & entries u = matvec A (nentries tout) (nentries tin) (entries t)].
End Operators.
