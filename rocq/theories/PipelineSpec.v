(** Specification vocabulary for the whole pipeline (C49, C50). *)
From mathcomp Require Import all_ssreflect all_algebra.
From Verif Require Import Base PyTree TreeSpec Posterior PosteriorSpec PushforwardSpec.
Set Implicit Arguments.
Unset Strict Implicit.
Unset Printing Implicit Defensive.
Import GRing.Theory Num.Theory.
Local Open Scope ring_scope.

Section Spec.
Variable R : rcfType.
Notation ptree := (tree (arr R)).

(** Entries of a matrix by natural numbers (0 outside), and back. *)
Definition entry (m n : nat) (A : 'M[R]_(m, n)) (i j : nat) : R :=
  match insub i, insub j with Some i', Some j' => A i' j' | _, _ => 0 end.
Definition of_entries (m n : nat) (A : nat -> nat -> R) : 'M[R]_(m, n) := \matrix_(i, j) A i j.

(** [mv] maps trees of layout [t] to trees of layout [t], acting on the vector of entries as [A]. *)
Definition acts_mx (t : ptree) (A : 'M[R]_(get_size t)) (mv : ptree -> res ptree) : Prop :=
  forall u, wf_tree u -> same_layout t u ->
  exists w, [/\ mv u = Ok w, same_layout t w, wf_tree w &
    cv_of (get_size t) (entries w) = A *m cv_of (get_size t) (entries u)].

(** The Loewner order: [B - A] is positive semidefinite. *)
Definition loewner_le (n : nat) (A B : 'M[R]_n) : Prop := psd (B - A).
End Spec.
