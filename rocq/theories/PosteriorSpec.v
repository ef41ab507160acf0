(** Specification vocabulary for posteriors. *)
From mathcomp Require Import all_ssreflect all_algebra.
From Verif Require Import Base GgnSpec.
Set Implicit Arguments.
Unset Strict Implicit.
Unset Printing Implicit Defensive.
Import GRing.Theory Num.Theory.
Local Open Scope ring_scope.

Section Spec.
Variable R : rcfType.

(** Symmetric matrices; quadratic forms that are non-negative, or positive off zero. *)
Definition symmetric n (A : 'M[R]_n) : Prop := A^T = A.
Definition psd n (A : 'M[R]_n) : Prop := symmetric A /\ forall v : 'cV[R]_n, 0 <= dotv v (A *m v).
Definition spd n (A : 'M[R]_n) : Prop :=
  symmetric A /\ forall v : 'cV[R]_n, v != 0 -> 0 < dotv v (A *m v).

(** Lower-triangular with positive diagonal. *)
Definition lower_triangular n (L : 'M[R]_n) : Prop := forall i j : 'I_n, (i < j)%N -> L i j = 0.
Definition positive_diagonal n (L : 'M[R]_n) : Prop := forall i : 'I_n, 0 < L i i.

(** Orthonormal columns. *)
Definition orthonormal n r (U : 'M[R]_(n, r)) : Prop := U^T *m U = 1%:M.

(** The matrix [U diag(S) U^T + s I]. *)
Definition low_rank_dense n r (U : 'M[R]_(n, r)) (S : 'cV[R]_r) (s : R) : 'M[R]_n :=
  U *m diag_mx S^T *m U^T + s%:M.
End Spec.
