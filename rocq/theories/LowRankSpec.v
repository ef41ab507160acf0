(** Specification vocabulary for the low-rank solvers. *)
From mathcomp Require Import all_ssreflect all_algebra.
From Verif Require Import Base PyTree TreeSpec Mv GgnSpec Posterior PosteriorSpec.
Set Implicit Arguments.
Unset Strict Implicit.
Unset Printing Implicit Defensive.
Import GRing.Theory Num.Theory.
Local Open Scope ring_scope.

Section Spec.
Variable R : rcfType.

(** An eigendecomposition [T = Q diag(w) Q^T] with orthonormal [Q]. *)
Definition eigh_correct (k : nat) (T : 'M[R]_k) (eQ : 'cV[R]_k * 'M[R]_k) : Prop :=
  orthonormal eQ.2 /\ T *m eQ.2 = eQ.2 *m diag_mx eQ.1^T.

(** A singular value decomposition [M = u diag(s) vt] of a square matrix. *)
Definition svd_correct (k : nat) (M : 'M[R]_k) (usv : 'M[R]_k * 'cV[R]_k * 'M[R]_k) : Prop :=
  let: (u, s, vt) := usv in
  [/\ orthonormal u, orthonormal vt, forall j, 0 <= s j ord0 & M = u *m diag_mx s^T *m vt].

(** The operand and layout given by the user stand for the matrix [A]: a dense array with these
    entries, a callable on 1-D arrays with an integer layout, or a callable on PyTrees. *)
Definition represents (op : operand R) (l : layout R) (n : nat) (A : 'M[R]_n) : Prop :=
  match op with
  | Dense a => ashape a = [:: n; n] /\ wf_arr a /\ mx_of n (adata a) = A
  | Callable mv =>
      match l with
      | LNone => False
      | LInt n' => n' = n /\ forall v : 'cV[R]_n,
          mv (Leaf (Arr [:: n] (of_cv v))) = Ok (Leaf (Arr [:: n] (of_cv (A *m v))))
      | LTree t => get_size t = n /\ leaves t <> [::] /\
          forall u, wf_tree u -> same_layout t u ->
          exists w, [/\ mv u = Ok w, same_layout t w, wf_tree w
                      & cv_of n (entries w) = A *m cv_of n (entries u)]
      end
  end.
End Spec.
