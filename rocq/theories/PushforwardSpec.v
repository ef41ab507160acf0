(** Specification vocabulary for pushforwards (C39-C42), independent of Pushforward.v's algorithms. *)
From mathcomp Require Import all_ssreflect all_algebra.
From Verif Require Import Base PyTree Mv TreeSpec.
Set Implicit Arguments.
Unset Strict Implicit.
Unset Printing Implicit Defensive.
Import GRing.Theory Num.Theory.
Local Open Scope ring_scope.

Section Spec.
Variable R : rcfType.
Notation ptree := (tree (arr R)).
(** Entry [(a, b)] of [J1 * Sg * J2^T] where [J1], [J2] have [n] columns. *)
Definition cov_entry (n : nat) (J1 Sg J2 : nat -> nat -> R) (a b : nat) : R :=
  \sum_(0 <= p < n) \sum_(0 <= q < n) J1 a p * Sg p q * J2 b q.
(** [jvp] and [vjp] are the products with the [J] and its transpose, between trees like [t]
    (parameters) and arrays like [out] (predictions). *)
Definition is_jacobian (J : nat -> nat -> R) (t : ptree) (out : arr R) (jvp vjp : ptree -> res ptree) : Prop :=
  acts_as J t (Leaf out) jvp /\ acts_as (fun p a => J a p) (Leaf out) t vjp.
(** Symmetric positive semidefinite [n x n] matrices of entries. *)
Definition sym_entries (n : nat) (A : nat -> nat -> R) : Prop :=
  forall i j, (i < n)%N -> (j < n)%N -> A i j = A j i.
Definition psd_entries (n : nat) (A : nat -> nat -> R) : Prop :=
  forall v : nat -> R, 0 <= \sum_(0 <= i < n) \sum_(0 <= j < n) v i * A i j * v j.
(** [Sg = S * S^T] *)
Definition is_sqrt_of (n : nat) (S Sg : nat -> nat -> R) : Prop :=
  forall i j, (i < n)%N -> (j < n)%N -> Sg i j = \sum_(0 <= k < n) S i k * S j k.
End Spec.

(** The statistics of the linearised pushforward a user may list after [lin_setup]. *)
Inductive lin_stat : Type := SMean | SCov | SVar | SStd | SSamples.
Definition lin_stat_nat (o : lin_stat) : nat :=
  match o with SMean => 0%N | SCov => 1%N | SVar => 2%N | SStd => 3%N | SSamples => 4%N end.
Lemma lin_stat_eqP : Equality.axiom (fun a b => lin_stat_nat a == lin_stat_nat b).
Proof. by case; case; constructor. Qed.
Canonical lin_stat_eqMixin := EqMixin lin_stat_eqP.
Canonical lin_stat_eqType := Eval hnf in EqType lin_stat lin_stat_eqMixin.

(** The statistics of the ensemble pushforward a user may list after [nonlin_setup]. *)
Inductive ens_stat : Type := EMean | ECov | EVar | EStd | ESamples.
Definition ens_stat_nat (o : ens_stat) : nat :=
  match o with EMean => 0%N | ECov => 1%N | EVar => 2%N | EStd => 3%N | ESamples => 4%N end.
Lemma ens_stat_eqP : Equality.axiom (fun a b => ens_stat_nat a == ens_stat_nat b).
Proof. by case; case; constructor. Qed.
Canonical ens_stat_eqMixin := EqMixin ens_stat_eqP.
Canonical ens_stat_eqType := Eval hnf in EqType ens_stat ens_stat_eqMixin.

(** What the sum of squared deviations is divided by, in the variance and the standard deviation:
    [N - 1] once a covariance has been computed, [N] before; the standard deviation uses the latest
    variance if there is one, else [N]. *)
Definition divisor_step (N : nat) (st : bool * option nat * option nat) (o : ens_stat) :=
  let: (cov_seen, dv, ds) := st in
  match o with
  | ECov => (true, dv, ds)
  | EVar => (cov_seen, Some (if cov_seen then N.-1 else N), ds)
  | EStd => (cov_seen, dv, Some (odflt N dv))
  | _ => st
  end.
Definition divisors (N : nat) (ops : seq ens_stat) := foldl (divisor_step N) (false, None, None) ops.
Definition var_divisor N ops : option nat := (divisors N ops).1.2.
Definition std_divisor N ops : option nat := (divisors N ops).2.

(** Ensemble statistics: [P i j] is entry [j] of member [i]. *)
Section Ens.
Variable R : rcfType.
Variables (N : nat) (P : nat -> nat -> R).
Definition avg (j : nat) : R := (\sum_(0 <= i < N) P i j) / N%:R.
Definition codev (p q : nat) : R := \sum_(0 <= i < N) (P i p - avg p) * (P i q - avg q).
End Ens.
