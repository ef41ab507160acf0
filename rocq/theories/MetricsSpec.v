(** Specification vocabulary for the metrics. *)
From mathcomp Require Import all_ssreflect all_algebra.
From Verif Require Import Base.
Set Implicit Arguments.
Unset Strict Implicit.
Unset Printing Implicit Defensive.
Import GRing.Theory Num.Theory Order.TTheory.
Local Open Scope ring_scope.

Section Spec.
Variable T : realFieldType.

(** Bin [b] of [B] equal bins of the unit interval contains [x]; the first bin also takes
    everything below, the last one everything above (in particular 1). *)
Definition in_bin (B b : nat) (x : T) : bool :=
  [&& (b < B)%N, (b == 0%N) || (b%:R / B%:R <= x) & (b == B.-1) || (x < b.+1%:R / B%:R)].

(** Samples: pairs (confidence, correctness). *)
Definition bin_count (B b : nat) (samples : seq (T * T)) : nat := count (fun s => in_bin B b s.1) samples.
Definition bin_sum (f : T * T -> T) (B b : nat) (samples : seq (T * T)) : T :=
  \sum_(s <- samples | in_bin B b s.1) f s.
(** Average over the samples of a bin, 0 for an empty bin. *)
Definition bin_mean (f : T * T -> T) (B b : nat) (samples : seq (T * T)) : T :=
  if bin_count B b samples == 0%N then 0 else bin_sum f B b samples / (bin_count B b samples)%:R.

(** Average over a list. *)
Definition average (I : Type) (f : I -> T) (xs : seq I) : T := (\sum_(x <- xs) f x) / (size xs)%:R.

(** [m] is the first index at which the row is largest. *)
Definition first_max (xs : seq T) (m : nat) : Prop :=
  [/\ (m < size xs)%N, forall j, (j < size xs)%N -> nth 0 xs j <= nth 0 xs m
    & forall j, (j < m)%N -> nth 0 xs j < nth 0 xs m].

(** Number of classes ranked before class [t]: higher score, or equal score and lower index. *)
Definition rank_before (xs : seq T) (t : nat) : nat :=
  count (fun j => (nth 0 xs t < nth 0 xs j) || ((nth 0 xs t == nth 0 xs j) && (j < t)%N))
    (iota 0 (size xs)).
End Spec.
