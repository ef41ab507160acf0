(** Specification vocabulary for the calibration grid search. *)
From Coq Require Import ZArith SpecFloat.
From mathcomp Require Import all_ssreflect.
From Verif Require Import Base.
Set Implicit Arguments.
Unset Strict Implicit.
Unset Printing Implicit Defensive.

(** The score of an objective's outcome: NaN and ValueError count as infinity; other exceptions
    have no score. *)
Definition score (r : res spec_float) : option spec_float :=
  match r with
  | Ok S754_nan => Some (S754_infinity false)
  | Ok x => Some x
  | Raise ValueError => Some (S754_infinity false)
  | Raise _ => None
  end.
(** IEEE comparison of scores. *)
Definition lt_score (a b : option spec_float) : bool :=
  match a, b with Some x, Some y => SFltb x y | _, _ => false end.

Section Spec.
Variables (G : Type) (objective : nat -> G -> res spec_float) (grid : seq G).
(** Score of the [i]-th grid point, evaluated by the [i]-th call. *)
Definition value (i : nat) : option spec_float :=
  if List.nth_error grid i is Some p then score (objective i p) else None.
(** The documented reasons to stop after evaluating point [i] (counted from 0): the last
    [patience] steps were all increases (and there was at least one step), or [i] has reached
    [max_iterations]. *)
Definition stop_after (patience max_iterations : option Z) (i : nat) : Prop :=
  (exists p, [/\ patience = Some p, 1 <= i, (p <= Z.of_nat i)%Z &
     forall j, j < i -> (Z.of_nat i - p <= Z.of_nat j)%Z -> lt_score (value j) (value j.+1)]) \/
  (exists m, max_iterations = Some m /\ (m <= Z.of_nat i)%Z).
(** Some evaluation among the first [n] raises something other than ValueError. *)
Definition escapes (i : nat) : Prop :=
  exists p e, [/\ List.nth_error grid i = Some p, objective i p = Raise e & e <> ValueError].
End Spec.
