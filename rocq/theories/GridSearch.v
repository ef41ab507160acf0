(** Model of laplax/eval/calibrate.py: [grid_search] and [optimize_prior_prec].
    Results are IEEE values in the standard library's [spec_float] (NaN, infinities, finite); only
    comparisons of them matter here.  Logging and timing are left out. *)
From Coq Require Import ZArith SpecFloat Reals.
From mathcomp Require Import all_ssreflect.
From Verif Require Import Base.
Set Implicit Arguments.
Unset Strict Implicit.
Unset Printing Implicit Defensive.

(** [float("inf")] and [jnp.isnan]. *)
Definition sf_inf : spec_float := S754_infinity false.
Definition sf_isnan (x : spec_float) : bool := if x is S754_nan then true else false.

Section Grid.
Variable G : Type.   (* prior precisions *)
(** The objective as the search sees it: the outcome of the [i]-th call, which is made with the
    given prior precision (a stateful objective depends on [i] as well). *)
Variable objective : nat -> G -> res spec_float.

(** calibrate.py:99-107: the result of one evaluation; [ValueError] and NaN become infinity, other
    exceptions escape. *)
Definition evaluate (i : nat) (p : G) : res spec_float :=
  let! result := match objective i p with
                 | Raise ValueError => Ok sf_inf
                 | r => r
                 end in
  Ok (if sf_isnan result then sf_inf else result).

(** calibrate.py:120-130: the new [increasing_count], and whether to stop. *)
Definition check_patience (patience : option Z) (previous_result : option spec_float)
    (increasing_count : Z) (result : spec_float) : Z * bool :=
  match patience, previous_result with
  | Some p, Some prev =>
      let c := if SFltb prev result then (increasing_count + 1)%Z else 0%Z in
      (c, (p <=? c)%Z)
  | _, _ => (increasing_count, false)
  end.

(** calibrate.py:96-136, the loop from [iteration] on.  The first component lists the arguments of
    the calls of the objective, the second is what the loop leaves in [results, prior_precs] (or
    the escaping exception). *)
Fixpoint grid_loop (patience max_iterations : option Z) (interval : seq G) (iteration : nat)
    (results : seq spec_float) (prior_precs : seq G) (increasing_count : Z)
    (previous_result : option spec_float) : seq G * res (seq spec_float * seq G) :=
  match interval with
  | [::] => ([::], Ok (results, prior_precs))
  | prior_prec :: interval' =>
      match evaluate iteration prior_prec with
      | Raise e => ([:: prior_prec], Raise e)
      | Ok result =>
          let results := rcons results result in
          let prior_precs := rcons prior_precs prior_prec in
          let: (increasing_count, stop) :=
            check_patience patience previous_result increasing_count result in
          if stop then ([:: prior_prec], Ok (results, prior_precs))
          else if match max_iterations with
                  | Some m => (m <=? Z.of_nat iteration)%Z
                  | None => false
                  end
          then ([:: prior_prec], Ok (results, prior_precs))
          else
            let: (calls, out) := grid_loop patience max_iterations interval' iteration.+1 results
                                   prior_precs increasing_count (Some result) in
            (prior_prec :: calls, out)
      end
  end.

(** [np.argmin] on a list: the first position of a least entry; [None] when empty. *)
Fixpoint argmin (xs : seq spec_float) : option (nat * spec_float) :=
  match xs with
  | [::] => None
  | x :: xs' =>
      match argmin xs' with
      | Some (i, y) => if SFltb y x then Some (i.+1, y) else Some (0, x)
      | None => Some (0, x)
      end
  end.

(** [np.nanargmin]: NaN replaced by infinity; ValueError when all entries are NaN or there are
    none. *)
Definition nanargmin (xs : seq spec_float) : res nat :=
  if all sf_isnan xs then Raise ValueError
  else match argmin (map (fun x => if sf_isnan x then sf_inf else x) xs) with
       | Some (i, _) => Ok i
       | None => Raise ValueError
       end.

(** calibrate.py:69-141 [grid_search]: the calls made and the outcome. *)
Definition grid_search (prior_prec_interval : seq G) (patience max_iterations : option Z) :
    seq G * res G :=
  let: (calls, out) := grid_loop patience max_iterations prior_prec_interval 0 [::] [::] 0%Z None in
  (calls,
   let! rp := out in
   let! i := nanargmin rp.1 in
   if List.nth_error rp.2 i is Some p then Ok p else Raise IndexError).
End Grid.

(** [jnp.logspace(start, stop, num)] with base 10 over the reals. *)
Definition logspace (start stop : R) (num : nat) : seq R :=
  [seq Rpower 10 (if num == 1%N then start
                  else start + INR i * ((stop - start) / INR num.-1)) | i <- iota 0 num]%R.

(** calibrate.py:144-181 [optimize_prior_prec]. *)
Definition optimize_prior_prec (objective : nat -> R -> res spec_float)
    (log_prior_prec_min log_prior_prec_max : R) (grid_size : nat)
    (patience max_iterations : option Z) : seq R * res R :=
  grid_search objective (logspace log_prior_prec_min log_prior_prec_max grid_size)
    patience max_iterations.
