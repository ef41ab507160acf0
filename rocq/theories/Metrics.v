(** Model of laplax/eval/metrics.py.
    Numbers are exact.  Classification metrics are over an arbitrary real field; those that need
    [sqrt], [log] or [exp] are over the real numbers. *)
From Coq Require Import Reals.
From Coquelicot Require Import Coquelicot.
From mathcomp Require Import all_ssreflect all_algebra.
From Verif Require Import Base PyTree RealStruct Normal.
Set Implicit Arguments.
Unset Strict Implicit.
Unset Printing Implicit Defensive.
Import GRing.Theory Num.Theory Order.TTheory.
Local Open Scope ring_scope.

(** [jnp.sum] and [jnp.mean] of a list of entries. *)
Definition jsum (T : ringType) (xs : seq T) : T := foldr +%R 0 xs.
Definition jmean (T : fieldType) (xs : seq T) : T := jsum xs / (size xs)%:R.

Section Classification.
Variable T : realFieldType.

(** [jnp.argmax] of a row: the first position of a largest entry (0 for an empty row, where jax
    raises). *)
Fixpoint argmax_from (i : nat) (best : nat) (bv : T) (xs : seq T) : nat :=
  match xs with
  | [::] => best
  | x :: xs' => if bv < x then argmax_from i.+1 i x xs' else argmax_from i.+1 best bv xs'
  end.
Definition argmax (xs : seq T) : nat := if xs is x :: xs' then argmax_from 1 0 x xs' else 0%N.

(** Targets: class indices ([ndim == 1]) or rows of scores ([ndim == 2]). *)
Inductive targets : Type := Labels of seq nat | Rows of seq (seq T).
Definition target_labels (t : targets) : seq nat :=
  match t with Labels ls => ls | Rows rs => map argmax rs end.

(** metrics.py:48-72 [correctness]; predictions are the rows of a 2-D array.  Different batch sizes
    (broadcast or error in jax) are left out. *)
Definition correctness (pred : seq (seq T)) (target : targets) : res (seq bool) :=
  let ls := target_labels target in
  if size pred != size ls then Raise Unmodelled
  else Ok [seq argmax pl.1 == pl.2 | pl <- zip pred ls].

(** [lax.top_k] on a row: the indices of the [k] largest entries in descending order; of equal
    entries the lower index comes first (stable sort). *)
Definition top_k_indices (k : nat) (xs : seq T) : seq nat :=
  take k (sort (fun i j => nth 0 xs j <= nth 0 xs i) (iota 0 (size xs))).

(** metrics.py:75-112 [accuracy], [C] being [pred.shape[1]] and every row having [C] entries.
    [correctness[: min(k, max_k)]] of the transposed array selects, for every sample, the first
    [min(k, max_k)] indices. *)
Definition accuracy (C : nat) (pred : seq (seq T)) (target : targets) (top_k : seq nat) :
    res (seq T) :=
  if top_k is [::] then Raise ValueError                     (* max() of an empty tuple *)
  else
    let max_k := minn (foldr maxn 0%N top_k) C in
    let ls := target_labels target in
    let batch_size := size ls in
    if size pred != size ls then Raise Unmodelled
    else
      let top := map (top_k_indices max_k) pred in
      Ok [seq jsum (flatten [seq [seq (if i == tl.2 then 1 else 0) | i <- take (minn k max_k) tl.1]
                            | tl <- zip top ls]) * 100%:R / batch_size%:R | k <- top_k].

(** [jax.nn.one_hot]; an index outside the range gives a row of zeros. *)
Definition one_hot (C l : nat) : seq T := [seq (if c == l then 1 else 0) | c <- iota 0 C].

(** metrics.py:138-161 [multiclass_brier]; [C] is [prob.shape[-1]].  Targets and probabilities of
    different shapes are left out. *)
Definition multiclass_brier (C : nat) (prob : seq (seq T)) (target : targets) : res T :=
  let rows := match target with Labels ls => map (one_hot C) ls | Rows rs => rs end in
  if (size rows != size prob) || ~~ all (fun r => size r == C) (rows ++ prob) then Raise Unmodelled
  else
    let components p := let s := jsum [seq x ^+ 2 | x <- p] in [seq 1 - 2%:R * x + s | x <- p] in
    Ok (- jmean (flatten [seq [seq tc.1 * tc.2 | tc <- zip tp.1 (components tp.2)]
                         | tp <- zip rows prob])).

(** [jnp.linspace(0, 1, n + 1)] *)
Definition bin_boundaries (n : nat) : seq T := [seq i%:R / n%:R | i <- iota 0 n.+1].
(** [jnp.digitize(x, bins)] for increasing bins: the number of boundaries not above [x]. *)
Definition digitize (x : T) (bins : seq T) : nat := count (fun b => b <= x) bins.
(** metrics.py:188-190: [digitize - 1], clipped to [0, num_bins - 1]. *)
Definition bin_index (num_bins : nat) (x : T) : nat :=
  minn (digitize x (bin_boundaries num_bins)).-1 num_bins.-1.

(** [zeros(n).at[indices].add(values)]: duplicate indices accumulate. *)
Fixpoint add_at (xs : seq T) (i : nat) (v : T) : seq T :=
  match xs, i with
  | [::], _ => [::]
  | x :: xs', 0%N => x + v :: xs'
  | x :: xs', i'.+1 => x :: add_at xs' i' v
  end.
Definition scatter_add (n : nat) (indices : seq nat) (values : seq T) : seq T :=
  foldl (fun acc iv => add_at acc iv.1 iv.2) (nseq n 0) (zip indices values).

(** metrics.py:164-205 [calculate_bin_metrics] ([num_bins >= 1]; [correctness] numeric, as
    documented). *)
Definition calculate_bin_metrics (confidence correctness : seq T) (num_bins : nat) :
    res (seq T * seq T * seq T) :=
  if size confidence != size correctness then Raise Unmodelled
  else
    let indices := map (bin_index num_bins) confidence in
    let counts := scatter_add num_bins indices (map (fun _ => 1) confidence) in
    let confidences := scatter_add num_bins indices confidence in
    let accuracies := scatter_add num_bins indices correctness in
    let proportions := [seq c / jsum counts | c <- counts] in
    let where_pos xs := [seq (if 0 < xc.2 then xc.1 / xc.2 else 0) | xc <- zip xs counts] in
    Ok (proportions, where_pos confidences, where_pos accuracies).

(** enums.py CalibrationErrorNorm *)
Inductive calibration_norm : Set := L1 | INF.

(** [xs.max()] *)
Definition jmax (xs : seq T) : T := if xs is x :: xs' then foldr Num.max x xs' else 0.

(** metrics.py:208-240 [calibration_error]. *)
Definition calibration_error (confidence correctness : seq T) (num_bins : nat)
    (norm : calibration_norm) : res T :=
  let! m := calculate_bin_metrics confidence correctness num_bins in
  let: (proportions, confidences, accuracies) := m in
  let abs_diffs := [seq `|ac.1 - ac.2| | ac <- zip accuracies confidences] in
  Ok (if norm is L1 then jsum [seq pd.1 * pd.2 | pd <- zip proportions abs_diffs]
      else jmax abs_diffs).
(** metrics.py:243-265 and 268-291. *)
Definition expected_calibration_error confidence correctness num_bins :=
  calibration_error confidence correctness num_bins L1.
Definition maximum_calibration_error confidence correctness num_bins :=
  calibration_error confidence correctness num_bins INF.
End Classification.

(** metrics.py:115-135 [cross_entropy] along one row; [xlogy(0, y) = 0].  (A zero probability
    [q] under a positive [p] gives infinity in jax; [ln 0 = 0] here, excluded where used.) *)
Definition xlogy (x y : R) : R := if x == 0 then 0 else x * ln y.
Definition cross_entropy (p q : seq R) : R := - jsum [seq xlogy pq.1 pq.2 | pq <- zip p q].

(** ** Broadcasting of two arrays (numpy rules). *)
Definition pad_shape (r : nat) (s : seq nat) : seq nat := nseq (r - size s) 1%N ++ s.
Fixpoint merge_shapes (s t : seq nat) : option (seq nat) :=
  match s, t with
  | [::], [::] => Some [::]
  | a :: s', b :: t' =>
      if merge_shapes s' t' is Some r then
        if a == b then Some (a :: r) else if a == 1%N then Some (b :: r)
        else if b == 1%N then Some (a :: r) else None
      else None
  | _, _ => None
  end.
(** Repeat the data of an array of shape [s] (padded) to shape [o]. *)
Fixpoint bexpand (A : Type) (o s : seq nat) (data : seq A) : seq A :=
  match o, s with
  | n :: o', m :: s' =>
      let chunks := reshape (nseq m (prodn s')) data in
      flatten (map (bexpand o' s') (if m == n then chunks else flatten (nseq n chunks)))
  | _, _ => data
  end.
Definition broadcast2 (A B D : Type) (f : A -> B -> D) (a : arr A) (b : arr B) : res (arr D) :=
  let r := maxn (size (ashape a)) (size (ashape b)) in
  let sa := pad_shape r (ashape a) in
  let sb := pad_shape r (ashape b) in
  match merge_shapes sa sb with
  | Some o => Ok (Arr o [seq f xy.1 xy.2 | xy <- zip (bexpand o sa (adata a)) (bexpand o sb (adata b))])
  | None => Raise Unmodelled          (* incompatible shapes: jax raises *)
  end.

Section Regression.
Notation array := (arr R).

(** metrics.py:299-331 [chi_squared]. *)
Definition chi_squared (pred_mean pred_std target : array) (averaged : bool) : res R :=
  let! d := broadcast2 (fun x y => x - y) pred_mean target in
  let! v := broadcast2 (fun x s => x ^+ 2 / s ^+ 2) d pred_std in
  Ok (if averaged then jmean (adata v) else jsum (adata v)).
(** metrics.py:334-347 [chi_squared_zero]. *)
Definition chi_squared_zero (pred_mean pred_std target : array) : res R :=
  let! c := chi_squared pred_mean pred_std target true in Ok `|c - 1|.
(** metrics.py:350-368 [estimate_rmse]. *)
Definition estimate_rmse (pred_mean target : array) : res R :=
  let! d := broadcast2 (fun x y => x - y) pred_mean target in
  Ok (sqrt (jmean [seq x ^+ 2 | x <- adata d])).

Definition shape_eq3 (a b c : array) : bool := (ashape a == ashape b) && (ashape b == ashape c).

(** metrics.py:371-417 [crps_gaussian]; one entry is [crps_term] of Normal.v. *)
Definition zip3 (a b c : seq R) : seq (R * R * R) := zip (zip a b) c.
Definition crps_gaussian (pred_mean pred_std target : array) (scaled : bool) : res R :=
  if ~~ shape_eq3 pred_mean pred_std target then Raise ValueError
  else
    let crps_list := [seq crps_term msy.1.1 msy.1.2 msy.2
                     | msy <- zip3 (adata pred_mean) (adata pred_std) (adata target)] in
    let crps := jsum crps_list in
    Ok (if scaled then crps / (size crps_list)%:R else crps).

(** metrics.py:420-472 [nll_gaussian]. *)
Definition nll_gaussian (pred_mean pred_std target : array) (scaled : bool) : res R :=
  if ~~ shape_eq3 pred_mean pred_std target then Raise ValueError
  else
    let nll_list := [seq norm_logpdf (msy.1.1 - msy.2) msy.1.2
                    | msy <- zip3 (adata pred_mean) (adata pred_std) (adata target)] in
    let nll := - jsum nll_list in
    Ok (if scaled then nll / (prodn (ashape pred_mean))%:R else nll).
End Regression.
