(** Model of the remaining leaf-wise functions of laplax/util/tree.py. *)
From mathcomp Require Import all_ssreflect all_algebra.
From Verif Require Import Base PyTree.
Set Implicit Arguments.
Unset Strict Implicit.
Unset Printing Implicit Defensive.
Import GRing.Theory Num.Theory.
Local Open Scope ring_scope.

Section TreeMore.
Variable R : rcfType.
Notation ptree := (tree (arr R)).

(** tree.py:91-100 [sqrt]; the NaN of a negative entry is left out. *)
Definition arr_sqrt (a : arr R) : res (arr R) :=
  if all (fun x => 0 <= x) (adata a) then Ok (arr_map Num.sqrt a) else Raise Unmodelled.
Definition tree_sqrt (t : ptree) : res ptree := tmapM arr_sqrt t.

(** tree.py:103-112 [invert]: [jnp.invert] is bitwise negation, defined on booleans and
    integers (two's complement, signed) and a TypeError on floating-point arrays. *)
Inductive leaf_value := FloatArr of arr R | IntArr of arr int | BoolArr of arr bool.
Definition leaf_invert (a : leaf_value) : res leaf_value :=
  match a with
  | FloatArr _ => Raise TypeError
  | IntArr x => Ok (IntArr (arr_map (fun i => - i - 1) x))
  | BoolArr x => Ok (BoolArr (arr_map negb x))
  end.
Definition tree_invert (t : tree leaf_value) : res (tree leaf_value) := tmapM leaf_invert t.

(** tree.py:202-212 [tree_partialmatvec] for a 1-D [vector]: [arr @ vector] contracts the last axis
    of each leaf; a 0-d leaf is a ValueError, a length mismatch a TypeError. *)
Definition arr_matvec (v : seq R) (a : arr R) : res (arr R) :=
  match rev (ashape a) with
  | [::] => Raise ValueError
  | n :: s =>
      if n == size v
      then Ok (Arr (rev s) [seq dot row v | row <- rows_of (prodn (rev s)) n (adata a)])
      else Raise TypeError
  end.
Definition tree_partialmatvec (t : ptree) (v : seq R) : res ptree := tmapM (arr_matvec v) t.

(** tree.py:392-402 [allclose]: [jnp.allclose] with its defaults [rtol = 1e-5], [atol = 1e-8];
    leaves of different shapes (broadcasting) are left out. *)
Definition rtol : R := 10%:R ^- 5.
Definition atol : R := 10%:R ^- 8.
Definition isclose (a b : R) : bool := `|a - b| <= atol + rtol * `|b|.
Definition arr_allclose (a b : arr R) : res bool :=
  if ashape a == ashape b then Ok (all (fun p => isclose p.1 p.2) (zip (adata a) (adata b)))
  else Raise Unmodelled.
Definition allclose (t1 t2 : ptree) : res bool :=
  let! t := tmap2 arr_allclose t1 t2 in Ok (all id (leaves t)).

(** tree.py:115-164 [mean], [std], [var], [cov]: [jax.tree.map] of the [jnp] function, with the keyword
    arguments of the only calls: [axis=0] (pushforward.py:280, 338, 364) and [rowvar=False]
    (pushforward.py:303).  An empty leading axis (and a covariance of fewer than two rows), which give
    NaN, is left out; a 0-d leaf has no axis 0 (ValueError). *)
Definition column0 (a : arr R) (n k j : nat) : seq R := [seq nth 0 (adata a) (i * k + j)%N | i <- iota 0 n].
Definition seq_mean (xs : seq R) : R := foldr +%R 0 xs / (size xs)%:R.
Definition seq_var (xs : seq R) : R := seq_mean [seq (x - seq_mean xs) ^+ 2 | x <- xs].
Definition arr_axis0 (f : seq R -> R) (a : arr R) : res (arr R) :=
  match ashape a with
  | [::] => Raise ValueError
  | 0%N :: _ => Raise Unmodelled
  | n :: s => Ok (Arr s [seq f (column0 a n (prodn s) j) | j <- iota 0 (prodn s)])
  end.
Definition tree_mean (t : ptree) : res ptree := tmapM (arr_axis0 seq_mean) t.
Definition tree_var (t : ptree) : res ptree := tmapM (arr_axis0 seq_var) t.
Definition tree_std (t : ptree) : res ptree := tmapM (arr_axis0 (fun xs => Num.sqrt (seq_var xs))) t.
Definition seq_cov (xs ys : seq R) : R :=
  foldr +%R 0 [seq (p.1 - seq_mean xs) * (p.2 - seq_mean ys) | p <- zip xs ys] / ((size xs).-1)%:R.
Definition arr_cov (a : arr R) : res (arr R) :=
  match ashape a with
  | [:: n; k] =>
      if (n <= 1)%N then Raise Unmodelled else
      Ok (Arr (if k == 1%N then [::] else [:: k; k])
              [seq seq_cov (column0 a n k (ij %/ k)) (column0 a n k (ij %% k)) | ij <- iota 0 (k * k)])
  | _ => Raise Unmodelled
  end.
Definition tree_cov (t : ptree) : res ptree := tmapM arr_cov t.
End TreeMore.
