(** Model of arrays and PyTrees, laplax/util/flatten.py and laplax/util/tree.py. *)
From Coq Require Import String.
From mathcomp Require Import all_ssreflect all_algebra.
From Verif Require Import Base.
Set Implicit Arguments.
Unset Strict Implicit.
Unset Printing Implicit Defensive.

(** ** Arrays: a shape and the data in C order (what [jnp.ravel] lists). *)
Record arr (A : Type) := Arr { ashape : seq nat; adata : seq A }.

(** Every jax array satisfies [size = prod(shape)]; stated where it is needed. *)
Definition wf_arr (A : Type) (a : arr A) : bool := size (adata a) == prodn (ashape a).

(** [a.reshape(s)] for a shape without -1: keeps the data, TypeError on a size mismatch. *)
Definition arr_reshape (A : Type) (s : seq nat) (a : seq A) : res (arr A) :=
  if size a == prodn s then Ok (Arr s a) else Raise TypeError.

(** ** PyTrees.  Containers are tuples, lists, [None] (no children) and dicts; a dict
    stores its keys, which jax keeps sorted, so equal dicts are equal trees.  Other
    registered node types (e.g. LowRankTerms) behave as tuples. *)
Inductive node : Type := NTuple | NList | NNone | NDict of seq string.

Inductive tree (A : Type) : Type :=
  | Leaf of A
  | Node of node & seq (tree A).
Arguments Leaf {A} _.
Arguments Node {A} _ _.

Definition node_eqb (a b : node) : bool :=
  match a, b with
  | NTuple, NTuple | NList, NList | NNone, NNone => true
  | NDict k, NDict l => all2 String.eqb k l
  | _, _ => false
  end.

(** [jax.tree.map] with one tree. *)
Fixpoint tmap (A B : Type) (f : A -> B) (t : tree A) : tree B :=
  match t with
  | Leaf a => Leaf (f a)
  | Node k ch => Node k (map (tmap f) ch)
  end.

(** The two components of [jax.tree.flatten]. *)
Fixpoint leaves (A : Type) (t : tree A) : seq A :=
  match t with
  | Leaf a => [:: a]
  | Node _ ch => flatten (map (@leaves A) ch)
  end.
Definition treedef (A : Type) (t : tree A) : tree unit := tmap (fun _ => tt) t.

(** [jax.tree.unflatten]: consumes leaves left to right. *)
Definition build_list (A : Type) (b : tree unit -> seq A -> option (tree A * seq A)) :=
  fix go (ch : seq (tree unit)) (ls : seq A) : option (seq (tree A) * seq A) :=
    match ch with
    | [::] => Some ([::], ls)
    | c :: cs =>
        match b c ls with
        | None => None
        | Some (t, ls1) =>
            match go cs ls1 with
            | None => None
            | Some (ts, ls2) => Some (t :: ts, ls2)
            end
        end
    end.
Fixpoint build (A : Type) (d : tree unit) (ls : seq A) {struct d} : option (tree A * seq A) :=
  match d with
  | Leaf _ => if ls is x :: ls' then Some (Leaf x, ls') else None
  | Node k ch =>
      match build_list (@build A) ch ls with
      | None => None
      | Some (ts, ls') => Some (Node k ts, ls')
      end
  end.
Definition tree_unflatten (A : Type) (d : tree unit) (ls : seq A) : res (tree A) :=
  match build d ls with
  | Some (t, [::]) => Ok t
  | _ => Raise ValueError       (* too few or too many leaves for the treedef *)
  end.

(** [jax.tree.map(f, t1, t2)]: ValueError on a container mismatch; where [t1] has a leaf
    and [t2] a container, [f] is handed a container and the array functions used in
    laplax raise TypeError on it. *)
Definition map2M (A B C : Type) (f : A -> B -> res C) :=
  fix go (c1 : seq A) (c2 : seq B) : res (seq C) :=
    match c1, c2 with
    | [::], [::] => Ok [::]
    | x :: xs, y :: ys => let! t := f x y in let! ts := go xs ys in Ok (t :: ts)
    | _, _ => Raise ValueError
    end.
Fixpoint tmap2 (A B C : Type) (f : A -> B -> res C) (t1 : tree A) (t2 : tree B)
    {struct t1} : res (tree C) :=
  match t1, t2 with
  | Leaf a, Leaf b => rmap Leaf (f a b)
  | Leaf _, Node _ _ => Raise TypeError
  | Node k ch1, Node l ch2 =>
      if node_eqb k l then rmap (Node k) (map2M (tmap2 f) ch1 ch2) else Raise ValueError
  | Node _ _, Leaf _ => Raise ValueError
  end.

(** ** laplax/util/flatten.py *)

(** flatten.py:18-34 [cumsum]. *)
Fixpoint cumsum_from (total : nat) (xs : seq nat) : seq nat :=
  match xs with
  | [::] => [::]
  | x :: xs' => (total + x) :: cumsum_from (total + x) xs'
  end.
Definition cumsum (xs : seq nat) : seq nat := cumsum_from 0 xs.

(** flatten.py:37-48 [full_flatten]; [jnp.concatenate] of nothing is a ValueError.
    A 1-D array is represented by its data. *)
Definition full_flatten (A : Type) (t : tree (arr A)) : res (seq A) :=
  match leaves t with
  | [::] => Raise ValueError
  | ls => Ok (flatten (map (@adata A) ls))
  end.

(** [jnp.split(xs, idx)] on a 1-D array: slices between consecutive indices. *)
Fixpoint split_from (A : Type) (prev : nat) (idx : seq nat) (xs : seq A) : seq (seq A) :=
  match idx with
  | [::] => [:: drop prev xs]
  | i :: idx' => slice prev i xs :: split_from i idx' xs
  end.
Definition jsplit (A : Type) (idx : seq nat) (xs : seq A) := split_from 0 idx xs.

(** flatten.py:99-102: reshape along [zip(..., strict=True)]. *)
Fixpoint zip_reshape (A : Type) (parts : seq (seq A)) (shapes : seq (seq nat)) :
    res (seq (arr A)) :=
  match parts, shapes with
  | [::], [::] => Ok [::]
  | p :: ps, s :: ss =>
      let! a := arr_reshape s p in let! rest := zip_reshape ps ss in Ok (a :: rest)
  | _, _ => Raise ValueError
  end.

(** flatten.py:71-105 [create_pytree_flattener]: the [unflatten] half ([flatten] is
    [full_flatten]).  Input [v] is the data of a 1-D array. *)
Definition pytree_unflatten (A B : Type) (layout : tree (arr B)) (v : seq A) : res (tree (arr A)) :=
  let all_shapes := map (@ashape B) (leaves layout) in
  let parts := jsplit (butlast (cumsum (map prodn all_shapes))) v in
  let! ls := zip_reshape parts all_shapes in
  tree_unflatten (treedef layout) ls.

(** [leaf.reshape(-1, leaf.shape[-1])]: IndexError on a 0-d leaf; the size of the
    inferred dimension does not exist when the last dimension is 0 (jax raises). *)
Definition to_rows (A : Type) (a : arr A) : res (arr A) :=
  match ashape a with
  | [::] => Raise IndexError
  | s0 :: s =>
      let k := last s0 s in
      if k == 0 then Raise ZeroDivisionError
      else Ok (Arr [:: size (adata a) %/ k; k] (adata a))
  end.

(** [jnp.concatenate(ms, axis=0)] of 2-D arrays: at least one, equal column counts. *)
Definition vstack (A : Type) (ms : seq (arr A)) : res (arr A) :=
  match ms with
  | [::] => Raise ValueError
  | m :: _ =>
      let k := nth 0 (ashape m) 1 in
      if all (fun a => nth 0 (ashape a) 1 == k) ms
      then Ok (Arr [:: sumn (map (fun a => nth 0 (ashape a) 0) ms); k]
                   (flatten (map (@adata A) ms)))
      else Raise TypeError
  end.

(** flatten.py:128-132: partial [flatten]. *)
Definition partial_flatten (A : Type) (t : tree (arr A)) : res (arr A) :=
  let! rows := mapM (@to_rows A) (leaves t) in vstack rows.

(** [jnp.split(arr, idx, axis=0)] of an [r x k] array: the row blocks' data. *)
Definition split_rows (A : Type) (idx : seq nat) (k : nat) (xs : seq A) : seq (seq A) :=
  jsplit (map (fun i => i * k) idx) xs.

(** flatten.py:143-147: indexing [all_shapes[i]] for every part; a missing shape is an
    IndexError, superfluous shapes are ignored. *)
Fixpoint index_reshape (A : Type) (parts : seq (seq A)) (shapes : seq (seq nat)) :
    res (seq (arr A)) :=
  match parts, shapes with
  | [::], _ => Ok [::]
  | p :: ps, s :: ss =>
      let! a := arr_reshape s p in let! rest := index_reshape ps ss in Ok (a :: rest)
  | _ :: _, [::] => Raise IndexError
  end.

(** flatten.py:134-148: partial [unflatten] for an [r x k] array. *)
Definition partial_unflatten (A B : Type) (layout : tree (arr B)) (m : arr A) : res (tree (arr A)) :=
  let all_shapes := map (@ashape B) (leaves layout) in
  let k := nth 0 (ashape m) 1 in
  let parts := split_rows (butlast (cumsum (map (fun sh => prodn (butlast sh)) all_shapes)))
                          k (adata m) in
  let! ls := index_reshape parts all_shapes in
  tree_unflatten (treedef layout) ls.

(** Rows of an [r x n] array stored in C order. *)
Definition rows_of (A : Type) (r n : nat) (xs : seq A) : seq (seq A) :=
  [seq slice (i * n) (i.+1 * n) xs | i <- iota 0 r].

(** [jnp.split(m, idx, axis=1)] of an [r x n] array: data of each column block. *)
Definition split_cols (A : Type) (idx : seq nat) (r n : nat) (xs : seq A) : seq (seq A) :=
  let per_row := map (jsplit idx) (rows_of r n xs) in
  [seq flatten (map (fun parts => nth [::] parts j) per_row) | j <- iota 0 (size idx).+1].

(** [jnp.split(a, idx, axis)] for [axis < a.ndim]: in C order the array consists of
    [prod(shape[:axis])] rows of [shape[axis] * prod(shape[axis + 1:])] entries, and a cut
    at index [i] of the axis is a cut at [i * prod(shape[axis + 1:])] of every row. *)
Definition split_axis (A : Type) (idx : seq nat) (axis : nat) (a : arr A) : seq (seq A) :=
  let s := ashape a in
  let q := prodn (drop axis.+1 s) in
  split_cols (map (fun i => i * q) idx) (prodn (take axis s)) (nth 0 s axis * q) (adata a).

(** flatten.py:153-179 [unravel_array_into_pytree], any array and any Python int [axis]
    ([axis %= arr.ndim] is Python's non-negative remainder; ZeroDivisionError for a 0-d
    array). *)
Definition unravel_array_into_pytree (A B : Type) (layout : tree (arr B)) (axis : int)
    (a : arr A) : res (tree (arr A)) :=
  let s := ashape a in
  if s is [::] then Raise ZeroDivisionError else
  let ax := absz (modz axis (Posz (size s))) in
  let shapes := [seq take ax s ++ sh ++ drop ax.+1 s | sh <- map (@ashape B) (leaves layout)] in
  let idx := cumsum (map prodn (butlast (map (@ashape B) (leaves layout)))) in
  let! ls := zip_reshape (split_axis idx ax a) shapes in
  tree_unflatten (treedef layout) ls.

(** *** wrap_function, flatten.py:182-222.
    [args] are the positional arguments; keyword arguments are passed through [kw]
    untouched.  [argnums] is any Python int, hence Python's slicing rules. *)
Definition py_index (n : nat) (i : int) : nat :=        (* start/stop of a slice *)
  match i with
  | Posz k => minn k n
  | Negz k => n - k.+1
  end.
Definition py_get (A : Type) (xs : seq A) (i : int) : res A :=   (* xs[i] *)
  let pos := match i with
             | Posz k => if k < size xs then Some k else None
             | Negz k => if k < size xs then Some (size xs - k.+1) else None
             end in
  match pos with
  | None => Raise IndexError
  | Some p => match drop p xs with x :: _ => Ok x | [::] => Raise IndexError end
  end.
Definition wrap_function (V K : Type) (fn : seq V -> K -> res V)
    (input_fn output_fn : option (V -> res V)) (argnums : int) : seq V -> K -> res V :=
  fun args kw =>
    let effective_input_fn := if input_fn is Some f then f else @Ok V in
    let effective_output_fn := if output_fn is Some f then f else @Ok V in
    let! a := py_get args argnums in
    let! a' := effective_input_fn a in
    let transformed_args :=
      take (py_index (size args) argnums) args ++ a' ::
      drop (py_index (size args) (argnums + 1)%R) args in
    let! result := fn transformed_args kw in
    effective_output_fn result.

(** flatten.py:225-249 [wrap_factory]. *)
Definition wrap_factory (F V K : Type) (factory : F -> res (seq V -> K -> res V))
    (input_fn output_fn : option (V -> res V)) : F -> res (seq V -> K -> res V) :=
  fun fargs =>
    let! fn := factory fargs in Ok (wrap_function fn input_fn output_fn (Posz 0)).

(** flatten.py:51-68 [flatten_function] for a function of one PyTree argument: an array
    is a leaf, hence everything is a tree. *)
Definition flatten_function (A : Type) (fn : tree (arr A) -> res (tree (arr A)))
    (layout : tree (arr A)) : seq A -> res (seq A) :=
  fun v =>
    let! t := pytree_unflatten layout v in
    let! u := fn t in
    full_flatten u.

(** ** laplax/util/tree.py *)

(** tree.py:19-29 [get_size]. *)
Definition get_size (A : Type) (t : tree (arr A)) : nat :=
  sumn (map (fun a => prodn (ashape a)) (leaves t)).

(** Element-wise binary array operation.  jnp broadcasts; the model covers equal shapes
    and leaves the rest out. *)
Definition arr_zip (A : Type) (f : A -> A -> A) (a b : arr A) : res (arr A) :=
  if ashape a == ashape b
  then Ok (Arr (ashape a) [seq f p.1 p.2 | p <- zip (adata a) (adata b)])
  else Raise Unmodelled.
Definition arr_map (A B : Type) (f : A -> B) (a : arr A) : arr B :=
  Arr (ashape a) (map f (adata a)).

Section TreeOps.
Import GRing.Theory.
Local Open Scope ring_scope.
Variable R : ringType.
Implicit Types t : tree (arr R).

(** tree.py:37-48. *)
Definition tree_add t1 t2 : res (tree (arr R)) := tmap2 (arr_zip +%R) t1 t2.
(** tree.py:51-60. *)
Definition tree_neg t := tmap (arr_map -%R) t.
(** tree.py:63-74. *)
Definition tree_sub t1 t2 := tree_add t1 (tree_neg t2).
(** tree.py:77-88. *)
Definition tree_mul (c : R) t := tmap (arr_map ( *%R c)) t.
(** tree.py:220-241. *)
Definition ones_like t := tmap (fun a => Arr (ashape a) (nseq (prodn (ashape a)) (1:R))) t.
Definition zeros_like t := tmap (fun a => Arr (ashape a) (nseq (prodn (ashape a)) (0:R))) t.

(** tree.py:244-266 [randn_like].  The PRNG is an oracle: [split key n] yields the keys and
    [normal key shape] the C-order data of a sample of that shape.  Keys and leaves are
    zipped strictly. *)
Section Random.
Variables (Key : Type) (split : Key -> nat -> seq Key) (normal : Key -> seq nat -> seq R).
Fixpoint zip_normal (keys : seq Key) (ls : seq (arr R)) : res (seq (arr R)) :=
  match keys, ls with
  | [::], [::] => Ok [::]
  | k :: ks, a :: rest =>
      let! r := zip_normal ks rest in Ok (Arr (ashape a) (normal k (ashape a)) :: r)
  | _, _ => Raise ValueError
  end.
Definition randn_like (key : Key) t : res (tree (arr R)) :=
  let ls := leaves t in
  let! rl := zip_normal (split key (size ls)) ls in
  tree_unflatten (treedef t) rl.
(** tree.py:269-284 [normal_like]. *)
Definition normal_like (key : Key) (mean : tree (arr R))
    (scale_mv : tree (arr R) -> res (tree (arr R))) : res (tree (arr R)) :=
  let! eps := randn_like key mean in
  let! s := scale_mv eps in
  tree_add mean s.
End Random.

(** [jnp.searchsorted(cum, i, side="right")] on a sorted array: how many entries are [<= i]. *)
Definition searchsorted_right (cum : seq nat) (i : nat) : nat := count (fun c => (c <= i)%N) cum.

(** [x.at[i].set(v)]: out-of-range updates are dropped. *)
Definition at_set (A : Type) (i : nat) (v : A) (s : seq A) : seq A :=
  if (i < size s)%N then set_nth v s i v else s.

(** tree.py:287-325 [basis_vector_from_index] (non-negative [idx]). *)
Definition basis_vector_from_index (idx : nat) t : res (tree (arr R)) :=
  let zeros := zeros_like t in
  let flat := leaves zeros in
  let sizes := map (fun a => prodn (ashape a)) flat in
  let cum_sizes := cumsum sizes in
  let k := searchsorted_right cum_sizes idx in
  let idx_corr := (idx - (if (0 < k)%N then nth 0%N cum_sizes k.-1 else 0%N))%N in
  let update_array i (a : arr R) :=
    if i == k then Arr (ashape a) (at_set idx_corr (1:R) (adata a)) else a in
  let updated_flat := [seq update_array p.1 p.2 | p <- zip (iota 0 (size flat)) flat] in
  tree_unflatten (treedef zeros) updated_flat.

(** C-order data of [jnp.eye n]. *)
Definition eye_data (n : nat) : seq R :=
  flatten [seq [seq (if i == j then 1 else 0 : R) | j <- iota 0 n] | i <- iota 0 n].

(** tree.py:343-352 [eye_like]. *)
Definition eye_like t : res (tree (arr R)) :=
  unravel_array_into_pytree t (Posz 1) (Arr [:: get_size t; get_size t] (eye_data (get_size t))).

(** tree.py:369-384 [tree_vec_get] for an in-range index: both branches read entry [idx]
    of the concatenated C-order data; concatenating nothing is a ValueError.  jax clamps
    out-of-range indices, which is left out. *)
Definition tree_vec_get (t : tree (arr R)) (idx : nat) : res R :=
  let pick v := if (idx < size v)%N then Ok (nth 0 v idx) else Raise Unmodelled in
  match t with
  | Leaf a => pick (adata a)
  | _ => let! v := full_flatten t in pick v
  end.
End TreeOps.

(** [jax.tree.map(operator.itemgetter(i), t)]: entry [i] along the first axis of each
    leaf; IndexError for 0-d leaves, out-of-range indices left out. *)
Definition arr_get (A : Type) (i : nat) (a : arr A) : res (arr A) :=
  match ashape a with
  | [::] => Raise IndexError
  | n :: s =>
      if i < n then Ok (Arr s (slice (i * prodn s) (i.+1 * prodn s) (adata a)))
      else Raise Unmodelled
  end.
Fixpoint tmapM (A B : Type) (f : A -> res B) (t : tree A) : res (tree B) :=
  match t with
  | Leaf a => rmap Leaf (f a)
  | Node k ch => rmap (Node k) (mapM (tmapM f) ch)
  end.
Definition tree_get (A : Type) (i : nat) (t : tree (arr A)) : res (tree (arr A)) :=
  tmapM (arr_get i) t.

(** tree.py:355-366 [tree_slice] (non-negative bounds): rows [a:b] of each leaf. *)
Definition arr_slice (A : Type) (a b : nat) (x : arr A) : res (arr A) :=
  match ashape x with
  | [::] => Raise IndexError
  | n :: s => Ok (Arr (minn b n - a :: s) (slice (a * prodn s) (minn b n * prodn s) (adata x)))
  end.
Definition tree_slice (A : Type) (a b : nat) (t : tree (arr A)) : res (tree (arr A)) :=
  tmapM (arr_slice a b) t.

(** Stacking equally shaped trees along a new first axis: what [vmap] and [lax.map]
    return for the list of per-element results.  Results whose structures or shapes differ
    cannot occur in jax (one trace); an empty list needs abstract evaluation and is left
    out. *)
Definition same_layout_b (A B : Type) (t : tree (arr A)) (u : tree (arr B)) : bool :=
  (map (@ashape A) (leaves t) == map (@ashape B) (leaves u)) &&
  is_ok (tmap2 (fun _ _ => Ok tt) t u).
Definition stack_trees (A : Type) (ts : seq (tree (arr A))) : res (tree (arr A)) :=
  match ts with
  | [::] => Raise Unmodelled
  | t :: _ =>
      if all (same_layout_b t) ts then
        let shapes := map (@ashape A) (leaves t) in
        let stacked :=
          [seq Arr (size ts :: nth [::] shapes j)
                   (flatten [seq adata (nth (Arr [::] [::]) (leaves u) j) | u <- ts])
          | j <- iota 0 (size shapes)] in
        tree_unflatten (treedef t) stacked
      else Raise Unmodelled
  end.

(** [jax.lax.map(f, xs, batch_size=bs)] on the list of elements: without a batch size one
    element at a time; with [bs >= 1], full batches of size [bs] (each by [vmap]) followed by
    the remainder, results concatenated.  [bs = 0] makes one batch of everything, as in recent versions
    of jax (older ones divide by zero). *)
Fixpoint chunk_map (A B : Type) (f : A -> res B) (bs nb : nat) (xs : seq A) : res (seq B) :=
  match nb with
  | 0 => mapM f xs                                   (* the remainder *)
  | nb'.+1 =>
      let! ys := mapM f (take bs xs) in
      let! zs := chunk_map f bs nb' (drop bs xs) in
      Ok (ys ++ zs)
  end.
Definition lax_map (A B : Type) (f : A -> res B) (bs : option nat) (xs : seq A) : res (seq B) :=
  match bs with
  | None => mapM f xs
  | Some b => chunk_map f b (size xs %/ b) xs
  end.

(** tree.py:328-340 [eye_like_with_basis_vector]. *)
Definition eye_like_with_basis_vector (R : ringType) (t : tree (arr R)) : res (tree (arr R)) :=
  let! rows := lax_map (fun i => basis_vector_from_index i t) None (iota 0 (get_size t)) in
  stack_trees rows.

(** tree.py:167-199 [tree_matvec].
    [tree] has the leaves [arr[i*n+j]]; the block for [j] concatenates, over [i], the
    reshapes [shape_j ++ (-1)] along the last axis and multiplies the flattened vector.
    [x.reshape] to [s ++ (-1)] needs [prod s] to be positive and to divide the size. *)
Section TreeMatvec.
Import GRing.Theory.
Local Open Scope ring_scope.
Variable R : ringType.
Definition block_rows (s : seq nat) (x : seq R) : res (seq (seq R)) :=
  let p := prodn s in
  if (p == 0)%N then Raise ZeroDivisionError
  else if (size x %% p == 0)%N then Ok (rows_of p (size x %/ p) x) else Raise TypeError.
Definition dot (xs ys : seq R) : R := foldr (fun p acc => p.1 * p.2 + acc) 0 (zip xs ys).
Definition hcat_rows (bs : seq (seq (seq R))) (r : nat) : seq (seq R) :=
  [seq flatten [seq nth [::] b k | b <- bs] | k <- iota 0 r].
(** [p @ v]: the contracted dimensions must agree. *)
Definition matvec_rows (s : seq nat) (rows : seq (seq R)) (v : seq R) : res (arr R) :=
  if all (fun row => size row == size v) rows then Ok (Arr s [seq dot row v | row <- rows])
  else Raise TypeError.
Definition tree_matvec (blocks : tree (arr R)) (vec : tree (arr R)) : res (tree (arr R)) :=
  let vls := leaves vec in
  let n := size vls in
  let arrs := leaves blocks in
  let! outs := mapM (fun j =>
      let sj := ashape (nth (Arr [::] [::]) vls j) in
      let! bs := mapM (fun i =>
          match drop (i * n + j)%N arrs with
          | [::] => Raise IndexError
          | a :: _ => block_rows sj (adata a)
          end) (iota 0 n) in
      Ok (sj, hcat_rows bs (prodn sj))) (iota 0 n) in
  let! v := full_flatten vec in
  let! prods := mapM (fun p => matvec_rows p.1 p.2 v) outs in
  tree_unflatten (treedef vec) prods.
End TreeMatvec.
