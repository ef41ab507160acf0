(** Model of laplax/util/loader.py. *)
From Coq Require Import String.
From mathcomp Require Import all_ssreflect all_algebra.
From Verif Require Import Base PyTree Mv.
Set Implicit Arguments.
Unset Strict Implicit.
Unset Printing Implicit Defensive.
Import GRing.Theory.

(** loader.py:21-34 [input_target_split] on a sequence batch: positions 0 and 1. *)
Definition input_target_split (V : Type) (batch : seq V) : res (V * V) :=
  match batch with
  | x :: y :: _ => Ok (x, y)
  | _ => Raise IndexError
  end.

(** loader.py:163-199 [process_batches].  [reduce new state] returns the pair
    (result, new state); the loop variable [result] starts as [None]. *)
Section Process.
Variables (B D Y Z S : Type).
Variables (function : D -> res Y) (transform : B -> res D).
Variable (reduce : Y -> option S -> res (Z * S)).
Fixpoint batch_loop (data_loader : seq B) (result : option Z) (state : option S) :
    res (option Z) :=
  match data_loader with
  | [::] => Ok result
  | batch :: rest =>
      let! d := transform batch in
      let! y := function d in
      let! p := reduce y state in
      batch_loop rest (Some p.1) (Some p.2)
  end.
Definition process_batches (data_loader : seq B) : res Z :=
  let! result := batch_loop data_loader None None in
  match result with
  | None => Raise ValueError          (* "data loader was empty" *)
  | Some r => Ok r
  end.
End Process.

Section Reductions.
Local Open Scope ring_scope.
Variable R : fieldType.
Notation ptree := (tree (arr R)).

(** [jnp.sum(x, axis=0, keepdims=k)]: ValueError for a 0-d array. *)
Definition sum_axis0 (keepdims : bool) (a : arr R) : res (arr R) :=
  match ashape a with
  | [::] => Raise ValueError
  | n :: s =>
      let p := prodn s in
      Ok (Arr (if keepdims then 1%N :: s else s)
              [seq foldr +%R 0 [seq nth 0 (adata a) (i * p + j)%N | i <- iota 0 n]
              | j <- iota 0 p])
  end.

(** loader.py:42-60 [reduce_sum] with the default [axis=0]. *)
Definition reduce_sum (keepdims : bool) (res_new : ptree) (state : option ptree) :
    res (ptree * ptree) :=
  let! summed := tmapM (sum_axis0 keepdims) res_new in
  match state with
  | None => Ok (summed, summed)
  | Some st => let! new := tree_add st summed in Ok (new, new)
  end.

(** loader.py:63-79 [reduce_add]. *)
Definition reduce_add (res_new : ptree) (state : option ptree) : res (ptree * ptree) :=
  match state with
  | None => Ok (res_new, res_new)
  | Some st => let! new := tree_add res_new st in Ok (new, new)
  end.

(** [jnp.concatenate([x, y], axis=0)]. *)
Definition concat_axis0 (a b : arr R) : res (arr R) :=
  match ashape a, ashape b with
  | n :: s, m :: s' =>
      if s == s' then Ok (Arr ((n + m)%N :: s) (adata a ++ adata b)) else Raise TypeError
  | _, _ => Raise ValueError
  end.

(** loader.py:82-99 [concat] and 102-121 [reduce_concat], default [axis=0]. *)
Definition concat (t1 t2 : ptree) : res ptree := tmap2 concat_axis0 t1 t2.
Definition reduce_concat (res_new : ptree) (state : option ptree) : res (ptree * ptree) :=
  match state with
  | None => Ok (res_new, res_new)
  | Some st => let! new := concat st res_new in Ok (new, new)
  end.

(** loader.py:124-155 [reduce_online_mean].  [x / n] for an array [x] and a count [n]; a
    zero count gives nan or inf in the code and is left out. *)
Definition batch_count (a : arr R) : nat := if ashape a is n :: _ then n else 1%N.
Definition batch_sum (a : arr R) : res (arr R) :=
  match ashape a with
  | [::] => Ok a
  | _ => sum_axis0 false a
  end.
Definition div_count (a : arr R) (n : nat) : res (arr R) :=
  if n is 0 then Raise Unmodelled else Ok (arr_map (fun x => x / n%:R) a).
Definition reduce_online_mean (res_new : ptree) (state : option (tree nat * ptree)) :
    res (ptree * (tree nat * ptree)) :=
  let bsize := tmap batch_count res_new in
  let! bsum := tmapM batch_sum res_new in
  match state with
  | None => let! mean := tmap2 div_count bsum bsize in Ok (mean, (bsize, bsum))
  | Some (old_count, old_sum) =>
      let! total_count := tmap2 (fun m n => Ok (m + n)%N) old_count bsize in
      let! new_sum := tree_add old_sum bsum in
      let! mean := tmap2 div_count new_sum total_count in
      Ok (mean, (total_count, new_sum))
  end.

(** loader.py:207-265: both helpers only forward to [process_batches]. *)
Definition execute_with_data_loader (B D S : Type) (function : D -> res ptree)
    (transform : B -> res D) (reduce : ptree -> option S -> res (ptree * S)) (loader : seq B) :=
  process_batches function transform reduce loader.

(** loader.py:273-352 [DataLoaderMV]: the fields, [__call__] and [lower_func]. *)
Section LoaderMV.
Variables (B D S : Type).
Record loader_mv := LoaderMV {
  lm_mv : ptree -> D -> res ptree;
  lm_loader : seq B;
  lm_transform : B -> res D;
  lm_reduce : ptree -> option S -> res (ptree * S);
  lm_input : ptree -> res ptree;
  lm_output : ptree -> res ptree }.

(** loader.py:274-303 [__init__]: identity transforms. *)
Definition new_loader_mv mv loader transform reduce : loader_mv :=
  LoaderMV mv loader transform reduce (@Ok ptree) (@Ok ptree).

(** loader.py:305-323 [__call__]. *)
Definition loader_call (m : loader_mv) (vec : ptree) : res ptree :=
  let! v := lm_input m vec in
  let! r := process_batches (fun d => lm_mv m v d) (lm_transform m) (lm_reduce m) (lm_loader m) in
  lm_output m r.

(** loader.py:325-352 [lower_func]: [func] is applied to the operator of one batch (with the
    input and output transforms around it) and the results are reduced. *)
Definition lower_func (func : (ptree -> res ptree) -> res ptree) (m : loader_mv) : res ptree :=
  process_batches
    (fun d => func (fun v => let! v' := lm_input m v in
                             let! r := lm_mv m v' d in lm_output m r))
    (lm_transform m) (lm_reduce m) (lm_loader m).

(** loader.py:355-362 and 365-372: to_dense and diagonal of a loader operator.  A
    diagonal is a 1-D array, i.e. a leaf. *)
Definition loader_to_dense (m : loader_mv) (l : layout R) (bs : option nat) : res ptree :=
  lower_func (fun f => to_dense f l bs) m.
Definition loader_diagonal (m : loader_mv) (l : layout R) : res ptree :=
  lower_func (fun f => let! d := diagonal (Callable f) l None in
                       Ok (Leaf (Arr [:: size d] d))) m.

(** loader.py:375-402: wrap_function for loader operators, on a heap of operator objects:
    a new object is appended, the old one keeps its fields.  The transforms are unary, so
    the wrapped input is [input_transform(input_fn(v))] and the wrapped output
    [output_fn(output_transform(r))]; [None] is the identity. *)
Definition app_opt (f : option (ptree -> res ptree)) (x : ptree) : res ptree :=
  if f is Some g then g x else Ok x.
Definition wrap_loader (m : loader_mv) (input_fn output_fn : option (ptree -> res ptree)) :
    loader_mv :=
  LoaderMV (lm_mv m) (lm_loader m) (lm_transform m) (lm_reduce m)
    (fun v => let! v' := app_opt input_fn v in lm_input m v')
    (fun r => let! r' := lm_output m r in app_opt output_fn r').
Definition heap := seq loader_mv.
Definition wrap_on_heap (h : heap) (i : nat) (d : loader_mv)
    (input_fn output_fn : option (ptree -> res ptree)) : heap * nat :=
  (rcons h (wrap_loader (nth d h i) input_fn output_fn), size h).
End LoaderMV.
End Reductions.
