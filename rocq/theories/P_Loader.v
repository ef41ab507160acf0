(** Properties C10-C13: reductions over data loaders and loader operators. *)
From mathcomp Require Import all_ssreflect all_algebra.
From Verif Require Import Base PyTree TreeSpec Mv PyTreeProofs BasisProofs StackProofs
  MvProofs TreeOpsProofs Loader LoaderProofs.
Set Implicit Arguments.
Unset Strict Implicit.
Unset Printing Implicit Defensive.
Import GRing.Theory.
Local Open Scope ring_scope.

(** C10.  A function that is a sum of per-sample terms: whatever the batching (and even the
    order of the samples), [reduce_add] gives the value of the function on the whole data. *)
Theorem C10_reduce_add_partition :
  forall (R : fieldType) (X : eqType) (h : X -> nat -> R) (t0 : tree (arr R))
    (f : seq X -> res (tree (arr R))) (batches : seq (seq X)) (data : seq X),
  (forall batch, exists t, f batch = Ok t /\
     tree_is t0 (fun j => \sum_(x <- batch) h x j) t) ->
  batches <> [::] -> perm_eq (flatten batches) data ->
  process_batches f Ok (@reduce_add R) batches = f data.
Proof.
move=> R X h t0 f batches data Hf H0 Hp.
have [|b _|r [-> Ir]] := @reduce_add_sum R (seq X) (seq X) f Ok t0
   (fun batch j => \sum_(x <- batch) h x j) batches.
- exact: H0.
- exact: Hf.
have [t [-> It]] := Hf data; congr Ok; apply: tree_is_fun It.
by apply: tree_is_eq Ir => i _; rewrite -(perm_big _ Hp) /= big_flatten.
Qed.
Print Assumptions C10_reduce_add_partition.

(** General form: the batch results are added entry by entry. *)
Theorem C10_reduce_add :
  forall (R : fieldType) (B D : Type) (f : D -> res (tree (arr R))) (transform : B -> res D)
    (t0 : tree (arr R)) (F : B -> nat -> R) (loader : seq B),
  loader <> [::] ->
  (forall b, List.In b loader -> exists t,
     (let! d := transform b in f d) = Ok t /\ tree_is t0 (F b) t) ->
  exists r, execute_with_data_loader f transform (@reduce_add R) loader = Ok r /\
     tree_is t0 (fun j => \sum_(b <- loader) F b j) r.
Proof. by move=> R B D f tr t0 F loader H0 H; apply: reduce_add_sum. Qed.
Print Assumptions C10_reduce_add.

Theorem C10_empty_loader :
  forall (R : fieldType) (B D S : Type) (f : D -> res (tree (arr R))) (transform : B -> res D)
    (reduce : tree (arr R) -> option S -> res (tree (arr R) * S)),
  process_batches f transform reduce [::] = Raise ValueError.
Proof. by []. Qed.
Print Assumptions C10_empty_loader.

(** An error raised for one batch is what the caller sees. *)
Theorem C10_batch_error :
  forall (B D Y Z S : Type) (f : D -> res Y) (transform : B -> res D)
    (reduce : Y -> option S -> res (Z * S)) bs b bs' e,
  (exists ys, mapM (fun b => let! d := transform b in f d) bs = Ok ys) ->
  (forall y st, exists p, reduce y st = Ok p) ->
  (let! d := transform b in f d) = Raise e ->
  process_batches f transform reduce (bs ++ b :: bs') = Raise e.
Proof. by move=> B D Y Z S f tr rd bs b bs' e H1 H2 H3; rewrite /process_batches (batch_error _ _ _ H1 H2 H3). Qed.
Print Assumptions C10_batch_error.

(** [reduce_sum]: sum over all rows of all batches (leading axis removed; the default
    [keepdims=True] keeps it with length one). *)
Theorem C10_reduce_sum :
  forall (R : fieldType) (B D : Type) (f : D -> res (tree (arr R))) (transform : B -> res D)
    (loader : seq B) (rows : seq (seq (tree (arr R)))) ys (t0 : tree (arr R)),
  loader <> [::] ->
  mapM (fun b => let! d := transform b in f d) loader = Ok ys ->
  mapM (@stack_trees R) rows = Ok ys -> all (fun r => 0 < size r)%N rows ->
  rows_ok t0 (flatten rows) ->
  exists r, process_batches f transform (reduce_sum false) loader = Ok r /\
     tree_is t0 (fun j => \sum_(t <- flatten rows) nth 0 (entries t) j) r.
Proof.
move=> R B D f tr loader rows ys t0 H0 Hys Hst Hne Hok.
by apply: (reduce_sumP _ Hys Hst Hne Hok); case: loader H0 Hys.
Qed.
Print Assumptions C10_reduce_sum.

(** a per-sample function over integers-in-a-field: sample x contributes (x, x*x) *)
Definition ex_f (xs : seq rat) : res (tree (arr rat)) :=
  Ok (Node NTuple [:: Leaf (Arr [:: 1%N] [:: \sum_(x <- xs) x]);
                     Leaf (Arr [::] [:: \sum_(x <- xs) x * x])]).
Definition ex_f0 : tree (arr rat) :=
  Node NTuple [:: Leaf (Arr [:: 1%N] [:: 0]); Leaf (Arr [::] [:: 0])].
Example C10_example :
  process_batches ex_f Ok (@reduce_add _) [:: [:: 1]; [:: 2%:R; 3%:R]] = ex_f [:: 3%:R; 1; 2%:R].
Proof.
apply: (@C10_reduce_add_partition _ _ (fun x j => if j is 0 then x else x * x) ex_f0).
- by move=> b; eexists; split; first by [].
- by [].
- by [].
Qed.

(** C11.  Online mean over any split into non-empty batches.  The batch results are stacks
    of per-row trees; the result is the mean over all rows, whatever the batch sizes. *)
Theorem C11_online_mean :
  forall (R : fieldType) (B D : Type) (f : D -> res (tree (arr R))) (transform : B -> res D)
    (loader : seq B) (rows : seq (seq (tree (arr R)))) ys (t0 : tree (arr R)),
  loader <> [::] ->
  mapM (fun b => let! d := transform b in f d) loader = Ok ys ->
  mapM (@stack_trees R) rows = Ok ys -> all (fun r => 0 < size r)%N rows ->
  rows_ok t0 (flatten rows) ->
  exists r, process_batches f transform (@reduce_online_mean R) loader = Ok r /\
     tree_is t0 (fun j => (\sum_(t <- flatten rows) nth 0 (entries t) j)
                          / (size (flatten rows))%:R) r.
Proof.
move=> R B D f tr loader rows ys t0 H0 Hys Hst Hne Hok.
have [|r [c [s [Er Ir _ _]]]] := online_meanP _ Hys Hst Hne Hok; last by exists r.
by case: loader H0 Hys.
Qed.
Print Assumptions C11_online_mean.

(** The state handed from batch to batch: row counter and row sum, for every leaf. *)
Theorem C11_online_mean_state :
  forall (R : fieldType) (t0 : tree (arr R)) (n : nat) (old_sum : tree (arr R)) (f : nat -> R)
    (ts : seq (tree (arr R))) (batch : tree (arr R)),
  tree_is t0 f old_sum -> rows_ok t0 ts -> (0 < size ts)%N -> stack_trees ts = Ok batch ->
  exists mean new_sum,
    reduce_online_mean batch (Some (tmap (fun _ => n) t0, old_sum)) =
      Ok (mean, (tmap (fun _ => (n + size ts)%N) t0, new_sum)) /\
    tree_is t0 (fun j => f j + \sum_(t <- ts) nth 0 (entries t) j) new_sum /\
    tree_is t0 (fun j => (f j + \sum_(t <- ts) nth 0 (entries t) j) / (n + size ts)%:R) mean.
Proof. exact: online_mean_step. Qed.
Print Assumptions C11_online_mean_state.

(** C12.  Concatenation keeps the order of the loader: the result is the stack of all rows,
    exactly what one batch holding all rows would give. *)
Theorem C12_reduce_concat :
  forall (R : fieldType) (B D : Type) (f : D -> res (tree (arr R))) (transform : B -> res D)
    (loader : seq B) (rows : seq (seq (tree (arr R)))) ys (t0 : tree (arr R)),
  loader <> [::] ->
  mapM (fun b => let! d := transform b in f d) loader = Ok ys ->
  mapM (@stack_trees R) rows = Ok ys -> all (fun r => 0 < size r)%N rows ->
  rows_ok t0 (flatten rows) ->
  process_batches f transform (@reduce_concat R) loader = stack_trees (flatten rows).
Proof.
move=> R B D f tr loader rows ys t0 H0 Hys Hst Hne Hok.
by apply: (reduce_concatP _ Hys Hst Hne Hok); case: loader H0 Hys.
Qed.
Print Assumptions C12_reduce_concat.

Theorem C12_concat_batching_invisible :
  forall (R : fieldType) (X : Type) (h : X -> tree (arr R)) (t0 : tree (arr R))
    (batches : seq (seq X)),
  (forall x, same_layout t0 (h x) /\ wf_tree (h x)) ->
  batches <> [::] -> all (fun b => 0 < size b)%N batches ->
  let f := fun xs => stack_trees (map h xs) in
  process_batches f Ok (@reduce_concat R) batches = f (flatten batches).
Proof.
move=> R X h t0 batches Hh H0 Hne f.
have Hr (xs : seq X) : rows_ok t0 (map h xs).
  by elim: xs => [|x xs IH] // [|i] /= Hi; [exact: Hh|exact: IH].
have [ys Hys] : exists ys, mapM f batches = Ok ys.
  elim: batches Hne {H0} => [|b bs IH] /=; first by exists [::].
  case/andP=> Hb /IH [ys ->].
  have [|S ES] := stack_ok (Hr b); first by rewrite size_map.
  by rewrite /f ES; exists (S :: ys).
have Hst : mapM (@stack_trees R) (map (map h) batches) = Ok ys.
  by rewrite -Hys; elim: (batches) => //= b bs ->.
have Hfl : flatten (map (map h) batches) = map h (flatten batches) by rewrite map_flatten.
rewrite (@C12_reduce_concat _ _ _ f Ok batches _ ys t0 H0 _ Hst) ?Hfl //.
by rewrite all_map; apply: sub_all Hne => b; rewrite /= size_map.
Qed.
Print Assumptions C12_concat_batching_invisible.

Definition ex_h (x : rat) : tree (arr rat) := Leaf (Arr [:: 2%N] [:: x; x * x]).
Example C12_example :
  process_batches (fun xs => stack_trees (map ex_h xs)) Ok (@reduce_concat _)
     [:: [:: 1; 2%:R]; [:: 3%:R]] = stack_trees (map ex_h [:: 1; 2%:R; 3%:R]).
Proof.
by apply: (@C12_concat_batching_invisible _ _ ex_h (ex_h 0)) => // x.
Qed.
Example C11_example :
  exists r, process_batches (fun xs => stack_trees (map ex_h xs)) Ok (@reduce_online_mean _)
     [:: [:: 1; 2%:R]; [:: 3%:R]] = Ok r /\ entries r = [:: 2%:R; 14%:R / 3%:R].
Proof.
have [r [Er [_ _ Ir]]] := @C11_online_mean _ _ _ (fun xs => stack_trees (map ex_h xs)) Ok
  [:: [:: 1; 2%:R]; [:: 3%:R]] [:: map ex_h [:: 1; 2%:R]; map ex_h [:: 3%:R]]
  _ (ex_h 0) (fun H => (ltac:(discriminate H))) erefl erefl erefl
  (fun i => match i with 0 | 1 | 2 => fun _ => conj (conj erefl erefl) erefl
            | _ => fun H => (ltac:(discriminate H)) end).
exists r; split=> //; rewrite Ir.
by rewrite /= /mkseq /= unlock; apply/eqP; vm_compute.
Qed.

(** C13.  Loader operators. *)
Theorem C13_call_is_sum :
  forall (R : fieldType) (B D : Type) (mv : tree (arr R) -> D -> res (tree (arr R)))
    (loader : seq B) (transform : B -> res D) (A : B -> nat -> nat -> R) tin tout,
  loader <> [::] ->
  (forall b, List.In b loader -> exists d, transform b = Ok d /\
      acts_as (A b) tin tout (fun v => mv v d)) ->
  acts_as (fun i j => \sum_(b <- loader) A b i j) tin tout
    (loader_call (new_loader_mv mv loader transform (@reduce_add R))).
Proof. by move=> *; apply: loader_call_acts. Qed.
Print Assumptions C13_call_is_sum.

Theorem C13_wrap :
  forall (R : fieldType) (B D S : Type) (m : loader_mv R B D S) fi fo v,
  loader_call (wrap_loader m (Some fi) (Some fo)) v =
  (let! v' := fi v in let! r := loader_call m v' in fo r).
Proof. by move=> *; apply: wrap_loader_call. Qed.
Print Assumptions C13_wrap.

Theorem C13_wrap_none :
  forall (R : fieldType) (B D S : Type) (m : loader_mv R B D S) v,
  loader_call (wrap_loader m None None) v = loader_call m v.
Proof. by move=> R B D S m v; rewrite wrap_loader_call /=; case: (loader_call m v). Qed.
Print Assumptions C13_wrap_none.

(** Wrapping again composes: the newest input function runs first, the newest output
    function last. *)
Theorem C13_wrap_twice :
  forall (R : fieldType) (B D S : Type) (m : loader_mv R B D S) fi fo fi' fo' v,
  loader_call (wrap_loader (wrap_loader m (Some fi) (Some fo)) (Some fi') (Some fo')) v =
  (let! v1 := fi' v in let! v2 := fi v1 in let! r := loader_call m v2 in
   let! r1 := fo r in fo' r1).
Proof.
move=> R B D S m fi fo fi' fo' v; rewrite !wrap_loader_call /=.
case: (fi' v) => //= v1; rewrite wrap_loader_call /=; case: (fi v1) => //= v2.
by case: (loader_call m v2).
Qed.
Print Assumptions C13_wrap_twice.

(** Wrapping an object on the heap leaves every existing object as it was. *)
Theorem C13_wrap_keeps_original :
  forall (R : fieldType) (B D S : Type) (h : heap R B D S) i d fi fo,
  let: (h', new) := wrap_on_heap h i d fi fo in
  [/\ forall j, (j < size h)%N -> nth d h' j = nth d h j, (size h <= new)%N
    & nth d h' new = wrap_loader (nth d h i) fi fo].
Proof.
move=> R B D S h i d fi fo; split=> //=.
- by move=> j Hj; rewrite nth_rcons Hj.
- by rewrite nth_rcons ltnn eqxx.
Qed.
Print Assumptions C13_wrap_keeps_original.

(** to_dense and diagonal of a (possibly wrapped) loader operator are the sums over the
    batches of the matrices, respectively diagonals, of the wrapped batch operators. *)
Theorem C13_to_dense :
  forall (R : fieldType) (B D : Type) (m : loader_mv R B D (tree (arr R)))
    (A : B -> nat -> nat -> R) (n k : nat) bs,
  lm_reduce m = @reduce_add R -> (0 < n)%N -> lm_loader m <> [::] ->
  (forall b, List.In b (lm_loader m) -> exists d, lm_transform m b = Ok d /\
     acts_as (A b) (Leaf (Arr [:: n] (nseq n 0))) (Leaf (Arr [:: k] (nseq k 0)))
       (fun v => let! v' := lm_input m v in let! r := lm_mv m v' d in lm_output m r)) ->
  loader_to_dense m (LInt R n) bs =
  Ok (Leaf (Arr [:: k; n] (flatten [seq [seq \sum_(b <- lm_loader m) A b j i | i <- iota 0 n]
                                   | j <- iota 0 k]))).
Proof. by move=> R B D m A n k bs H; apply: loader_dense_acts. Qed.
Print Assumptions C13_to_dense.

Theorem C13_diagonal :
  forall (R : fieldType) (B D : Type) (m : loader_mv R B D (tree (arr R)))
    (A : B -> nat -> nat -> R) t,
  lm_reduce m = @reduce_add R -> lm_loader m <> [::] ->
  (forall b, List.In b (lm_loader m) -> exists d, lm_transform m b = Ok d /\
     acts_as (A b) t t
       (fun v => let! v' := lm_input m v in let! r := lm_mv m v' d in lm_output m r)) ->
  loader_diagonal m (LTree t) =
  Ok (Leaf (Arr [:: nentries t] (mkseq (fun i => \sum_(b <- lm_loader m) A b i i) (nentries t)))).
Proof. by move=> R B D m A t H; apply: loader_diagonal_acts. Qed.
Print Assumptions C13_diagonal.

(** Finding: with the default reduction (online mean) a loader operator whose batch
    products are plain vectors does not return a vector at all: parameters are averaged
    away and a 0-d array comes back. *)
Theorem C13_default_reduce_refuted :
  forall (R : fieldType) (B D : Type) (mv : tree (arr R) -> D -> res (tree (arr R)))
    (transform : B -> res D) (b : B) (d : D) v (n : nat) (x : seq R),
  (0 < n)%N -> size x = n -> transform b = Ok d -> mv v d = Ok (Leaf (Arr [:: n] x)) ->
  loader_call (new_loader_mv mv [:: b] transform (@reduce_online_mean R)) v =
  Ok (Leaf (Arr [::] [:: (\sum_(y <- x) y) / n%:R])).
Proof.
move=> R B D mv tr b d v n x Hn Hx Hd Hm.
have Hs : batch_sum (Arr [:: n] x) = Ok (Arr [::] [:: \sum_(y <- x) y]).
  rewrite /batch_sum /sum_axis0 /= foldrE big_map; congr (Ok (Arr _ [:: _])).
  rewrite [RHS](big_nth 0) Hx /index_iota subn0; apply: eq_big_seq => i _.
  by rewrite muln1 addn0.
rewrite /loader_call /process_batches /= Hd /= Hm /= /reduce_online_mean.
have -> : tmapM (@batch_sum R) (Leaf (Arr [:: n] x)) = Ok (Leaf (Arr [::] [:: \sum_(y <- x) y])).
  by rewrite -[tmapM _ _]/(let! b := batch_sum (Arr [:: n] x) in Ok (Leaf b)) Hs.
by case: n Hn {Hx Hs Hm}.
Qed.
Print Assumptions C13_default_reduce_refuted.

Lemma acts_scale (t : tree (arr rat)) (c : rat) :
  acts_as (fun i j => if i == j then c else 0) t t (fun u => Ok (tree_mul c u)).
Proof.
move=> u W S; exists (tree_mul c u); split=> //.
- exact: same_layout_trans S (same_layout_tmap _ u).
- exact: wf_tmap.
- rewrite /tree_mul entries_tmap_arr /matvec.
  apply: (@eq_from_nth _ 0); first by rewrite size_map size_mkseq size_entries // (nentries_same S).
  rewrite size_map size_entries // => i Hi; rewrite (nth_map 0) ?size_entries //.
  rewrite -(nentries_same S) in Hi; rewrite nth_mkseq //.
  rewrite (big_cat_nat _ _ _ (leq0n i)) ?(ltnW Hi) //= [X in (_ + X)]big_ltn //.
  rewrite eqxx !big_nat !big1 ?add0r ?addr0 // => j /andP [H1 H2].
  + by rewrite ltn_eqF // mul0r.
  + by rewrite gtn_eqF // mul0r.
Qed.
(** two batches, acting as 2*I and 3*I on a two-leaf tree *)
Example C13_example :
  loader_diagonal (new_loader_mv (fun v (c : rat) => Ok (tree_mul c v)) [:: 2%:R; 3%:R] Ok
     (@reduce_add _)) (LTree ex_f0) = Ok (Leaf (Arr [:: 2%N] [:: 5%:R; 5%:R])).
Proof.
rewrite (@C13_diagonal _ _ _ _ (fun c i j => if i == j then c else 0)) //.
- by congr (Ok (Leaf (Arr _ _))); rewrite /mkseq /= !big_cons !big_nil addr0 -natrD.
- move=> c _; exists c; split=> //= v W S.
  by have [u [E1 E2 E3 E4]] := acts_scale c W S; exists u; split.
Qed.
