(** Properties C01-C09 and C14: PyTrees, function wrapping, matrix-free operators. *)
From Coq Require Import String.
From mathcomp Require Import all_ssreflect all_algebra.
From Verif Require Import Base PyTree TreeSpec Mv PyTreeProofs BasisProofs StackProofs
  MvProofs TreeOpsProofs.
Set Implicit Arguments.
Unset Strict Implicit.
Unset Printing Implicit Defensive.
Import GRing.Theory.

(** A concrete layout used in the examples below: a dict with a 2x1 matrix, an empty
    leaf, and a nested tuple with a scalar and a vector. *)
Definition ex_layout : tree (arr int) :=
  Node (NDict [:: "a"; "b"; "c"]%string)
    [:: Leaf (Arr [:: 2; 1] [:: Posz 1; Posz 2]);
        Leaf (Arr [:: 0; 3] [::]);
        Node NTuple [:: Leaf (Arr [::] [:: Posz 3]); Leaf (Arr [:: 2] [:: Posz 4; Posz 5])]].

(** C01.  Both round trips. *)
Theorem C01_unflatten_flatten :
  forall (A B : Type) (layout : tree (arr B)) (t : tree (arr A)),
  leaves layout <> [::] -> wf_tree t -> same_layout layout t ->
  exists v, [/\ full_flatten t = Ok v, size v = get_size layout
              & pytree_unflatten layout v = Ok t].
Proof.
move=> A B layout t L0 W S; exists (entries t); split.
- by apply: full_flattenE => E; move: L0; case: S => _; rewrite E; case: (leaves layout).
- by rewrite size_entries // get_sizeE (nentries_same S).
- exact: unflatten_entries.
Qed.
Print Assumptions C01_unflatten_flatten.

Theorem C01_flatten_unflatten :
  forall (A B : Type) (layout : tree (arr B)) (v : seq A),
  leaves layout <> [::] -> size v = get_size layout ->
  exists t, [/\ pytree_unflatten layout v = Ok t, same_layout layout t, wf_tree t
              & full_flatten t = Ok v].
Proof.
move=> A B layout v L0 Hv; have [t [E S W Et]] := unflatten_ok L0 Hv.
exists t; split=> //; rewrite -Et; apply: full_flattenE => E0.
by move: L0; case: S => _; rewrite E0; case: (leaves layout).
Qed.
Print Assumptions C01_flatten_unflatten.

Example C01_example : leaves ex_layout <> [::] /\ wf_tree ex_layout /\ get_size ex_layout = 5 /\
  full_flatten ex_layout = Ok [:: Posz 1; Posz 2; Posz 3; Posz 4; Posz 5] /\
  pytree_unflatten ex_layout [:: Posz 1; Posz 2; Posz 3; Posz 4; Posz 5] = Ok ex_layout.
Proof. by []. Qed.

(** C02.  unflatten succeeds exactly on vectors of the right length; layouts without
    leaves make both directions raise. *)
Theorem C02_unflatten_length :
  forall (A B : Type) (layout : tree (arr B)) (v : seq A),
  (exists t, pytree_unflatten layout v = Ok t) <->
  (leaves layout <> [::] /\ size v = get_size layout).
Proof.
move=> A B layout v; split.
- by case=> t E; have [H1 H2 _ _ _] := unflatten_inv E.
- by case=> L0 Hv; have [t [E _ _ _]] := unflatten_ok L0 Hv; exists t.
Qed.
Print Assumptions C02_unflatten_length.

Theorem C02_no_leaves :
  forall (A : Type) (t : tree (arr A)) (v : seq A),
  leaves t = [::] ->
  full_flatten t = Raise ValueError /\ exists e, pytree_unflatten t v = Raise e.
Proof.
by move=> A t v L0; split; [exact: full_flatten_empty|apply: unflatten_raises; right].
Qed.
Print Assumptions C02_no_leaves.

Example C02_example :
  pytree_unflatten ex_layout [:: 1; 2; 3; 4] = Raise TypeError /\
  pytree_unflatten ex_layout [:: 1; 2; 3; 4; 5; 6] = Raise TypeError /\
  leaves (Node NTuple [:: Node NNone [::]] : tree (arr nat)) = [::].
Proof. by []. Qed.

(** C03.  The matrix flattener: rows of all leaves stacked; both round trips. *)
Theorem C03_partial_roundtrip :
  forall (A B : Type) (k : nat) (layout : tree (arr B)) (t : tree (arr A)),
  leaves layout <> [::] -> col_layout k layout -> wf_tree t -> same_layout layout t ->
  partial_flatten t = Ok (Arr [:: nrows layout; k] (entries t)) /\
  partial_unflatten layout (Arr [:: nrows layout; k] (entries t)) = Ok t.
Proof.
move=> A B k layout t L0 C W S.
have Lt : leaves t <> [::] by move=> E; move: L0; case: S => _; rewrite E; case: (leaves layout).
have Hn : nrows t = nrows layout.
  by rewrite /nrows (map_comp (prodn \o (@butlast nat))) -(proj2 S) -map_comp.
split; first by rewrite -Hn; apply: partial_flattenE => //; exact: col_layout_same S C.
rewrite partial_unflatten_full //; first exact: unflatten_entries.
by rewrite size_entries // (nentries_same S).
Qed.
Print Assumptions C03_partial_roundtrip.

Theorem C03_partial_unflatten_flatten :
  forall (A B : Type) (k : nat) (layout : tree (arr B)) (m : seq A),
  leaves layout <> [::] -> col_layout k layout -> size m = nrows layout * k ->
  exists t, [/\ partial_unflatten layout (Arr [:: nrows layout; k] m) = Ok t,
    same_layout layout t, wf_tree t & partial_flatten t = Ok (Arr [:: nrows layout; k] m)].
Proof.
move=> A B k layout m L0 C Hm; rewrite (nrows_nentries C) in Hm.
have [t [E S W Et]] := unflatten_ok L0 Hm.
exists t; split=> //; first by rewrite partial_unflatten_full.
by have [-> _] := C03_partial_roundtrip L0 C W S; rewrite Et.
Qed.
Print Assumptions C03_partial_unflatten_flatten.

Theorem C03_zero_dim_raises :
  forall (A : Type) (t : tree (arr A)) (a : arr A) l1 l2,
  leaves t = l1 ++ a :: l2 -> ashape a = [::] -> exists e, partial_flatten t = Raise e.
Proof. exact: partial_flatten_zero_dim. Qed.
Print Assumptions C03_zero_dim_raises.

Definition ex_cols : tree (arr nat) :=
  Node NList [:: Leaf (Arr [:: 2; 2] [:: 1; 2; 3; 4]); Leaf (Arr [:: 2] [:: 5; 6])].
Example C03_example : leaves ex_cols <> [::] /\ col_layout 2 ex_cols /\ wf_tree ex_cols /\
  nrows ex_cols = 3 /\ partial_flatten ex_cols = Ok (Arr [:: 3; 2] [:: 1; 2; 3; 4; 5; 6]).
Proof. by []. Qed.

(** C04.  Basis vectors, both identity trees. *)
Theorem C04_basis_vector :
  forall (R : ringType) (layout : tree (arr R)) (i : nat),
  exists b, [/\ basis_vector_from_index i layout = Ok b, same_layout layout b, wf_tree b &
    entries b = mkseq (fun j => if j == i then 1%R else 0%R : R) (get_size layout)].
Proof. exact: basis_vectorP. Qed.
Print Assumptions C04_basis_vector.

Theorem C04_basis_vector_out_of_range :
  forall (R : ringType) (layout : tree (arr R)) (i : nat), get_size layout <= i ->
  exists b, basis_vector_from_index i layout = Ok b /\ entries b = nseq (get_size layout) (0%R : R).
Proof.
move=> R layout i Hi; have [b [E _ _ Eb]] := basis_vectorP layout i.
by exists b; split=> //; rewrite Eb unit_vec_out.
Qed.
Print Assumptions C04_basis_vector_out_of_range.

Theorem C04_eye_like :
  forall (R : ringType) (layout : tree (arr R)), 0 < get_size layout ->
  exists S, [/\ eye_like layout = Ok S, eye_like_with_basis_vector layout = Ok S &
    forall i, i < get_size layout -> tree_get i S = basis_vector_from_index i layout].
Proof. exact: eye_likeP. Qed.
Print Assumptions C04_eye_like.

Example C04_example : 0 < get_size ex_layout /\
  rmap (fun b => entries b) (basis_vector_from_index 2 ex_layout) =
  Ok [:: Posz 0; Posz 0; Posz 1; Posz 0; Posz 0].
Proof. by []. Qed.

(** C05.  Function wrapping. *)
Theorem C05_wrap_function :
  forall (V K : Type) (fn : seq V -> K -> res V) inp out (k : nat) args kw (d : V),
  k < size args ->
  wrap_function fn inp out (Posz k) args kw =
  (let! a := (if inp is Some f then f (nth d args k) else Ok (nth d args k)) in
   let! r := fn (set_nth d args k a) kw in
   (if out is Some g then g r else Ok r)).
Proof. exact: wrap_functionE. Qed.
Print Assumptions C05_wrap_function.

Theorem C05_wrap_argnums_out_of_range :
  forall (V K : Type) (fn : seq V -> K -> res V) inp out (k : nat) args kw,
  size args <= k -> wrap_function fn inp out (Posz k) args kw = Raise IndexError.
Proof. exact: wrap_function_oob. Qed.
Print Assumptions C05_wrap_argnums_out_of_range.

Theorem C05_wrap_twice :
  forall (V K : Type) (fn : seq V -> K -> res V) f g f' g' (k : nat) args kw,
  k < size args ->
  wrap_function (wrap_function fn (Some f) (Some g) (Posz k)) (Some f') (Some g') (Posz k) args kw =
  wrap_function fn (Some (fun x => let! y := f' x in f y)) (Some (fun x => let! y := g x in g' y))
    (Posz k) args kw.
Proof. by move=> V K fn f g f' g' k args kw Hk; rewrite wrap_compose. Qed.
Print Assumptions C05_wrap_twice.

Theorem C05_wrap_factory :
  forall (F V K : Type) (factory : F -> res (seq V -> K -> res V)) inp out x,
  wrap_factory factory inp out x =
  match factory x with
  | Ok fn => Ok (wrap_function fn inp out (Posz 0))
  | Raise e => Raise e
  end.
Proof. by []. Qed.
Print Assumptions C05_wrap_factory.

Theorem C05_flatten_function :
  forall (A : Type) fn (layout : tree (arr A)) (v : seq A),
  leaves layout <> [::] -> size v = get_size layout ->
  exists t, [/\ wf_tree t, same_layout layout t, full_flatten t = Ok v &
    flatten_function fn layout v = (let! u := fn t in full_flatten u)].
Proof.
move=> A fn layout v L0 Hv; have [t [W S E Ef]] := flatten_functionE fn L0 Hv.
exists t; split=> //; rewrite -E; apply: full_flattenE => E0.
by move: L0; case: S => _; rewrite E0; case: (leaves layout).
Qed.
Print Assumptions C05_flatten_function.

(** The natural reading of [argnums = -1] (transform the last argument) is false: the
    wrapped function receives all arguments again. *)
Theorem C05_negative_argnums_refuted :
  forall (V K : Type) (fn : seq V -> K -> res V) inp out args (a : V) kw,
  wrap_function fn inp out (Negz 0) (rcons args a) kw =
  (let! a' := (if inp is Some f then f a else Ok a) in
   let! r := fn (args ++ a' :: rcons args a) kw in
   (if out is Some g then g r else Ok r)).
Proof. exact: wrap_function_neg1. Qed.
Print Assumptions C05_negative_argnums_refuted.

Example C05_example :
  wrap_function (fun (l : seq nat) (b : nat) => Ok (sumn l + b))
    (Some (fun x => Ok (10 * x))) (Some (fun x => Ok x.+1)) (Posz 1) [:: 1; 2; 3] 100 = Ok 125.
Proof. by []. Qed.

(** C06.  Tree arithmetic on entries. *)
Theorem C06_add_sub :
  forall (R : ringType) (t u : tree (arr R)), wf_tree t -> wf_tree u -> same_layout t u ->
  (exists w, [/\ tree_add t u = Ok w, same_layout t w, wf_tree w
     & entries w = [seq (p.1 + p.2)%R | p <- zip (entries t) (entries u)]]) /\
  (exists w, [/\ tree_sub t u = Ok w, same_layout t w, wf_tree w
     & entries w = [seq (p.1 - p.2)%R | p <- zip (entries t) (entries u)]]).
Proof. by move=> R t u Wt Wu S; split; [exact: tree_addP|exact: tree_subP]. Qed.
Print Assumptions C06_add_sub.

Theorem C06_neg_mul :
  forall (R : ringType) (c : R) (t : tree (arr R)), wf_tree t ->
  [/\ same_layout t (tree_neg t), wf_tree (tree_neg t)
    & entries (tree_neg t) = [seq (- x)%R | x <- entries t]] /\
  [/\ same_layout t (tree_mul c t), wf_tree (tree_mul c t)
    & entries (tree_mul c t) = [seq (c * x)%R | x <- entries t]].
Proof.
by move=> R c t W; split; split;
  [exact: same_layout_tmap|exact: wf_tmap|exact: entries_tmap_arr
  |exact: same_layout_tmap|exact: wf_tmap|exact: entries_tmap_arr].
Qed.
Print Assumptions C06_neg_mul.

Theorem C06_add_structure_mismatch :
  forall (R : ringType) (t u : tree (arr R)),
  treedef t <> treedef u -> exists e, tree_add t u = Raise e.
Proof. exact: tree_add_mismatch. Qed.
Print Assumptions C06_add_structure_mismatch.

Theorem C06_normal_like :
  forall (R : ringType) (Key : Type) (split : Key -> nat -> seq Key)
    (normal : Key -> seq nat -> seq R) (key : Key) (mean : tree (arr R))
    (scale_mv : tree (arr R) -> res (tree (arr R))),
  (forall k n, size (split k n) = n) -> (forall k s, size (normal k s) = prodn s) ->
  wf_tree mean ->
  exists eps, [/\ randn_like split normal key mean = Ok eps, same_layout mean eps, wf_tree eps &
    forall s, scale_mv eps = Ok s -> wf_tree s -> same_layout mean s ->
    exists w, [/\ normal_like split normal key mean scale_mv = Ok w, same_layout mean w, wf_tree w
      & entries w = [seq (p.1 + p.2)%R | p <- zip (entries mean) (entries s)]]].
Proof.
move=> R Key split normal key mean scale_mv Hs Hn Wm.
have [e [Ee Se We]] := randn_likeP Hs Hn key mean.
exists e; split=> // s Es Ws Ss; exact: (normal_likeP Wm Ee Es Ws Ss).
Qed.
Print Assumptions C06_normal_like.

Example C06_example :
  rmap (fun w => entries w) (tree_sub ex_layout (tree_mul (Posz 3) ex_layout)) =
  Ok [:: (-2)%R; (-4)%R; (-6)%R; (-8)%R; (-10)%R : int].
Proof. by []. Qed.

(** C07.  tree_matvec multiplies by the block matrix whose block row [j], block column [i]
    is leaf number [i * n + j]. *)
Theorem C07_tree_matvec :
  forall (R : ringType) (blocks vec : tree (arr R)),
  let n := size (leaves vec) in
  let leaf t j := nth (Arr [::] [::]) (leaves t) j in
  let sz j := prodn (ashape (leaf vec j)) in
  0 < n -> wf_tree vec ->
  (forall j, j < n -> 0 < sz j) ->
  n * n <= size (leaves blocks) ->
  (forall i j, i < n -> j < n -> size (adata (leaf blocks (i * n + j))) = sz j * sz i) ->
  exists u, [/\ tree_matvec blocks vec = Ok u, same_layout vec u &
    forall j r, j < n -> r < sz j ->
      nth 0%R (adata (leaf u j)) r =
      (\sum_(0 <= i < n) \sum_(0 <= c < sz i)
        nth 0 (adata (leaf blocks (i * n + j)%N)) (r * sz i + c)%N *
        nth 0 (adata (leaf vec i)) c)%R].
Proof. exact: tree_matvecP. Qed.
Print Assumptions C07_tree_matvec.

Definition ex_vec : tree (arr int) :=
  Node NTuple [:: Leaf (Arr [:: 2] [:: Posz 1; Posz 2]); Leaf (Arr [:: 1] [:: Posz 3])].
Definition ex_blocks : tree (arr int) :=
  Node NTuple [:: Node NTuple [:: Leaf (Arr [:: 2; 2] [:: Posz 1; Posz 2; Posz 3; Posz 4]);
                                  Leaf (Arr [:: 1; 2] [:: Posz 7; Posz 8])];
                  Node NTuple [:: Leaf (Arr [:: 2; 1] [:: Posz 5; Posz 6]);
                                  Leaf (Arr [:: 1; 1] [:: Posz 9])]].
Example C07_example :
  rmap (fun w => entries w) (tree_matvec ex_blocks ex_vec) = Ok [:: Posz 20; Posz 29; Posz 50].
Proof. by vm_compute. Qed.

(** C08.  diagonal. *)
Theorem C08_diagonal_tree :
  forall (R : ringType) (A : nat -> nat -> R) (layout : tree (arr R)) mv bs,
  acts_as A layout layout mv ->
  diagonal (Callable mv) (LTree layout) bs = Ok (mkseq (fun i => A i i) (get_size layout)).
Proof. exact: diagonal_acts. Qed.
Print Assumptions C08_diagonal_tree.

Theorem C08_diagonal_int :
  forall (R : ringType) (A : nat -> nat -> R) (n : nat) mv bs,
  let flat := Leaf (Arr [:: n] (nseq n (0%R : R))) in
  acts_as A flat flat mv ->
  diagonal (Callable mv) (LInt R n) bs = Ok (mkseq (fun i => A i i) n).
Proof. exact: diagonal_acts_int. Qed.
Print Assumptions C08_diagonal_int.

Theorem C08_diagonal_dense :
  forall (R : ringType) (A : nat -> nat -> R) (m n : nat) l bs,
  diagonal (Dense (Arr [:: m; n] (flatten [seq [seq A j i | i <- iota 0 n] | j <- iota 0 m]))) l bs
  = Ok (mkseq (fun i => A i i) (minn m n)).
Proof.
move=> R A m n l bs; have -> : forall a, diagonal (Dense a) l bs = jnp_diag a by move=> a; case: l.
rewrite /jnp_diag /=; congr Ok; apply/eq_in_map => i; rewrite mem_iota add0n => /=.
rewrite leq_min => /andP[Hm Hn].
rewrite (@nth_flatten_const _ _ _ n) ?size_map ?size_iota //.
- by rewrite !(nth_map 0) ?size_iota // ?nth_iota.
- by move=> k Hk; rewrite (nth_map 0) ?size_iota // size_map size_iota.
Qed.
Print Assumptions C08_diagonal_dense.

Theorem C08_diagonal_needs_layout :
  forall (R : ringType) (mv : tree (arr R) -> res (tree (arr R))) bs,
  diagonal (Callable mv) (LNone R) bs = Raise TypeError.
Proof. by []. Qed.
Print Assumptions C08_diagonal_needs_layout.

(** A concrete operator satisfying [acts_as]: negation, i.e. minus the identity. *)
Lemma acts_as_neg (t : tree (arr int)) :
  acts_as (fun i j => if i == j then (-1)%R else 0%R : int) t t
          (fun u => Ok (tree_neg u)).
Proof.
move=> u W S; exists (tree_neg u); split=> //.
- exact: same_layout_trans S (same_layout_tmap _ u).
- exact: wf_tmap.
- rewrite /tree_neg entries_tmap_arr /matvec.
  apply: (@eq_from_nth _ 0%R); first by rewrite size_map size_mkseq size_entries // (nentries_same S).
  rewrite size_map size_entries // => i Hi; rewrite (nth_map 0%R) ?size_entries //.
  rewrite -(nentries_same S) in Hi; rewrite nth_mkseq //.
  rewrite (big_cat_nat _ _ _ (leq0n i)) ?(ltnW Hi) //= [X in (_ + X)%R]big_ltn //.
  rewrite eqxx mulN1r !big_nat !big1 ?add0r ?addr0 // => j /andP [H1 H2].
  + by rewrite ltn_eqF // mul0r.
  + by rewrite gtn_eqF // mul0r.
Qed.
Example C08_example :
  diagonal (Callable (fun u : tree (arr int) => Ok (tree_neg u))) (LTree ex_layout) (Some 2) =
  Ok (nseq 5 (-1)%R).
Proof. by rewrite (C08_diagonal_tree _ (@acts_as_neg ex_layout)). Qed.

(** C09.  to_dense. *)
Theorem C09_to_dense_int :
  forall (R : ringType) (A : nat -> nat -> R) (n m : nat) mv bs, 0 < n ->
  acts_as A (Leaf (Arr [:: n] (nseq n 0%R))) (Leaf (Arr [:: m] (nseq m 0%R))) mv ->
  to_dense mv (LInt R n) bs =
  Ok (Leaf (Arr [:: m; n] (flatten [seq [seq A j i | i <- iota 0 n] | j <- iota 0 m]))).
Proof. exact: to_dense_acts_int. Qed.
Print Assumptions C09_to_dense_int.

Theorem C09_to_dense_tree :
  forall (R : ringType) (A : nat -> nat -> R) (tin tout : tree (arr R)) mv bs,
  0 < get_size tin -> acts_as A tin tout mv ->
  let shape lf := nth [::] (map (@ashape R) (leaves tout)) lf in
  exists D, [/\ to_dense mv (LTree tin) bs = Ok D, treedef D = treedef tout,
    map (@ashape R) (leaves D) = [seq rev (get_size tin :: s) | s <- map (@ashape R) (leaves tout)]
    & forall i lf idx, i < get_size tin -> lf < size (leaves tout) ->
        valid_idx (shape lf) idx ->
        aget (nth (Arr [::] [::]) (leaves D) lf) (rcons (rev idx) i) =
        A (leaf_offset tout lf + ravel_idx (shape lf) idx) i].
Proof. exact: to_dense_acts. Qed.
Print Assumptions C09_to_dense_tree.

(** The documented TypeError for a missing layout is unreachable: None is a PyTree
    without leaves and a ValueError escapes from the strict zip. *)
Theorem C09_to_dense_none_layout :
  forall (R : ringType) (mv : tree (arr R) -> res (tree (arr R))) bs,
  to_dense mv (LNone R) bs = Raise ValueError.
Proof. exact: to_dense_none. Qed.
Print Assumptions C09_to_dense_none_layout.

Example C09_example :
  rmap (fun D => map (@ashape _) (leaves D))
    (to_dense (fun u : tree (arr int) => Ok (tree_neg u)) (LTree ex_vec) None) =
  Ok [:: [:: 2; 3]; [:: 1; 3]] /\ 0 < get_size ex_vec.
Proof. by vm_compute. Qed.

(** C14.  Precomputing a list of results is invisible to the caller. *)
Theorem C14_precompute_list :
  forall (A I : Type) (func : I -> res (tree (arr A))) (items : seq I) pre bs
    (us : seq (tree (arr A))) (u0 : tree (arr A)) (d : I),
  pre <> Some false -> 0 < size items -> mapM func items = Ok us ->
  (forall i, i < size us -> same_layout u0 (nth u0 us i) /\ wf_tree (nth u0 us i)) ->
  exists get, precompute_list func items pre bs = Ok (ByIndex I get) /\
    forall i, i < size items -> get i = func (nth d items i).
Proof. exact: precompute_on. Qed.
Print Assumptions C14_precompute_list.

Theorem C14_precompute_off :
  forall (A I : Type) (func : I -> res (tree (arr A))) (items : seq I) bs,
  precompute_list func items (Some false) bs = Ok (ByItem func).
Proof. exact: precompute_off. Qed.
Print Assumptions C14_precompute_off.

(** The textual switch accepts exactly the two spellings. *)
Theorem C14_str_to_bool :
  forall (s : string) (b : bool),
  (str_to_bool s = Ok b <-> s = if b then "True"%string else "False"%string) /\
  (str_to_bool s = Raise ValueError <-> s <> "True"%string /\ s <> "False"%string).
Proof.
move=> s b; rewrite /str_to_bool; case: (String.eqb_spec s "True"%string) => [->|H1].
  by split; case: b; split=> // -[].
by case: (String.eqb_spec s "False"%string) => [->|H2]; split; case: b; split=> // -[].
Qed.
Print Assumptions C14_str_to_bool.

Example C14_example :
  match precompute_list (fun k : nat => Ok (Leaf (Arr [:: 2] [:: k; k.+1]))) [:: 5; 7; 9] None (Some 2) with
  | Ok (ByIndex get) => get 1 = Ok (Leaf (Arr [:: 2] [:: 7; 8]))
  | _ => False
  end.
Proof. by []. Qed.
