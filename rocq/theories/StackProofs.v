(** Proofs about tree maps of two trees, stacking and indexing, identity trees. *)
From Coq Require Import String.
From mathcomp Require Import all_ssreflect all_algebra.
From Verif Require Import Base PyTree TreeSpec PyTreeProofs BasisProofs.
Set Implicit Arguments.
Unset Strict Implicit.
Unset Printing Implicit Defensive.

Lemma node_eqP a b : reflect (a = b) (node_eqb a b).
Proof.
have K (k l : seq string) : reflect (k = l) (all2 String.eqb k l).
  elim: k l => [|x k IH] [|y l] /=; try by constructor.
  case: String.eqb_spec => [->|N] /=; last by constructor=> -[].
  by case: (IH l) => [->|N]; constructor=> // -[].
case: a b => [|||k] [|||l] /=; try by constructor.
by case: (K k l) => [->|N]; constructor=> // -[].
Qed.

Lemma map2M_size (A B C : Type) (f : A -> B -> res C) xs ys zs :
  map2M f xs ys = Ok zs -> size xs = size ys /\ size zs = size xs.
Proof.
elim: xs ys zs => [|x xs IH] [|y ys] zs //=; first by case=> <-.
case: (f x y) => //= z; case E: (map2M f xs ys) => [r|] //= [<-] /=.
by have [-> ->] := IH _ _ E.
Qed.

Lemma map2M_cat (A B C : Type) (f : A -> B -> res C) x1 x2 y1 y2 :
  size x1 = size y1 ->
  map2M f (x1 ++ x2) (y1 ++ y2) =
  (let! a := map2M f x1 y1 in let! b := map2M f x2 y2 in Ok (a ++ b)).
Proof.
elim: x1 y1 => [|x x1 IH] [|y y1] //=; first by case: (map2M f x2 y2).
by case=> H; case: (f x y) => //= z; rewrite IH //; case: (map2M f x1 y1) => //= a;
   case: (map2M f x2 y2).
Qed.

Lemma map2M_ok (A B C : Type) (f : A -> B -> res C) (g : A -> B -> C) xs ys :
  size xs = size ys ->
  (forall p, f p.1 p.2 = Ok (g p.1 p.2)) ->
  map2M f xs ys = Ok [seq g p.1 p.2 | p <- zip xs ys].
Proof.
move=> + H; elim: xs ys => [|x xs IH] [|y ys] //= [E].
by rewrite (H (x, y)) /= IH.
Qed.

Lemma size_leaves_same (A B : Type) (t : tree A) (u : tree B) :
  treedef t = treedef u -> size (leaves t) = size (leaves u).
Proof. by move=> H; rewrite -size_leaves_def H size_leaves_def. Qed.

Lemma treedefN (A : Type) k (ch : seq (tree A)) :
  treedef (Node k ch) = Node k (map (@treedef A) ch).
Proof. by []. Qed.

Lemma treedef_NodeI (A B : Type) k l (ch : seq (tree A)) (dh : seq (tree B)) :
  treedef (Node k ch) = treedef (Node l dh) ->
  k = l /\ map (@treedef A) ch = map (@treedef B) dh.
Proof. by rewrite /treedef /= => -[]. Qed.

Lemma tmap2_ok (A B C : Type) (f : A -> B -> res C) t u ls :
  treedef t = treedef u -> map2M f (leaves t) (leaves u) = Ok ls ->
  exists w, [/\ tmap2 f t u = Ok w, treedef w = treedef t & leaves w = ls].
Proof.
elim/tree_ind': t u ls => [a|k ch IH] [b|l dh] ls //.
  by move=> _ /=; case: (f a b) => //= c [<-]; exists (Leaf c).
case/treedef_NodeI=> -> D H.
suff [ws [E1 E2 E3]] : exists ws, [/\ map2M (tmap2 f) ch dh = Ok ws,
    map (@treedef C) ws = map (@treedef A) ch & flatten (map (@leaves C) ws) = ls].
  exists (Node l ws); split=> //; last by rewrite !treedefN E2.
  by rewrite /=; case: (node_eqP l l) => //=; rewrite E1.
elim: ch dh IH D ls H => [|c cs IHc] [|d ds] //= IH D ls.
  by case=> <-; exists [::].
case: IH D => Hc Hcs [D1 D2].
rewrite map2M_cat; last exact: size_leaves_same.
case E1: (map2M f (leaves c) (leaves d)) => [l1|] //=.
case E2: (map2M f _ _) => [l2|] //= [<-].
have [w [-> Dw Lw]] := Hc _ _ D1 E1; have [ws [-> Dws Lws]] := IHc _ Hcs D2 _ E2.
by exists (w :: ws); split=> //=; rewrite ?Dw ?Dws ?Lw ?Lws.
Qed.

Lemma tmap2_inv (A B C : Type) (f : A -> B -> res C) t u w :
  tmap2 f t u = Ok w ->
  [/\ treedef t = treedef u, treedef w = treedef t & map2M f (leaves t) (leaves u) = Ok (leaves w)].
Proof.
elim/tree_ind': t u w => [a|k ch IH] [b|l dh] w //=.
  by case: (f a b) => //= c [<-].
case: node_eqP => // <-; case E: (map2M _ _ _) => [ws|] //= [<-].
suff [E1 E2 E3] : [/\ map (@treedef A) ch = map (@treedef B) dh,
    map (@treedef C) ws = map (@treedef A) ch &
    map2M f (flatten (map (@leaves A) ch)) (flatten (map (@leaves B) dh)) =
    Ok (flatten (map (@leaves C) ws))].
  by split=> //; rewrite !treedefN ?E1 ?E2 ?E1.
elim: ch dh IH ws E => [|c cs IHc] [|d ds] //= IH ws; first by case=> <-.
case: IH => Hc Hcs; case E1: (tmap2 f c d) => [w1|] //=.
case E2: (map2M _ _ _) => [w2|] //= [<-] /=.
have [-> -> L1] := Hc _ _ E1; have [-> -> L2] := IHc _ Hcs _ E2.
by rewrite map2M_cat ?L1 ?L2 //; have [] := map2M_size L1.
Qed.

Lemma tmapM_ok (A B : Type) (f : A -> res B) t ls :
  mapM f (leaves t) = Ok ls ->
  exists w, [/\ tmapM f t = Ok w, treedef w = treedef t & leaves w = ls].
Proof.
elim/tree_ind': t ls => [a|k ch IH] ls /=.
  by case: (f a) => //= c [<-]; exists (Leaf c).
move=> H.
suff [ws [E1 E2 E3]] : exists ws, [/\ mapM (tmapM f) ch = Ok ws,
    map (@treedef B) ws = map (@treedef A) ch & flatten (map (@leaves B) ws) = ls].
  exists (Node k ws); split=> //; last by rewrite !treedefN E2.
  by rewrite E1.
elim: ch IH ls H => [|c cs IHc] //= IH ls; first by case=> <-; exists [::].
case: IH => Hc Hcs; rewrite mapM_cat.
case E1: (mapM f (leaves c)) => [l1|] //=; case E2: (mapM f _) => [l2|] //= [<-].
have [w [-> Dw Lw]] := Hc _ E1; have [ws [-> Dws Lws]] := IHc Hcs _ E2.
by exists (w :: ws); split=> //=; rewrite ?Dw ?Dws ?Lw ?Lws.
Qed.

Lemma same_layoutP (A B : Type) (t : tree (arr A)) (u : tree (arr B)) :
  reflect (same_layout t u) (same_layout_b t u).
Proof.
apply: (iffP andP) => -[].
- move=> /eqP H; case E: (tmap2 _ _ _) => [w|] // _.
  by have [D _ _] := tmap2_inv E; split.
- move=> D S; rewrite S; split=> //.
  have [|w [-> _ _]] := @tmap2_ok _ _ _ (fun (_ : arr A) (_ : arr B) => Ok tt) t u
     [seq tt | p <- zip (leaves t) (leaves u)] D; last by [].
  by apply: (@map2M_ok _ _ _ _ (fun _ _ => tt)); first exact: size_leaves_same.
Qed.

Lemma same_layout_sym (A B : Type) (t : tree (arr A)) (u : tree (arr B)) :
  same_layout t u -> same_layout u t.
Proof. by case. Qed.
Lemma same_layout_trans (A B C : Type) (t : tree (arr A)) (u : tree (arr B)) (w : tree (arr C)) :
  same_layout t u -> same_layout u w -> same_layout t w.
Proof. by case=> D1 S1 [D2 S2]; split; [rewrite D1|rewrite S1]. Qed.
Lemma same_layout_refl (A : Type) (t : tree (arr A)) : same_layout t t.
Proof. by []. Qed.

(** trees with one layout and equal entries are equal *)
Lemma entries_inj (A : Type) (t u : tree (arr A)) :
  wf_tree t -> wf_tree u -> same_layout t u -> entries t = entries u -> t = u.
Proof.
move=> Wt Wu S E; case L: (leaves t) => [|a ls].
  apply: leaves_inj; first by case: S.
  by rewrite L; case: S => _; rewrite L; case: (leaves u).
have H0 : leaves t <> [::] by rewrite L.
have := unflatten_entries H0 Wu S.
by rewrite -E (unflatten_entries H0 Wt (same_layout_refl t)) => -[].
Qed.

(** ** chunked map *)
Lemma chunk_mapE (A B : Type) (f : A -> res B) bs nb xs : chunk_map f bs nb xs = mapM f xs.
Proof.
elim: nb xs => //= nb IH xs; rewrite -[in RHS](cat_take_drop bs xs) mapM_cat.
by case: (mapM f _) => //= ys; rewrite IH.
Qed.

Lemma lax_mapE (A B : Type) (f : A -> res B) bs xs : lax_map f bs xs = mapM f xs.
Proof. by case: bs => //= b; rewrite chunk_mapE. Qed.

(** ** stacking and reading back *)
Lemma all_same_P (A : Type) (t : tree (arr A)) (ts : seq (tree (arr A))) i d :
  all (same_layout_b t) ts -> i < size ts -> same_layout t (nth d ts i).
Proof. by move=> H Hi; apply/same_layoutP; move/(all_nthP d): H; apply. Qed.

Lemma slice_flatten (A : Type) (xs : seq (seq A)) p i :
  (forall j, j < size xs -> size (nth [::] xs j) = p) -> i < size xs ->
  slice (i * p) (i.+1 * p) (flatten xs) = nth [::] xs i.
Proof.
elim: xs i => [|x xs IH] [|i] //= H Hi.
- have := H 0 isT => /= Hx; rewrite /slice mul0n subn0 mul1n drop0 take_cat Hx ltnn subnn take0 cats0 //.
- have := H 0 isT => /= Hx; rewrite -(IH i) //; last by move=> j Hj; apply: (H j.+1).
  rewrite /slice !mulSn drop_cat Hx ltnNge leq_addr /= addKn.
  by rewrite subnDl.
Qed.

Lemma stack_treesP (A : Type) (ts : seq (tree (arr A))) t0 :
  0 < size ts -> (forall i, i < size ts -> same_layout t0 (nth t0 ts i)) ->
  (forall i, i < size ts -> wf_tree (nth t0 ts i)) ->
  exists S, [/\ stack_trees ts = Ok S,
    treedef S = treedef t0,
    map (@ashape A) (leaves S) = map (cons (size ts)) (map (@ashape A) (leaves t0)),
    wf_tree S &
    (forall i, i < size ts -> tree_get i S = Ok (nth t0 ts i)) /\
    leaves S = [seq Arr (size ts :: nth [::] (map (@ashape A) (leaves t0)) j)
                   (flatten [seq adata (nth (Arr [::] [::]) (leaves u) j) | u <- ts])
               | j <- iota 0 (size (leaves t0))]].
Proof.
move=> H0 Hsame Hwf; rewrite /stack_trees.
case Ets: ts H0 => [|t ts'] // _; rewrite -Ets.
have St : same_layout t0 t by have := Hsame 0; rewrite Ets; apply.
have -> : all (same_layout_b t) ts.
  apply/(all_nthP t0) => i Hi; apply/same_layoutP.
  by apply: same_layout_trans (same_layout_sym St) _; apply: Hsame.
set shapes := map (@ashape A) (leaves t).
have Hshapes : shapes = map (@ashape A) (leaves t0) by case: St.
set stacked := [seq _ | j <- _].
have [|S ES] := @tree_unflatten_ok _ (treedef t) stacked.
  by rewrite size_leaves_def /stacked size_map size_iota /shapes size_map.
have [DS LS] := tree_unflatten_inv ES.
have Hleaf i : i < size ts -> map (@ashape A) (leaves (nth t0 ts i)) = shapes.
  by move=> Hi; case: (Hsame i Hi) => _ <-; rewrite Hshapes.
have Hpart j : j < size shapes -> forall i, i < size ts ->
  nth [::] [seq adata (nth (Arr [::] [::]) (leaves u) j) | u <- ts] i =
  adata (nth (Arr [::] [::]) (leaves (nth t0 ts i)) j).
  by move=> Hj i Hi; rewrite (nth_map t0).
have Hpsz j : j < size shapes -> forall i, i < size ts ->
  size (adata (nth (Arr [::] [::]) (leaves (nth t0 ts i)) j)) = prodn (nth [::] shapes j).
  move=> Hj i Hi.
  have Hsz : j < size (leaves (nth t0 ts i)) by rewrite -(size_map (@ashape A)) Hleaf.
  move/(all_nthP (Arr [::] [::])): (Hwf i Hi) => /(_ j Hsz) /eqP ->.
  by rewrite -(Hleaf i Hi) (nth_map (Arr [::] [::])).
have Hsz : size (leaves t0) = size shapes by rewrite Hshapes size_map.
exists S; split=> //.
- by rewrite DS; case: St.
- rewrite LS /stacked -map_comp -Hshapes.
  by rewrite -[in RHS](mkseq_nth [::] shapes) /mkseq -map_comp.
- rewrite /wf_tree LS; apply/(all_nthP (Arr [::] [::])) => j; rewrite size_map size_iota => Hj.
  rewrite (nth_map 0) ?size_iota // nth_iota // add0n /wf_arr /= size_flatten /shape -map_comp.
  rewrite -/(prodn (nth [::] shapes j)).
  have -> : [seq (size \o (fun u => adata (nth (Arr [::] [::]) (leaves u) j))) i | i <- ts] =
            nseq (size ts) (prodn (nth [::] shapes j)).
    apply: (@eq_from_nth _ 0); rewrite size_map ?size_nseq // => i Hi.
    by rewrite (nth_map t0) //= Hpsz // nth_nseq Hi.
  by rewrite sumn_nseq mulnC.
- split; last by rewrite LS /stacked Hshapes Hsz Hshapes.
  move=> i Hi; rewrite /tree_get.
  have Hm : mapM (arr_get i) (leaves S) = Ok (leaves (nth t0 ts i)).
    rewrite LS.
    have -> : leaves (nth t0 ts i) = [seq nth (Arr [::] [::]) (leaves (nth t0 ts i)) j | j <- iota 0 (size shapes)].
      apply: (@eq_from_nth _ (Arr [::] [::])).
        by rewrite size_map size_iota -(size_map (@ashape A)) Hleaf.
      move=> j Hj; rewrite (nth_map 0) ?size_iota -?(Hleaf i Hi) ?size_map // nth_iota //.
    rewrite /stacked.
    have : forall j, j \in iota 0 (size shapes) -> j < size shapes by move=> j; rewrite mem_iota.
    elim: (iota 0 _) => //= j js IH Hjs.
    have Hj := Hjs j (mem_head _ _).
    rewrite {1}/arr_get /= Hi /= IH /=; last by move=> j' Hj'; apply: Hjs; rewrite inE Hj' orbT.
    congr (Ok (_ :: _)).
    rewrite slice_flatten; last 2 first.
    - by move=> i'; rewrite size_map => Hi'; rewrite Hpart // Hpsz.
    - by rewrite size_map.
    rewrite Hpart // -(Hleaf i Hi) (nth_map (Arr [::] [::])); last first.
      by rewrite -(size_map (@ashape A)) Hleaf.
    by case: (nth _ (leaves _) _).
  have [w [-> Dw Lw]] := tmapM_ok Hm.
  congr Ok; apply: leaves_inj => //.
  by rewrite Dw DS; case: (same_layout_trans (same_layout_sym St) (Hsame i Hi)).
Qed.

(** ** Rows of a matrix given as a list of rows *)
Lemma rows_of_flatten (A : Type) n (rows : seq (seq A)) :
  all (fun r => size r == n) rows -> rows_of (size rows) n (flatten rows) = rows.
Proof.
move=> H; apply: (@eq_from_nth _ [::]); first by rewrite size_map size_iota.
move=> i; rewrite size_map size_iota => Hi.
rewrite (nth_map 0) ?size_iota // nth_iota // add0n slice_flatten // => j Hj.
by apply/eqP; move/(all_nthP [::]): H; apply.
Qed.

Lemma unflatten_data (A B : Type) (layout : tree (arr B)) (v : seq A) t :
  pytree_unflatten layout v = Ok t ->
  map (@adata A) (leaves t) =
  jsplit (cumsum (map prodn (butlast (map (@ashape B) (leaves layout))))) v.
Proof.
rewrite /pytree_unflatten; case E: (zip_reshape _ _) => [ls|] //= Et.
have [_ _ Hd _] := zip_reshape_inv E; have [_ ->] := tree_unflatten_inv Et.
by rewrite Hd /cumsum butlast_cumsum butlast_map.
Qed.

(** The 2-D case with [axis = 1]. *)
Definition unravel_cols (A B : Type) (layout : tree (arr B)) (r n : nat) (xs : seq A) :
    res (tree (arr A)) :=
  let shapes := map (@ashape B) (leaves layout) in
  let idx := cumsum (map prodn (butlast shapes)) in
  let! ls := zip_reshape (split_cols idx r n xs) (map (cons r) shapes) in
  tree_unflatten (treedef layout) ls.

Lemma unravel_colsE (A B : Type) (layout : tree (arr B)) (r n : nat) (xs : seq A) :
  unravel_array_into_pytree layout (Posz 1) (Arr [:: r; n] xs) = unravel_cols layout r n xs.
Proof.
rewrite /unravel_array_into_pytree /unravel_cols /split_axis.
have -> : absz (modz (Posz 1) (Posz (size (ashape (Arr [:: r; n] xs))))) = 1 by [].
rewrite /= /prodn /= !muln1.
have -> (l : seq nat) : [seq i * 1 | i <- l] = l by elim: l => //= i l ->; rewrite muln1.
have -> // : [seq r :: sh ++ [::] | sh <- [seq ashape i | i <- leaves layout]] =
            map (cons r) (map (@ashape B) (leaves layout)).
by apply: eq_map => sh; rewrite cats0.
Qed.

Lemma unravel_cols_stack (A B : Type) (layout : tree (arr B)) (rows : seq (seq A)) ts :
  0 < size rows -> mapM (pytree_unflatten layout) rows = Ok ts ->
  exists S, [/\ unravel_cols layout (size rows) (nentries layout) (flatten rows) = Ok S
    , stack_trees ts = Ok S & forall i d, i < size rows -> tree_get i S = Ok (nth d ts i)].
Proof.
move=> H0 Hts.
have Hsz := mapM_size Hts.
have Hnth i d : i < size rows -> pytree_unflatten layout (nth [::] rows i) = Ok (nth d ts i).
  exact: mapM_nth Hts.
case Ets: ts => [|t0 ts']; first by move: Hsz H0; rewrite Ets => /= <-.
have Hinv i : i < size rows -> [/\ leaves layout <> [::], size (nth [::] rows i) = nentries layout,
   same_layout layout (nth t0 ts i), wf_tree (nth t0 ts i) & entries (nth t0 ts i) = nth [::] rows i].
  by move=> Hi; apply: unflatten_inv; apply: Hnth.
have [L0 _ S0 _ _] := Hinv 0 H0.
have T0 : nth t0 ts 0 = t0 by rewrite Ets.
rewrite T0 in S0.
have [||| S [ES DS SS WS [GS LS]]] := @stack_treesP _ ts t0; rewrite ?Hsz //.
- move=> i Hi; have [_ _ Si _ _] := Hinv i Hi.
  exact: same_layout_trans (same_layout_sym S0) Si.
- by move=> i Hi; have [_ _ _ Wi _] := Hinv i Hi.
exists S; rewrite -Ets; split=> //; last first.
  by move=> i d Hi; rewrite GS ?Hsz // (set_nth_default t0) // Hsz.
rewrite /unravel_cols.
have Hsh : map (@ashape B) (leaves layout) = map (@ashape A) (leaves t0) by case: S0.
have Hn : size (leaves t0) = size (leaves layout).
  by rewrite -(size_map (@ashape A)) -Hsh size_map.
set idx := cumsum _.
have Hidx : (size idx).+1 = size (leaves layout).
  rewrite /idx /cumsum size_cumsum_from size_map /butlast size_take size_map.
  by case: (leaves layout) L0 => //= a l _; rewrite ltnS leqnn.
have -> : split_cols idx (size rows) (nentries layout) (flatten rows) = map (@adata A) (leaves S).
  rewrite /split_cols rows_of_flatten; last first.
    by apply/(all_nthP [::]) => i Hi; have [_ -> _ _ _] := Hinv i Hi.
  rewrite LS Hn Hidx -map_comp; apply/eq_in_map => j; rewrite mem_iota add0n /= => Hj.
  congr flatten; apply: (@eq_from_nth _ [::]); first by rewrite !size_map Hsz.
  move=> i; rewrite !size_map => Hi.
  rewrite -map_comp (nth_map [::]) // (nth_map t0) ?Hsz //=.
  rewrite /idx -(unflatten_data (Hnth i t0 Hi)) (nth_map (Arr [::] [::])) //.
  have [_ _ [D _] _ _] := Hinv i Hi; by rewrite -(size_leaves_same D).
have -> : map (cons (size rows)) (map (@ashape B) (leaves layout)) = map (@ashape A) (leaves S).
  by rewrite SS Hsz Hsh.
rewrite (zip_reshapeK WS) /=.
have -> : treedef layout = treedef S by rewrite DS; case: S0.
exact: tree_unflattenK.
Qed.

(** ** eye_like *)
Section Eye.
Import GRing.Theory.
Local Open Scope ring_scope.
Variable R : ringType.

Lemma unit_vecE n i : unit_vec R n i = [seq (if i == j then 1 else 0 : R) | j <- iota 0 n].
Proof. by apply: eq_map => j; rewrite eq_sym. Qed.

Lemma basis_unflatten (t : tree (arr R)) i : leaves t <> [::] ->
  pytree_unflatten t (unit_vec R (nentries t) i) = basis_vector_from_index i t.
Proof.
move=> L0; have [b [-> S W E]] := basis_vectorP t i.
by rewrite -E unflatten_entries.
Qed.

Lemma eye_likeP (t : tree (arr R)) :
  (0 < nentries t)%N ->
  exists S, [/\ eye_like t = Ok S, eye_like_with_basis_vector t = Ok S &
    forall i, (i < nentries t)%N -> tree_get i S = basis_vector_from_index i t].
Proof.
move=> H0.
have L0 : leaves t <> [::] by move=> E; move: H0; rewrite /nentries E.
pose rows := [seq unit_vec R (nentries t) i | i <- iota 0 (nentries t)].
have Hr : size rows = nentries t by rewrite size_map size_iota.
have Hm : mapM (pytree_unflatten t) rows =
          mapM (fun i => basis_vector_from_index i t) (iota 0 (nentries t)).
  by rewrite /rows; elim: (iota _ _) => //= i l ->; rewrite basis_unflatten.
have Hok l : exists ts, mapM (fun i => basis_vector_from_index i t) l = Ok ts.
  by apply: mapM_all_ok => i; have [b [Eb _ _ _]] := basis_vectorP t i; exists b.
have [ts Ets] := Hok (iota 0 (nentries t)).
have Hpos : (0 < size rows)%N by rewrite Hr.
have Hm' : mapM (pytree_unflatten t) rows = Ok ts by rewrite Hm.
have [S [E1 E2 E3]] := unravel_cols_stack Hpos Hm'.
exists S; split.
- rewrite /eye_like get_sizeE /eye_data unravel_colsE.
  rewrite -[X in unravel_cols _ X _ _]Hr -[RHS]E1; congr (unravel_cols _ _ _ (flatten _)).
  by apply: eq_map => i; rewrite unit_vecE.
- by rewrite /eye_like_with_basis_vector lax_mapE get_sizeE Ets /= E2.
- move=> i Hi; have [b [Eb _ _ _]] := basis_vectorP t i.
  rewrite (E3 i b) ?Hr //.
  have Hi2 : (i < size (iota 0 (nentries t)))%N by rewrite size_iota.
  by have := mapM_nth 0%N b Ets Hi2; rewrite nth_iota.
Qed.
End Eye.
