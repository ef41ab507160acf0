(** Proofs about PyTree.v. *)
From Coq Require Import String.
From mathcomp Require Import all_ssreflect all_algebra.
From Verif Require Import Base PyTree TreeSpec.
Set Implicit Arguments.
Unset Strict Implicit.
Unset Printing Implicit Defensive.

(** ** Induction over trees *)
Section TreeInd.
Variables (A : Type) (P : tree A -> Prop).
Hypothesis HL : forall a, P (Leaf a).
Hypothesis HN : forall k ch, foldr (fun c acc => P c /\ acc) True ch -> P (Node k ch).
Fixpoint tree_ind' (t : tree A) : P t :=
  match t with
  | Leaf a => HL a
  | Node k ch =>
      HN k ((fix go (ch : seq (tree A)) : foldr (fun c acc => P c /\ acc) True ch :=
        match ch with
        | [::] => I
        | c :: cs => conj (tree_ind' c) (go cs)
        end) ch)
  end.
End TreeInd.

Lemma build_leaves (A : Type) (t : tree A) rest :
  build (treedef t) (leaves t ++ rest) = Some (t, rest).
Proof.
elim/tree_ind': t rest => [a|k ch IH] rest //.
have -> : treedef (Node k ch) = Node k (map (@treedef A) ch) by [].
rewrite [LHS]/=.
suff -> : build_list (@build A) (map (@treedef A) ch) (leaves (Node k ch) ++ rest) = Some (ch, rest) by [].
rewrite /=; elim: ch IH => [|c cs IHc] //= [Hc Hcs].
by rewrite -catA Hc IHc.
Qed.

Lemma tree_unflattenK (A : Type) (t : tree A) : tree_unflatten (treedef t) (leaves t) = Ok t.
Proof. by rewrite /tree_unflatten -[leaves t]cats0 build_leaves. Qed.

Lemma build_inv (A : Type) (d : tree unit) (ls : seq A) t rest :
  build d ls = Some (t, rest) -> treedef t = d /\ ls = leaves t ++ rest.
Proof.
elim/tree_ind': d ls t rest => [[]|k ch IH] ls t rest.
  by case: ls => //= x ls [<- <-].
rewrite /=; case E: (build_list (@build A) ch ls) => [[ts ls']|] // [<- <-] {t rest}.
suff [E1 E2] : map (@treedef A) ts = ch /\ ls = flatten (map (@leaves A) ts) ++ ls'.
  by split; [rewrite -E1|exact: E2].
elim: ch IH ls ts ls' E => [|c cs IHc] /= IH ls ts ls'; first by case=> <- <-.
case: IH => Hc Hcs.
case E1: (build c ls) => [[t1 l1]|] //; case E2: (build_list (@build A) cs l1) => [[ts2 l2]|] // [<- <-].
have [<- ->] := Hc _ _ _ E1; have [<- ->] := IHc Hcs _ _ _ E2.
by rewrite /= catA.
Qed.

Lemma tree_unflatten_inv (A : Type) d (ls : seq A) t :
  tree_unflatten d ls = Ok t -> treedef t = d /\ leaves t = ls.
Proof.
rewrite /tree_unflatten; case E: (build d ls) => [[t' [|x r]]|] // [<-].
by have [-> ->] := build_inv E; rewrite cats0.
Qed.

Lemma build_total (A : Type) (d : tree unit) (ls : seq A) :
  size (leaves d) <= size ls ->
  exists t, build d ls = Some (t, drop (size (leaves d)) ls).
Proof.
elim/tree_ind': d ls => [[]|k ch IH] ls.
  by case: ls => //= x ls _; exists (Leaf x); rewrite drop0.
rewrite /= => Hsz.
suff [ts ->] : exists ts, build_list (@build A) ch ls =
    Some (ts, drop (size (flatten (map (@leaves unit) ch))) ls) by eexists.
elim: ch IH ls Hsz => [|c cs IHc] /=; first by move=> _ ls _; exists [::]; rewrite drop0.
case=> Hc Hcs ls; rewrite size_cat => Hsz.
have [|t Et] := Hc ls; first by apply: leq_trans Hsz; apply: leq_addr.
rewrite Et; have [|ts Ets] := IHc Hcs (drop (size (leaves c)) ls).
  by rewrite size_drop leq_subRL // (leq_trans _ Hsz) // leq_addr.
by exists (t :: ts); rewrite Ets drop_drop addnC.
Qed.

Lemma tree_unflatten_ok (A : Type) d (ls : seq A) :
  size ls = size (leaves d) -> exists t, tree_unflatten d ls = Ok t.
Proof.
move=> H; have [|t Et] := @build_total _ d ls; first by rewrite H.
by exists t; rewrite /tree_unflatten Et -H drop_size.
Qed.

Lemma leaves_tmap (A B : Type) (f : A -> B) t : leaves (tmap f t) = map f (leaves t).
Proof.
elim/tree_ind': t => [a|k ch IH] //=.
elim: ch IH => [|c cs IHc] //= [Hc Hcs]; by rewrite map_cat Hc IHc.
Qed.

Lemma tmap_comp (A B C : Type) (f : A -> B) (g : B -> C) t : tmap g (tmap f t) = tmap (g \o f) t.
Proof.
elim/tree_ind': t => [a|k ch IH] //=; congr (Node k _).
elim: ch IH => [|c cs IHc] //= [Hc Hcs]; by rewrite Hc IHc.
Qed.

Lemma treedef_tmap (A B : Type) (f : A -> B) t : treedef (tmap f t) = treedef t.
Proof. by rewrite /treedef tmap_comp. Qed.

Lemma size_leaves_def (A : Type) (t : tree A) : size (leaves (treedef t)) = size (leaves t).
Proof. by rewrite /treedef leaves_tmap size_map. Qed.

Lemma leaves_inj (A : Type) (t u : tree A) : treedef t = treedef u -> leaves t = leaves u -> t = u.
Proof. by move=> D L; have := tree_unflattenK t; rewrite D L tree_unflattenK => -[]. Qed.

Lemma tree_unflatten_tmap (A B : Type) (t : tree A) (f : A -> B) :
  tree_unflatten (treedef t) (map f (leaves t)) = Ok (tmap f t).
Proof. by rewrite -leaves_tmap -(treedef_tmap f) tree_unflattenK. Qed.

(** ** cumsum / split *)
Lemma size_cumsum_from tot xs : size (cumsum_from tot xs) = size xs.
Proof. by elim: xs tot => //= x xs IH tot; rewrite IH. Qed.

Lemma butlast_cons (A : Type) (x y : A) s : butlast [:: x, y & s] = x :: butlast (y :: s).
Proof. by []. Qed.

Lemma butlast_map (A B : Type) (f : A -> B) s : butlast (map f s) = map f (butlast s).
Proof. by rewrite /butlast size_map map_take. Qed.

Lemma butlast_cumsum tot s : butlast (cumsum_from tot s) = cumsum_from tot (butlast s).
Proof.
elim: s tot => [|x [|y s] IH] tot //.
by rewrite [in RHS]butlast_cons /= butlast_cons -IH.
Qed.

(** splitting at the cumulative sizes *)
Lemma split_from_reshape (A : Type) (prev : nat) (szs : seq nat) (xs : seq A) :
  szs != [::] -> prev + sumn szs = size xs ->
  split_from prev (butlast (cumsum_from prev szs)) xs = reshape szs (drop prev xs).
Proof.
elim: szs prev => [|x [|y szs] IH] prev //= _ H.
  rewrite take_oversize // size_drop -H addn0 addKn //.
rewrite /slice addKn; congr (_ :: _).
rewrite -[take _ _]/(butlast (cumsum_from (prev + x) (y :: szs))).
have -> : drop x (drop prev xs) = drop (prev + x) xs by rewrite drop_drop addnC.
by rewrite IH //= -H !addnA.
Qed.

Lemma jsplit_reshape (A : Type) (szs : seq nat) (xs : seq A) :
  szs != [::] -> sumn szs = size xs ->
  jsplit (butlast (cumsum szs)) xs = reshape szs xs.
Proof. by move=> H1 H2; rewrite /jsplit /cumsum split_from_reshape // drop0. Qed.

Lemma flatten_split_from (A : Type) prev szs (xs : seq A) :
  flatten (split_from prev (cumsum_from prev szs) xs) = drop prev xs.
Proof.
elim: szs prev => [|x szs IH] prev /=; first by rewrite cats0.
by rewrite IH /slice addKn addnC -drop_drop cat_take_drop.
Qed.

Lemma size_split_from (A : Type) prev idx (xs : seq A) :
  size (split_from prev idx xs) = (size idx).+1.
Proof. by elim: idx prev => //= i idx IH prev; rewrite IH. Qed.

Lemma flatten_jsplit (A : Type) szs (xs : seq A) :
  flatten (jsplit (butlast (cumsum szs)) xs) = xs.
Proof. by rewrite /jsplit /cumsum butlast_cumsum flatten_split_from drop0. Qed.

Lemma zip_reshape_ok (A : Type) (parts : seq (seq A)) shapes :
  map size parts = map prodn shapes ->
  zip_reshape parts shapes = Ok [seq Arr p.1 p.2 | p <- zip shapes parts].
Proof.
elim: parts shapes => [|p ps IH] [|s ss] //= [E1 E2].
by rewrite /arr_reshape E1 eqxx /= IH.
Qed.

Lemma zip_reshape_inv (A : Type) (parts : seq (seq A)) shapes ls :
  zip_reshape parts shapes = Ok ls ->
  [/\ map size parts = map prodn shapes, map (@ashape A) ls = shapes,
      map (@adata A) ls = parts & all (@wf_arr A) ls].
Proof.
elim: parts shapes ls => [|p ps IH] [|s ss] ls //=; first by case=> <-.
rewrite /arr_reshape; case: eqP => //= E; case E2: (zip_reshape ps ss) => [r|] //= [<-].
have [-> <- <- W] := IH _ _ E2.
by rewrite E /= /wf_arr /= E eqxx.
Qed.

Lemma arrs_eq (A : Type) (l1 l2 : seq (arr A)) :
  map (@ashape A) l1 = map (@ashape A) l2 -> map (@adata A) l1 = map (@adata A) l2 -> l1 = l2.
Proof.
elim: l1 l2 => [|[s d] l1 IH] [|[s2 d2] l2] //= [-> E1] [-> E2]; by rewrite (IH l2).
Qed.

Lemma zip_reshapeK (A : Type) (ls : seq (arr A)) :
  all (@wf_arr A) ls -> zip_reshape (map (@adata A) ls) (map (@ashape A) ls) = Ok ls.
Proof.
elim: ls => [|[s d] ls IH] //= /andP [W Ws].
by move: W; rewrite /wf_arr /= /arr_reshape => ->; rewrite IH.
Qed.

Lemma wf_sizes (A : Type) (ls : seq (arr A)) :
  all (@wf_arr A) ls -> map size (map (@adata A) ls) = map prodn (map (@ashape A) ls).
Proof. by elim: ls => //= a ls IH /andP [/eqP -> /IH ->]. Qed.

Lemma sizes_wf (A : Type) (ls : seq (arr A)) :
  map size (map (@adata A) ls) = map prodn (map (@ashape A) ls) -> all (@wf_arr A) ls.
Proof. by elim: ls => //= a ls IH [E /IH ->]; rewrite /wf_arr E eqxx. Qed.

Lemma size_entries (A : Type) (t : tree (arr A)) : wf_tree t -> size (entries t) = nentries t.
Proof.
by move=> W; rewrite /entries size_flatten /shape wf_sizes // -map_comp.
Qed.

Lemma get_sizeE (A : Type) (t : tree (arr A)) : get_size t = nentries t.
Proof. by []. Qed.

Lemma nentries_same (A B : Type) (t : tree (arr A)) (u : tree (arr B)) :
  same_layout t u -> nentries t = nentries u.
Proof. by case=> _ H; rewrite /nentries (map_comp prodn) H -map_comp. Qed.

(** ** C01, C02 *)
Lemma full_flattenE (A : Type) (t : tree (arr A)) :
  leaves t <> [::] -> full_flatten t = Ok (entries t).
Proof. by rewrite /full_flatten /entries; case: (leaves t). Qed.

Lemma full_flatten_empty (A : Type) (t : tree (arr A)) :
  leaves t = [::] -> full_flatten t = Raise ValueError.
Proof. by rewrite /full_flatten => ->. Qed.

Lemma unflatten_entries (A B : Type) (layout : tree (arr B)) (t : tree (arr A)) :
  leaves layout <> [::] -> wf_tree t -> same_layout layout t ->
  pytree_unflatten layout (entries t) = Ok t.
Proof.
move=> H0 W [D S]; rewrite /pytree_unflatten S.
have HS : map prodn [seq ashape i | i <- leaves t] = map size (map (@adata A) (leaves t)).
  by rewrite wf_sizes.
rewrite HS jsplit_reshape; last by rewrite /entries size_flatten.
- by rewrite /entries flattenK zip_reshapeK //= D tree_unflattenK.
- have : map (@ashape A) (leaves t) <> [::] by rewrite -S; case: (leaves layout) H0.
  by case: (leaves t).
Qed.

Lemma unflatten_ok (A B : Type) (layout : tree (arr B)) (v : seq A) :
  leaves layout <> [::] -> size v = nentries layout ->
  exists t, [/\ pytree_unflatten layout v = Ok t, same_layout layout t, wf_tree t & entries t = v].
Proof.
move=> H0 Hsz; set shapes := map (@ashape B) (leaves layout).
have Hsum : sumn (map prodn shapes) = size v by rewrite Hsz /nentries -map_comp.
have Hne : map prodn shapes != [::] by rewrite /shapes; case: (leaves layout) H0.
rewrite /pytree_unflatten -/shapes jsplit_reshape //.
have Hm : map size (reshape (map prodn shapes) v) = map prodn shapes.
  by apply: (@reshapeKl A (map prodn shapes) v); rewrite Hsum.
rewrite zip_reshape_ok //=.
set ls := [seq _ | p <- _].
have Hss : size (reshape (map prodn shapes) v) = size shapes.
  by rewrite -(size_map size) Hm size_map.
have Hs : map (@ashape A) ls = shapes.
  by rewrite /ls -map_comp (@eq_map _ _ _ fst) // -/unzip1 unzip1_zip // Hss.
have Hd : map (@adata A) ls = reshape (map prodn shapes) v.
  by rewrite /ls -map_comp (@eq_map _ _ _ snd) // -/unzip2 unzip2_zip // Hss.
have [|t Et] := @tree_unflatten_ok _ (treedef layout) ls.
  by rewrite size_leaves_def -(size_map (@ashape A)) Hs size_map.
have [Dt Lt] := tree_unflatten_inv Et.
exists t; split=> //.
- by split=> //; rewrite Lt Hs.
- by rewrite /wf_tree Lt; apply: sizes_wf; rewrite Hd Hs.
- by rewrite /entries Lt Hd reshapeKr // Hsum.
Qed.

Lemma unflatten_inv (A B : Type) (layout : tree (arr B)) (v : seq A) t :
  pytree_unflatten layout v = Ok t ->
  [/\ leaves layout <> [::], size v = nentries layout, same_layout layout t, wf_tree t
    & entries t = v].
Proof.
rewrite /pytree_unflatten; set shapes := map (@ashape B) _.
case E: (zip_reshape _ _) => [ls|] //= Et.
have [Hs Hsh Hd Hwf] := zip_reshape_inv E; have [D L] := tree_unflatten_inv Et.
have Hfl := flatten_jsplit (map prodn shapes) v.
have Hent : entries t = v by rewrite /entries L Hd Hfl.
have SL : same_layout layout t by split; rewrite ?L ?Hsh.
have W : wf_tree t by rewrite /wf_tree L.
split=> //.
- move=> E0; move: E; rewrite /shapes E0 /=; by case: v {Et Hs Hd Hfl Hent}.
- by rewrite -Hent size_entries // (nentries_same SL).
Qed.

Lemma unflatten_raises (A B : Type) (layout : tree (arr B)) (v : seq A) :
  size v <> nentries layout \/ leaves layout = [::] ->
  exists e, pytree_unflatten layout v = Raise e.
Proof.
case E: (pytree_unflatten layout v) => [t|e]; last by exists e.
by have [H1 H2 _ _ _] := unflatten_inv E; case.
Qed.

(** ** C03: the partial flattener *)
Definition col_layout (A : Type) (k : nat) (t : tree (arr A)) : bool :=
  (0 < k) && all (fun s => (0 < size s) && (last 0 s == k)) (map (@ashape A) (leaves t)).

Lemma last_butlast_prod s : 0 < size s -> prodn s = prodn (butlast s) * last 0 s.
Proof.
case/lastP: s => // s x _; rewrite last_rcons /butlast size_rcons /= -cats1.
by rewrite take_size_cat // prodn_cat /= muln1.
Qed.

Definition nrows (A : Type) (t : tree (arr A)) : nat :=
  sumn (map (fun a => prodn (butlast (ashape a))) (leaves t)).

Lemma to_rows_ok (A : Type) k (a : arr A) :
  0 < k -> wf_arr a -> 0 < size (ashape a) -> last 0 (ashape a) = k ->
  to_rows a = Ok (Arr [:: prodn (butlast (ashape a)); k] (adata a)).
Proof.
move=> Hk /eqP W Hs Hl; rewrite /to_rows.
have HP := last_butlast_prod Hs; rewrite Hl in HP.
case: a W Hs Hl HP => [[|s0 s] d] //= W _ Hl HP.
by rewrite Hl (gtn_eqF Hk) W /= -/(prodn (s0 :: s)) HP mulnK.
Qed.

Lemma vstackE (A : Type) k (ls : seq (arr A)) (f : arr A -> nat) :
  ls <> [::] ->
  vstack [seq Arr [:: f a; k] (adata a) | a <- ls] =
  Ok (Arr [:: sumn (map f ls); k] (flatten (map (@adata A) ls))).
Proof.
have Hall l' : all (fun a => nth 0 (ashape a) 1 == k) [seq Arr [:: f a; k] (adata a) | a <- l'].
  by elim: l' => //= x l' ->; rewrite eqxx.
by case: ls => // a ls _; rewrite /vstack /= eqxx Hall -!map_comp.
Qed.

Lemma partial_flattenE (A : Type) k (t : tree (arr A)) :
  leaves t <> [::] -> wf_tree t -> col_layout k t ->
  partial_flatten t = Ok (Arr [:: nrows t; k] (entries t)).
Proof.
rewrite /wf_tree /col_layout => H0 W /andP [Hk C].
rewrite /partial_flatten /nrows /entries.
have -> : mapM (@to_rows A) (leaves t) =
    Ok [seq Arr [:: prodn (butlast (ashape a)); k] (adata a) | a <- leaves t].
  elim: (leaves t) W C => [|a ls IH] //= /andP [W Ws] /andP [/andP [C1 /eqP C2] Cs].
  by rewrite (to_rows_ok Hk W C1 C2) /= IH.
exact: vstackE.
Qed.

Lemma index_reshape_zip (A : Type) (parts : seq (seq A)) shapes :
  size parts = size shapes -> index_reshape parts shapes = zip_reshape parts shapes.
Proof. by elim: parts shapes => [|p ps IH] [|s ss] //= [E]; rewrite IH. Qed.

Lemma cumsum_mul tot szs k :
  map (fun i => i * k) (cumsum_from tot szs) = cumsum_from (tot * k) (map (fun i => i * k) szs).
Proof. by elim: szs tot => //= x s IH tot; rewrite IH mulnDl. Qed.

Lemma split_rowsE (A : Type) szs k (xs : seq A) :
  szs != [::] -> sumn szs * k = size xs ->
  split_rows (butlast (cumsum szs)) k xs = reshape (map (fun i => i * k) szs) xs.
Proof.
move=> H0 H; rewrite /split_rows -butlast_map /cumsum cumsum_mul mul0n.
rewrite -/(cumsum _) jsplit_reshape //; first by case: szs H0 {H}.
by rewrite -H; elim: szs {H0 H} => //= x s ->; rewrite mulnDl.
Qed.

Lemma col_prods (A : Type) k (t : tree (arr A)) : col_layout k t ->
  map (fun i => i * k) (map (fun sh => prodn (butlast sh)) (map (@ashape A) (leaves t))) =
  map prodn (map (@ashape A) (leaves t)).
Proof.
case/andP=> _; elim: (leaves t) => //= a ls IH /andP [/andP [H1 /eqP H2] /IH ->].
by rewrite (last_butlast_prod H1) H2.
Qed.

Lemma nrows_nentries (A : Type) k (t : tree (arr A)) : col_layout k t -> nrows t * k = nentries t.
Proof.
move/col_prods=> H; rewrite /nrows /nentries (map_comp prodn (@ashape A)) -H -!map_comp.
by elim: (leaves t) => //= a ls <-; rewrite mulnDl.
Qed.

Lemma partial_unflatten_full (A B : Type) k (layout : tree (arr B)) (v : seq A) r :
  leaves layout <> [::] -> col_layout k layout -> size v = nentries layout ->
  partial_unflatten layout (Arr [:: r; k] v) = pytree_unflatten layout v.
Proof.
move=> H0 C Hs; rewrite /partial_unflatten /pytree_unflatten /=.
have N0 : map prodn [seq ashape i | i <- leaves layout] != [::] by case: (leaves layout) H0.
rewrite split_rowsE; last 2 first.
- by case: (leaves layout) H0.
- by rewrite -map_comp -/(nrows layout) (nrows_nentries C) Hs.
rewrite (col_prods C) jsplit_reshape //; last by rewrite Hs /nentries -map_comp.
rewrite index_reshape_zip //.
have : map size (reshape (map prodn [seq ashape i | i <- leaves layout]) v) =
       map prodn [seq ashape i | i <- leaves layout].
  by apply: (@reshapeKl A); rewrite Hs /nentries -map_comp.
by move/(congr1 size); rewrite !size_map.
Qed.

Lemma partial_flatten_zero_dim (A : Type) (t : tree (arr A)) (a : arr A) l1 l2 :
  leaves t = l1 ++ a :: l2 -> ashape a = [::] -> exists e, partial_flatten t = Raise e.
Proof.
move=> E Ea; rewrite /partial_flatten E mapM_cat /=.
case: (mapM _ l1) => [ys|e] /=; last by exists e.
by rewrite /to_rows Ea /=; exists IndexError.
Qed.

Lemma col_layout_same (A B : Type) k (t : tree (arr A)) (u : tree (arr B)) :
  same_layout t u -> col_layout k t -> col_layout k u.
Proof. by case=> _ H; rewrite /col_layout H. Qed.

