(** Proofs about Mv.v. *)
From Coq Require Import String.
From mathcomp Require Import all_ssreflect all_algebra.
From Verif Require Import Base PyTree TreeSpec Mv PyTreeProofs BasisProofs StackProofs.
Set Implicit Arguments.
Unset Strict Implicit.
Unset Printing Implicit Defensive.
Import GRing.Theory.

(** ** multi-indices *)
Lemma valid_idx_cons n s i idx : valid_idx (n :: s) (i :: idx) = (i < n) && valid_idx s idx.
Proof. by rewrite /valid_idx /= eqSS; case: (i < n); rewrite ?andbT ?andbF. Qed.

Lemma size_indices s : size (indices s) = prodn s.
Proof.
elim: s => //= n s IH; rewrite size_flatten /shape -map_comp.
rewrite (@eq_map _ _ _ (fun=> prodn s)); last by move=> i /=; rewrite size_map IH.
by elim: n 0 => //= n IHn m; rewrite IHn mulSn.
Qed.

Lemma ravel_lt s idx : valid_idx s idx -> ravel_idx s idx < prodn s.
Proof.
elim: s idx => [|n s IH] [|i idx] //; rewrite valid_idx_cons => /andP [Hi /IH H] /=.
apply: leq_trans (_ : i.+1 * prodn s <= _); last by rewrite leq_mul2r Hi orbT.
by rewrite mulSn addnC ltn_add2r.
Qed.

Lemma nth_flatten_const (A : Type) (d : A) (xs : seq (seq A)) p i j :
  (forall k, k < size xs -> size (nth [::] xs k) = p) -> i < size xs -> j < p ->
  nth d (flatten xs) (i * p + j) = nth d (nth [::] xs i) j.
Proof.
move=> H Hi Hj; rewrite -(slice_flatten H Hi) /slice nth_take ?nth_drop //.
by rewrite mulSn addnK.
Qed.

Lemma nth_indices s idx : valid_idx s idx -> nth [::] (indices s) (ravel_idx s idx) = idx.
Proof.
elim: s idx => [|n s IH] [|i idx] //; rewrite valid_idx_cons => /andP [Hi Hv] /=.
rewrite (@nth_flatten_const _ _ _ (prodn s)) ?size_map ?size_iota //; last exact: ravel_lt.
- rewrite (nth_map 0) ?size_iota // nth_iota // (nth_map [::]) ?IH //.
  by rewrite size_indices ravel_lt.
- by move=> k Hk; rewrite (nth_map 0) ?size_iota // size_map size_indices.
Qed.

Lemma valid_idx_rev s idx : valid_idx s idx -> valid_idx (rev s) (rev idx).
Proof.
rewrite /valid_idx !size_rev => /andP [/eqP E H]; rewrite E eqxx /=.
by rewrite -rev_zip ?all_rev // E.
Qed.

Section MvProofs.
Local Open Scope ring_scope.
Variable R : ringType.
Notation ptree := (tree (arr R)).

Lemma transpose_get (a : arr R) idx :
  valid_idx (ashape a) idx -> aget (arr_transpose a) (rev idx) = aget a idx.
Proof.
move=> V; have Vr := valid_idx_rev V; rewrite /aget /=.
rewrite (nth_map [::]) ?size_indices ?ravel_lt // nth_indices // revK //.
Qed.

Lemma tree_vec_getE (t : ptree) i :
  wf_tree t -> (i < nentries t)%N -> tree_vec_get t i = Ok (nth 0 (entries t) i).
Proof.
move=> W Hi; have Hs := size_entries W.
rewrite /tree_vec_get; case: t W Hi Hs => [a|k ch] W Hi Hs.
  by move: Hs; rewrite /entries /= cats0 => ->; rewrite Hi.
have L0 : leaves (Node k ch) <> [::] by move=> E; move: Hi; rewrite /nentries E.
by rewrite full_flattenE //= Hs Hi.
Qed.

Lemma flat_basisE n i : entries (flat_basis R n i) = unit_vec R n i.
Proof. by rewrite /entries /= cats0 at_set_unit. Qed.

(** the value returned by diagonal for an arbitrary callable *)
Lemma diagonal_tree (mv : ptree -> res ptree) (t : ptree) bs (g : nat -> ptree) :
  (forall i b, (i < nentries t)%N -> basis_vector_from_index i t = Ok b -> mv b = Ok (g i)) ->
  (forall i, (i < nentries t)%N -> wf_tree (g i) && (i < nentries (g i))%N) ->
  diagonal (Callable mv) (LTree t) bs = Ok [seq nth 0 (entries (g i)) i | i <- iota 0 (nentries t)].
Proof.
move=> Hmv Hg; rewrite /= lax_mapE get_sizeE; apply: mapM_ok_in => i.
rewrite mem_iota add0n => /= Hi.
have [b [Eb _ _ _]] := basis_vectorP t i; rewrite Eb /= (Hmv i b) //=.
by have /andP [W Hl] := Hg i Hi; rewrite tree_vec_getE.
Qed.

Lemma diagonal_int (mv : ptree -> res ptree) n bs (g : nat -> ptree) :
  (forall i, (i < n)%N -> mv (flat_basis R n i) = Ok (g i)) ->
  (forall i, (i < n)%N -> wf_tree (g i) && (i < nentries (g i))%N) ->
  diagonal (Callable mv) (LInt R n) bs = Ok [seq nth 0 (entries (g i)) i | i <- iota 0 n].
Proof.
move=> Hmv Hg; rewrite /= lax_mapE; apply: mapM_ok_in => i.
rewrite mem_iota add0n => /= Hi; rewrite Hmv //=.
by have /andP [W Hl] := Hg i Hi; rewrite tree_vec_getE.
Qed.

Lemma matvec_unit A m n i : (i < n)%N ->
  matvec A m n (unit_vec R n i) = mkseq (fun k => A k i) m.
Proof.
move=> Hi; apply: eq_map => k.
rewrite (big_cat_nat _ _ _ (leq0n i)) ?(ltnW Hi) //=.
rewrite [X in _ + X]big_ltn // nth_mkseq // eqxx mulr1.
rewrite !big_nat !big1 ?add0r ?addr0 // => j /andP [H1 H2].
- by rewrite nth_mkseq // gtn_eqF // mulr0.
- by rewrite nth_mkseq ?(ltn_trans H2 Hi) // ltn_eqF // mulr0.
Qed.

Lemma diagonal_acts A (t : ptree) mv bs :
  acts_as A t t mv ->
  diagonal (Callable mv) (LTree t) bs = Ok (mkseq (fun i => A i i) (nentries t)).
Proof.
move=> H.
pose g i := match basis_vector_from_index i t with
  | Ok b => match mv b with Ok u => u | Raise _ => t end | Raise _ => t end.
have Hg i : (i < nentries t)%N -> exists u, [/\ g i = u, same_layout t u, wf_tree u,
    (forall b, basis_vector_from_index i t = Ok b -> mv b = Ok u)
    & entries u = mkseq (fun k => A k i) (nentries t)].
  move=> Hi; have [b [Eb Sb Wb Hb]] := basis_vectorP t i.
  have [u [Eu Su Wu Hu]] := H b Wb Sb.
  exists u; split=> //; first by rewrite /g Eb Eu.
    by move=> b'; rewrite Eb => -[<-].
  by rewrite Hu Hb matvec_unit.
rewrite (@diagonal_tree mv t bs g).
- congr Ok; apply/eq_in_map => i; rewrite mem_iota add0n => /= Hi.
  by have [u [-> _ _ _ ->]] := Hg i Hi; rewrite nth_mkseq.
- by move=> i b Hi Eb; have [u [-> _ _ Hu _]] := Hg i Hi; apply: Hu.
- move=> i Hi; have [u [-> Su Wu _ _]] := Hg i Hi.
  by rewrite Wu -(nentries_same Su) Hi.
Qed.

Lemma wf_leaf1 n (v : seq R) : size v = n -> wf_tree (Leaf (Arr [:: n] v)).
Proof. by move=> <-; rewrite /wf_tree /= /wf_arr /= muln1 eqxx. Qed.

Lemma diagonal_acts_int A n mv bs :
  let l := Leaf (Arr [:: n] (nseq n (0:R))) in
  acts_as A l l mv -> diagonal (Callable mv) (LInt R n) bs = Ok (mkseq (fun i => A i i) n).
Proof.
move=> l H.
have Hn : nentries l = n by rewrite /nentries /= muln1 addn0.
pose g i := match mv (flat_basis R n i) with Ok u => u | Raise _ => l end.
have Hg i : (i < n)%N -> exists u, [/\ g i = u, same_layout l u, wf_tree u,
    mv (flat_basis R n i) = Ok u & entries u = mkseq (fun k => A k i) n].
  move=> Hi.
  have W : wf_tree (flat_basis R n i) by apply: wf_leaf1; rewrite at_set_unit size_mkseq.
  have [u [Eu Su Wu Hu]] := H (flat_basis R n i) W (conj erefl erefl).
  by exists u; split=> //; rewrite /g ?Eu // Hu flat_basisE !Hn matvec_unit.
rewrite (@diagonal_int mv n bs g).
- congr Ok; apply/eq_in_map => i; rewrite mem_iota add0n => /= Hi.
  by have [u [-> _ _ _ ->]] := Hg i Hi; rewrite nth_mkseq.
- by move=> i Hi; have [u [-> _ _ -> _]] := Hg i Hi.
- by move=> i Hi; have [u [-> Su Wu _ _]] := Hg i Hi; rewrite Wu -(nentries_same Su) Hn Hi.
Qed.

(** ** to_dense *)
Lemma to_dense_rows (mv : ptree -> res ptree) bs (n : nat) (rows : seq ptree) (l : layout R)
    (us : seq ptree) (u0 : ptree) :
  (match l with
   | LInt n => Ok [seq Leaf (Arr [:: n] [seq (if i == j then 1 else 0 : R) | j <- iota 0 n])
                    | i <- iota 0 n]
   | LTree t => let! e := eye_like t in mapM (fun i => tree_get i e) (iota 0 (get_size t))
   | LNone => let t : ptree := Node NNone [::] in
                let! e := eye_like t in mapM (fun i => tree_get i e) (iota 0 (get_size t))
   end) = Ok rows ->
  mapM mv rows = Ok us -> (0 < size us)%N ->
  (forall i, (i < size us)%N -> same_layout u0 (nth u0 us i) /\ wf_tree (nth u0 us i)) ->
  exists D, [/\ to_dense mv l bs = Ok D, treedef D = treedef u0,
    map (@ashape R) (leaves D) = [seq rev (size us :: s) | s <- map (@ashape R) (leaves u0)]
    & forall i lf idx, (i < size us)%N -> (lf < size (leaves u0))%N ->
        valid_idx (nth [::] (map (@ashape R) (leaves u0)) lf) idx ->
        aget (nth (Arr [::] [::]) (leaves D) lf) (rcons (rev idx) i) =
        aget (nth (Arr [::] [::]) (leaves (nth u0 us i)) lf) idx].
Proof.
move=> Hrows Hus H0 Hu.
have [||| S [ES DS SS WS [GS LS]]] := @stack_treesP _ us u0 => //.
- by move=> i Hi; case: (Hu i Hi).
- by move=> i Hi; case: (Hu i Hi).
exists (tmap (@arr_transpose R) S); split.
- by rewrite /to_dense Hrows /= lax_mapE Hus /= ES.
- by rewrite treedef_tmap.
- rewrite leaves_tmap -map_comp (@eq_map _ _ _ (rev \o (@ashape R))) // map_comp SS.
  by rewrite -!map_comp.
- move=> i lf idx Hi Hlf V.
  have HlS : (lf < size (leaves S))%N by rewrite LS size_map size_iota.
  have HshS : ashape (nth (Arr [::] [::]) (leaves S) lf) =
      size us :: nth [::] (map (@ashape R) (leaves u0)) lf.
    rewrite -(nth_map _ [::]) // SS (nth_map [::]) // size_map //.
  rewrite leaves_tmap (nth_map (Arr [::] [::])) // -rev_cons transpose_get; last first.
    by rewrite HshS valid_idx_cons Hi.
  rewrite /aget HshS /= LS (nth_map 0%N) ?size_iota // nth_iota // add0n /=.
  have Hui k : (k < size us)%N -> nth [::] (map (@ashape R) (leaves (nth u0 us k))) lf =
      nth [::] (map (@ashape R) (leaves u0)) lf.
    by move=> Hk; have [[_ ->] _] := Hu k Hk.
  have Hlk k : (k < size us)%N -> (lf < size (leaves (nth u0 us k)))%N.
    by move=> Hk; have [[D _] _] := Hu k Hk; rewrite -(size_leaves_same D).
  set p := prodn _.
  have Hp k : (k < size us)%N ->
      size (adata (nth (Arr [::] [::]) (leaves (nth u0 us k)) lf)) = p.
    move=> Hk; have [_ W] := Hu k Hk.
    move/(all_nthP (Arr [::] [::])): W => /(_ lf (Hlk k Hk)) /eqP ->.
    by rewrite /p -(Hui k Hk) (nth_map (Arr [::] [::])) // Hlk.
  rewrite (@nth_flatten_const _ _ _ p) ?size_map //.
  + rewrite (nth_map u0) //.
    by rewrite -(Hui i Hi) (nth_map (Arr [::] [::])) // Hlk.
  + by move=> k Hk; rewrite (nth_map u0) // Hp.
  + exact: ravel_lt.
Qed.

(** position of entry [idx] of leaf [lf] in the flattened tree *)
Lemma nth_flatten_at (T : Type) (d : T) (xs : seq (seq T)) k j :
  (k < size xs)%N -> (j < size (nth [::] xs k))%N ->
  nth d (flatten xs) (sumn (take k (map size xs)) + j) = nth d (nth [::] xs k) j.
Proof.
elim: xs k => [|x xs IH] [|k] //= Hk Hj; first by rewrite nth_cat Hj.
by rewrite nth_cat -addnA ltnNge leq_addr /= addKn IH.
Qed.

Lemma aget_entries (t : ptree) lf idx : wf_tree t -> (lf < size (leaves t))%N ->
  valid_idx (nth [::] (map (@ashape R) (leaves t)) lf) idx ->
  aget (nth (Arr [::] [::]) (leaves t) lf) idx =
  nth 0 (entries t) (leaf_offset t lf + ravel_idx (nth [::] (map (@ashape R) (leaves t)) lf) idx).
Proof.
move=> W Hlf V; rewrite /entries /leaf_offset.
have -> : [seq prodn (ashape a) | a <- leaves t] = map size (map (@adata R) (leaves t)).
  by rewrite wf_sizes // -map_comp.
have Hs : size (nth [::] (map (@adata R) (leaves t)) lf) =
    prodn (nth [::] (map (@ashape R) (leaves t)) lf).
  rewrite !(nth_map (Arr [::] [::])) //.
  by move/(all_nthP (Arr [::] [::])): W => /(_ lf Hlf) /eqP.
rewrite nth_flatten_at ?size_map ?Hs ?ravel_lt //.
by rewrite /aget !(nth_map (Arr [::] [::])).
Qed.

Lemma leaf_offset_lt (t : ptree) lf idx : (lf < size (leaves t))%N ->
  valid_idx (nth [::] (map (@ashape R) (leaves t)) lf) idx ->
  (leaf_offset t lf + ravel_idx (nth [::] (map (@ashape R) (leaves t)) lf) idx < nentries t)%N.
Proof.
move=> Hlf /ravel_lt Hr; rewrite /leaf_offset /nentries.
set sz := map _ _.
have Hsz : (lf < size sz)%N by rewrite size_map.
rewrite -[in X in (_ < X)%N](cat_take_drop lf sz) sumn_cat ltn_add2l (drop_nth 0%N) //=.
apply: leq_trans (leq_addr _ _); apply: leq_trans Hr _.
by rewrite /sz !(nth_map (Arr [::] [::])).
Qed.

Lemma to_dense_acts A (tin tout : ptree) mv bs :
  (0 < nentries tin)%N -> acts_as A tin tout mv ->
  exists D, [/\ to_dense mv (LTree tin) bs = Ok D, treedef D = treedef tout,
    map (@ashape R) (leaves D) = [seq rev (nentries tin :: s) | s <- map (@ashape R) (leaves tout)]
    & forall i lf idx, (i < nentries tin)%N -> (lf < size (leaves tout))%N ->
        valid_idx (nth [::] (map (@ashape R) (leaves tout)) lf) idx ->
        aget (nth (Arr [::] [::]) (leaves D) lf) (rcons (rev idx) i) =
        A (leaf_offset tout lf + ravel_idx (nth [::] (map (@ashape R) (leaves tout)) lf) idx)%N i].
Proof.
move=> H0 Hmv.
have [E [EE _ GE]] := eye_likeP H0.
pose n := nentries tin.
have Hb i : exists b, [/\ basis_vector_from_index i tin = Ok b, same_layout tin b, wf_tree b
     & entries b = unit_vec R n i] by exact: basis_vectorP.
pose bf i := match basis_vector_from_index i tin with Ok b => b | Raise _ => tin end.
have Hrows : mapM (fun i => tree_get i E) (iota 0 (get_size tin)) = Ok [seq bf i | i <- iota 0 n].
  apply: mapM_ok_in => i; rewrite mem_iota add0n => /= Hi.
  by rewrite GE // /bf; have [b [-> _ _ _]] := Hb i.
pose uf i := match mv (bf i) with Ok u => u | Raise _ => tout end.
have Hu i : (i < n)%N -> [/\ mv (bf i) = Ok (uf i), same_layout tout (uf i), wf_tree (uf i)
    & entries (uf i) = mkseq (fun k => A k i) (nentries tout)].
  move=> Hi; have [b [Eb Sb Wb Hbb]] := Hb i.
  have [u [Eu Su Wu Hu]] := Hmv b Wb Sb.
  have Ebf : bf i = b by rewrite /bf Eb.
  have Euf : uf i = u by rewrite /uf Ebf Eu.
  by rewrite Ebf Euf; split=> //; rewrite Hu Hbb matvec_unit.
have Hus : mapM mv [seq bf i | i <- iota 0 n] = Ok [seq uf i | i <- iota 0 n].
  have : forall i, i \in iota 0 n -> (i < n)%N by move=> i; rewrite mem_iota.
  elim: (iota 0 n) => //= i l IH Hl; have [-> _ _ _] := Hu i (Hl i (mem_head _ _)).
  by rewrite /= IH // => j Hj; apply: Hl; rewrite inE Hj orbT.
have Hszu : size [seq uf i | i <- iota 0 n] = n by rewrite size_map size_iota.
have [|||| D [ED DD SD GD]] :=
  @to_dense_rows mv bs n [seq bf i | i <- iota 0 n] (LTree tin) [seq uf i | i <- iota 0 n] tout.
- by rewrite EE /=.
- exact: Hus.
- by rewrite Hszu.
- rewrite Hszu => i Hi; rewrite (nth_map 0%N) ?size_iota // nth_iota // add0n.
  by have [_ S W _] := Hu i Hi.
exists D; split=> //; first by rewrite SD Hszu.
rewrite Hszu in GD => i lf idx Hi Hlf V; rewrite GD //.
rewrite (nth_map 0%N) ?size_iota // nth_iota // add0n.
have [_ [Du Su] Wu Eu] := Hu i Hi.
rewrite aget_entries //; last 2 first.
- by rewrite -(size_leaves_same Du).
- by rewrite -Su.
rewrite Eu -Su.
have -> : leaf_offset (uf i) lf = leaf_offset tout lf.
  by rewrite /leaf_offset (map_comp prodn) -Su -map_comp.
by rewrite nth_mkseq // leaf_offset_lt.
Qed.

(** flat vectors: int layout *)
Lemma to_dense_acts_int A (n m : nat) mv bs :
  (0 < n)%N ->
  acts_as A (Leaf (Arr [:: n] (nseq n 0))) (Leaf (Arr [:: m] (nseq m 0))) mv ->
  to_dense mv (LInt R n) bs =
  Ok (Leaf (Arr [:: m; n] (flatten [seq [seq A j i | i <- iota 0 n] | j <- iota 0 m]))).
Proof.
move=> H0 Hmv; set lin := Leaf (Arr [:: n] _) in Hmv; set lout := Leaf _ in Hmv.
have Hn : nentries lin = n by rewrite /nentries /= muln1 addn0.
have Hm : nentries lout = m by rewrite /nentries /= muln1 addn0.
pose bf i : ptree := Leaf (Arr [:: n] [seq (if i == j then 1 else 0 : R) | j <- iota 0 n]).
pose uf i := match mv (bf i) with Ok u => u | Raise _ => lout end.
have Hu i : (i < n)%N -> [/\ mv (bf i) = Ok (uf i), same_layout lout (uf i), wf_tree (uf i)
    & entries (uf i) = mkseq (fun k => A k i) m].
  move=> Hi; have Wb : wf_tree (bf i) by apply: wf_leaf1; rewrite size_map size_iota.
  have [u [Eu Su Wu Hu]] := Hmv (bf i) Wb (conj erefl erefl).
  have Euf : uf i = u by rewrite /uf Eu.
  rewrite Euf; split=> //; rewrite Hu Hm Hn -(matvec_unit A m Hi).
  by rewrite /entries /= cats0 -unit_vecE.
have Hus : mapM mv [seq bf i | i <- iota 0 n] = Ok [seq uf i | i <- iota 0 n].
  have : forall i, i \in iota 0 n -> (i < n)%N by move=> i; rewrite mem_iota.
  elim: (iota 0 n) => //= i l IH Hl; have [-> _ _ _] := Hu i (Hl i (mem_head _ _)).
  by rewrite /= IH // => j Hj; apply: Hl; rewrite inE Hj orbT.
have Hszu : size [seq uf i | i <- iota 0 n] = n by rewrite size_map size_iota.
have [|||| D [ED DD SD GD]] :=
  @to_dense_rows mv bs n [seq bf i | i <- iota 0 n] (LInt R n) [seq uf i | i <- iota 0 n] lout.
- by [].
- exact: Hus.
- by rewrite Hszu.
- rewrite Hszu => i Hi; rewrite (nth_map 0%N) ?size_iota // nth_iota // add0n.
  by have [_ S W _] := Hu i Hi.
rewrite ED; congr Ok.
have WD : wf_tree D.
  move: ED; rewrite /to_dense /= lax_mapE Hus /=; case: (stack_trees _) => [S|] //= [<-].
  rewrite /wf_tree leaves_tmap; elim: (leaves S) => //= a l ->; rewrite andbT /wf_arr /=.
  by rewrite size_map size_indices.
case: D ED DD SD GD WD => [a|k ch] ED DD SD GD WD //.
have Sa : ashape a = [:: m; n] by case: SD => ->; rewrite Hszu.
suff Ea : adata a = flatten [seq [seq A j i | i <- iota 0 n] | j <- iota 0 m].
  by case: (a) Sa Ea => s d /= -> ->.
have Hc k : (k < size [seq [seq A j i | i <- iota 0 n] | j <- iota 0 m])%N ->
    size (nth [::] [seq [seq A j i | i <- iota 0 n] | j <- iota 0 m] k) = n.
  by rewrite size_map size_iota => Hk; rewrite (nth_map 0%N) ?size_iota // size_map size_iota.
apply: (@eq_from_nth _ 0).
  move: WD; rewrite /wf_tree /= andbT /wf_arr Sa /= muln1 => /eqP ->.
  rewrite size_flatten /shape -map_comp (@eq_map _ _ _ (fun=> n)); last first.
    by move=> j /=; rewrite size_map size_iota.
  by elim: (m) 0%N => //= k IH z; rewrite mulSn (IH z.+1).
have -> : size (adata a) = (m * n)%N.
  by move: WD; rewrite /wf_tree /= andbT /wf_arr Sa /= muln1 => /eqP ->.
move=> k Hk; rewrite (divn_eq k n).
have Hk1 : (k %/ n < m)%N by rewrite ltn_divLR.
have Hk2 : (k %% n < n)%N by rewrite ltn_mod.
rewrite (nth_flatten_const _ Hc) ?size_map ?size_iota //.
rewrite (nth_map 0%N) ?size_iota // (nth_map 0%N) ?size_iota // !nth_iota // !add0n.
rewrite Hszu in GD.
have := GD (k %% n)%N 0%N [:: (k %/ n)%N] Hk2 isT; rewrite /= /valid_idx /= Hk1 => /(_ isT).
rewrite {1}/aget Sa /= !muln1 addn0 => ->.
rewrite (nth_map 0%N) ?size_iota // nth_iota // add0n.
have [_ [Du Su] Wu Eu] := Hu _ Hk2.
rewrite aget_entries //; last 2 first.
- by rewrite -(size_leaves_same Du).
- by rewrite -Su /valid_idx /= Hk1.
have -> : leaf_offset (uf (k %% n)%N) 0 = 0%N by rewrite /leaf_offset take0.
by rewrite Eu -Su /= !muln1 !addn0 add0n nth_mkseq.
Qed.

Lemma to_dense_none (mv : ptree -> res ptree) bs : to_dense mv (LNone R) bs = Raise ValueError.
Proof. by []. Qed.
End MvProofs.

(** ** precompute_list *)
Lemma precompute_on (A I : Type) (func : I -> res (tree (arr A))) (items : seq I) pre bs
    (us : seq (tree (arr A))) (u0 : tree (arr A)) (d : I) :
  pre <> Some false -> (0 < size items) -> mapM func items = Ok us ->
  (forall i, i < size us -> same_layout u0 (nth u0 us i) /\ wf_tree (nth u0 us i)) ->
  exists get, precompute_list func items pre bs = Ok (ByIndex I get) /\
    forall i, i < size items -> get i = func (nth d items i).
Proof.
move=> Hp H0 Hus Hu; have Hsz := mapM_size Hus.
have [||| S [ES _ _ _ [GS _]]] := @stack_treesP _ us u0; rewrite ?Hsz //.
- by move=> i Hi; case: (Hu i); rewrite ?Hsz.
- by move=> i Hi; case: (Hu i); rewrite ?Hsz.
exists (fun i => tree_get i S); split.
  rewrite /precompute_list lax_mapE Hus /= ES /=; by case: pre Hp => [[]|].
by move=> i Hi; rewrite GS ?Hsz // (mapM_nth d u0 Hus).
Qed.

Lemma precompute_off (A I : Type) (func : I -> res (tree (arr A))) (items : seq I) bs :
  precompute_list func items (Some false) bs = Ok (ByItem func).
Proof. by []. Qed.
