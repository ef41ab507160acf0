(** Property C51: the remaining leaf-wise tree functions. *)
From mathcomp Require Import all_ssreflect all_algebra.
From Verif Require Import Base PyTree TreeSpec Mv PyTreeProofs BasisProofs StackProofs MvProofs TreeOpsProofs TreeMore UnravelProofs.
Set Implicit Arguments.
Unset Strict Implicit.
Unset Printing Implicit Defensive.
Import GRing.Theory Num.Theory Order.TTheory.
Local Open Scope ring_scope.

Lemma mapM_Ok (A B : Type) (f : A -> res B) (g : A -> B) (P : A -> bool) xs :
  (forall x, P x -> f x = Ok (g x)) -> all P xs -> mapM f xs = Ok (map g xs).
Proof. by move=> H; elim: xs => //= x xs IH /andP[/H -> /IH ->]. Qed.

(** C51.  [sqrt] keeps the layout and takes the non-negative root of every entry. *)
Theorem C51_sqrt :
  forall (R : rcfType) (t : tree (arr R)), wf_tree t -> (forall x, x \in entries t -> 0 <= x) ->
  exists u, [/\ tree_sqrt t = Ok u, same_layout t u, wf_tree u, size (entries u) = size (entries t) &
    forall i, 0 <= nth 0 (entries u) i /\ nth 0 (entries u) i ^+ 2 = nth 0 (entries t) i].
Proof.
move=> R t W H.
have Hl : all (fun a => all (fun x => 0 <= x) (adata a)) (leaves t).
  move: H; rewrite /entries; elim: (leaves t) => //= a l IH H; apply/andP; split.
    by apply/allP => x Hx; apply: H; rewrite mem_cat Hx.
  by apply: IH => x Hx; apply: H; rewrite mem_cat Hx orbT.
have E : mapM (@arr_sqrt R) (leaves t) = Ok [seq arr_map Num.sqrt a | a <- leaves t].
  by apply: mapM_Ok Hl => a Ha; rewrite /arr_sqrt Ha.
have [u [Eu Du Lu]] := tmapM_ok E.
have Ee : entries u = map Num.sqrt (entries t).
  by rewrite /entries Lu map_flatten -!map_comp; congr flatten; apply: eq_map.
exists u; split=> //.
- by split=> //; rewrite Lu -map_comp; apply: eq_map.
- move: W; rewrite /wf_tree Lu all_map; apply: sub_all => a; by rewrite /wf_arr /= size_map.
- by rewrite Ee size_map.
- move=> i; have [Hi|Hi] := ltnP i (size (entries t)).
    by rewrite Ee (nth_map 0) // sqrtr_ge0 sqr_sqrtr // H // mem_nth.
  by rewrite !nth_default ?Ee ?size_map // expr2 mulr0.
Qed.
Print Assumptions C51_sqrt.

(** [ones_like] and [zeros_like]: same layout, all entries 1 respectively 0. *)
Theorem C51_ones_zeros_like :
  forall (R : ringType) (t : tree (arr R)),
  [/\ same_layout t (ones_like t), wf_tree (ones_like t) & entries (ones_like t) = nseq (nentries t) 1] /\
  [/\ same_layout t (zeros_like t), wf_tree (zeros_like t) & entries (zeros_like t) = nseq (nentries t) 0].
Proof.
move=> R t.
have G (c : R) : let u := tmap (fun a => Arr (ashape a) (nseq (prodn (ashape a)) c)) t in
    [/\ same_layout t u, wf_tree u & entries u = nseq (nentries t) c].
  move=> u; have L : leaves u = [seq Arr (ashape a) (nseq (prodn (ashape a)) c) | a <- leaves t].
    by rewrite /u leaves_tmap.
  split.
  - split; first by rewrite /u treedef_tmap.
    by rewrite L -map_comp; apply: eq_map.
  - rewrite /wf_tree L all_map; elim: (leaves t) => //= a l ->; by rewrite /wf_arr /= size_nseq eqxx.
  - rewrite /entries L /nentries; elim: (leaves t) => //= a l ->; by rewrite nseqD.
by split; apply: G.
Qed.
Print Assumptions C51_ones_zeros_like.

(** The documentation says [invert] inverts all elements.  It never does: on floating-point leaves it
    fails, on integers it is bitwise negation, i.e. [-x - 1]; twice is the identity. *)
Theorem C51_invert_refuted :
  forall (R : rcfType),
  (forall t : tree (arr R), leaves t <> [::] -> tree_invert (tmap (@FloatArr R) t) = Raise TypeError) /\
  (forall t : tree (arr int), exists u, tree_invert (tmap (@IntArr R) t) = Ok (tmap (@IntArr R) u) /\
     [/\ treedef u = treedef t, map (@ashape _) (leaves u) = map (@ashape _) (leaves t) &
         entries u = map (fun i => - i - 1) (entries t)]).
Proof.
move=> R; split=> t.
  elim/tree_ind': t => [a|k ch IH] //= H.
  rewrite /tree_invert /= -/(@tree_invert R).
  suff -> : mapM (@tree_invert R) (map (tmap (@FloatArr R)) ch) = Raise TypeError by [].
  elim: ch IH H => [|c cs IHc] //= [Hc Hcs] H.
  have [Ec|Ec] : leaves c = [::] \/ leaves c <> [::] by case: (leaves c); [left|right].
    have E0 : mapM (@leaf_invert R) (leaves (tmap (@FloatArr R) c)) = Ok [::] by rewrite leaves_tmap Ec.
    have [w [Ew _ _]] := tmapM_ok E0.
    by rewrite /tree_invert [tmapM _ _]Ew /= IHc //; move: H; rewrite Ec.
  by rewrite Hc.
exists (tmap (arr_map (fun i : int => - i - 1)) t); split.
  elim/tree_ind': t => [a|k ch IH] //=.
  rewrite /tree_invert /= -/(@tree_invert R).
  suff -> : mapM (@tree_invert R) (map (tmap (@IntArr R)) ch) =
     Ok (map (tmap (@IntArr R)) (map (tmap (arr_map (fun i : int => - i - 1))) ch)) by [].
  by elim: ch IH => [|c cs IHc] //= [-> /IHc ->].
split; [by rewrite treedef_tmap | by rewrite leaves_tmap -map_comp; apply: eq_map |].
by rewrite /entries leaves_tmap map_flatten -!map_comp; congr flatten; apply: eq_map.
Qed.
Print Assumptions C51_invert_refuted.

(** [tree_partialmatvec] contracts the last axis of every leaf with the vector. *)
Theorem C51_partialmatvec :
  forall (R : rcfType) (t : tree (arr R)) (v : seq R) (shapes : seq (seq nat)),
  wf_tree t -> map (@ashape R) (leaves t) = [seq rcons s (size v) | s <- shapes] ->
  exists u, [/\ tree_partialmatvec t v = Ok u, treedef u = treedef t,
    map (@ashape R) (leaves u) = shapes, wf_tree u &
    forall j r, (j < size (leaves t))%N -> (r < prodn (nth [::] shapes j))%N ->
    nth 0 (adata (nth (Arr [::] [::]) (leaves u) j)) r =
    \sum_(0 <= c < size v) nth 0 (adata (nth (Arr [::] [::]) (leaves t) j)) (r * size v + c) * nth 0 v c].
Proof.
move=> R t v shapes W Hs; set n := size v.
pose g (p : arr R * seq nat) := Arr p.2 [seq dot row v | row <- rows_of (prodn p.2) n (adata p.1)].
have Esz : size (leaves t) = size shapes by have := congr1 size Hs; rewrite !size_map.
have E : mapM (arr_matvec v) (leaves t) = Ok [seq g p | p <- zip (leaves t) shapes].
  elim: (leaves t) shapes Hs {Esz W} => [|a l IH] [|s ss] //= [Ha Hl].
  by rewrite {1}/arr_matvec Ha rev_rcons revK eqxx /= (IH _ Hl).
have [u [Eu Du Lu]] := tmapM_ok E; exists u; split=> //.
- by rewrite Lu -map_comp -[RHS](@unzip2_zip _ _ (leaves t)) ?Esz //; apply: eq_map.
- rewrite /wf_tree Lu all_map; elim: (zip _ _) => //= p l ->; rewrite andbT /wf_arr /=.
  by rewrite size_map /rows_of size_map size_iota.
move=> j r Hj Hr; rewrite Lu (nth_map (Arr [::] [::], [::])) ?size_zip -?Esz ?minnn // nth_zip //=.
rewrite (nth_map [::]) ?/rows_of ?size_map ?size_iota // (nth_map 0%N) ?size_iota // nth_iota // add0n.
set a := nth _ (leaves t) j.
have Wa : size (adata a) = (prodn (nth [::] shapes j) * n)%N.
  have /eqP -> : wf_arr a by move: W => /(all_nthP (Arr [::] [::])); apply.
  have -> : ashape a = nth [::] (map (@ashape R) (leaves t)) j by rewrite (nth_map (Arr [::] [::])).
  by rewrite Hs (nth_map [::]) -?Esz // -cats1 prodn_cat /= /prodn /= muln1.
have Sr : size (slice (r * n) (r.+1 * n) (adata a)) = n.
  rewrite /slice size_take size_drop Wa mulSn addnK.
  have Hle : (r.+1 * n <= prodn (nth [::] shapes j) * n)%N by rewrite leq_mul2r Hr orbT.
  case: ltnP => // H; apply/eqP; rewrite eqn_leq H /= leq_subRL; last by apply: leq_trans Hle; rewrite mulSn leq_addl.
  by rewrite addnC -mulSn.
rewrite (dot_nth Sr erefl) big_nat [RHS]big_nat; apply: eq_bigr => c /andP[_ Hc].
by rewrite /slice nth_take ?mulSn ?addnK // nth_drop.
Qed.
Print Assumptions C51_partialmatvec.

(** A length mismatch in some leaf, or a 0-d leaf, is an error. *)
Theorem C51_partialmatvec_mismatch :
  forall (R : rcfType) (a : arr R) (v : seq R),
  last 0%N (ashape a) <> size v \/ ashape a = [::] ->
  tree_partialmatvec (Leaf a) v = Raise (if ashape a is [::] then ValueError else TypeError).
Proof.
move=> R [s d] v; rewrite /tree_partialmatvec /= /arr_matvec /=.
case: (lastP s) => [|s' n] //=; rewrite rev_rcons last_rcons.
by case=> [H|]; [case: eqP H => //; case: s' | case: s'].
Qed.
Print Assumptions C51_partialmatvec_mismatch.

(** [allclose]: for trees of one layout it decides entry-wise closeness
    [|a - b| <= 1e-8 + 1e-5 |b|]; a tree is close to itself; trees of different structure raise. *)
Theorem C51_allclose :
  forall (R : rcfType) (t u : tree (arr R)), wf_tree t -> wf_tree u ->
  (same_layout t u -> exists b, allclose t u = Ok b /\
    (b <-> forall i, (i < size (entries t))%N ->
       `|nth 0 (entries t) i - nth 0 (entries u) i| <= 10%:R ^- 8 + 10%:R ^- 5 * `|nth 0 (entries u) i|)) /\
  (treedef t <> treedef u -> exists e, allclose t u = Raise e) /\
  allclose t t = Ok true.
Proof.
move=> R t u Wt Wu.
have G (t1 t2 : tree (arr R)) : wf_tree t1 -> wf_tree t2 -> same_layout t1 t2 ->
    allclose t1 t2 = Ok (all (fun p => isclose p.1 p.2) (zip (entries t1) (entries t2))).
  move=> W1 W2 [D S].
  have E : map2M (@arr_allclose R) (leaves t1) (leaves t2) =
      Ok [seq all (fun q => isclose q.1 q.2) (zip (adata p.1) (adata p.2)) | p <- zip (leaves t1) (leaves t2)].
    elim: (leaves t1) (leaves t2) S => [|a l IH] [|b m] //= [Sab Slm].
    by rewrite {1}/arr_allclose Sab eqxx /= IH.
  have [w [Ew Dw Lw]] := tmap2_ok D E; rewrite /allclose Ew /= Lw /entries zip_flatten; last by rewrite !wf_sizes // S.
  congr Ok; elim: (leaves t1) (leaves t2) {S E Lw} => [|a l IH] [|b m] //=; by rewrite all_cat IH.
split; last split.
- move=> HL; rewrite G //; eexists; split; first by [].
  have Es : size (entries t) = size (entries u) by rewrite !size_entries // (nentries_same HL).
  split=> [/(all_nthP (0, 0)) H i Hi|H].
    by have := H i; rewrite size_zip -Es minnn nth_zip // => /(_ Hi).
  apply/(all_nthP (0, 0)) => i; rewrite size_zip -Es minnn nth_zip // => Hi; exact: H.
- move=> D; rewrite /allclose; case E: (tmap2 _ t u) => [w|e]; last by exists e.
  by have [/D] := tmap2_inv E.
- rewrite G //.
  congr Ok; apply/(all_nthP (0, 0)) => i; rewrite size_zip minnn nth_zip // => Hi.
  have H10 k : 0 <= 10%:R ^- k :> R by rewrite -exprVn exprn_ge0 // invr_ge0 ler0n.
  by rewrite /isclose /= subrr normr0 addr_ge0 ?mulr_ge0 ?normr_ge0 ?H10.
Qed.
Print Assumptions C51_allclose.

(** It is not symmetric, although "approximately equal" suggests so. *)
Theorem C51_allclose_symmetric_refuted :
  forall R : rcfType, exists t u : tree (arr R),
  [/\ wf_tree t, wf_tree u, allclose t u = Ok true & allclose u t = Ok false].
Proof.
move=> R; pose a : R := (1 + atol R) / (1 - rtol R).
have H10 k : 0 < (10%:R ^- k.+1 : R) < 1.
  rewrite -exprVn exprn_gt0 ?invr_gt0 ?ltr0n //= exprn_ilt1 //; first by rewrite invr_ge0 ler0n.
  by rewrite invf_lt1 ?ltr0n // ltr1n.
have /andP[Hr0 Hr1] : 0 < rtol R < 1 by exact: H10.
have /andP[Ha0 Ha1] : 0 < atol R < 1 by exact: H10.
have Hd : 0 < 1 - rtol R by rewrite subr_gt0.
have Ha : 1 < a by rewrite /a ltr_pdivl_mulr // mul1r ltr_add2l (lt_trans _ Ha0) // oppr_lt0.
have E : a - 1 = atol R + rtol R * a.
  have : a * (1 - rtol R) = 1 + atol R by rewrite /a divfK // gt_eqF.
  rewrite mulrBr mulr1 [a * _]mulrC => /eqP; rewrite subr_eq -addrA => /eqP H.
  by rewrite {1}H addrC addKr.
have Ea : `|a| = a by rewrite gtr0_norm // (lt_trans ltr01).
exists (Leaf (Arr [::] [:: 1])), (Leaf (Arr [::] [:: a])); split=> //; rewrite /allclose /= /arr_allclose /= andbT /isclose /=.
- by rewrite distrC Ea gtr0_norm ?subr_gt0 // E lexx.
- rewrite gtr0_norm ?subr_gt0 // E normr1 mulr1 ler_add2l; congr Ok; rewrite andbT.
  by rewrite -[X in _ <= X]mulr1 ler_pmul2l // leNgt Ha.
Qed.
Print Assumptions C51_allclose_symmetric_refuted.

(** Statistics along the leading axis. *)
Section Statistics.
Variable R : rcfType.
Notation ptree := (tree (arr R)).
(** Entry [j] of row [i] of leaf [l] (rows are the members along axis 0). *)
Definition leaf_at (t : ptree) (l : nat) : arr R := nth (Arr [::] [::]) (leaves t) l.
Definition row_entry (t : ptree) (l k i j : nat) : R := nth 0 (adata (leaf_at t l)) (i * k + j)%N.

Lemma seq_meanE (xs : seq R) : seq_mean xs = (\sum_(i < size xs) nth 0 xs i) / (size xs)%:R.
Proof.
rewrite /seq_mean; congr (_ / _); elim: xs => [|x xs IH] /=; first by rewrite big_ord0.
by rewrite big_ord_recl IH.
Qed.
Lemma column_mean a n k j : seq_mean (column0 a n k j) = (\sum_(i < n) nth 0 (adata a) (i * k + j)) / n%:R :> R.
Proof.
rewrite seq_meanE size_map size_iota; congr (_ / _); apply: eq_bigr => i _.
by rewrite (nth_map 0%N) ?size_iota // nth_iota.
Qed.
Lemma column_var a n k j (m := seq_mean (column0 a n k j)) :
  seq_var (column0 a n k j) = (\sum_(i < n) (nth 0 (adata a) (i * k + j) - m) ^+ 2) / n%:R :> R.
Proof.
rewrite /seq_var seq_meanE !size_map size_iota -/m; congr (_ / _); apply: eq_bigr => i _.
by rewrite (nth_map 0) ?size_map ?size_iota // (nth_map 0%N) ?size_iota // nth_iota.
Qed.
Lemma column_cov a n k p q (mp := seq_mean (column0 a n k p)) (mq := seq_mean (column0 a n k q)) :
  seq_cov (column0 a n k p) (column0 a n k q) =
  (\sum_(i < n) (nth 0 (adata a) (i * k + p) - mp) * (nth 0 (adata a) (i * k + q) - mq)) / n.-1%:R :> R.
Proof.
rewrite /seq_cov size_map size_iota -/mp -/mq; congr (_ / _).
rewrite (_ : zip _ _ = [seq (nth 0 (adata a) (i * k + p), nth 0 (adata a) (i * k + q)) | i <- iota 0 n]).
  by rewrite -map_comp foldrE big_map -[n in iota 0 n]subn0 -/(index_iota 0 n) big_mkord.
by rewrite /column0; elim: (iota 0 n) => //= i l ->.
Qed.

Lemma axis0_ok f (t : ptree) (ns : seq nat) (shapes : seq (seq nat)) :
  all (leq 1) ns -> map (@ashape R) (leaves t) = [seq p.1 :: p.2 | p <- zip ns shapes] -> size ns = size shapes ->
  exists u, [/\ tmapM (arr_axis0 f) t = Ok u, treedef u = treedef t, map (@ashape R) (leaves u) = shapes, wf_tree u &
    forall l j, (l < size (leaves t))%N -> (j < prodn (nth [::] shapes l))%N ->
    nth 0 (adata (leaf_at u l)) j = f (column0 (leaf_at t l) (nth 0%N ns l) (prodn (nth [::] shapes l)) j)].
Proof.
move=> Hn Hs Esz.
pose g (p : arr R * (nat * seq nat)) := Arr p.2.2 [seq f (column0 p.1 p.2.1 (prodn p.2.2) j) | j <- iota 0 (prodn p.2.2)].
have El : size (leaves t) = size (zip ns shapes) by have := congr1 size Hs; rewrite !size_map.
have E : mapM (arr_axis0 f) (leaves t) = Ok [seq g p | p <- zip (leaves t) (zip ns shapes)].
  elim: (leaves t) ns shapes Hs Esz Hn {El} => [|a l IH] [|n ns] [|s ss] //= [Ha Hl] [Esz] /andP [Hn Hns].
  rewrite {1}/arr_axis0 Ha /=; case: n Hn Ha => [//|n] _ Ha /=.
  by rewrite (IH ns ss Hl Esz Hns).
have [u [Eu Du Lu]] := tmapM_ok E; exists u.
have Esz' : size (zip ns shapes) = size shapes by rewrite size_zip Esz minnn.
split=> //.
- rewrite Lu -map_comp -[RHS](@unzip2_zip _ _ ns) ?Esz // -[RHS]/(map snd _).
  rewrite -[in RHS](@unzip2_zip _ _ (leaves t) (zip ns shapes)) ?El // -map_comp; exact: eq_map.
- rewrite /wf_tree Lu all_map; elim: (zip _ _) => //= p l ->; rewrite andbT /wf_arr /=.
  by rewrite size_map size_iota.
move=> l j Hl Hj; rewrite /leaf_at Lu (nth_map (Arr [::] [::], (0%N, [::]))); last by rewrite size_zip -El minnn.
rewrite nth_zip // nth_zip //= (nth_map 0%N) ?size_iota // nth_iota //.
Qed.

(** [mean], [var] and [std] with [axis=0] drop the leading axis of every leaf: the mean of the entries
    along it, the mean squared deviation from that mean -- that is, the mean of the squares minus the
    square of the mean, never negative -- and its non-negative root. *)
Theorem C51_statistics :
  forall (t : ptree) (ns : seq nat) (shapes : seq (seq nat)),
  all (leq 1) ns -> map (@ashape R) (leaves t) = [seq p.1 :: p.2 | p <- zip ns shapes] -> size ns = size shapes ->
  exists m v s, [/\ tree_mean t = Ok m, tree_var t = Ok v, tree_std t = Ok s &
    forall u, u = m \/ u = v \/ u = s -> [/\ treedef u = treedef t, map (@ashape R) (leaves u) = shapes & wf_tree u]] /\
    forall l j, (l < size (leaves t))%N -> (j < prodn (nth [::] shapes l))%N ->
    let n := nth 0%N ns l in let k := prodn (nth [::] shapes l) in
    let out (u : ptree) := nth 0 (adata (leaf_at u l)) j in
    [/\ out m = (\sum_(i < n) row_entry t l k i j) / n%:R,
        out v = (\sum_(i < n) row_entry t l k i j ^+ 2) / n%:R - out m ^+ 2,
        0 <= out v, 0 <= out s & out s ^+ 2 = out v].
Proof.
move=> t ns shapes Hn Hs Esz.
have [m [E1 D1 S1 W1 H1]] := axis0_ok (@seq_mean R) Hn Hs Esz.
have [v [E2 D2 S2 W2 H2]] := axis0_ok (@seq_var R) Hn Hs Esz.
have [s [E3 D3 S3 W3 H3]] := axis0_ok (fun xs => Num.sqrt (seq_var xs)) Hn Hs Esz.
exists m, v, s; split; first by split=> // u [->|[->|->]].
move=> l j Hl Hj n k out.
have Hl' : (l < size ns)%N.
  by have := congr1 size Hs; rewrite !size_map size_zip Esz minnn => <-.
have n0 : (0 < n)%N by move/allP: Hn; apply; apply: mem_nth.
have nR : n%:R != 0 :> R by rewrite pnatr_eq0 -lt0n.
have Em : out m = (\sum_(i < n) row_entry t l k i j) / n%:R by rewrite /out H1 // column_mean.
have Ev0 : out v = (\sum_(i < n) (row_entry t l k i j - out m) ^+ 2) / n%:R.
  by rewrite /out H2 // column_var H1.
have v0 : 0 <= out v.
  by rewrite Ev0 divr_ge0 ?ler0n // sumr_ge0 // => i _; rewrite sqr_ge0.
have Es : out s = Num.sqrt (out v) by rewrite /out H3 // H2.
split=> //; last by rewrite Es sqr_sqrtr.
  have Sm : \sum_(i < n) row_entry t l k i j = out m * n%:R by rewrite Em mulfVK.
  rewrite Ev0.
  have -> : \sum_(i < n) (row_entry t l k i j - out m) ^+ 2 =
      \sum_(i < n) row_entry t l k i j ^+ 2 - out m ^+ 2 * n%:R.
    rewrite (eq_bigr (fun i : 'I_n => row_entry t l k i j ^+ 2 - (out m *+ 2) * row_entry t l k i j + out m ^+ 2)); last first.
      by move=> i _; rewrite sqrrB; congr (_ - _ + _); rewrite mulrnAl mulrC.
    rewrite big_split /= sumrB -mulr_sumr Sm sumr_const card_ord -addrA; congr (_ + _).
    by rewrite mulrnAl mulrA -expr2 [_ *+ 2]mulr2n opprD -[_ ^+ 2 *+ n]mulr_natr addrNK.
  by rewrite mulrBl mulfK.
by rewrite Es sqrtr_ge0.
Qed.

(** [cov] with [rowvar=False] of a leaf of [n >= 2] rows of [k] numbers: the [k x k] matrix (a 0-d
    array for [k = 1]) of sums of products of deviations over [n - 1]; symmetric, with non-negative
    quadratic form, its diagonal [n / (n - 1)] times the variances. *)
Theorem C51_covariance :
  forall (t : ptree) (dims : seq (nat * nat)),
  all (fun p => 1 < p.1)%N dims -> map (@ashape R) (leaves t) = [seq [:: p.1; p.2] | p <- dims] ->
  exists c v, [/\ tree_cov t = Ok c, tree_var t = Ok v, treedef c = treedef t, wf_tree c &
    map (@ashape R) (leaves c) = [seq if p.2 == 1%N then [::] else [:: p.2; p.2] | p <- dims]] /\
    forall l, (l < size dims)%N ->
    let n := (nth (0, 0)%N dims l).1 in let k := (nth (0, 0)%N dims l).2 in
    let C p q := nth 0 (adata (leaf_at c l)) (p * k + q)%N in
    let mean p := (\sum_(i < n) row_entry t l k i p) / n%:R in
    [/\ forall p q, (p < k)%N -> (q < k)%N ->
          C p q = (\sum_(i < n) (row_entry t l k i p - mean p) * (row_entry t l k i q - mean q)) / n.-1%:R,
        forall p q, (p < k)%N -> (q < k)%N -> C p q = C q p,
        forall z : nat -> R, 0 <= \sum_(p < k) \sum_(q < k) z p * C p q * z q
      & forall p, (p < k)%N -> C p p = n%:R / n.-1%:R * nth 0 (adata (leaf_at v l)) p].
Proof.
move=> t dims Hd Hs.
pose g (p : arr R * (nat * nat)) := Arr (if p.2.2 == 1%N then [::] else [:: p.2.2; p.2.2])
  [seq seq_cov (column0 p.1 p.2.1 p.2.2 (ij %/ p.2.2)) (column0 p.1 p.2.1 p.2.2 (ij %% p.2.2)) | ij <- iota 0 (p.2.2 * p.2.2)].
have El : size (leaves t) = size dims by have := congr1 size Hs; rewrite !size_map.
have E : mapM (@arr_cov R) (leaves t) = Ok [seq g p | p <- zip (leaves t) dims].
  elim: (leaves t) dims Hs Hd {El} => [|a l IH] [|[n k] ds] //= [Ha Hl] /andP [Hn Hns].
  by rewrite {1}/arr_cov Ha leqNgt Hn /= (IH ds Hl Hns).
have [c [Ec Dc Lc]] := tmapM_ok E.
have Hv1 : all (leq 1) (map fst dims).
  by rewrite all_map; apply: sub_all Hd => p /ltnW.
have Hv2 : map (@ashape R) (leaves t) = [seq p.1 :: p.2 | p <- zip (map fst dims) [seq [:: p.2] | p <- dims]].
  by rewrite Hs; elim: (dims) => //= p l ->.
have [v [Ev Dv Sv Wv Hv]] := axis0_ok (@seq_var R) Hv1 Hv2 (etrans (size_map _ _) (esym (size_map _ _))).
exists c, v; split.
  split=> //.
  - rewrite /wf_tree Lc all_map; elim: (zip _ _) => //= p l ->; rewrite andbT /wf_arr /= size_map size_iota.
    by case: ifP => [/eqP ->|_] //; rewrite /prodn /= muln1.
  - by rewrite Lc -map_comp -[in RHS](@unzip2_zip _ _ (leaves t) dims) ?El // -map_comp; apply: eq_map.
move=> l Hl n k C mean.
have n1 : (1 < n)%N by move/allP: Hd => /(_ (nth (0, 0)%N dims l)); apply; apply: mem_nth.
have CE p q : (p < k)%N -> (q < k)%N ->
    C p q = (\sum_(i < n) (row_entry t l k i p - mean p) * (row_entry t l k i q - mean q)) / n.-1%:R.
  move=> Hp Hq; have Hpq : (p * k + q < k * k)%N.
    by rewrite -addnS; apply: leq_trans (leq_add (leqnn _) Hq) _; rewrite addnC -mulSn leq_mul2r Hp orbT.
  rewrite /C /leaf_at Lc (nth_map (Arr [::] [::], (0, 0)%N)) ?size_zip ?El ?minnn // nth_zip //= -/n -/k.
  rewrite (nth_map 0%N) ?size_iota // nth_iota // add0n divnMDl ?(leq_trans _ Hq) // divn_small // addn0.
  by rewrite modnMDl modn_small // column_cov !column_mean.
have CS p q : (p < k)%N -> (q < k)%N -> C p q = C q p.
  by move=> Hp Hq; rewrite !CE //; congr (_ / _); apply: eq_bigr => i _; rewrite mulrC.
split=> //.
- move=> z.
  have -> : \sum_(p < k) \sum_(q < k) z p * C p q * z q =
      (\sum_(i < n) (\sum_(p < k) z p * (row_entry t l k i p - mean p)) ^+ 2) / n.-1%:R.
    transitivity ((\sum_(p < k) \sum_(q < k) \sum_(i < n)
       (z p * (row_entry t l k i p - mean p)) * (z q * (row_entry t l k i q - mean q))) / n.-1%:R).
      rewrite mulr_suml; apply: eq_bigr => p _; rewrite mulr_suml; apply: eq_bigr => q _.
      rewrite CE // mulrAC mulrA mulr_sumr; congr (_ / _).
      by apply: eq_bigr => i _; rewrite [RHS]mulrACA.
    congr (_ / _); rewrite [RHS](eq_bigr (fun i : 'I_n => \sum_(p < k) \sum_(q < k)
       (z p * (row_entry t l k i p - mean p)) * (z q * (row_entry t l k i q - mean q)))); last first.
      by move=> i _; rewrite expr2 big_distrlr.
    rewrite [RHS]exchange_big /=; apply: eq_bigr => p _; exact: exchange_big.
  by rewrite divr_ge0 ?ler0n // sumr_ge0 // => i _; rewrite sqr_ge0.
- move=> p Hp; rewrite CE //.
  have := Hv l p; rewrite El !(nth_map (0, 0)%N) // => ->//; last by rewrite /prodn /= muln1.
  rewrite /prodn /= muln1 -/n -/k column_var column_mean -/(mean p).
  have nR : n%:R != 0 :> R by rewrite pnatr_eq0 -lt0n ltnW.
  by rewrite [RHS]mulrC mulrA mulfVK.
Qed.
End Statistics.
Print Assumptions C51_statistics.
Print Assumptions C51_covariance.

(** Non-vacuity: a nested tree with a matrix and a vector leaf. *)
Example C51_example (R : rcfType) :
  let t : tree (arr R) := Node NTuple [:: Leaf (Arr [:: 2%N; 2%N] [:: 1; 4%:R; 0; 9%:R]); Leaf (Arr [:: 2%N] [:: 2%:R; 3%:R])] in
  exists u, [/\ tree_partialmatvec t [:: 1; 1] = Ok u, map (@ashape R) (leaves u) = [:: [:: 2%N]; [::]] &
    nth 0 (entries u) 0 = 5%:R].
Proof.
move=> t; eexists; split; [by [] | by [] |].
by rewrite /= /dot /= !mulr1 addr0 -(natrD _ 1 4).
Qed.

(** Non-vacuity: two members along axis 0, in a nested tree. *)
Example C51_statistics_example (R : rcfType) :
  let t : tree (arr R) := Node NTuple [:: Leaf (Arr [:: 2%N; 2%N] [:: 1; 4%:R; 3%:R; 8%:R]); Leaf (Arr [:: 2%N] [:: 2%:R; 4%:R])] in
  exists m v c, [/\ tree_mean t = Ok m, tree_var t = Ok v, nth 0 (entries m) 2 = 3%:R, nth 0 (entries v) 2 = 1 &
    tree_cov (Node NTuple [:: Leaf (Arr [:: 2%N; 2%N] [:: 1; 4%:R; 3%:R; 8%:R])] : tree (arr R)) = Ok c].
Proof.
move=> t; eexists; eexists; eexists; split; [by [] | by [] | | | by []].
- have E6 : 2%:R + 4%:R = 3%:R * 2%:R :> R by rewrite -natrD -natrM.
  by rewrite /entries /= /seq_mean /= addr0 E6 mulfK ?pnatr_eq0.
- have E6 : 2%:R + 4%:R = 3%:R * 2%:R :> R by rewrite -natrD -natrM.
  have E1 : 4%:R - 3%:R = 1 :> R by rewrite -natrB.
  have E2 : 2%:R - 3%:R = - 1 :> R by rewrite -opprB -natrB.
  rewrite /entries /= /seq_var /seq_mean /= !addr0 E6 mulfK ?pnatr_eq0 // E1 E2.
  by rewrite sqrrN !expr1n -[1 + 1]/(2%:R) divff ?pnatr_eq0.
Qed.

(** [unravel_array_into_pytree(tree, axis, arr)] for every array and every Python int
    [axis], [axis = k * ndim + ax]: the axis [ax] must have as many indices as the tree has
    entries; every leaf of shape [sh] gets the shape of the array with the axis replaced by
    [sh], and its entry at [p ++ j ++ q] is the array's entry whose axis index is the
    position of entry [j] of that leaf in the flattened tree. *)
Theorem C51_unravel :
  forall (A B : Type) (layout : tree (arr B)) (axis k : int) (ax : nat) (a : arr A),
  wf_arr a -> (ax < size (ashape a))%N -> axis = k * Posz (size (ashape a)) + Posz ax ->
  leaves layout <> [::] -> nth 0%N (ashape a) ax = nentries layout ->
  let shapes := map (@ashape B) (leaves layout) in
  exists t, [/\ unravel_array_into_pytree layout axis a = Ok t,
    treedef t = treedef layout,
    map (@ashape A) (leaves t) = [seq take ax (ashape a) ++ sh ++ drop ax.+1 (ashape a) | sh <- shapes],
    wf_tree t &
    forall d lf p j q, (lf < size (leaves layout))%N ->
      valid_idx (take ax (ashape a)) p -> valid_idx (nth [::] shapes lf) j ->
      valid_idx (drop ax.+1 (ashape a)) q ->
      let leaf := nth (Arr [::] [::]) (leaves t) lf in
      let position := (sumn (take lf (map prodn shapes)) + ravel_idx (nth [::] shapes lf) j)%N in
      nth d (adata leaf) (ravel_idx (ashape leaf) (p ++ j ++ q)) =
      nth d (adata a) (ravel_idx (ashape a) (p ++ position :: q))].
Proof.
move=> A B layout axis k ax [s xs] /eqP /= W Hax Eaxis L0 Hn.
have Em : absz (modz axis (Posz (size s))) = ax by rewrite Eaxis modzMDl modz_nat /= modn_small.
have [t [Et Dt St Wt Lt]] := unravel_axis_ok Hax W L0 Hn.
exists t; split=> //.
  rewrite -[RHS]Et /unravel_array_into_pytree /= Em.
  by case: (s) Hax.
move=> d lf p j q Hlf Hp Hj Hq /=; set leaf := nth _ (leaves t) lf.
have Hl : (lf < size (map (@ashape B) (leaves layout)))%N by rewrite size_map.
have -> : ashape leaf = take ax s ++ nth [::] (map (@ashape B) (leaves layout)) lf ++ drop ax.+1 s.
  rewrite /leaf -(nth_map _ [::] (@ashape A)) ?St ?(nth_map [::]) //.
  by rewrite -(size_map (@ashape A)) St size_map.
set sh := nth [::] _ lf.
have -> : ravel_idx s = ravel_idx (take ax s ++ nth 0%N s ax :: drop ax.+1 s).
  by rewrite -drop_nth // cat_take_drop.
rewrite 2?ravel_cat ?(valid_idx_size Hp) ?(valid_idx_size Hj) //= !prodn_cat /leaf Lt //=.
have Esz : nth 0%N (map prodn (map (@ashape B) (leaves layout))) lf = prodn sh.
  by rewrite (nth_map [::]).
have := @nth_leafdata A B layout s ax xs Hax W d (ravel_idx (take ax s) p) lf
          (ravel_idx sh j * prodn (drop ax.+1 s) + ravel_idx (drop ax.+1 s) q) L0 Hn.
rewrite Esz => -> //; first last.
- apply: (@leq_trans ((ravel_idx sh j).+1 * prodn (drop ax.+1 s))).
    by rewrite mulSn addnC ltn_add2r ravel_lt.
  by rewrite leq_mul2r ravel_lt ?orbT.
- exact: ravel_lt.
by rewrite ravel_cat ?(valid_idx_size Hp) //= mulnDl -!addnA.
Qed.
Print Assumptions C51_unravel.

(** Rejected: 0-d arrays, and (no other axis being empty) an axis whose length is not the
    number of entries of the tree, or a tree without leaves. *)
Theorem C51_unravel_rejects :
  forall (A B : Type) (layout : tree (arr B)) (axis k : int) (ax : nat) (a : arr A), wf_arr a ->
  (ashape a = [::] -> unravel_array_into_pytree layout axis a = Raise ZeroDivisionError) /\
  ((ax < size (ashape a))%N -> axis = k * Posz (size (ashape a)) + Posz ax ->
   (0 < prodn (take ax (ashape a)) * prodn (drop ax.+1 (ashape a)))%N ->
   leaves layout = [::] \/ nth 0%N (ashape a) ax <> nentries layout ->
   exists e, unravel_array_into_pytree layout axis a = Raise e).
Proof.
move=> A B layout axis k ax [s xs] /eqP /= W; split=> [->|] // Hax Eaxis HPQ H.
have Em : absz (modz axis (Posz (size s))) = ax by rewrite Eaxis modzMDl modz_nat /= modn_small.
case E: (unravel_array_into_pytree _ _ _) => [t|e]; last by exists e.
have := E; rewrite /unravel_array_into_pytree /= Em.
case Es: s => [|s0 s']; first by rewrite Es in Hax.
rewrite -Es => /(unravel_axis_inv Hax W HPQ) [L0 Hn].
by case: H => // H; case: (H Hn).
Qed.
Print Assumptions C51_unravel_rejects.

(** For a vector, whatever the axis, this is the [unflatten] of [create_pytree_flattener]. *)
Theorem C51_unravel_vector :
  forall (A B : Type) (layout : tree (arr B)) (axis : int) (v : seq A),
  unravel_array_into_pytree layout axis (Arr [:: size v] v) = pytree_unflatten layout v.
Proof.
move=> A B layout axis v; rewrite /unravel_array_into_pytree /pytree_unflatten.
rewrite [ashape (Arr _ _)]/= [size [:: _]]/= modz1 [absz 0]/=.
have -> idx : split_axis idx 0 (Arr [:: size v] v) = jsplit idx v.
  have M1 (l : seq nat) : [seq (i * 1)%N | i <- l] = l by elim: l => //= i l ->; rewrite muln1.
  transitivity (split_cols (map (fun i => i * 1)%N idx) 1 (size v * 1) v); first by [].
  rewrite M1 muln1 /split_cols.
  have -> : rows_of 1 (size v) v = [:: v] by rewrite /rows_of /= mul0n mul1n /slice subn0 drop0 take_size.
  apply: (@eq_from_nth _ [::]); first by rewrite size_map size_iota /jsplit size_split_from.
  by move=> i; rewrite size_map size_iota => Hi; rewrite (nth_map 0%N) ?size_iota // nth_iota //= cats0.
rewrite /cumsum butlast_cumsum !butlast_map.
have -> // : [seq take 0 [:: size v] ++ sh ++ drop 1 [:: size v] | sh <- [seq ashape i | i <- leaves layout]] = [seq ashape i | i <- leaves layout].
by rewrite -[RHS]map_id; apply: eq_map => sh /=; rewrite cats0.
Qed.
Print Assumptions C51_unravel_vector.

(** A [2 x 3 x 2] array, [axis = -2], into a tuple of a [2]-vector and a scalar. *)
Example C51_unravel_example :
  unravel_array_into_pytree (Node NTuple [:: Leaf (Arr [:: 2%N] [:: tt; tt]); Leaf (Arr [::] [:: tt])])
    (- 2%:Z) (Arr [:: 2; 3; 2]%N (iota 0 12)) =
  Ok (Node NTuple [:: Leaf (Arr [:: 2; 2; 2]%N [:: 0; 1; 2; 3; 6; 7; 8; 9]%N);
                      Leaf (Arr [:: 2; 2]%N [:: 4; 5; 10; 11]%N)]).
Proof. by []. Qed.
