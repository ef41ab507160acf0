(** Lemmas about the classification metrics. *)
From mathcomp Require Import all_ssreflect all_algebra.
From Verif Require Import Base Metrics MetricsSpec.
Set Implicit Arguments.
Unset Strict Implicit.
Unset Printing Implicit Defensive.
Import GRing.Theory Num.Theory Order.TTheory.
Local Open Scope ring_scope.

Lemma jsumE (T : ringType) (xs : seq T) : jsum xs = \sum_(x <- xs) x.
Proof. by elim: xs => [|x xs IH]; rewrite ?big_nil ?big_cons //= IH. Qed.

Section Bins.
Variable T : realFieldType.

Lemma count_down n (p : pred nat) : (forall i j, (i <= j)%N -> p j -> p i) ->
  forall i, (i < n)%N -> p i = (i < count p (iota 0 n))%N.
Proof.
move=> Hp; elim: n => // n IH i Hi.
have -> : iota 0 n.+1 = iota 0 n ++ [:: n] by rewrite -addn1 iotaD.
rewrite count_cat /= addn0.
have Hc : (count p (iota 0 n) <= n)%N by rewrite -[X in (_ <= X)%N](size_iota 0 n) count_size.
case E: (p n) => /=.
  have Ea : count p (iota 0 n) = n.
    apply/eqP; rewrite -{2}(size_iota 0 n) -all_count; apply/allP => j.
    by rewrite mem_iota add0n => /= Hj; apply: Hp E; apply: ltnW.
  by rewrite Ea addn1 Hi; apply: Hp E.
rewrite addn0; move: Hi; rewrite ltnS leq_eqVlt => /orP [/eqP ->|/IH //].
by rewrite E ltnNge Hc.
Qed.

Lemma bin_indexP B (x : T) b : (0 < B)%N -> (bin_index B x == b) = in_bin B b x.
Proof.
move=> HB; rewrite /bin_index /digitize /bin_boundaries count_map.
set p : pred nat := preim _ _; set k := count p _.
have HBr : (0 : T) < B%:R by rewrite ltr0n.
have Hp i j : (i <= j)%N -> p j -> p i.
  move=> Hij; rewrite /p /=; apply: le_trans.
  by rewrite ler_pdivr_mulr // mulfVK ?gt_eqF // ler_nat.
have Hk i : (i <= B)%N -> (i%:R / B%:R <= x) = (i < k)%N.
  by move=> Hi; rewrite /k -(count_down Hp).
have Hkb : (k <= B.+1)%N by rewrite /k (leq_trans (count_size _ _)) // size_iota.
rewrite /in_bin; case: (ltnP b B) => Hb /=; last first.
  apply/negbTE; rewrite neq_ltn; apply/orP; left.
  by rewrite (leq_ltn_trans (geq_minr _ _)) // prednK.
rewrite (Hk b (ltnW Hb)) ltNge (Hk b.+1 Hb) -leqNgt.
clearbody k; clear Hk Hp p HBr; case: B HB Hb Hkb => //= B' _ Hb Hkb.
rewrite ltnS in Hb.
case: k Hkb => [|k] /= Hkb.
  rewrite min0n ltn0 orbF leq0n orbT andbT eq_sym; by rewrite eq_sym.
rewrite !ltnS; case: (leqP k B') => H.
  apply/eqP/andP => [<-|[/orP H1 /orP H2]].
    by rewrite leqnn !orbT.
  apply/eqP; rewrite eqn_leq; apply/andP; split.
    by case: H2 => [/eqP ->|].
  by case: H1 => [/eqP ->|].
apply/eqP/andP => [<-|[/orP H1 /orP H2]].
  by rewrite eqxx (ltnW H) orbT.
case: H2 => [/eqP -> //|H2]; by have := leq_trans H (leq_trans H2 Hb); rewrite ltnn.
Qed.

Lemma in_bin_ex B (x : T) : (0 < B)%N -> exists b, (b < B)%N /\ forall b', in_bin B b' x = (b' == b).
Proof.
move=> HB; exists (bin_index B x); split; last by move=> b'; rewrite -bin_indexP // eq_sym.
by have := bin_indexP x (bin_index B x) HB; rewrite eqxx => /esym /and3P [].
Qed.

Lemma size_add_at (xs : seq T) i v : size (add_at xs i v) = size xs.
Proof. by elim: xs i => [|x xs IH] [|i] //=; rewrite IH. Qed.
Lemma nth_add_at (xs : seq T) i v j : (j < size xs)%N ->
  nth 0 (add_at xs i v) j = nth 0 xs j + (if i == j then v else 0).
Proof.
elim: xs i j => [|x xs IH] [|i] [|j] //= H; rewrite ?addr0 //.
by rewrite IH.
Qed.
Lemma scatter_addE n idx vals : size (@scatter_add T n idx vals) = n /\
  forall b, (b < n)%N -> nth 0 (scatter_add n idx vals) b = \sum_(iv <- zip idx vals | iv.1 == b) iv.2.
Proof.
rewrite /scatter_add.
have G (l : seq (nat * T)) (acc : seq T) : size (foldl (fun acc iv => add_at acc iv.1 iv.2) acc l) = size acc /\
    forall b, (b < size acc)%N -> nth 0 (foldl (fun acc iv => add_at acc iv.1 iv.2) acc l) b =
      nth 0 acc b + \sum_(iv <- l | iv.1 == b) iv.2.
  elim: l acc => [|[i v] l IH] acc /=; first by split=> // b _; rewrite big_nil addr0.
  have [-> H] := IH (add_at acc i v); rewrite size_add_at; split=> // b Hb.
  rewrite H ?size_add_at // nth_add_at // big_cons /=; case: (i == b); rewrite ?addr0 //.
  by rewrite addrA.
have [-> H] := G (zip idx vals) (nseq n 0); rewrite size_nseq; split=> // b Hb.
by rewrite H ?size_nseq // nth_nseq Hb add0r.
Qed.

Variables (conf corr : seq T) (B : nat).
Hypotheses (HB : (0 < B)%N) (Hsz : size conf = size corr).
Notation samples := (zip conf corr).

Lemma scatter_binE (f : T * T -> T) (vals : seq T) :
  vals = map f samples ->
  scatter_add B (map (bin_index B) conf) vals = [seq bin_sum f B b samples | b <- iota 0 B].
Proof.
move=> ->; have [Es H] := scatter_addE B (map (bin_index B) conf) (map f samples).
apply: (@eq_from_nth _ 0); first by rewrite Es size_map size_iota.
move=> b; rewrite Es => Hb; rewrite H // (nth_map 0%N) ?size_iota // nth_iota // add0n /bin_sum.
have -> : map (bin_index B) conf = map (fun s => bin_index B s.1) samples.
  by rewrite -[in LHS](@unzip1_zip _ _ conf corr) ?Hsz // /unzip1 -map_comp.
rewrite zip_map big_map; apply: eq_bigl => s /=; exact: bin_indexP.
Qed.

Lemma bin_metricsE :
  calculate_bin_metrics conf corr B =
  Ok ([seq (bin_count B b samples)%:R / (size conf)%:R | b <- iota 0 B],
      [seq bin_mean fst B b samples | b <- iota 0 B],
      [seq bin_mean snd B b samples | b <- iota 0 B]).
Proof.
rewrite /calculate_bin_metrics Hsz eqxx /=.
have Ec : [seq (1 : T) | _ <- conf] = map (fun _ => 1) samples.
  by rewrite -[in LHS](@unzip1_zip _ _ conf corr) ?Hsz // /unzip1 -map_comp.
have cnt b : bin_sum (fun=> 1) B b samples = (bin_count B b samples)%:R.
  by rewrite /bin_sum /bin_count -sum1_count natr_sum.
rewrite (scatter_binE Ec) (@scatter_binE fst) ?(@scatter_binE snd) //; last 2 first.
- by rewrite -[RHS]/(unzip2 _) unzip2_zip ?Hsz.
- by rewrite -[RHS]/(unzip1 _) unzip1_zip ?Hsz.
have tot : jsum [seq bin_sum (fun=> 1) B b samples | b <- iota 0 B] = (size conf)%:R :> T.
  rewrite jsumE big_map (eq_bigr (fun b => \sum_(s <- samples) (if in_bin B b s.1 then 1 else 0))); last first.
    by move=> b _; rewrite /bin_sum big_mkcond.
  rewrite exchange_big /= (eq_bigr (fun=> 1)).
    by rewrite big_const_seq count_predT iter_addr_0 size_zip -Hsz minnn.
  move=> s _; have [b [Hb E]] := in_bin_ex s.1 HB.
  have -> : \sum_(i <- iota 0 B) (if in_bin B i s.1 then 1 else 0) =
      (count (fun i => in_bin B i s.1) (iota 0 B))%:R :> T.
    by rewrite -big_mkcond -sum1_count natr_sum.
  by rewrite (@eq_count _ _ (pred1 b) E) count_uniq_mem ?iota_uniq // mem_iota Hb.
rewrite tot; congr (Ok (_, _, _)).
- by rewrite -map_comp Hsz; apply: eq_map => b /=; rewrite cnt.
- apply: (@eq_from_nth _ 0); first by rewrite !size_map size_zip !size_map minnn.
  move=> b; rewrite size_map size_zip !size_map minnn size_iota => Hb.
  rewrite (nth_map (0, 0)) ?size_zip ?size_map ?size_iota ?minnn // nth_zip ?size_map //=.
  rewrite !(nth_map 0%N) ?size_iota // nth_iota // add0n cnt /bin_mean ltr0n lt0n.
  by case: eqP.
- apply: (@eq_from_nth _ 0); first by rewrite !size_map size_zip !size_map minnn.
  move=> b; rewrite size_map size_zip !size_map minnn size_iota => Hb.
  rewrite (nth_map (0, 0)) ?size_zip ?size_map ?size_iota ?minnn // nth_zip ?size_map //=.
  rewrite !(nth_map 0%N) ?size_iota // nth_iota // add0n cnt /bin_mean ltr0n lt0n.
  by case: eqP.
Qed.

Lemma bin_mean_diff b : bin_mean snd B b samples - bin_mean fst B b samples =
  bin_mean (fun s => s.2 - s.1) B b samples.
Proof.
rewrite /bin_mean; case: eqP => _; first by rewrite subr0.
by rewrite -mulrBl /bin_sum sumrB.
Qed.

Lemma abs_diffsE : [seq `|ac.1 - ac.2| | ac <- zip [seq bin_mean snd B b samples | b <- iota 0 B]
      [seq bin_mean fst B b samples | b <- iota 0 B]] =
  [seq `|bin_mean (fun s => s.2 - s.1) B b samples| | b <- iota 0 B].
Proof.
by rewrite zip_map -map_comp; apply: eq_map => b /=; rewrite bin_mean_diff.
Qed.

Lemma bin_sum_mean f b : bin_sum f B b samples = (bin_count B b samples)%:R * bin_mean f B b samples.
Proof.
rewrite /bin_mean; case: eqP => [E|/eqP E]; last by rewrite mulrCA mulfV ?mulr1 // pnatr_eq0.
rewrite mulr0 /bin_sum big1_seq // => s /andP [Hs Hin]; exfalso.
by move: E => /eqP; rewrite -leqn0 leqNgt -has_count => /hasPn /(_ s Hin); rewrite Hs.
Qed.

Lemma eceE : expected_calibration_error conf corr B =
  Ok ((\sum_(b <- iota 0 B) `|bin_sum (fun s => s.2 - s.1) B b samples|) / (size conf)%:R).
Proof.
rewrite /expected_calibration_error /calibration_error bin_metricsE /= abs_diffsE; congr Ok.
rewrite zip_map -map_comp jsumE big_map big_distrl /=; apply: eq_bigr => b _.
by rewrite bin_sum_mean normrM ger0_norm ?ler0n // mulrAC.
Qed.

Lemma jmax_ge (xs : seq T) x : x \in xs -> x <= jmax xs.
Proof.
case: xs => //= y ys; elim: ys y => [|z zs IH] y /=; first by rewrite inE => /eqP ->.
rewrite !inE le_maxr => /or3P [H|/eqP ->|H]; last 2 first.
- by rewrite lexx.
- by rewrite (IH y) ?orbT // inE H orbT.
- by rewrite (IH y) ?orbT // inE H.
Qed.
Lemma jmax_in (xs : seq T) : xs <> [::] -> jmax xs \in xs.
Proof.
case: xs => //= y ys _; elim: ys y => [|z zs IH] y /=; first by rewrite mem_head.
case: (leP z (foldr Num.max y zs)) => _; last by rewrite !inE eqxx orbT.
by have := IH y; rewrite !inE => /orP [->//|->]; rewrite !orbT.
Qed.

Lemma mceE : maximum_calibration_error conf corr B =
  Ok (jmax [seq `|bin_mean (fun s => s.2 - s.1) B b samples| | b <- iota 0 B]).
Proof. by rewrite /maximum_calibration_error /calibration_error bin_metricsE /= abs_diffsE. Qed.

Lemma sum_bins f : \sum_(b <- iota 0 B) bin_sum f B b samples = \sum_(s <- samples) f s.
Proof.
rewrite (eq_bigr (fun b => \sum_(s <- samples) (if in_bin B b s.1 then f s else 0))); last first.
  by move=> b _; rewrite /bin_sum big_mkcond.
rewrite exchange_big /=; apply: eq_bigr => s _.
have [b [Hb E]] := in_bin_ex s.1 HB.
rewrite -big_mkcond (eq_bigl (pred1 b)) // -big_filter filter_pred1_uniq ?iota_uniq ?mem_iota //.
by rewrite big_seq1.
Qed.
End Bins.

Section Classes.
Variable T : realFieldType.

Lemma argmax_fromP (xs pre : seq T) best :
  first_max pre best -> first_max (pre ++ xs) (argmax_from (size pre) best (nth 0 pre best) xs).
Proof.
elim: xs pre best => [|x xs IH] pre best H /=; first by rewrite cats0.
case: H => H1 H2 H3.
have nl j : (j < size pre)%N -> nth 0 (rcons pre x) j = nth 0 pre j by move=> Hj; rewrite nth_rcons Hj.
have nx : nth 0 (rcons pre x) (size pre) = x by rewrite nth_rcons ltnn eqxx.
rewrite -cat_rcons -(size_rcons pre x).
case: (ltP (nth 0 pre best) x) => L.
  have := IH (rcons pre x) (size pre); rewrite nx; apply; split; rewrite ?size_rcons ?ltnSn //.
    move=> j; rewrite ltnS leq_eqVlt => /orP [/eqP ->|Hj]; first by rewrite nx.
    by rewrite nx nl // (le_trans (H2 j Hj)) // ltW.
  by move=> j Hj; rewrite nx nl // (le_lt_trans (H2 j Hj)).
have := IH (rcons pre x) best; rewrite (nl best H1); apply; split; rewrite ?size_rcons; first exact: ltnW.
  move=> j; rewrite ltnS leq_eqVlt => /orP [/eqP ->|Hj]; first by rewrite nx nl.
  by rewrite !nl // H2.
by move=> j Hj; rewrite !nl ?H3 // (ltn_trans Hj H1).
Qed.
Lemma argmaxP (xs : seq T) : xs <> [::] -> first_max xs (argmax xs).
Proof.
case: xs => // x xs _; apply: (@argmax_fromP xs [:: x] 0).
by split=> // -[|j] //=; rewrite ltnS ltn0.
Qed.
Lemma first_max_uniq (xs : seq T) a b : first_max xs a -> first_max xs b -> a = b.
Proof.
move=> [a1 a2 a3] [b1 b2 b3]; case: (ltngtP a b) => // H.
  by have := le_lt_trans (a2 b b1) (b3 a H); rewrite ltxx.
by have := le_lt_trans (b2 a a1) (a3 b H); rewrite ltxx.
Qed.

Section TopK.
Variable xs : seq T.
Let leT := fun i j : nat => nth 0 xs j <= nth 0 xs i.
Let lt := fun i j : nat => leT i j && (leT j i ==> (i < j)%N).
Lemma lt_trans_ : transitive lt.
Proof.
move=> b a c /= /andP [h1 h2] /andP [h3 h4]; rewrite /leT in h1 h2 h3 h4 *; apply/andP; split.
  exact: le_trans h3 h1.
apply/implyP => h5.
by apply: ltn_trans (implyP h2 _) (implyP h4 _); [apply: le_trans h5 h3|apply: le_trans h1 h5].
Qed.
Lemma lt_irr i : lt i i = false.
Proof. by rewrite /lt ltnn /leT lexx. Qed.
Lemma lt_asym i j : lt i j -> lt j i = false.
Proof. by move=> H; apply/negP => H'; have : lt i i := lt_trans_ H H'; rewrite lt_irr. Qed.
Lemma sort_lt : sorted lt (sort leT (iota 0 (size xs))).
Proof.
apply: sort_stable; first by move=> i j; apply: le_total.
  by move=> ? ? ?; apply: ltn_trans.
exact: iota_ltn_sorted.
Qed.
Lemma index_count (s : seq nat) t : uniq s -> sorted lt s -> t \in s -> index t s = count (lt^~ t) s.
Proof.
rewrite (sorted_pairwise lt_trans_); elim: s => //= x s IH /andP [Hx Hu] /andP [Ha Hp].
rewrite inE eq_sym; case: eqP => [E|_] /=.
  move=> _; rewrite -E (lt_irr x) add0n; apply/esym/eqP; rewrite -leqn0 leqNgt -has_count.
  by apply/hasPn => j Hj; rewrite lt_asym //; apply: (allP Ha).
by move=> Ht; rewrite IH // (allP Ha).
Qed.
Lemma rank_countE t : count (lt^~ t) (iota 0 (size xs)) = rank_before xs t.
Proof.
apply: eq_count => j; rewrite /lt /leT.
case: (ltgtP (nth 0 xs t) (nth 0 xs j)) => //=.
Qed.
Lemma mem_top_k k t : (t \in top_k_indices k xs) = (t < size xs)%N && (rank_before xs t < k)%N.
Proof.
rewrite /top_k_indices -/leT.
case: (boolP (t < size xs)%N) => Ht /=; last first.
  by apply/negbTE; apply: contra Ht => /mem_take; rewrite mem_sort mem_iota.
have Hin : t \in sort leT (iota 0 (size xs)) by rewrite mem_sort mem_iota.
rewrite in_take // index_count ?sort_uniq ?iota_uniq ?sort_lt // -rank_countE.
congr (_ < _)%N; apply/permP; by rewrite perm_sort.
Qed.
Lemma top_k_uniq k : uniq (top_k_indices k xs).
Proof. by rewrite take_uniq // sort_uniq iota_uniq. Qed.
Lemma take_top_k k m : take k (top_k_indices m xs) = top_k_indices (minn k m) xs.
Proof.
rewrite /top_k_indices; case: (leqP k m) => H; first by rewrite take_take.
by rewrite take_oversize // size_take; case: ltnP => H2; [exact: ltnW | apply: leq_trans H2 (ltnW H)].
Qed.
Lemma rank_lt t : (t < size xs)%N -> (rank_before xs t < size xs)%N.
Proof.
move=> Ht; rewrite -rank_countE -{2}(size_iota 0 (size xs)) ltn_neqAle count_size andbT.
rewrite -all_count; apply/allPn; exists t; first by rewrite mem_iota.
by rewrite lt_irr.
Qed.
End TopK.
End Classes.
