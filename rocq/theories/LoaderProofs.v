(** Proofs about the batch reductions and loader operators. *)
From mathcomp Require Import all_ssreflect all_algebra.
From Verif Require Import Base PyTree TreeSpec PyTreeProofs BasisProofs StackProofs Mv MvProofs TreeOpsProofs Loader.
Set Implicit Arguments.
Unset Strict Implicit.
Unset Printing Implicit Defensive.
Import GRing.Theory.

Section Loop.
Variables (B D Y Z S : Type) (function : D -> res Y) (transform : B -> res D).
Variable (reduce : Y -> option S -> res (Z * S)).

(** the batch results *)
Definition batch_res (b : B) : res Y := let! d := transform b in function d.

Lemma batch_loop_cons b bs r s :
  batch_loop function transform reduce (b :: bs) r s =
  (let! y := batch_res b in let! p := reduce y s in
   batch_loop function transform reduce bs (Some p.1) (Some p.2)).
Proof. by rewrite /batch_res /=; case: (transform b). Qed.

Lemma process_empty : process_batches function transform reduce [::] = Raise ValueError.
Proof. by []. Qed.

(** An invariant over the batches already consumed. *)
Lemma loop_inv (I : seq Y -> Z -> S -> Prop) (ys0 : seq Y) bs ys z s :
  I ys0 z s ->
  (forall ys' y z' s', I ys' z' s' -> (exists r, ys0 ++ ys = ys' ++ y :: r) ->
     exists p, reduce y (Some s') = Ok p /\ I (rcons ys' y) p.1 p.2) ->
  mapM batch_res bs = Ok ys ->
  exists z' s', batch_loop function transform reduce bs (Some z) (Some s) = Ok (Some z')
     /\ I (ys0 ++ ys) z' s'.
Proof.
elim: bs ys0 ys z s => [|b bs IH] ys0 ys z s H0 Hstep.
  by case=> <-; exists z, s; rewrite cats0.
rewrite batch_loop_cons /=.
case E: (batch_res b) => [y|] //=; case E2: (mapM _ bs) => [ys'|] //= [Eys].
have [|p [Ep Ip]] := Hstep ys0 y z s H0; first by exists ys'; rewrite -Eys.
rewrite Ep /= -Eys -cat_rcons; apply: IH => //.
move=> ys1 y1 z1 s1 I1 [r Er]; apply: (Hstep _ _ _ _ I1); exists r.
by rewrite -Eys -cat_rcons.
Qed.

Lemma process_inv (I : seq Y -> Z -> S -> Prop) bs ys :
  (0 < size bs)%N ->
  (forall y, (exists r, ys = y :: r) -> exists p, reduce y None = Ok p /\ I [:: y] p.1 p.2) ->
  (forall ys' y z' s', I ys' z' s' -> (exists r, ys = ys' ++ y :: r) ->
     exists p, reduce y (Some s') = Ok p /\ I (rcons ys' y) p.1 p.2) ->
  mapM batch_res bs = Ok ys ->
  exists z s, process_batches function transform reduce bs = Ok z /\ I ys z s.
Proof.
case: bs => // b bs _ H1 Hstep; rewrite /process_batches batch_loop_cons /=.
case E: (batch_res b) => [y|] //=; case E2: (mapM _ bs) => [ys'|] //= [Eys].
have [|p [Ep Ip]] := H1 y; first by exists ys'.
rewrite Ep /=.
have [|z [s [Ez Iz]]] := @loop_inv I [:: y] bs ys' p.1 p.2 Ip _ E2.
  by move=> ys1 y1 z1 s1 I1 [r Er]; apply: (Hstep _ _ _ _ I1); exists r; rewrite -Eys -Er.
by rewrite Ez; exists z, s; rewrite -Eys.
Qed.

(** An error in a batch stops the loop with that error, later batches are not looked at. *)
Lemma batch_error bs b bs' r s e :
  (exists ys, mapM batch_res bs = Ok ys) -> (forall y st, exists p, reduce y st = Ok p) ->
  batch_res b = Raise e ->
  batch_loop function transform reduce (bs ++ b :: bs') r s = Raise e.
Proof.
move=> [ys H] Hr Hb; elim: bs ys r s H => [|c bs IH] ys r s.
  by move=> _; rewrite cat0s batch_loop_cons Hb.
rewrite cat_cons batch_loop_cons /=; case: (batch_res c) => //= y.
case E: (mapM _ bs) => [zs|] //= _.
by have [p ->] := Hr y s; rewrite /= (IH zs).
Qed.
End Loop.

Section Red.
Local Open Scope ring_scope.
Variable R : fieldType.
Notation ptree := (tree (arr R)).
Notation nolf := (Arr [::] [::] : arr R).

Lemma tree_is_self (t : ptree) : wf_tree t -> tree_is t (nth 0 (entries t)) t.
Proof.
by move=> W; split=> //; rewrite -(size_entries W) mkseq_nth.
Qed.

Lemma tree_is_nth (t0 t : ptree) : wf_tree t -> same_layout t0 t -> tree_is t0 (nth 0 (entries t)) t.
Proof.
by move=> W S; split=> //; rewrite (nentries_same S) -(size_entries W) mkseq_nth.
Qed.

Lemma tree_is_eq (t0 : ptree) f g t : (forall i, (i < nentries t0)%N -> f i = g i) ->
  tree_is t0 f t -> tree_is t0 g t.
Proof.
move=> H [S W E]; split=> //; rewrite E; apply/eq_in_map => i.
by rewrite mem_iota add0n => /= /H.
Qed.

Lemma tree_is_fun (t0 : ptree) f t u : tree_is t0 f t -> tree_is t0 f u -> t = u.
Proof.
move=> [S W E] [S' W' E']; apply: entries_inj => //; last by rewrite E E'.
exact: same_layout_trans (same_layout_sym S) S'.
Qed.

Lemma tree_add_is (t0 : ptree) f g t u : tree_is t0 f t -> tree_is t0 g u ->
  exists w, tree_add t u = Ok w /\ tree_is t0 (fun i => f i + g i) w.
Proof.
move=> [S W E] [S' W' E'].
have [w [Ew Sw Ww Hw]] := tree_addP W W' (same_layout_trans (same_layout_sym S) S').
exists w; split=> //; split=> //; first exact: same_layout_trans S Sw.
rewrite Hw E E' /mkseq zip_map -map_comp; exact: eq_map.
Qed.

(** ** reduce_add *)
Lemma reduce_addP (B D : Type) (function : D -> res ptree) (transform : B -> res D) bs ts t0 :
  (0 < size bs)%N -> mapM (batch_res function transform) bs = Ok ts ->
  (forall i, (i < size ts)%N -> same_layout t0 (nth t0 ts i) /\ wf_tree (nth t0 ts i)) ->
  exists r, process_batches function transform (@reduce_add R) bs = Ok r
    /\ tree_is t0 (fun j => \sum_(t <- ts) nth 0 (entries t) j) r.
Proof.
move=> H0 Hts Hok.
have Hin (ys : seq ptree) y r : ts = ys ++ y :: r -> tree_is t0 (nth 0 (entries y)) y.
  move=> E; have := Hok (size ys); rewrite E size_cat /= -[X in (X < _)%N]addn0 ltn_add2l.
  by rewrite nth_cat ltnn subnn /= => /(_ isT) [S W]; apply: tree_is_nth.
pose I (ys : seq ptree) (z s : ptree) :=
  z = s /\ tree_is t0 (fun j => \sum_(t <- ys) nth 0 (entries t) j) s.
have [|||z [s [Ez [Ezs Is]]]] :=
  @process_inv B D ptree ptree ptree function transform (@reduce_add R) I bs ts H0.
- move=> y [r E]; exists (y, y); split=> //; split=> //=.
  by apply: tree_is_eq (Hin [::] y r E) => i _; rewrite big_seq1.
- move=> ys y z s [_ Is] [r E] /=.
  have [w [-> Hw]] := tree_add_is (Hin ys y r E) Is.
  exists (w, w); split=> //; split=> //=; apply: tree_is_eq Hw => i _.
  by rewrite -cats1 big_cat big_seq1 addrC.
- exact: Hts.
by exists s; rewrite Ez Ezs.
Qed.

(** ** stacked results *)
Lemma mkseqD (T : Type) (f : nat -> T) m n :
  mkseq f (m + n) = mkseq f m ++ mkseq (fun k => f (m + k)%N) n.
Proof.
rewrite /mkseq iotaD map_cat add0n; congr (_ ++ _).
by rewrite -[X in iota X n]addn0 iotaDl -map_comp.
Qed.

Lemma flatten_sums (U : Type) (us : seq U) (L : U -> seq (seq R)) (ps : seq nat) :
  all (fun u => map size (L u) == ps) us ->
  flatten [seq mkseq (fun k => \sum_(u <- us) nth 0 (nth [::] (L u) j) k) (nth 0%N ps j)
          | j <- iota 0 (size ps)] =
  mkseq (fun k => \sum_(u <- us) nth 0 (flatten (L u)) k) (sumn ps).
Proof.
elim: ps L => [|p ps IH] L H; first by [].
rewrite /= mkseqD; congr (_ ++ _).
  have Hh : {in iota 0 p, forall k, \sum_(u <- us) nth 0 (nth [::] (L u) 0) k =
       \sum_(u <- us) nth 0 (flatten (L u)) k}.
    move=> k; rewrite mem_iota add0n => /= Hk.
    elim: us {IH} H => [|u us IHu] /=; first by rewrite !big_nil.
    case/andP=> Hu Hus; rewrite !big_cons IHu //; congr (_ + _).
    case: (L u) Hu => //= x xs /eqP [Ex _].
    by rewrite nth_cat Ex Hk.
  exact/eq_in_map.
transitivity (mkseq (fun k => \sum_(u <- us) nth 0 (flatten (behead (L u))) k) (sumn ps)).
  rewrite -(IH (fun u => behead (L u))); last first.
    by apply: sub_all H => u; case: (L u) => //= x xs /eqP [_ ->].
  rewrite -[X in iota X (size ps)]addn0 iotaDl -map_comp; congr flatten.
  apply: eq_map => j /=; apply: eq_map => k; apply: eq_bigr => u _.
  by rewrite nth_behead.
apply: eq_map => k; elim: us {IH} H => [|u us IHu] /=; first by rewrite !big_nil.
case/andP=> Hu Hus; rewrite !big_cons IHu //; congr (_ + _).
case: (L u) Hu => //= x xs /eqP [Ex _].
by rewrite nth_cat Ex ltnNge leq_addr /= addKn.
Qed.

Lemma rows_ok_cat (t0 : ptree) s1 s2 : rows_ok t0 (s1 ++ s2) <-> rows_ok t0 s1 /\ rows_ok t0 s2.
Proof.
split.
- move=> H; split=> i Hi.
  + by have := H i; rewrite size_cat nth_cat Hi ltn_addr // => /(_ isT).
  + by have := H (size s1 + i)%N; rewrite size_cat nth_cat ltn_add2l addKn [(_ + _ < _)%N]ltnNge leq_addr /= => /(_ Hi).
- move=> [H1 H2] i; rewrite size_cat nth_cat => Hi; case: ltnP => H; first exact: H1.
  by apply: H2; rewrite -(ltn_add2l (size s1)) subnKC.
Qed.

Lemma rows_ok_nth (t0 : ptree) rows k : rows_ok t0 (flatten rows) -> rows_ok t0 (nth [::] rows k).
Proof.
elim: rows k => [|r rows IH] [|k] //= /rows_ok_cat [H1 H2] //; exact: IH.
Qed.

Lemma rows_ok_take (t0 : ptree) rows k : rows_ok t0 (flatten rows) -> rows_ok t0 (flatten (take k rows)).
Proof.
by elim: rows k => [|r rows IH] [|k] //= /rows_ok_cat [H1 H2]; apply/rows_ok_cat; split=> //; apply: IH.
Qed.

Lemma stackE t0 ts S : rows_ok t0 ts -> (0 < size ts)%N -> stack_trees ts = Ok S ->
  treedef S = treedef t0 /\
  leaves S = [seq Arr (size ts :: nth [::] (map (@ashape R) (leaves t0)) j)
                   (flatten [seq adata (nth nolf (leaves u) j) | u <- ts])
             | j <- iota 0 (size (leaves t0))].
Proof.
move=> H H0 E.
have [||S' [E' D _ _ [_ L]]] := @stack_treesP R ts t0 H0.
- by move=> i /H [].
- by move=> i /H [].
by move: E'; rewrite E => -[->]; split=> //; rewrite L.
Qed.

Lemma stack_ok (t0 : ptree) ts : rows_ok t0 ts -> (0 < size ts)%N -> exists S, stack_trees ts = Ok S.
Proof.
move=> H H0.
have [||S' [E' _ _ _ _]] := @stack_treesP R ts t0 H0.
- by move=> i /H [].
- by move=> i /H [].
by exists S'.
Qed.

Lemma rows_ok_all (t0 : ptree) ts : rows_ok t0 ts ->
  all (fun u => map size (map (@adata R) (leaves u)) == map prodn (map (@ashape R) (leaves t0))) ts.
Proof.
move=> H; apply/(all_nthP t0) => i Hi; have [S W] := H i Hi.
by rewrite wf_sizes //; case: S => _ ->.
Qed.

Lemma nentriesE (t : ptree) : nentries t = sumn (map prodn (map (@ashape R) (leaves t))).
Proof. by rewrite /nentries -map_comp. Qed.

(** sum over the rows of a stacked tree *)
Lemma stack_sum (k : bool) (f : arr R -> res (arr R)) t0 ts S :
  (forall n s d, f (Arr (n :: s) d) = sum_axis0 k (Arr (n :: s) d)) ->
  rows_ok t0 ts -> (0 < size ts)%N -> stack_trees ts = Ok S ->
  exists u, [/\ tmapM f S = Ok u, treedef u = treedef t0,
    map (@ashape R) (leaves u) =
      [seq if k then 1%N :: s else s | s <- map (@ashape R) (leaves t0)],
    wf_tree u &
    entries u = mkseq (fun j => \sum_(t <- ts) nth 0 (entries t) j) (nentries t0)].
Proof.
move=> Hf H H0 /(stackE H H0) [D L].
set shapes := map (@ashape R) (leaves t0) in L *.
pose ls := [seq Arr (if k then 1%N :: nth [::] shapes j else nth [::] shapes j)
   (mkseq (fun i => \sum_(u <- ts) nth 0 (nth [::] (map (@adata R) (leaves u)) j) i)
      (nth 0%N (map prodn shapes) j)) | j <- iota 0 (size (leaves t0))].
have Hm : mapM f (leaves S) = Ok ls.
  rewrite L /ls.
  have : forall j, j \in iota 0 (size (leaves t0)) -> (j < size (leaves t0))%N.
    by move=> j; rewrite mem_iota add0n.
  elim: (iota 0 _) => //= j js IH Hjs.
  have Hj := Hjs j (mem_head _ _).
  rewrite Hf /= IH /=; last by move=> j' Hj'; apply: Hjs; rewrite inE Hj' orbT.
  congr (Ok (Arr _ _ :: _)); rewrite (nth_map [::]) ?size_map //.
  apply/eq_in_map => i; rewrite mem_iota add0n => /= Hi.
  rewrite foldrE big_map (big_nth t0) /index_iota subn0.
  apply: eq_big_seq => u; rewrite mem_iota add0n => /= Hu.
  have Hp v : (v < size ts)%N ->
      size (nth [::] [seq adata (nth nolf (leaves w) j) | w <- ts] v) = prodn (nth [::] shapes j).
    move=> Hv; rewrite (nth_map t0) //.
    have [[_ Sh] W] := H v Hv.
    have Hj' : (j < size (leaves (nth t0 ts v)))%N.
      by rewrite -(size_map (@ashape R)) -Sh size_map.
    move/(all_nthP nolf): W => /(_ j Hj') /eqP ->.
    by rewrite /shapes Sh (nth_map nolf).
  rewrite nth_flatten_const ?size_map //; last first.
  rewrite (nth_map t0) // (nth_map nolf) //.
  have [[_ Sh] _] := H u Hu.
  by rewrite -(size_map (@ashape R)) -Sh size_map.
have [u [Eu Du Lu]] := tmapM_ok Hm; exists u.
have Hsh : shapes = [seq nth [::] shapes j | j <- iota 0 (size (leaves t0))].
  by rewrite -{1}(mkseq_nth [::] shapes) /mkseq size_map.
have Esh : map (@ashape R) (leaves u) = [seq if k then 1%N :: s else s | s <- shapes].
  by rewrite [in RHS]Hsh Lu /ls -!map_comp; apply: eq_map.
have Eda : map (@adata R) (leaves u) =
   [seq mkseq (fun i => \sum_(u <- ts) nth 0 (nth [::] (map (@adata R) (leaves u)) j) i)
      (nth 0%N (map prodn shapes) j) | j <- iota 0 (size (map prodn shapes))].
  by rewrite Lu /ls -map_comp !size_map; apply: eq_map.
split=> //; first by rewrite Du.
- rewrite /wf_tree; apply: sizes_wf; rewrite Eda Esh.
  move: {+}shapes Hsh => sh Hsh; rewrite -!map_comp [in RHS]Hsh -map_comp.
  have Hz : size sh = size (leaves t0) by rewrite Hsh size_map size_iota.
  rewrite size_map Hz.
  apply/eq_in_map => j; rewrite mem_iota add0n => /= Hj.
  by rewrite size_map size_iota (nth_map [::]) ?Hz //; case: (k); rewrite //= mul1n.
- by rewrite /entries Eda nentriesE; apply: (flatten_sums (rows_ok_all H)).
Qed.

(** ** the mean *)
Lemma stack_count t0 ts S : rows_ok t0 ts -> (0 < size ts)%N -> stack_trees ts = Ok S ->
  tmap (@batch_count R) S = tmap (fun _ => size ts) t0.
Proof.
move=> H H0 /(stackE H H0) [D L]; apply: leaves_inj; first by rewrite !treedef_tmap.
rewrite !leaves_tmap L -map_comp; elim: (leaves t0) 0%N => //= a l IH k.
by rewrite -(IH k.+1).
Qed.

Lemma div_is t0 f t N : (0 < N)%N -> tree_is t0 f t ->
  exists w, tmap2 (@div_count R) t (tmap (fun _ => N) t0) = Ok w
    /\ tree_is t0 (fun j => f j / N%:R) w.
Proof.
move=> HN [[D S] W E].
pose g (a : arr R) := arr_map (fun x => x / N%:R) a.
have Hl : map2M (@div_count R) (leaves t) (leaves (tmap (fun _ => N) t0)) = Ok (map g (leaves t)).
  rewrite leaves_tmap.
  have : size (leaves t) = size (leaves t0) by rewrite -(size_map (@ashape R)) -S size_map.
  elim: (leaves t) (leaves t0) => [|a l IH] [|b m] //= [Hs].
  by rewrite IH //; case: N HN {IH} @g => //.
have [|w [Ew Dw Lw]] := tmap2_ok _ Hl; first by rewrite treedef_tmap D.
exists w; split=> //.
have Ew' : w = tmap g t.
  by apply: leaves_inj; rewrite ?treedef_tmap ?leaves_tmap.
rewrite Ew'; split.
- exact: same_layout_trans (conj D S) (same_layout_tmap _ t).
- exact: wf_tmap.
- by rewrite entries_tmap_arr E /mkseq -map_comp.
Qed.

Lemma sumn_sizes (T : Type) (rows : seq (seq T)) : size (flatten rows) = sumn (map size rows).
Proof. by elim: rows => //= r rows IH; rewrite size_cat IH. Qed.

Lemma batch_sumE n s d : @batch_sum R (Arr (n :: s) d) = sum_axis0 false (Arr (n :: s) d).
Proof. by []. Qed.

Lemma count_add n1 n2 (t0 : ptree) :
  tmap2 (fun m n => Ok (m + n)%N) (tmap (fun _ : arr R => n1) t0) (tmap (fun _ : arr R => n2) t0)
  = Ok (tmap (fun _ => (n1 + n2)%N) t0).
Proof.
have [||w [-> Dw Lw]] := @tmap2_ok _ _ _ (fun m n => Ok (m + n)%N)
   (tmap (fun _ : arr R => n1) t0) (tmap (fun _ : arr R => n2) t0)
   (map (fun _ => (n1 + n2)%N) (leaves t0)).
- by rewrite !treedef_tmap.
- by rewrite !leaves_tmap; elim: (leaves t0) => //= a l ->.
by congr Ok; apply: leaves_inj; rewrite ?Dw ?Lw ?treedef_tmap ?leaves_tmap.
Qed.

Lemma online_mean_step (t0 : ptree) n (old : ptree) f ts batch :
  tree_is t0 f old -> rows_ok t0 ts -> (0 < size ts)%N -> stack_trees ts = Ok batch ->
  exists mean new_sum,
    reduce_online_mean batch (Some (tmap (fun _ => n) t0, old)) =
      Ok (mean, (tmap (fun _ => (n + size ts)%N) t0, new_sum)) /\
    tree_is t0 (fun j => f j + \sum_(t <- ts) nth 0 (entries t) j) new_sum /\
    tree_is t0 (fun j => (f j + \sum_(t <- ts) nth 0 (entries t) j) / (n + size ts)%:R) mean.
Proof.
move=> If Hr Hs Ey; rewrite /reduce_online_mean (stack_count Hr Hs Ey).
have [u [Eu Du Su Wu Hu]] := stack_sum (k := false) batch_sumE Hr Hs Ey.
have Iu : tree_is t0 (fun j => \sum_(t <- ts) nth 0 (entries t) j) u.
  by split=> //; split=> //; rewrite Su map_id.
rewrite Eu /= count_add /=; have [w [-> Iw]] := tree_add_is If Iu.
have H12 : (0 < n + size ts)%N by rewrite addn_gt0 Hs orbT.
rewrite /=; have [v [-> Iv]] := div_is H12 Iw.
by exists v, w.
Qed.

Section Rows.
Variables (B D : Type) (function : D -> res ptree) (transform : B -> res D).
Variables (bs : seq B) (rows : seq (seq ptree)) (ys : seq ptree) (t0 : ptree).
Hypothesis H0 : (0 < size bs)%N.
Hypothesis Hys : mapM (batch_res function transform) bs = Ok ys.
Hypothesis Hst : mapM (@stack_trees R) rows = Ok ys.
Hypothesis Hne : all (fun r => 0 < size r)%N rows.
Hypothesis Hok : rows_ok t0 (flatten rows).

Lemma rows_at ys' y r : ys = ys' ++ y :: r ->
  let k := size ys' in
  [/\ (k < size rows)%N, stack_trees (nth [::] rows k) = Ok y, (0 < size (nth [::] rows k))%N,
      rows_ok t0 (nth [::] rows k) & take k.+1 rows = rcons (take k rows) (nth [::] rows k)].
Proof.
move=> E k.
have Hk : (k < size rows)%N.
  by rewrite -(mapM_size Hst) E size_cat /= -[X in (X < _)%N]addn0 ltn_add2l.
split=> //.
- have := mapM_nth [::] t0 Hst Hk; rewrite E nth_cat ltnn subnn //.
- by move/(all_nthP [::]): Hne; apply.
- exact: rows_ok_nth.
- by rewrite (take_nth [::]).
Qed.

Lemma online_meanP :
  exists r c s, [/\ process_batches function transform (@reduce_online_mean R) bs = Ok r,
    tree_is t0 (fun j => (\sum_(t <- flatten rows) nth 0 (entries t) j) / (size (flatten rows))%:R) r,
    c = tmap (fun _ => size (flatten rows)) t0
    & tree_is t0 (fun j => \sum_(t <- flatten rows) nth 0 (entries t) j) s].
Proof.
pose I (zs : seq ptree) (z : ptree) (st : tree nat * ptree) :=
  let fr := flatten (take (size zs) rows) in
  [/\ (0 < size fr)%N, st.1 = tmap (fun _ => size fr) t0,
      tree_is t0 (fun j => \sum_(t <- fr) nth 0 (entries t) j) st.2 &
      tree_is t0 (fun j => (\sum_(t <- fr) nth 0 (entries t) j) / (size fr)%:R) z].
have [|||z [s [Ez [I0 I1 I2 I3]]]] :=
  @process_inv B D ptree ptree _ function transform (@reduce_online_mean R) I bs ys H0.
- move=> y [r E].
  have [Hk Ey Hs Hr Et] := rows_at (E : ys = [::] ++ y :: r); rewrite /= in Hk Ey Hs Hr Et.
  rewrite /reduce_online_mean (stack_count Hr Hs Ey).
  have [u [Eu Du Su Wu Hu]] := stack_sum (k := false) batch_sumE Hr Hs Ey.
  have Iu : tree_is t0 (fun j => \sum_(t <- nth [::] rows 0) nth 0 (entries t) j) u.
    by split=> //; split=> //; rewrite Su map_id.
  rewrite Eu /=; have [w [-> Iw]] := div_is Hs Iu.
  exists (w, (tmap (fun _ => size (nth [::] rows 0)) t0, u)); split=> //.
  by rewrite /I /= Et take0 /= cats0; split.
- move=> zs y z [c sm] [I0 I1 I2 I3] [r E] /=; rewrite /= in I0 I1 I2 I3.
  have [Hk Ey Hs Hr Et] := rows_at E.
  set k := size zs in Hk Ey Hs Hr Et I0 I1 I2 I3.
  rewrite /reduce_online_mean (stack_count Hr Hs Ey).
  have [u [Eu Du Su Wu Hu]] := stack_sum (k := false) batch_sumE Hr Hs Ey.
  have Iu : tree_is t0 (fun j => \sum_(t <- nth [::] rows k) nth 0 (entries t) j) u.
    by split=> //; split=> //; rewrite Su map_id.
  rewrite Eu /= I1; set n1 := size (flatten _); set n2 := size (nth _ _ _).
  have -> : tmap2 (fun m n => Ok (m + n)%N) (tmap (fun _ : arr R => n1) t0) (tmap (fun _ : arr R => n2) t0)
      = Ok (tmap (fun _ => (n1 + n2)%N) t0).
    have [||w [-> Dw Lw]] := @tmap2_ok _ _ _ (fun m n => Ok (m + n)%N)
       (tmap (fun _ : arr R => n1) t0) (tmap (fun _ : arr R => n2) t0)
       (map (fun _ => (n1 + n2)%N) (leaves t0)).
    + by rewrite !treedef_tmap.
    + by rewrite !leaves_tmap; elim: (leaves t0) => //= a l ->.
    by congr Ok; apply: leaves_inj; rewrite ?Dw ?Lw ?treedef_tmap ?leaves_tmap.
  rewrite /=; have [w [-> Iw]] := tree_add_is I2 Iu.
  have H12 : (0 < n1 + n2)%N by rewrite addn_gt0 I0.
  rewrite /=; have [v [-> Iv]] := div_is H12 Iw.
  exists (v, (tmap (fun _ => (n1 + n2)%N) t0, w)); split=> //.
  have Efr : flatten (take k.+1 rows) = flatten (take k rows) ++ nth [::] rows k.
    by rewrite Et -cats1 flatten_cat /= cats0.
  rewrite /I size_rcons -/k Efr size_cat -/n1 -/n2; split=> //=.
  + by apply: tree_is_eq Iw => i _; rewrite big_cat.
  + by apply: tree_is_eq Iv => i _; rewrite big_cat.
- exact: Hys.
move: I0 I1 I2 I3; rewrite (mapM_size Hst) take_size => I0 I1 I2 I3.
by exists z, s.1, s.2.
Qed.

(** ** sums over the leading axis *)
Lemma reduce_sumP :
  exists r, process_batches function transform (reduce_sum false) bs = Ok r /\
    tree_is t0 (fun j => \sum_(t <- flatten rows) nth 0 (entries t) j) r.
Proof.
pose I (zs : seq ptree) (z st : ptree) :=
  z = st /\ tree_is t0 (fun j => \sum_(t <- flatten (take (size zs) rows)) nth 0 (entries t) j) st.
have [|||z [s [Ez [I0 I1]]]] :=
  @process_inv B D ptree ptree _ function transform (reduce_sum false) I bs ys H0.
- move=> y [r E].
  have [Hk Ey Hs Hr Et] := rows_at (E : ys = [::] ++ y :: r); rewrite /= in Hk Ey Hs Hr Et.
  have [u [Eu Du Su Wu Hu]] := stack_sum (k := false) (fun _ _ _ => erefl) Hr Hs Ey.
  rewrite /reduce_sum Eu /=; exists (u, u); split=> //; split=> //=.
  rewrite Et take0 /= cats0; split=> //; split=> //; by rewrite Su map_id.
- move=> zs y z sm [_ I2] [r E] /=.
  have [Hk Ey Hs Hr Et] := rows_at E.
  have [u [Eu Du Su Wu Hu]] := stack_sum (k := false) (fun _ _ _ => erefl) Hr Hs Ey.
  have Iu : tree_is t0 (fun j => \sum_(t <- nth [::] rows (size zs)) nth 0 (entries t) j) u.
    by split=> //; split=> //; rewrite Su map_id.
  rewrite /reduce_sum Eu /=; have [w [-> Iw]] := tree_add_is I2 Iu.
  exists (w, w); split=> //; split=> //=.
  rewrite size_rcons Et -cats1 flatten_cat /= cats0.
  by apply: tree_is_eq Iw => i _; rewrite big_cat.
- exact: Hys.
by move: I1; rewrite (mapM_size Hst) take_size -I0 => I1; exists z.
Qed.

(** ** concatenation *)
Lemma concat_stack ts1 ts2 S1 S2 : rows_ok t0 ts1 -> rows_ok t0 ts2 ->
  (0 < size ts1)%N -> (0 < size ts2)%N ->
  stack_trees ts1 = Ok S1 -> stack_trees ts2 = Ok S2 ->
  concat S1 S2 = stack_trees (ts1 ++ ts2).
Proof.
move=> K1 K2 P1 P2 /(stackE K1 P1) [D1 L1] /(stackE K2 P2) [D2 L2].
have K : rows_ok t0 (ts1 ++ ts2) by apply/rows_ok_cat.
have P : (0 < size (ts1 ++ ts2))%N by rewrite size_cat addn_gt0 P1.
have [S ES] := stack_ok K P; have [DS LS] := stackE K P ES.
have Hl : map2M (@concat_axis0 R) (leaves S1) (leaves S2) = Ok (leaves S).
  rewrite L1 L2 LS; elim: (iota 0 _) => //= j js ->.
  by rewrite /concat_axis0 /= eqxx /= map_cat flatten_cat size_cat.
have [|w [Ew Dw Lw]] := tmap2_ok _ Hl; first by rewrite D1 D2.
by rewrite ES /concat Ew; congr Ok; apply: leaves_inj; rewrite ?Dw ?D1 ?DS.
Qed.

Lemma reduce_concatP :
  process_batches function transform (@reduce_concat R) bs = stack_trees (flatten rows).
Proof.
pose I (zs : seq ptree) (z st : ptree) :=
  z = st /\ stack_trees (flatten (take (size zs) rows)) = Ok st /\
  (0 < size (flatten (take (size zs) rows)))%N.
have [|||z [s [Ez [I0 [I1 I2]]]]] :=
  @process_inv B D ptree ptree _ function transform (@reduce_concat R) I bs ys H0.
- move=> y [r E].
  have [Hk Ey Hs Hr Et] := rows_at (E : ys = [::] ++ y :: r); rewrite /= in Hk Ey Hs Hr Et.
  by exists (y, y); split=> //; split=> //=; rewrite Et take0 /= cats0.
- move=> zs y z sm [_ [I1 I2]] [r E] /=.
  have [Hk Ey Hs Hr Et] := rows_at E.
  rewrite (concat_stack _ Hr I2 Hs I1 Ey); last exact: rows_ok_take.
  have Efr : flatten (take (size zs).+1 rows) = flatten (take (size zs) rows) ++ nth [::] rows (size zs).
    by rewrite Et -cats1 flatten_cat /= cats0.
  have [w Ew] : exists S, stack_trees (flatten (take (size zs) rows) ++ nth [::] rows (size zs)) = Ok S.
    rewrite -Efr; apply: (@stack_ok t0); first exact: rows_ok_take.
    by rewrite Efr size_cat addn_gt0 I2.
  rewrite Ew /=; exists (w, w); split=> //; split=> //=.
  by rewrite size_rcons Efr; split=> //; rewrite size_cat addn_gt0 I2.
- exact: Hys.
by move: I1; rewrite (mapM_size Hst) take_size Ez -I0.
Qed.
End Rows.

(** ** loader operators with [reduce_add] *)
Lemma collect_batches (B D : Type) (function : D -> res ptree) (transform : B -> res D) t0 F bs :
  (forall b, List.In b bs -> exists t, batch_res function transform b = Ok t /\ tree_is t0 (F b) t) ->
  exists ts, [/\ mapM (batch_res function transform) bs = Ok ts, rows_ok t0 ts
    & forall j, (j < nentries t0)%N -> \sum_(t <- ts) nth 0 (entries t) j = \sum_(b <- bs) F b j].
Proof.
elim: bs => [|b bs IH] H; first by exists [::]; split=> // j _; rewrite !big_nil.
have [|ts [E K Sm]] := IH; first by move=> c Hc; apply: H; right.
have [|t [Et [St Wt Ht]]] := H b; first by left.
exists (t :: ts); split.
- by rewrite /= Et /= E.
- by case=> [|i] //=; apply: K.
- by move=> j Hj; rewrite !big_cons Sm // Ht nth_mkseq.
Qed.

Lemma reduce_add_sum (B D : Type) (function : D -> res ptree) (transform : B -> res D) t0 F bs :
  bs <> [::] ->
  (forall b, List.In b bs -> exists t, batch_res function transform b = Ok t /\ tree_is t0 (F b) t) ->
  exists r, process_batches function transform (@reduce_add R) bs = Ok r
    /\ tree_is t0 (fun j => \sum_(b <- bs) F b j) r.
Proof.
move=> H0 H; have [ts [E K Sm]] := collect_batches H.
have [|r [Er Ir]] := reduce_addP _ E K; first by case: bs H0 {H E Sm}.
by exists r; split=> //; apply: tree_is_eq Ir.
Qed.

Lemma acts_is A (tin tout : ptree) mv v : acts_as A tin tout mv -> wf_tree v -> same_layout tin v ->
  exists t, mv v = Ok t /\
    tree_is tout (fun i => \sum_(0 <= j < nentries tin) A i j * nth 0 (entries v) j) t.
Proof. by move=> H W S; have [u [E Su Wu Eu]] := H v W S; exists u. Qed.

Section LM.
Variables (B D : Type) (mv : ptree -> D -> res ptree) (loader : seq B) (transform : B -> res D).
Variables (A : B -> nat -> nat -> R).
Notation rstate := ptree.

Lemma loader_call_acts tin tout : loader <> [::] ->
  (forall b, List.In b loader -> exists d, transform b = Ok d /\
      acts_as (A b) tin tout (fun v => mv v d)) ->
  acts_as (fun i j => \sum_(b <- loader) A b i j) tin tout
    (loader_call (new_loader_mv mv loader transform (@reduce_add R))).
Proof.
move=> H0 H v Wv Sv; rewrite /loader_call /=.
have [|b Hb|r [-> [Sr Wr Er]]] := @reduce_add_sum B D (fun d => mv v d) transform tout
   (fun b i => \sum_(0 <= j < nentries tin) A b i j * nth 0 (entries v) j) loader.
- exact: H0.
- by have [d [Ed Ad]] := H b Hb; rewrite /batch_res Ed /=; exact: (acts_is Ad).
exists r; split=> //; rewrite Er; apply: eq_map => i.
by rewrite exchange_big /=; apply: eq_bigr => j _; rewrite mulr_suml.
Qed.

Variables (m : loader_mv R B D rstate).
Hypothesis Hred : lm_reduce m = @reduce_add R.

(** the operator of one batch, seen through the wrapping transforms *)
Definition batch_op (d : D) (v : ptree) : res ptree :=
  let! v' := lm_input m v in let! r := lm_mv m v' d in lm_output m r.

Lemma lower_add (func : (ptree -> res ptree) -> res ptree) t0 (F : B -> nat -> R) :
  lm_loader m <> [::] ->
  (forall b, List.In b (lm_loader m) -> exists d, lm_transform m b = Ok d /\
     exists t, func (batch_op d) = Ok t /\ tree_is t0 (F b) t) ->
  exists r, lower_func func m = Ok r /\
    tree_is t0 (fun j => \sum_(b <- lm_loader m) F b j) r.
Proof.
move=> H0 H; rewrite /lower_func Hred; apply: reduce_add_sum => // b Hb.
by have [d [Ed [t [Et It]]]] := H b Hb; exists t; rewrite /batch_res Ed.
Qed.

Lemma loader_diagonal_acts t : lm_loader m <> [::] ->
  (forall b, List.In b (lm_loader m) -> exists d, lm_transform m b = Ok d /\
     acts_as (A b) t t (batch_op d)) ->
  loader_diagonal m (LTree t) =
  Ok (Leaf (Arr [:: nentries t] (mkseq (fun i => \sum_(b <- lm_loader m) A b i i) (nentries t)))).
Proof.
move=> H0 H; set n := nentries t.
pose t0 : ptree := Leaf (Arr [:: n] (nseq n 0)).
have N0 : nentries t0 = n by rewrite /nentries /= muln1 addn0.
have [||r [Er Ir]] := @lower_add (fun f => let! d := diagonal (Callable f) (LTree t) None in
       Ok (Leaf (Arr [:: size d] d))) t0 (fun b i => A b i i).
- exact: H0.
- move=> b Hb; have [d [Ed Ad]] := H b Hb; exists d; split=> //.
  exists (Leaf (Arr [:: n] (mkseq (fun i => A b i i) n))).
  rewrite (diagonal_acts _ Ad) /= size_mkseq; split=> //; split=> //.
  + by rewrite /wf_tree /= /wf_arr /= size_mkseq muln1 eqxx.
  + by rewrite N0 /entries /= cats0.
rewrite /loader_diagonal Er; congr Ok; apply: tree_is_fun Ir _; split=> //.
- by rewrite /wf_tree /= /wf_arr /= size_mkseq muln1 eqxx.
- by rewrite N0 /entries /= cats0.
Qed.

Lemma loader_dense_acts n k bs : (0 < n)%N -> lm_loader m <> [::] ->
  (forall b, List.In b (lm_loader m) -> exists d, lm_transform m b = Ok d /\
     acts_as (A b) (Leaf (Arr [:: n] (nseq n 0))) (Leaf (Arr [:: k] (nseq k 0))) (batch_op d)) ->
  loader_to_dense m (LInt R n) bs =
  Ok (Leaf (Arr [:: k; n] (flatten [seq [seq \sum_(b <- lm_loader m) A b j i | i <- iota 0 n]
                                   | j <- iota 0 k]))).
Proof.
move=> Hn H0 H.
pose t0 : ptree := Leaf (Arr [:: k; n] (nseq (k * n) 0)).
have N0 : nentries t0 = (k * n)%N by rewrite /nentries /= muln1 addn0.
have Hmk (g : nat -> nat -> R) : tree_is t0 (fun q => g (q %/ n)%N (q %% n)%N)
   (Leaf (Arr [:: k; n] (flatten [seq [seq g j i | i <- iota 0 n] | j <- iota 0 k]))).
  have Hsz : size (flatten [seq [seq g j i | i <- iota 0 n] | j <- iota 0 k]) = (k * n)%N.
    by rewrite size_flatten /shape -map_comp (@eq_map _ _ _ (fun=> n)) ??sumn_nseq;
      [elim: (k) 0%N => //= q IH s; rewrite IH|move=> j /=; rewrite size_map size_iota].
  split=> //; first by rewrite /wf_tree /= /wf_arr /= Hsz muln1 eqxx.
  rewrite N0 /entries /= cats0; apply: (@eq_from_nth _ 0); rewrite Hsz ?size_mkseq //.
  move=> q Hq; rewrite nth_mkseq //.
  have Hj : (q %/ n < k)%N by rewrite ltn_divLR.
  have Hi : (q %% n < n)%N by rewrite ltn_mod.
  rewrite [in LHS](divn_eq q n) (@nth_flatten_const _ _ _ n) ?size_map ?size_iota //; last first.
    by move=> j Hj'; rewrite (nth_map 0%N) ?size_iota // size_map size_iota.
  by rewrite !(nth_map 0%N) ?size_map ?size_iota // !nth_iota.
have [||r [Er Ir]] := @lower_add (fun f => to_dense f (LInt R n) bs) t0
     (fun b q => A b (q %/ n)%N (q %% n)%N).
- exact: H0.
- move=> b Hb; have [d [Ed Ad]] := H b Hb; exists d; split=> //.
  by rewrite (to_dense_acts_int _ Hn Ad); eexists; split; [by []|exact: (Hmk (A b))].
rewrite /loader_to_dense Er; congr Ok.
exact: tree_is_fun Ir (Hmk (fun j i => \sum_(b <- lm_loader m) A b j i)).
Qed.
End LM.

(** wrapping *)
Lemma wrap_loader_call (B D St : Type) (m : loader_mv R B D St) fi fo v :
  loader_call (wrap_loader m fi fo) v =
  (let! v' := app_opt fi v in let! r := loader_call m v' in app_opt fo r).
Proof.
rewrite /loader_call /=; case: (app_opt fi v) => //= v'; case: (lm_input m v') => //= v''.
by case: (process_batches _ _ _ _).
Qed.

Lemma wrap_batch_op (B D : Type) (m : loader_mv R B D ptree) fi fo d v :
  batch_op (wrap_loader m fi fo) d v =
  (let! v' := app_opt fi v in let! r := batch_op m d v' in app_opt fo r).
Proof.
rewrite /batch_op /=; case: (app_opt fi v) => //= v'; case: (lm_input m v') => //= v''.
by case: (lm_mv m v'' d).
Qed.
End Red.
