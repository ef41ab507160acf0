(** [unravel_array_into_pytree] along any axis (flatten.py:153-179). *)
From mathcomp Require Import all_ssreflect all_algebra.
From Verif Require Import Base PyTree TreeSpec Mv PyTreeProofs BasisProofs StackProofs MvProofs.
Set Implicit Arguments.
Unset Strict Implicit.
Unset Printing Implicit Defensive.

Lemma valid_idx_size s i : valid_idx s i -> size i = size s.
Proof. by case/andP => /eqP ->. Qed.

Lemma ravel_cat s1 s2 i1 i2 : size i1 = size s1 ->
  ravel_idx (s1 ++ s2) (i1 ++ i2) = ravel_idx s1 i1 * prodn s2 + ravel_idx s2 i2.
Proof.
elim: s1 i1 => [|n s1 IH] [|i i1] //= [H].
by rewrite IH // prodn_cat mulnA addnA mulnDl.
Qed.

Lemma sumn_mul (l : seq nat) q : sumn [seq z * q | z <- l] = sumn l * q.
Proof. by elim: l => //= z l ->; rewrite mulnDl. Qed.

Section Unravel.
Variables (A B : Type) (layout : tree (arr B)) (s : seq nat) (ax : nat) (xs : seq A).
Hypothesis Hax : ax < size s.
Let P := prodn (take ax s).
Let Q := prodn (drop ax.+1 s).
Let n := nth 0 s ax.
Let shs := map (@ashape B) (leaves layout).
Let szs := map prodn shs.
Let idx := cumsum (map prodn (butlast shs)).

Lemma prodn_axis : prodn s = P * (n * Q).
Proof.
rewrite -{1}(cat_take_drop ax s) prodn_cat; congr (_ * _).
by rewrite (drop_nth 0) //=.
Qed.

Lemma size_idx : leaves layout <> [::] -> (size idx).+1 = size shs.
Proof.
move=> L0; rewrite /idx /cumsum size_cumsum_from size_map /butlast size_take /shs size_map.
by case: (leaves layout) L0 => //= a l _; rewrite ltnS leqnn.
Qed.

Lemma nentriesE : nentries layout = sumn szs.
Proof. by rewrite /nentries /szs /shs -map_comp. Qed.

Lemma size_row p : size xs = prodn s -> p < P -> size (nth [::] (rows_of P (n * Q) xs) p) = n * Q.
Proof.
move=> W Hp; rewrite (nth_map 0) ?size_iota // nth_iota // add0n size_slice.
  by rewrite mulSn addnK.
by rewrite W prodn_axis leq_mul2r Hp orbT.
Qed.

Lemma split_row (row : seq A) : leaves layout <> [::] -> size row = sumn szs * Q ->
  jsplit (map (fun i => i * Q) idx) row = reshape [seq z * Q | z <- szs] row.
Proof.
move=> L0 Hr.
have -> : idx = butlast (cumsum szs).
  by rewrite /idx /cumsum butlast_cumsum -butlast_map.
rewrite -[LHS]/(split_rows _ _ _) split_rowsE //.
by rewrite /szs /shs; case: (leaves layout) L0.
Qed.

Let leafdata l :=
  flatten [seq nth [::] (jsplit (map (fun i => i * Q) idx) row) l | row <- rows_of P (n * Q) xs].

Lemma split_axisE : leaves layout <> [::] ->
  split_axis idx ax (Arr s xs) = [seq leafdata l | l <- iota 0 (size shs)].
Proof.
move=> L0; rewrite /split_axis /split_cols size_map -/Q -/P -/n size_idx //.
by apply: eq_map => l; rewrite /leafdata -map_comp.
Qed.

Hypothesis W : size xs = prodn s.

Lemma size_part p l : leaves layout <> [::] -> n = nentries layout -> p < P -> l < size shs ->
  size (nth [::] [seq nth [::] (jsplit (map (fun i => i * Q) idx) row) l | row <- rows_of P (n * Q) xs] p)
  = nth 0 szs l * Q.
Proof.
move=> L0 Hn Hp Hl.
rewrite (nth_map [::]) ?size_map ?size_iota // split_row //; last by rewrite size_row // Hn nentriesE.
have Hsz : size (nth [::] (rows_of P (n * Q) xs) p) = sumn [seq z * Q | z <- szs].
  by rewrite size_row // Hn nentriesE sumn_mul.
have <- : nth 0 (map size (reshape [seq z * Q | z <- szs] (nth [::] (rows_of P (n * Q) xs) p))) l = nth 0 szs l * Q.
  by rewrite -/(shape _) reshapeKl ?Hsz // (nth_map 0) // /szs size_map.
rewrite [RHS](nth_map [::]) // -(size_map size) -/(shape _) reshapeKl ?Hsz //.
by rewrite !size_map in Hl *.
Qed.

Lemma size_leafdata l : leaves layout <> [::] -> n = nentries layout -> l < size shs ->
  size (leafdata l) = P * (nth 0 szs l * Q).
Proof.
move=> L0 Hn Hl; rewrite /leafdata size_flatten /shape.
have -> : map size [seq nth [::] (jsplit (map (fun i => i * Q) idx) row) l | row <- rows_of P (n * Q) xs]
        = nseq P (nth 0 szs l * Q).
  apply: (@eq_from_nth _ 0); first by rewrite !size_map size_iota size_nseq.
  move=> p; rewrite 3!size_map size_iota => Hp.
  by rewrite (nth_map [::]) ?size_map ?size_iota // size_part // nth_nseq Hp.
by rewrite sumn_nseq mulnC.
Qed.

Lemma nth_leafdata d p l j : leaves layout <> [::] -> n = nentries layout ->
  p < P -> l < size shs -> j < nth 0 szs l * Q ->
  nth d (leafdata l) (p * (nth 0 szs l * Q) + j) = nth d xs (p * (n * Q) + (sumn (take l szs) * Q + j)).
Proof.
move=> L0 Hn Hp Hl Hj; rewrite /leafdata nth_flatten_const //; last 2 first.
- by move=> k; rewrite !size_map size_iota => Hk; apply: size_part.
- by rewrite !size_map size_iota.
rewrite (nth_map [::]) ?size_map ?size_iota // split_row //; last by rewrite size_row // Hn nentriesE.
have Hl2 : l < size szs by rewrite /szs size_map.
rewrite nth_reshape (nth_map 0) //.
rewrite nth_take // nth_drop -map_take sumn_mul.
rewrite (nth_map 0) ?size_iota // nth_iota // add0n /slice nth_take ?nth_drop //.
rewrite mulSn addnK Hn nentriesE.
rewrite -[in X in _ < X](cat_take_drop l szs) sumn_cat mulnDl ltn_add2l (drop_nth 0) //= mulnDl.
exact: leq_trans Hj (leq_addr _ _).
Qed.

Lemma unravel_axis_ok : leaves layout <> [::] -> n = nentries layout ->
  exists t, [/\
    (let! ls := zip_reshape (split_axis idx ax (Arr s xs))
                  [seq take ax s ++ sh ++ drop ax.+1 s | sh <- shs] in
     tree_unflatten (treedef layout) ls) = Ok t,
    treedef t = treedef layout,
    map (@ashape A) (leaves t) = [seq take ax s ++ sh ++ drop ax.+1 s | sh <- shs],
    wf_tree t &
    forall l, l < size shs -> adata (nth (Arr [::] [::]) (leaves t) l) = leafdata l].
Proof.
move=> L0 Hn; rewrite split_axisE //.
have Hsz : map size [seq leafdata l | l <- iota 0 (size shs)] =
           map prodn [seq take ax s ++ sh ++ drop ax.+1 s | sh <- shs].
  apply: (@eq_from_nth _ 0); first by rewrite !size_map size_iota.
  move=> l; rewrite 2!size_map size_iota => Hl.
  rewrite -map_comp (nth_map 0) ?size_iota // nth_iota // add0n /=.
  rewrite size_leafdata // -map_comp (nth_map [::]) //= !prodn_cat.
  by rewrite /szs (nth_map [::]) // mulnA.
rewrite zip_reshape_ok //=.
set ls := [seq _ | p <- _].
have Hss : size [seq leafdata l | l <- iota 0 (size shs)] =
           size [seq take ax s ++ sh ++ drop ax.+1 s | sh <- shs].
  by rewrite !size_map size_iota.
have Hs : map (@ashape A) ls = [seq take ax s ++ sh ++ drop ax.+1 s | sh <- shs].
  by rewrite /ls -map_comp (@eq_map _ _ _ fst) // -/unzip1 unzip1_zip // Hss.
have Hd : map (@adata A) ls = [seq leafdata l | l <- iota 0 (size shs)].
  by rewrite /ls -map_comp (@eq_map _ _ _ snd) // -/unzip2 unzip2_zip // Hss.
have [|t Et] := @tree_unflatten_ok _ (treedef layout) ls.
  by rewrite size_leaves_def -(size_map (@ashape A)) Hs /shs !size_map.
have [Dt Lt] := tree_unflatten_inv Et.
exists t; split=> //.
- by rewrite Lt.
- by rewrite /wf_tree Lt; apply: sizes_wf; rewrite Hd Hs.
- move=> l Hl; rewrite Lt.
  have Hl2 : l < size ls by rewrite -(size_map (@adata A)) Hd size_map size_iota.
  by rewrite -(nth_map _ [::] (@adata A)) // Hd (nth_map 0) ?size_iota // nth_iota.
Qed.

Lemma unravel_axis_inv t : 0 < P * Q ->
  (let! ls := zip_reshape (split_axis idx ax (Arr s xs))
                [seq take ax s ++ sh ++ drop ax.+1 s | sh <- shs] in
   tree_unflatten (treedef layout) ls) = Ok t ->
  leaves layout <> [::] /\ n = nentries layout.
Proof.
move=> HPQ; case E: (zip_reshape _ _) => [ls|] //= _.
have [Hs _ _ _] := zip_reshape_inv E.
have L0 : leaves layout <> [::].
  move=> E0; move: (congr1 size Hs); rewrite /shs E0 /= size_map /split_axis /split_cols.
  by rewrite size_map size_iota.
split=> //.
move: Hs; rewrite split_axisE // => /(congr1 sumn).
have -> : sumn (map size [seq leafdata l | l <- iota 0 (size shs)]) = size xs.
  rewrite sumnE !big_map /leafdata.
  under eq_bigr do rewrite size_flatten /shape sumnE !big_map.
  rewrite exchange_big /=.
  have Hrow p : p \in iota 0 P ->
    \sum_(l <- iota 0 (size shs)) size (nth [::] (jsplit [seq i * Q | i <- idx] (slice (p * (n * Q)) (p.+1 * (n * Q)) xs)) l) = n * Q.
    rewrite mem_iota add0n /= => Hp.
    have Hsl : size (slice (p * (n * Q)) (p.+1 * (n * Q)) xs) = n * Q.
      by have := size_row W Hp; rewrite (nth_map 0) ?size_iota // nth_iota.
    have F (r : seq A) : flatten (jsplit [seq i * Q | i <- idx] r) = r.
      rewrite /idx /cumsum cumsum_mul mul0n /jsplit flatten_split_from drop0 //.
    rewrite -[RHS]Hsl -[in RHS](F (slice _ _ _)) size_flatten /shape sumnE big_map.
    rewrite -[in RHS](mkseq_nth [::] (jsplit _ _)) big_map /jsplit size_split_from size_map.
    by rewrite size_idx //.
  rewrite (eq_big_seq (fun=> n * Q)) // big_const_seq count_predT size_iota iter_addn_0.
  by rewrite W prodn_axis mulnC.
have -> : sumn (map prodn [seq take ax s ++ sh ++ drop ax.+1 s | sh <- shs]) = nentries layout * (P * Q).
  rewrite nentriesE -sumn_mul /szs -!map_comp; congr sumn; apply: eq_map => sh /=.
  by rewrite !prodn_cat mulnCA.
rewrite W prodn_axis mulnCA => /eqP; rewrite eqn_mul2r => /orP[/eqP E0|/eqP //].
by rewrite E0 in HPQ.
Qed.
End Unravel.
