(** Proofs about function wrapping and tree arithmetic (PyTree.v). *)
From Coq Require Import String.
From mathcomp Require Import all_ssreflect all_algebra.
From Verif Require Import Base PyTree TreeSpec PyTreeProofs BasisProofs StackProofs.
Set Implicit Arguments.
Unset Strict Implicit.
Unset Printing Implicit Defensive.
Import GRing.Theory.

(** ** wrap_function *)
Definition opt_fn (V : Type) (f : option (V -> res V)) (x : V) : res V :=
  if f is Some g then g x else Ok x.

Lemma set_nth_split (V : Type) (d a : V) s k : k < size s ->
  set_nth d s k a = take k s ++ a :: drop k.+1 s.
Proof. by elim: s k => // x s IH [|k] //= Hk; rewrite ?drop0 // IH. Qed.

Lemma wrap_functionE (V K : Type) (fn : seq V -> K -> res V) inp out (k : nat) args kw (d : V) :
  k < size args ->
  wrap_function fn inp out (Posz k) args kw =
  (let! a := opt_fn inp (nth d args k) in
   let! r := fn (set_nth d args k a) kw in
   opt_fn out r).
Proof.
move=> Hk; rewrite /wrap_function /py_get Hk (drop_nth d Hk) /=.
rewrite -/(opt_fn inp (nth d args k)).
have -> : (if inp is Some f then f else @Ok V) (nth d args k) = opt_fn inp (nth d args k).
  by case: inp.
case: (opt_fn inp _) => //= a.
have -> : minn k (size args) = k by apply/minn_idPl; apply: ltnW.
have -> : minn (k + 1) (size args) = k.+1 by rewrite addn1; apply/minn_idPl.
rewrite -(set_nth_split d a Hk).
by case: (fn _ _) => //= r; case: out.
Qed.

Lemma wrap_function_oob (V K : Type) (fn : seq V -> K -> res V) inp out (k : nat) args kw :
  size args <= k -> wrap_function fn inp out (Posz k) args kw = Raise IndexError.
Proof. by move=> H; rewrite /wrap_function /py_get ltnNge H. Qed.

Definition kleisli (V : Type) (f g : option (V -> res V)) : option (V -> res V) :=
  Some (fun x => let! y := opt_fn f x in opt_fn g y).

Lemma wrap_compose (V K : Type) (fn : seq V -> K -> res V) f g f' g' (k : nat) args kw :
  k < size args ->
  wrap_function (wrap_function fn f g (Posz k)) f' g' (Posz k) args kw =
  wrap_function fn (kleisli f' f) (kleisli g g') (Posz k) args kw.
Proof.
case: args => // d args Hk.
rewrite !(wrap_functionE _ _ _ _ d) //=.
case: (opt_fn f' _) => //= a.
rewrite (wrap_functionE _ _ _ _ d); last by rewrite size_set_nth leq_max Hk orbT.
rewrite nth_set_nth /= eqxx; case: (opt_fn f a) => //= b.
have -> : set_nth d (set_nth d (d :: args) k a) k b = set_nth d (d :: args) k b.
  by rewrite set_set_nth eqxx.
by case: (fn _ _) => //= r; case: (opt_fn g r).
Qed.

(** argnums = -1 *)
Lemma wrap_function_neg1 (V K : Type) (fn : seq V -> K -> res V) inp out args (a : V) kw :
  wrap_function fn inp out (Negz 0) (rcons args a) kw =
  (let! a' := opt_fn inp a in
   let! r := fn (args ++ a' :: rcons args a) kw in
   opt_fn out r).
Proof.
rewrite /wrap_function /py_get size_rcons /= subn1 /= -cats1 drop_size_cat //=.
have -> : (if inp is Some f then f else @Ok V) a = opt_fn inp a by case: inp.
case: (opt_fn inp a) => //= b; rewrite take_size_cat // min0n drop0.
by case: (fn _ _) => //= r; case: out.
Qed.

Lemma flatten_functionE (A : Type) fn (layout : tree (arr A)) (v : seq A) :
  leaves layout <> [::] -> size v = nentries layout ->
  exists t, [/\ wf_tree t, same_layout layout t, entries t = v &
    flatten_function fn layout v = (let! u := fn t in full_flatten u)].
Proof.
move=> L0 Hv; have [t [Et S W E]] := unflatten_ok L0 Hv.
by exists t; split=> //; rewrite /flatten_function Et.
Qed.

(** ** tree arithmetic *)
Section Arith.
Local Open Scope ring_scope.
Variable R : ringType.
Notation ptree := (tree (arr R)).
Implicit Types t u : ptree.

Lemma entries_tmap_arr (f : R -> R) t : entries (tmap (arr_map f) t) = map f (entries t).
Proof.
rewrite /entries leaves_tmap map_flatten -!map_comp; congr flatten.
Qed.
Lemma same_layout_tmap (f : R -> R) t : same_layout t (tmap (arr_map f) t).
Proof. by split; rewrite ?treedef_tmap // leaves_tmap -map_comp; apply: eq_map. Qed.
Lemma wf_tmap (f : R -> R) t : wf_tree t -> wf_tree (tmap (arr_map f) t).
Proof.
rewrite /wf_tree leaves_tmap all_map; apply: sub_all => a /=.
by rewrite /wf_arr /= size_map.
Qed.

Lemma zip_flatten (T U : Type) (xs : seq (seq T)) (ys : seq (seq U)) :
  map size xs = map size ys ->
  zip (flatten xs) (flatten ys) = flatten [seq zip p.1 p.2 | p <- zip xs ys].
Proof.
elim: xs ys => [|x xs IH] [|y ys] //= [E1 E2]; by rewrite zip_cat // IH.
Qed.

Lemma tree_zipP (f : R -> R -> R) t u : wf_tree t -> wf_tree u -> same_layout t u ->
  exists w, [/\ tmap2 (arr_zip f) t u = Ok w, same_layout t w, wf_tree w
    & entries w = [seq f p.1 p.2 | p <- zip (entries t) (entries u)]].
Proof.
move=> Wt Wu [D S].
pose ls := [seq Arr (ashape p.1) [seq f q.1 q.2 | q <- zip (adata p.1) (adata p.2)]
           | p <- zip (leaves t) (leaves u)].
have Hls : map2M (arr_zip f) (leaves t) (leaves u) = Ok ls.
  rewrite /ls; elim: (leaves t) (leaves u) S => [|a l IH] [|b m] //= [Sab Slm].
  by rewrite /arr_zip Sab eqxx /= -/(arr_zip f) IH.
have [w [Ew Dw Lw]] := tmap2_ok D Hls.
have Hsz : size (leaves t) = size (leaves u) by exact: size_leaves_same.
have Hsh : map (@ashape R) ls = map (@ashape R) (leaves t).
  by rewrite /ls -map_comp -[in RHS](@unzip1_zip _ _ (leaves t) (leaves u)) ?Hsz // /unzip1 -map_comp.
have Hda : map (@adata R) ls = [seq [seq f q.1 q.2 | q <- zip p.1 p.2] |
     p <- zip (map (@adata R) (leaves t)) (map (@adata R) (leaves u))].
  by rewrite /ls -map_comp; elim: (leaves t) (leaves u) {S Hls ls Lw Hsz Hsh} => [|a l IH] [|b m] //=;
     rewrite IH.
have Hms : map size (map (@adata R) (leaves t)) = map size (map (@adata R) (leaves u)).
  by rewrite !wf_sizes // S.
exists w; split=> //.
- by split=> //; rewrite Lw Hsh.
- rewrite /wf_tree Lw; apply: sizes_wf; rewrite Hsh Hda -(wf_sizes Wt).
  elim: (map _ (leaves t)) (map _ (leaves u)) Hms => [|x xs IH] [|y ys] //= [E1 E2].
  by rewrite size_map size_zip E1 minnn IH.
- rewrite /entries Lw Hda zip_flatten // map_flatten -!map_comp.
  by congr flatten; apply: eq_map.
Qed.

Lemma tree_addP t u : wf_tree t -> wf_tree u -> same_layout t u ->
  exists w, [/\ tree_add t u = Ok w, same_layout t w, wf_tree w
    & entries w = [seq p.1 + p.2 | p <- zip (entries t) (entries u)]].
Proof. exact: tree_zipP. Qed.

Lemma tree_subP t u : wf_tree t -> wf_tree u -> same_layout t u ->
  exists w, [/\ tree_sub t u = Ok w, same_layout t w, wf_tree w
    & entries w = [seq p.1 - p.2 | p <- zip (entries t) (entries u)]].
Proof.
move=> Wt Wu S; rewrite /tree_sub.
have [|w [-> Sw Ww Ew]] := @tree_addP t (tree_neg u) Wt (wf_tmap _ Wu).
  exact: same_layout_trans S (same_layout_tmap _ u).
exists w; split=> //; rewrite Ew /tree_neg entries_tmap_arr.
by elim: (entries t) (entries u) {Ew} => [|x xs IH] [|y ys] //=; rewrite IH.
Qed.

Lemma tree_add_mismatch t u : treedef t <> treedef u -> exists e, tree_add t u = Raise e.
Proof.
move=> H; case E: (tree_add t u) => [w|e]; last by exists e.
by have [] := tmap2_inv E.
Qed.

Section Rand.
Variables (Key : Type) (split : Key -> nat -> seq Key) (normal : Key -> seq nat -> seq R).
Hypothesis split_size : forall k n, size (split k n) = n.
Hypothesis normal_size : forall k s, size (normal k s) = prodn s.

Lemma randn_likeP key t : exists e,
  [/\ randn_like split normal key t = Ok e, same_layout t e & wf_tree e].
Proof.
rewrite /randn_like; set n := size (leaves t).
have : size (split key n) = size (leaves t) by rewrite split_size.
have Hz : forall ks ls, size ks = size ls -> exists r, [/\ zip_normal normal ks ls = Ok r,
    map (@ashape R) r = map (@ashape R) ls & all (@wf_arr R) r].
  elim=> [|k ks IH] [|a ls] //=; first by exists [::].
  case=> /IH [r [-> Hs Ha]]; exists (Arr (ashape a) (normal k (ashape a)) :: r).
  by rewrite /= Hs Ha /wf_arr /= normal_size eqxx.
move=> /Hz [r [-> Hs Ha]] /=.
have [|e Ee] := @tree_unflatten_ok _ (treedef t) r.
  by rewrite size_leaves_def -(size_map (@ashape R)) Hs size_map.
have [D L] := tree_unflatten_inv Ee.
by exists e; split=> //; [split; rewrite ?L ?Hs | rewrite /wf_tree L].
Qed.

Lemma normal_likeP key mean scale_mv e s :
  wf_tree mean -> randn_like split normal key mean = Ok e -> scale_mv e = Ok s ->
  wf_tree s -> same_layout mean s ->
  exists w, [/\ normal_like split normal key mean scale_mv = Ok w, same_layout mean w, wf_tree w
    & entries w = [seq p.1 + p.2 | p <- zip (entries mean) (entries s)]].
Proof.
move=> Wm Ee Es Ws S; rewrite /normal_like Ee /= Es /=; exact: tree_addP.
Qed.
End Rand.

(** ** tree_matvec *)
Lemma dotE (xs ys : seq R) : dot xs ys = \sum_(p <- zip xs ys) p.1 * p.2.
Proof. by rewrite /dot; elim: (zip xs ys) => [|p l IH]; rewrite ?big_nil // big_cons -IH. Qed.

Lemma dot_flatten (xs ys : seq (seq R)) : map size xs = map size ys ->
  dot (flatten xs) (flatten ys) = \sum_(p <- zip xs ys) dot p.1 p.2.
Proof.
move=> H; rewrite dotE zip_flatten // big_flatten /= big_map.
by apply: eq_bigr => p _; rewrite dotE.
Qed.

Lemma dot_nth (xs ys : seq R) n : size xs = n -> size ys = n ->
  dot xs ys = \sum_(0 <= c < n) nth 0 xs c * nth 0 ys c.
Proof.
move=> Hx Hy; rewrite dotE (big_nth (0, 0)) size_zip Hx Hy minnn.
by apply: eq_bigr => i _; rewrite nth_zip ?Hx ?Hy.
Qed.

Let leaf0 : arr R := Arr [::] [::].
Definition psz (vec : ptree) (j : nat) : nat := prodn (ashape (nth leaf0 (leaves vec) j)).

Lemma tree_matvecP (blocks vec : ptree) (n := size (leaves vec)) :
  (0 < n)%N -> wf_tree vec ->
  (forall j, (j < n)%N -> (0 < psz vec j)%N) ->
  (n * n <= size (leaves blocks))%N ->
  (forall i j, (i < n)%N -> (j < n)%N ->
     size (adata (nth leaf0 (leaves blocks) (i * n + j))) = (psz vec j * psz vec i)%N) ->
  exists u, [/\ tree_matvec blocks vec = Ok u, same_layout vec u &
    forall j r, (j < n)%N -> (r < psz vec j)%N ->
      nth 0 (adata (nth leaf0 (leaves u) j)) r =
      \sum_(0 <= i < n) \sum_(0 <= c < psz vec i)
        nth 0 (adata (nth leaf0 (leaves blocks) (i * n + j))) (r * psz vec i + c) *
        nth 0 (adata (nth leaf0 (leaves vec) i)) c].
Proof.
move=> Hn W Hp Hb Hbs; rewrite /tree_matvec -/n.
pose x i j := adata (nth leaf0 (leaves blocks) (i * n + j)).
pose bl i j := rows_of (psz vec j) (psz vec i) (x i j).
have Hin i : (i \in iota 0 n) = (i < n)%N by rewrite mem_iota.
have E1 j : (j < n)%N -> mapM (fun i => match drop (i * n + j) (leaves blocks) with
      | [::] => Raise IndexError
      | a :: _ => block_rows (ashape (nth (Arr [::] [::]) (leaves vec) j)) (adata a) end) (iota 0 n)
      = Ok [seq bl i j | i <- iota 0 n].
  move=> Hj; apply: mapM_ok_in => i; rewrite Hin => Hi.
  have Hij : (i * n + j < size (leaves blocks))%N.
    apply: leq_trans Hb; apply: leq_trans (_ : i.+1 * n <= _)%N; last by rewrite leq_mul2r Hi orbT.
    by rewrite mulSn addnC ltn_add2r.
  rewrite (drop_nth leaf0) // /block_rows -/(psz vec j) (gtn_eqF (Hp j Hj)) Hbs //.
  by rewrite modnMr eqxx mulKn // Hp.
pose out j := (ashape (nth leaf0 (leaves vec) j), hcat_rows [seq bl i j | i <- iota 0 n] (psz vec j)).
have E2 : mapM (fun j => let! bs := mapM (fun i => match drop (i * n + j) (leaves blocks) with
      | [::] => Raise IndexError
      | a :: _ => block_rows (ashape (nth (Arr [::] [::]) (leaves vec) j)) (adata a) end) (iota 0 n) in
      Ok (ashape (nth (Arr [::] [::]) (leaves vec) j), hcat_rows bs (prodn (ashape (nth (Arr [::] [::]) (leaves vec) j))))) (iota 0 n)
   = Ok [seq out j | j <- iota 0 n].
  by apply: mapM_ok_in => j; rewrite Hin => Hj; rewrite E1.
rewrite E2 /=.
have L0 : leaves vec <> [::] by move=> E; move: Hn; rewrite /n E.
rewrite full_flattenE //=.
have Hvl i : (i < n)%N -> size (adata (nth leaf0 (leaves vec) i)) = psz vec i.
  by move=> Hi; move/(all_nthP leaf0): W => /(_ i Hi) /eqP.
(* one row of block j *)
have Hrow i j r : (i < n)%N -> (j < n)%N -> (r < psz vec j)%N ->
    nth [::] (bl i j) r = slice (r * psz vec i) (r.+1 * psz vec i) (x i j).
  by move=> Hi Hj Hr; rewrite /bl /rows_of (nth_map 0%N) ?size_iota // nth_iota.
have Hrsz i j r : (i < n)%N -> (j < n)%N -> (r < psz vec j)%N ->
    size (nth [::] (bl i j) r) = psz vec i.
  move=> Hi Hj Hr; rewrite Hrow // size_slice; first by rewrite mulSn addnK.
  by rewrite /x Hbs // leq_mul2r Hr orbT.
have Hent : entries vec = flatten [seq adata (nth leaf0 (leaves vec) i) | i <- iota 0 n].
  rewrite /entries; congr flatten.
  by rewrite -[in LHS](mkseq_nth leaf0 (leaves vec)) /mkseq -map_comp.
have Hms j r : (j < n)%N -> (r < psz vec j)%N ->
   map size [seq nth [::] b r | b <- [seq bl i j | i <- iota 0 n]] =
   map size [seq adata (nth leaf0 (leaves vec) i) | i <- iota 0 n].
  move=> Hj Hr; rewrite -!map_comp; apply/eq_in_map => i; rewrite Hin => Hi /=.
  by rewrite Hrsz // Hvl.
pose res_j j := Arr (ashape (nth leaf0 (leaves vec) j))
   [seq dot row (entries vec) | row <- (out j).2].
have E3 : mapM (fun p => matvec_rows p.1 p.2 (entries vec)) [seq out j | j <- iota 0 n] =
    Ok [seq res_j j | j <- iota 0 n].
  have : forall j, j \in iota 0 n -> (j < n)%N by move=> j; rewrite Hin.
  elim: (iota 0 n) => //= j l IH Hl.
  have Hj : (j < n)%N by apply: Hl; exact: mem_head.
  rewrite IH; last by move=> k Hk; apply: Hl; rewrite inE Hk orbT.
  rewrite /matvec_rows.
  have -> : all (fun row => size row == size (entries vec)) (out j).2.
    rewrite /= /hcat_rows all_map; apply/allP => r; rewrite mem_iota add0n => /= Hr.
    by rewrite Hent !size_flatten /shape Hms.
  by [].
rewrite [X in bind X _]E3 /=.
set ls := [seq res_j j | j <- iota 0 n].
have Hsh : map (@ashape R) ls = map (@ashape R) (leaves vec).
  rewrite /ls -map_comp -[in RHS](mkseq_nth leaf0 (leaves vec)) /mkseq -map_comp.
  exact: eq_map.
have [|u Eu] := @tree_unflatten_ok _ (treedef vec) ls.
  by rewrite size_leaves_def -(size_map (@ashape R)) Hsh size_map.
have [D L] := tree_unflatten_inv Eu.
exists u; split=> //; first by split; rewrite ?L ?Hsh.
move=> j r Hj Hr; rewrite L /ls (nth_map 0%N) ?size_iota // nth_iota // add0n /=.
rewrite (nth_map [::]) ?size_map ?size_iota // /hcat_rows (nth_map 0%N) ?size_iota // nth_iota // add0n.
rewrite Hent dot_flatten ?Hms //.
rewrite [in RHS]/index_iota subn0.
have -> : zip [seq nth [::] b r | b <- [seq bl i j | i <- iota 0 n]]
    [seq adata (nth leaf0 (leaves vec) i) | i <- iota 0 n] =
    [seq (nth [::] (bl i j) r, adata (nth leaf0 (leaves vec) i)) | i <- iota 0 n].
  by rewrite -map_comp; elim: (iota 0 n) => //= i l ->.
rewrite big_map big_seq [RHS]big_seq; apply: eq_bigr => i; rewrite Hin => Hi /=.
rewrite (@dot_nth _ _ (psz vec i)) ?Hrsz ?Hvl //.
rewrite big_nat [RHS]big_nat; apply: eq_bigr => c /= Hc.
rewrite Hrow // /slice nth_take ?nth_drop //.
by rewrite mulSn addnK.
Qed.
End Arith.
