(** Property C11, continued: batch results without a leading axis. *)
From mathcomp Require Import all_ssreflect all_algebra.
From Verif Require Import Base PyTree TreeSpec PyTreeProofs BasisProofs StackProofs Mv MvProofs TreeOpsProofs Loader LoaderProofs.
Set Implicit Arguments.
Unset Strict Implicit.
Unset Printing Implicit Defensive.
Import GRing.Theory.
Local Open Scope ring_scope.

Section Scalar.
Variables (R : fieldType) (t0 : tree (arr R)).
Hypothesis Hsc : forall a, List.In a (leaves t0) -> ashape a = [::].
Lemma scalar_shapes (y : tree (arr R)) : same_layout t0 y -> map (@ashape R) (leaves y) = map (fun _ => [::]) (leaves t0).
Proof. by move=> [_ <-]; elim: (leaves t0) Hsc => //= a l IH H; rewrite H ?IH //; [move=> b Hb; apply: H; right | left]. Qed.
Lemma scalar_count y : same_layout t0 y -> tmap (@batch_count R) y = tmap (fun _ => 1%N) t0.
Proof.
move=> H; have Hs := scalar_shapes H; have [D _] := H; apply: leaves_inj; first by rewrite !treedef_tmap.
rewrite !leaves_tmap; elim: (leaves y) (leaves t0) Hs => [|a l IH] [|b m] //= [Ha Hl].
by rewrite /batch_count Ha (IH _ Hl).
Qed.
Lemma scalar_sum y : same_layout t0 y -> tmapM (@batch_sum R) y = Ok y.
Proof.
move=> H; have Hs := scalar_shapes H.
have [|w [E D L]] := @tmapM_ok _ _ (@batch_sum R) y (leaves y).
  elim: (leaves y) (leaves t0) Hs => [|a l IH] [|b m] //= [Ha Hl].
  by rewrite /batch_sum Ha /= (IH _ Hl).
by rewrite E; congr Ok; apply: leaves_inj.
Qed.
End Scalar.

(** When every leaf of the batch results is a single number, every batch counts as one, whatever its
    size: the result is the mean of the batch results. *)
Theorem C11_scalar_results :
  forall (R : fieldType) (B D : Type) (f : D -> res (tree (arr R))) (transform : B -> res D)
    (loader : seq B) ys (t0 : tree (arr R)),
  loader <> [::] ->
  mapM (fun b => let! d := transform b in f d) loader = Ok ys ->
  rows_ok t0 ys -> (forall a, List.In a (leaves t0) -> ashape a = [::]) ->
  exists r, process_batches f transform (@reduce_online_mean R) loader = Ok r /\
     tree_is t0 (fun j => (\sum_(y <- ys) nth 0 (entries y) j) / (size loader)%:R) r.
Proof.
move=> R B D f tr loader ys t0 H0 Hys Hok Hsc.
have Hz : (0 < size loader)%N by case: (loader) H0.
have Hy ys' y r : ys = ys' ++ y :: r -> same_layout t0 y /\ wf_tree y.
  move=> E; have := Hok (size ys'); rewrite E size_cat /= nth_cat ltnn subnn /=; apply.
  by rewrite -[X in (X < _)%N]addn0 ltn_add2l.
have Iy ys' y r : ys = ys' ++ y :: r -> tree_is t0 (fun j => nth 0 (entries y) j) y.
  move=> E; have [L W] := Hy _ _ _ E; split=> //.
  rewrite (nentries_same L) -(size_entries W).
  apply: (@eq_from_nth _ 0) => [|i Hi]; first by rewrite size_mkseq.
  by rewrite nth_mkseq.
pose I (zs : seq (tree (arr R))) (z : tree (arr R)) (st : tree nat * tree (arr R)) :=
  [/\ (0 < size zs)%N, st.1 = tmap (fun _ => size zs) t0,
      tree_is t0 (fun j => \sum_(y <- zs) nth 0 (entries y) j) st.2 &
      tree_is t0 (fun j => (\sum_(y <- zs) nth 0 (entries y) j) / (size zs)%:R) z].
have [|||z [s [Ez [_ _ _ I3]]]] :=
  @process_inv B D (tree (arr R)) (tree (arr R)) _ f tr (@reduce_online_mean R) I loader ys Hz.
- move=> y [r E]; have [L _] := Hy [::] y r E; have Ii := Iy [::] y r E.
  rewrite /reduce_online_mean (scalar_count Hsc L) (scalar_sum Hsc L) /=.
  have [w [-> Iw]] := div_is (isT : (0 < 1)%N) Ii; rewrite /=.
  eexists; split; first reflexivity; split=> //=; first by apply: tree_is_eq Ii => i _; rewrite big_seq1.
  by apply: tree_is_eq Iw => i _; rewrite big_seq1.
- move=> zs y z [c sm] [/= I0 -> I2 I3] [r E]; have [L _] := Hy zs y r E; have Ii := Iy zs y r E.
  rewrite /reduce_online_mean (scalar_count Hsc L) (scalar_sum Hsc L) /= count_add /=.
  have [w [-> Iw]] := tree_add_is I2 Ii; rewrite /=.
  have N1 : (0 < size zs + 1)%N by rewrite addn1.
  have [v [-> Iv]] := div_is N1 Iw; rewrite /=.
  exists (v, (tmap (fun _ => (size zs + 1)%N) t0, w)); split=> //; rewrite /I /= size_rcons -(addn1 (size zs)); split=> //.
  + by apply: tree_is_eq Iw => i _; rewrite -cats1 big_cat big_seq1.
  + by apply: tree_is_eq Iv => i _; rewrite -cats1 big_cat big_seq1.
- exact: Hys.
exists z; split; first exact: Ez.
by rewrite -(mapM_size Hys).
Qed.
Print Assumptions C11_scalar_results.

(** Non-vacuity: the means 1 and 3 of a batch of two and a batch of one sample give 2, not 5/3. *)
Example C11_scalar_example :
  exists r, process_batches (fun m : rat => Ok (Leaf (Arr [::] [:: m]))) (fun b => Ok b) (@reduce_online_mean [fieldType of rat])
     [:: 1; 3%:R] = Ok r /\ entries r = [:: 2%:R].
Proof.
have [||||r [E [_ _ H]]] := @C11_scalar_results [fieldType of rat] rat rat (fun m => Ok (Leaf (Arr [::] [:: m]))) (fun b => Ok b)
  [:: 1; 3%:R] [:: Leaf (Arr [::] [:: 1]); Leaf (Arr [::] [:: 3%:R])] (Leaf (Arr [::] [:: 1])).
- by [].
- by [].
- by case=> [|[|]].
- by move=> a [<-|[]].
exists r; split; first exact: E.
rewrite H /mkseq /= !big_cons big_nil /=; congr [:: _].
Qed.
