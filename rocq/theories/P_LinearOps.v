(** Properties C08 and C09 for operators given only as linear functions on trees, without a matrix.
    [diagonal] is laplax/util/mv.py:18-92, [to_dense] laplax/util/mv.py:95-151 (see Mv.v). *)
From mathcomp Require Import all_ssreflect all_algebra.
From Verif Require Import Base PyTree Mv TreeSpec PyTreeProofs BasisProofs TreeOpsProofs MvProofs StackProofs LoaderProofs.
Set Implicit Arguments.
Unset Strict Implicit.
Unset Printing Implicit Defensive.
Import GRing.Theory.
Local Open Scope ring_scope.

(** A function from trees of layout [tin] to trees of layout [tout] is linear: it never raises on such
    trees, and [mv (c * a + b) = c * mv a + mv b] in the library's own tree arithmetic. *)
Definition linear_mv (R : ringType) (tin tout : tree (arr R)) (mv : tree (arr R) -> res (tree (arr R))) : Prop :=
  (forall t, wf_tree t -> same_layout tin t -> exists u, [/\ mv t = Ok u, same_layout tout u & wf_tree u]) /\
  (forall c a b, wf_tree a -> same_layout tin a -> wf_tree b -> same_layout tin b ->
     (let! s := tree_add (tree_mul c a) b in mv s) =
     (let! u := mv a in let! w := mv b in tree_add (tree_mul c u) w)).

Section Linear.
Variable R : fieldType.
Notation ptree := (tree (arr R)).
Implicit Types (t u : ptree) (mv : ptree -> res ptree).

Lemma tree_mul_is (t0 t : ptree) f c : tree_is t0 f t -> tree_is t0 (fun i => c * f i) (tree_mul c t).
Proof.
move=> [S W E]; split; [| exact: wf_tmap | by rewrite entries_tmap_arr E -map_comp].
have [D1 D2] := S; have [D3 D4] := same_layout_tmap [eta *%R c] t.
by split; [rewrite D1 | rewrite D2].
Qed.

(** Entries of the image of the unit vector number [j]. *)
Definition column mv (tin : ptree) (j : nat) : seq R :=
  match basis_vector_from_index j tin with
  | Ok b => match mv b with Ok u => entries u | Raise _ => [::] end
  | Raise _ => [::]
  end.

(** A linear operator is a matrix: its columns are the images of the unit vectors. *)
Lemma linear_acts tin tout mv : linear_mv tin tout mv ->
  acts_as (fun i j => nth 0 (column mv tin j) i) tin tout mv.
Proof.
move=> [Tot Lin] t W S.
pose v := nth 0 (entries t).
have Step k : (k <= nentries tin)%N -> exists s u, [/\ tree_is tin (fun j => if (j < k)%N then v j else 0) s, mv s = Ok u &
    tree_is tout (fun i => \sum_(0 <= j < k) nth 0 (column mv tin j) i * v j) u].
  elim: k => [_|k IH Hk].
    have Z : tree_is tin (fun j => 0 * v j) (tree_mul 0 t) by apply: tree_mul_is; exact: tree_is_nth.
    have [u [Eu Su Wu]] : exists u, [/\ mv (tree_mul 0 t) = Ok u, same_layout tout u & wf_tree u].
      by case: Z => S' W' _; apply: Tot.
    have [w [Ew Iw]] := tree_add_is (tree_mul_is (-1) Z) Z.
    have Ez : w = tree_mul 0 t by apply: (tree_is_fun (f := fun j => 0 * v j)) Z; apply: tree_is_eq Iw => j _; rewrite !mul0r mulr0 addr0.
    have U : tree_is tout (nth 0 (entries u)) u by exact: tree_is_nth.
    have [w' [Ew' Iw']] := tree_add_is (tree_mul_is (-1) U) U.
    have := Lin (-1) (tree_mul 0 t) (tree_mul 0 t); case: (Z) => S' W' _ /(_ W' S' W' S').
    rewrite Ew Ez /= Eu /= Ew' => -[E'].
    exists (tree_mul 0 t), u; split=> //; first by apply: tree_is_eq Z => j _; rewrite mul0r.
    rewrite E'; apply: tree_is_eq Iw' => i _; by rewrite big_geq // mulN1r addNr.
  have [s [u [Is Es Iu]]] := IH (ltnW Hk).
  have [b [Eb Sb Wb Hb]] := basis_vectorP tin k.
  have [ub [Eub Sub Wub]] := Tot b Wb Sb.
  have Ib : tree_is tin (fun j => if j == k then 1 else 0) b by split.
  have Iub : tree_is tout (nth 0 (entries ub)) ub by exact: tree_is_nth.
  have [w [Ew Iw]] := tree_add_is (tree_mul_is (v k) Ib) Is.
  have [w' [Ew' Iw']] := tree_add_is (tree_mul_is (v k) Iub) Iu.
  have [Ss Ws _] := Is.
  have := Lin (v k) b s Wb Sb Ws Ss; rewrite Ew /= Eub /= Es /= Ew' => E'.
  exists w, w'; split=> //.
    apply: tree_is_eq Iw => j _; rewrite ltnS; case: (ltngtP j k) => [_|_|->]; rewrite ?mulr0 ?mulr1 ?add0r ?addr0 //.
  apply: tree_is_eq Iw' => i _; rewrite big_nat_recr //= addrC; congr (_ + _).
  by rewrite /column Eb Eub mulrC.
have [s [u [Is Es Iu]]] := Step _ (leqnn _).
have Et : s = t.
  apply: (tree_is_fun (t0 := tin) (f := v)); last exact: tree_is_nth.
  by apply: tree_is_eq Is => j ->.
by exists u; rewrite -{1}Et; case: Iu => S' W' ->.
Qed.

Lemma acts_linear A tin tout mv : acts_as A tin tout mv -> linear_mv tin tout mv.
Proof.
move=> H; split=> [t W S|c a b Wa Sa Wb Sb].
  by have [u [E S' W' _]] := H t W S; exists u.
have [u [Eu Iu]] := acts_is H Wa Sa; have [w [Ew Iw]] := acts_is H Wb Sb.
have [r [Er Ir]] := tree_add_is (tree_mul_is c Iu) Iw; rewrite Eu Ew /= Er.
have [s [Es Is]] := tree_add_is (tree_mul_is c (tree_is_nth Wa Sa)) (tree_is_nth Wb Sb).
rewrite Es /=; have [Ss Ws He] := Is; have [z [Ez Iz]] := acts_is H Ws Ss; rewrite Ez; congr Ok.
apply: tree_is_fun Ir; apply: tree_is_eq Iz => i _.
rewrite mulr_sumr -big_split /= !big_nat; apply: eq_bigr => j /= Hj.
by rewrite He nth_mkseq // mulrDr mulrCA.
Qed.
End Linear.

(** Linear functions on trees are exactly the operators with a matrix. *)
Theorem C09_linear_is_matrix (R : fieldType) (tin tout : tree (arr R)) mv :
  linear_mv tin tout mv <-> exists A, acts_as A tin tout mv.
Proof. by split=> [/linear_acts H|[A /acts_linear]] //; eexists; exact: H. Qed.

(** [diagonal] of a linear operator: entry [i] is entry [i] of the image of unit vector [i]. *)
Theorem C08_linear (R : fieldType) (layout : tree (arr R)) mv bs : linear_mv layout layout mv ->
  exists2 d, diagonal (Callable mv) (LTree layout) bs = Ok d /\ size d = get_size layout &
  forall i, (i < get_size layout)%N -> exists b u,
    [/\ basis_vector_from_index i layout = Ok b, mv b = Ok u & nth 0 d i = nth 0 (entries u) i].
Proof.
move=> H; have A := linear_acts H; exists (mkseq (fun i => nth 0 (column mv layout i) i) (get_size layout)).
  by split; [exact: diagonal_acts A | rewrite size_mkseq].
move=> i Hi; have [b [Eb Sb Wb _]] := basis_vectorP layout i; have [u [Eu _ _]] := H.1 b Wb Sb.
by exists b, u; split=> //; rewrite nth_mkseq // /column Eb Eu.
Qed.

(** Multiplying by the dense tree gives the operator back, on every tree. *)
Theorem C09_linear_recovers (R : fieldType) (tin tout : tree (arr R)) mv bs :
  (0 < get_size tin)%N -> linear_mv tin tout mv ->
  let shape lf := nth [::] (map (@ashape R) (leaves tout)) lf in
  exists2 D, to_dense mv (LTree tin) bs = Ok D &
  forall t, wf_tree t -> same_layout tin t -> exists2 u, mv t = Ok u &
    forall lf idx, (lf < size (leaves tout))%N -> valid_idx (shape lf) idx ->
    aget (nth (Arr [::] [::]) (leaves u) lf) idx =
    \sum_(0 <= i < get_size tin) aget (nth (Arr [::] [::]) (leaves D) lf) (rcons (rev idx) i) * nth 0 (entries t) i.
Proof.
move=> n0 H shape; have A := linear_acts H.
have [D [ED _ _ HD]] := to_dense_acts bs n0 A; exists D => // t W S.
have [u [Eu Su Wu Hu]] := A t W S; exists u => // lf idx Hlf Hidx.
have Sh : map (@ashape R) (leaves u) = map (@ashape R) (leaves tout) by case: Su.
have Szl : size (leaves u) = size (leaves tout) by have := congr1 size Sh; rewrite !size_map.
have Off : leaf_offset u lf = leaf_offset tout lf.
  have E (t' : tree (arr R)) : [seq prodn (ashape a) | a <- leaves t'] = map prodn (map (@ashape R) (leaves t')) by rewrite -map_comp.
  by rewrite /leaf_offset !E Sh.
rewrite aget_entries // ?Szl ?Sh // Off Hu nth_mkseq; last exact: leaf_offset_lt.
rewrite -get_sizeE !big_nat; apply: eq_bigr => i /= Hi; congr (_ * _).
by rewrite HD.
Qed.

(** Every position of a flattened tree is an index of a leaf. *)
Lemma ravel_onto s r : (r < prodn s)%N -> exists2 idx, valid_idx s idx & ravel_idx s idx = r.
Proof.
elim: s r => [|n s IH] r /=; first by case: r => // _; exists [::].
move=> Hr; have p0 : (0 < prodn s)%N by case: (prodn s) Hr => //; rewrite muln0.
have [idx V E] := IH (r %% prodn s)%N (ltn_pmod r p0).
exists ((r %/ prodn s)%N :: idx); last by rewrite /= E -divn_eq.
by rewrite valid_idx_cons V ltn_divLR // Hr.
Qed.

Lemma position_of (R : fieldType) (t : tree (arr R)) i : (i < nentries t)%N ->
  exists lf idx, [/\ (lf < size (leaves t))%N, valid_idx (nth [::] (map (@ashape R) (leaves t)) lf) idx &
    i = (leaf_offset t lf + ravel_idx (nth [::] (map (@ashape R) (leaves t)) lf) idx)%N].
Proof.
rewrite /nentries /leaf_offset; elim: (leaves t) i => [|a ls IH] i //=.
have [Hi _|Hi H] := ltnP i (prodn (ashape a)).
  by have [idx V E] := ravel_onto Hi; exists 0%N, idx; rewrite E.
have [|lf [idx [Hlf V E]]] := IH (i - prodn (ashape a))%N; first by rewrite ltn_subLR.
by exists lf.+1, idx; split=> //=; rewrite -addnA -E subnKC.
Qed.

(** Two linear operators with the same dense form are the same operator. *)
Theorem C09_linear_determined (R : fieldType) (tin tout : tree (arr R)) mv1 mv2 bs1 bs2 :
  (0 < get_size tin)%N -> linear_mv tin tout mv1 -> linear_mv tin tout mv2 ->
  to_dense mv1 (LTree tin) bs1 = to_dense mv2 (LTree tin) bs2 ->
  forall t, wf_tree t -> same_layout tin t -> mv1 t = mv2 t.
Proof.
move=> n0 H1 H2 E t W S.
have [D [ED _ _ HD]] := to_dense_acts bs1 n0 (linear_acts H1).
have [D' [ED' _ _ HD']] := to_dense_acts bs2 n0 (linear_acts H2).
have ? : D' = D by move: ED' ED; rewrite E => -> [].
subst D'.
have [u [E1 I1]] := acts_is (linear_acts H1) W S; have [w [E2 I2]] := acts_is (linear_acts H2) W S.
rewrite E1 E2; congr Ok; apply: tree_is_fun I2; apply: tree_is_eq I1 => i Hi.
rewrite !big_nat; apply: eq_bigr => j /= Hj; congr (_ * _).
have [lf [idx [Hlf V ->]]] := position_of Hi.
by rewrite -(HD j lf idx) // ?get_sizeE // -(HD' j lf idx) // get_sizeE.
Qed.

(** Scaling by a constant is linear, so the hypotheses hold for every layout; and a function that is not
    linear (adding a constant tree) does not satisfy them. *)
Example C09_linear_example (R : fieldType) (c : R) (t : tree (arr R)) :
  linear_mv t t (fun u => Ok (tree_mul c u)).
Proof.
split=> [u W S|d a b Wa Sa Wb Sb].
  have [S' W' _] := tree_mul_is c (tree_is_nth W S); by exists (tree_mul c u).
have Ia := tree_is_nth Wa Sa; have Ib := tree_is_nth Wb Sb.
have [s [-> Is]] := tree_add_is (tree_mul_is d Ia) Ib.
have [w [/= -> Iw]] := tree_add_is (tree_mul_is d (tree_mul_is c Ia)) (tree_mul_is c Ib).
congr Ok; apply: tree_is_fun Iw; apply: tree_is_eq (tree_mul_is c Is) => i _.
by rewrite mulrDr mulrCA.
Qed.

Example C09_not_linear : ~ linear_mv (Leaf (Arr [:: 1%N] [:: (0 : rat)])) (Leaf (Arr [:: 1%N] [:: (0 : rat)]))
  (fun u => tree_add u (Leaf (Arr [:: 1%N] [:: (1 : rat)]))).
Proof.
move=> [_ H]; set z := Leaf (Arr [:: 1%N] [:: (0 : rat)]) in H.
have S : same_layout z z by []. 
have := H 1 z z isT S isT S; move=> /(congr1 (fun r => match r with Ok u => entries u | Raise _ => [::] end)).
by vm_compute.
Qed.
Print Assumptions C09_linear_is_matrix.
Print Assumptions C08_linear.
Print Assumptions C09_linear_recovers.
Print Assumptions C09_linear_determined.
