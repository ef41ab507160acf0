(** Proofs about basis vectors, identity trees and tree arithmetic. *)
From Coq Require Import String.
From mathcomp Require Import all_ssreflect all_algebra.
From Verif Require Import Base PyTree TreeSpec PyTreeProofs.
Set Implicit Arguments.
Unset Strict Implicit.
Unset Printing Implicit Defensive.

(** ** C04: basis vectors *)
Section Basis.
Import GRing.Theory.
Local Open Scope ring_scope.
Variable R : ringType.

Lemma unit_vec_cat (m n i : nat) :
  unit_vec R (m + n) i = unit_vec R m i ++ (if (i < m)%N then nseq n 0 else unit_vec R n (i - m)).
Proof.
apply: (@eq_from_nth _ 0) => [|j Hj].
  by rewrite size_cat !size_mkseq; case: ifP; rewrite ?size_nseq ?size_mkseq.
move: Hj; rewrite size_mkseq => Hj.
rewrite nth_mkseq // nth_cat size_mkseq; case: (ltnP j m) => Hjm.
  by rewrite nth_mkseq.
have Hjn : (j - m < n)%N by rewrite ltn_subLR.
case: ltnP => Him.
  by rewrite nth_nseq if_same gtn_eqF // (leq_trans Him Hjm).
rewrite nth_mkseq //.
by have -> : (j - m == i - m)%N = (j == i) by rewrite -(eqn_add2l m) !subnKC.
Qed.

Lemma unit_vec_0 n : unit_vec R n.+1 0 = 1 :: nseq n 0.
Proof. by rewrite -add1n unit_vec_cat. Qed.

Lemma unit_vec_S n i : unit_vec R n.+1 i.+1 = 0 :: unit_vec R n i.
Proof. by rewrite -add1n unit_vec_cat /= subSS subn0. Qed.

Lemma at_setS (A : Type) i (v x : A) s : at_set i.+1 v (x :: s) = x :: at_set i v s.
Proof. by rewrite /at_set /= ltnS; case: ltnP. Qed.

Lemma at_set_unit n i : at_set i (1:R) (nseq n 0) = unit_vec R n i.
Proof.
elim: n i => [|n IH] [|i] //.
  by rewrite unit_vec_0.
by rewrite unit_vec_S -IH -at_setS.
Qed.

Lemma unit_vec_out n i : (n <= i)%N -> unit_vec R n i = nseq n 0.
Proof. by move=> H; rewrite -at_set_unit /at_set size_nseq ltnNge H. Qed.

(** the block containing index [i], and the offset inside *)
Lemma cumsum_from_ge tot szs c : c \in cumsum_from tot szs -> (tot <= c)%N.
Proof.
elim: szs tot => //= x s IH tot; rewrite inE => /orP [/eqP ->|/IH]; first exact: leq_addr.
by apply: leq_trans; apply: leq_addr.
Qed.

Lemma basis_core (szs : seq nat) (tot idx : nat) : (tot <= idx)%N ->
  let cum := cumsum_from tot szs in
  let k := searchsorted_right cum idx in
  let off := (if (0 < k)%N then nth 0%N cum k.-1 else tot) in
  flatten [seq (if p.1 == k then at_set (idx - off) 1 (nseq p.2 0) else nseq p.2 0)
          | p <- zip (iota 0 (size szs)) szs] = unit_vec R (sumn szs) (idx - tot).
Proof.
elim: szs tot => [|x szs IH] tot Ht //=.
rewrite unit_vec_cat.
case: (leqP (tot + x) idx) => Hx.
- have Hnx : (idx - tot < x)%N = false by rewrite ltn_subLR // ltnNge Hx.
  rewrite Hnx /= (unit_vec_out (n := x)); last by rewrite leqNgt Hnx.
  congr (_ ++ _).
  have := IH _ Hx; cbv zeta; set cum := cumsum_from (tot + x) szs.
  set k := searchsorted_right cum idx.
  rewrite subnDA => <-; congr flatten.
  have -> : iota 1 (size szs) = map succn (iota 0 (size szs)).
    by rewrite -[1%N]/(1 + 0)%N iotaDl; apply: eq_map => z; rewrite add1n.
  set s := iota 0 _; have -> : zip (map succn s) szs = [seq (p.1.+1, p.2) | p <- zip s szs].
    by elim: s (szs) => [|a s IHs] [|b l] //=; rewrite IHs.
  rewrite -map_comp; apply: eq_map => -[i n] /=.
  rewrite add1n eqSS; case: eqP => // Hik.
  by congr (at_set (_ - _) _ _); rewrite /k; case: (searchsorted_right cum idx).
- have Hk0 : searchsorted_right (cumsum_from (tot + x) szs) idx = 0%N.
    apply/eqP; rewrite -leqn0 leqNgt -has_count -all_predC; apply/allP => c /cumsum_from_ge Hc /=.
    by rewrite -ltnNge (leq_trans Hx Hc).
  rewrite Hk0 /= at_set_unit ltn_subLR // Hx.
  congr (_ ++ _).
  have G (f : nat -> seq R) : forall l m, flatten [seq (if p.1 == 0%N then f p.2 else nseq p.2 0)
      | p <- zip (iota m.+1 (size l)) l] = nseq (sumn l) 0.
    by elim=> //= y l IHl m; rewrite IHl -nseqD.
  exact: (G (fun n => at_set (idx - tot) 1 (nseq n 0))).

Qed.

Lemma basis_vectorP (t : tree (arr R)) (idx : nat) :
  exists b, [/\ basis_vector_from_index idx t = Ok b, same_layout t b, wf_tree b
              & entries b = unit_vec R (nentries t) idx].
Proof.
rewrite /basis_vector_from_index.
set flat := leaves (zeros_like t).
set szs := map _ flat.
have Esz : szs = map (fun a => prodn (ashape a)) (leaves t).
  by rewrite /szs /flat /zeros_like leaves_tmap -map_comp.
set k := searchsorted_right _ _; set off := (if _ then _ else _).
pose upd i (a : arr R) :=
    if i == k then Arr (ashape a) (at_set (idx - off) (1:R) (adata a)) else a.
cbv zeta; rewrite -/k -/off.
set ls := [seq _ | p <- zip _ _].
have Els : ls = [seq upd p.1 p.2 | p <- zip (iota 0 (size flat)) flat] by [].
have Eflat : flat = [seq Arr (ashape a) (nseq (prodn (ashape a)) 0) | a <- leaves t].
  by rewrite /flat /zeros_like leaves_tmap.
have Ssz : size szs = size flat by rewrite /szs size_map.
have Hsh : map (@ashape R) ls = map (@ashape R) (leaves t).
  rewrite Els -map_comp.
  have -> : [seq ashape i | i <- leaves t] = map (@ashape R) flat by rewrite Eflat -map_comp.
  rewrite -[in RHS](@unzip2_zip _ _ (iota 0 (size flat)) flat) ?size_iota // /unzip2 -map_comp.
  by apply: eq_map => -[i a] /=; rewrite /upd; case: eqP.
have Hda : map (@adata R) ls =
    [seq (if p.1 == k then at_set (idx - off) 1 (nseq p.2 0) else nseq p.2 0)
    | p <- zip (iota 0 (size szs)) szs].
  rewrite Ssz Els /szs /upd Eflat size_map -!map_comp.
  move: (iota _ _) => I; elim: (leaves t) I => [|a l IH] [|i I] //=.
  by rewrite IH; case: eqP.
have [|b Eb] := @tree_unflatten_ok _ (treedef (zeros_like t)) ls.
  by rewrite size_leaves_def -(size_map (@ashape R)) Hsh /zeros_like leaves_tmap !size_map.
have [D L] := tree_unflatten_inv Eb.
exists b; split=> //.
- by split; [rewrite D treedef_tmap | rewrite L Hsh].
- rewrite /wf_tree L; apply: sizes_wf; rewrite Hsh Hda -map_comp.
  rewrite -(map_comp prodn (@ashape R)) -Esz.
  rewrite -[in RHS](@unzip2_zip _ _ (iota 0 (size szs)) szs) ?size_iota // /unzip2.
  apply: eq_map => -[i n] /=; case: eqP => _; last by rewrite size_nseq.
  by rewrite at_set_unit size_mkseq.
- rewrite /entries L Hda.
  have := @basis_core szs 0 idx (leq0n _); cbv zeta.
  by rewrite -/(cumsum szs) -/k -/off => ->; rewrite subn0 /nentries Esz.
Qed.
End Basis.
