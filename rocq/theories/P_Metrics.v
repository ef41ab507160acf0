(** C33-C35: calibration errors and classification metrics. *)
From Coq Require Import Reals Lra.
From mathcomp Require Import all_ssreflect all_algebra.
From Verif Require Import Base RealStruct Metrics MetricsSpec MetricsProofs.
Set Implicit Arguments.
Unset Strict Implicit.
Unset Printing Implicit Defensive.
Import GRing.Theory Num.Theory Order.TTheory.
Local Open Scope ring_scope.

(** Every confidence lies in exactly one bin, and the reported bin metrics are the proportion of
    samples, the average confidence and the average correctness of each bin. *)
Theorem C33_bin_metrics :
  forall (T : realFieldType) (confidence correctness : seq T) (B : nat),
  (0 < B)%N -> size confidence = size correctness ->
  (forall x : T, exists b, (b < B)%N /\ forall b', in_bin B b' x = (b' == b)) /\
  calculate_bin_metrics confidence correctness B =
  Ok ([seq (bin_count B b (zip confidence correctness))%:R / (size confidence)%:R | b <- iota 0 B],
      [seq bin_mean fst B b (zip confidence correctness) | b <- iota 0 B],
      [seq bin_mean snd B b (zip confidence correctness) | b <- iota 0 B]).
Proof.
move=> T conf corr B HB Hs; split; last exact: bin_metricsE.
by move=> x; apply: in_bin_ex.
Qed.
Print Assumptions C33_bin_metrics.

(** The proportions are non-negative and sum to one. *)
Theorem C33_proportions :
  forall (T : realFieldType) (confidence correctness : seq T) (B : nat) p c a,
  (0 < B)%N -> (0 < size confidence)%N ->
  calculate_bin_metrics confidence correctness B = Ok (p, c, a) ->
  (forall x, x \in p -> 0 <= x) /\ \sum_(x <- p) x = 1.
Proof.
move=> T conf corr B p c a HB Hn.
have [Hs|/eqP Hs] := eqVneq (size conf) (size corr); last by rewrite /calculate_bin_metrics; case: eqP.
rewrite bin_metricsE // => -[<- _ _]; split.
  by move=> x /mapP [b _ ->]; rewrite divr_ge0 ?ler0n.
rewrite big_map -big_distrl /= (eq_bigr (fun b => bin_sum (fun=> 1) B b (zip conf corr))); last first.
  by move=> b _; rewrite /bin_sum /bin_count -sum1_count natr_sum.
rewrite sum_bins // big_const_seq count_predT iter_addr_0 size_zip -Hs minnn mulfV //.
by rewrite pnatr_eq0 -lt0n.
Qed.
Print Assumptions C33_proportions.

(** The expected calibration error is the mean over samples of the bins' total miscalibration; it
    lies between the gap of the overall averages and the mean absolute gap. *)
Theorem C33_ece_value :
  forall (T : realFieldType) (confidence correctness : seq T) (B : nat),
  (0 < B)%N -> (0 < size confidence)%N -> size confidence = size correctness ->
  exists e, expected_calibration_error confidence correctness B = Ok e /\
  let samples := zip confidence correctness in
  [/\ e = (\sum_(b <- iota 0 B) `| \sum_(s <- samples | in_bin B b s.1) (s.2 - s.1) |) / (size samples)%:R,
      `| average snd samples - average fst samples | <= e
    & e <= average (fun s => `| s.2 - s.1 |) samples].
Proof.
move=> T conf corr B HB Hn Hs; rewrite eceE //; eexists; split; first by [].
move=> samples; have Es : size samples = size conf by rewrite size_zip -Hs minnn.
have Hp : 0 < (size conf)%:R^-1 :> T by rewrite invr_gt0 ltr0n.
split; first by rewrite Es.
- rewrite /average -mulrBl -sumrB -(sum_bins conf corr HB) normrM Es [`|_^-1|]gtr0_norm //.
  by rewrite ler_pmul2r // ler_norm_sum.
- rewrite /average Es ler_pmul2r // -(sum_bins conf corr HB).
  by apply: ler_sum => b _; apply: ler_norm_sum.
Qed.
Print Assumptions C33_ece_value.

(** The maximum calibration error is the largest gap of a bin; ECE <= MCE; and with confidences and
    correctness in the unit interval both lie in it. *)
Theorem C33_ece_le_mce :
  forall (T : realFieldType) (confidence correctness : seq T) (B : nat),
  (0 < B)%N -> (0 < size confidence)%N -> size confidence = size correctness ->
  exists e m,
  expected_calibration_error confidence correctness B = Ok e /\
  maximum_calibration_error confidence correctness B = Ok m /\
  let gap b := `| bin_mean snd B b (zip confidence correctness) -
                  bin_mean fst B b (zip confidence correctness) | in
  [/\ (exists b, (b < B)%N /\ m = gap b), (forall b, (b < B)%N -> gap b <= m), 0 <= e <= m
    & (forall s, s \in zip confidence correctness -> 0 <= s.1 <= 1 /\ 0 <= s.2 <= 1) -> m <= 1].
Proof.
move=> T conf corr B HB Hn Hs; rewrite eceE // mceE //; do 2 eexists; split; first by []; split; first by [].
move=> gap.
have Eg b : `|bin_mean (fun s : T * T => s.2 - s.1) B b (zip conf corr)| = gap b.
  by rewrite /gap bin_mean_diff.
have -> : [seq `|bin_mean (fun s : T * T => s.2 - s.1) B b (zip conf corr)| | b <- iota 0 B] =
          [seq gap b | b <- iota 0 B] by apply: eq_map.
have Hmem b : (b < B)%N -> gap b \in [seq gap b | b <- iota 0 B].
  by move=> Hb; apply/mapP; exists b; rewrite // mem_iota add0n.
have Hmax b : (b < B)%N -> gap b <= jmax [seq gap b | b <- iota 0 B].
  by move=> Hb; apply: jmax_ge; apply: Hmem.
have Hin : jmax [seq gap b | b <- iota 0 B] \in [seq gap b | b <- iota 0 B].
  by apply: jmax_in => E; have := Hmem 0%N HB; rewrite E.
have Hnr : 0 < (size conf)%:R :> T by rewrite ltr0n.
split=> //.
- by have /mapP [b] := Hin; rewrite mem_iota add0n => /= Hb ->; exists b.
- apply/andP; split; first by rewrite divr_ge0 ?ler0n // sumr_ge0.
  rewrite ler_pdivr_mulr //.
  have -> : (size conf)%:R = \sum_(b <- iota 0 B) (bin_count B b (zip conf corr))%:R :> T.
    rewrite (eq_bigr (fun b => bin_sum (fun=> 1) B b (zip conf corr))).
      by rewrite sum_bins // big_const_seq count_predT iter_addr_0 size_zip -Hs minnn.
    by move=> b _; rewrite /bin_sum /bin_count -sum1_count natr_sum.
  rewrite big_distrr /= !big_seq; apply: ler_sum => b; rewrite mem_iota add0n => /= Hb.
  rewrite bin_sum_mean normrM ger0_norm ?ler0n // Eg mulrC ler_wpmul2r ?ler0n //.
  exact: Hmax.
- move=> H01; have /mapP [b _ ->] := Hin.
  rewrite -Eg /bin_mean; case: eqP => [_|/eqP Hc]; first by rewrite normr0 ler01.
  have Hcr : 0 < (bin_count B b (zip conf corr))%:R :> T by rewrite ltr0n lt0n.
  rewrite normrM [`|_^-1|]gtr0_norm ?invr_gt0 // ler_pdivr_mulr // mul1r.
  apply: le_trans (ler_norm_sum _ _ _) _.
  rewrite /bin_count -sum1_count natr_sum [X in X <= _]big_seq_cond [X in _ <= X]big_seq_cond.
  apply: ler_sum => s /andP [/H01 [/andP [a1 a2] /andP [a3 a4]] _].
  rewrite ler_norml ler_subr_addr ler_subl_addr (le_trans a4) ?ler_addl // andbT.
  by rewrite (le_trans _ a3) // addrC subr_le0.
Qed.
Print Assumptions C33_ece_le_mce.

(** The order of the samples does not matter. *)
Theorem C33_order_independent :
  forall (T : realFieldType) (confidence correctness confidence' correctness' : seq T) (B : nat),
  (0 < B)%N -> size confidence = size correctness -> size confidence' = size correctness' ->
  perm_eq (zip confidence correctness) (zip confidence' correctness') ->
  expected_calibration_error confidence correctness B =
    expected_calibration_error confidence' correctness' B /\
  maximum_calibration_error confidence correctness B =
    maximum_calibration_error confidence' correctness' B.
Proof.
move=> T c1 a1 c2 a2 B HB H1 H2 Hp.
have Esz : size c1 = size c2 by have := perm_size Hp; rewrite !size_zip -H1 -H2 !minnn.
have Ecnt b : bin_count B b (zip c1 a1) = bin_count B b (zip c2 a2) by apply/permP.
have Esum f b : bin_sum f B b (zip c1 a1) = bin_sum f B b (zip c2 a2) by apply: perm_big.
rewrite !eceE // !mceE //; split; congr Ok.
  by rewrite Esz; congr (_ / _); apply: eq_bigr => b _; rewrite Esum.
by congr jmax; apply: eq_map => b; rewrite /bin_mean Ecnt Esum.
Qed.
Print Assumptions C33_order_independent.

(** Non-vacuity: three samples in two bins. *)
Example C33_example :
  expected_calibration_error [:: 1 / 4%:R; 3%:R / 4%:R; 1] [:: 0; 1; 1 : rat] 2 = Ok (1 / 6%:R) /\
  maximum_calibration_error [:: 1 / 4%:R; 3%:R / 4%:R; 1] [:: 0; 1; 1 : rat] 2 = Ok (1 / 4%:R).
Proof. by split; vm_compute; congr Ok; apply/eqP. Qed.

(** correctness marks sample [i] exactly when the target's class is the first class of largest
    prediction; score-valued targets count through their own first largest entry. *)
Theorem C34_correctness :
  forall (T : realFieldType) (pred : seq (seq T)) (target : targets T) (bs : seq bool),
  (forall r, r \in pred -> r <> [::]) ->
  (if target is Rows rs then forall r, r \in rs -> r <> [::] else True) ->
  correctness pred target = Ok bs ->
  size bs = size pred /\
  forall i, (i < size pred)%N ->
    nth false bs i <->
    exists m, first_max (nth [::] pred i) m /\
      match target with
      | Labels ls => nth 0%N ls i = m
      | Rows rs => first_max (nth [::] rs i) m
      end.
Proof.
move=> T pred target bs Hp Ht; rewrite /correctness; case: eqP => // Hs [<-].
rewrite size_map size_zip -Hs minnn; split=> // i Hi.
rewrite (nth_map ([::], 0%N)) ?size_zip -?Hs ?minnn // nth_zip //=.
have Hm := argmaxP (Hp _ (mem_nth [::] Hi)).
case: target Ht Hs => [ls|rs] /= Ht Hs.
  split=> [/eqP <-|[m [Hm' Em]]]; first by exists (argmax (nth [::] pred i)).
  by rewrite Em; apply/eqP; apply: first_max_uniq Hm _.
have Hi' : (i < size rs)%N by rewrite -(size_map (@argmax T)) -Hs.
have Hr := argmaxP (Ht _ (mem_nth [::] Hi')).
rewrite (nth_map [::]) //; split=> [/eqP E|[m [H1 H2]]].
  by exists (argmax (nth [::] pred i)); split=> //; rewrite E.
by rewrite (first_max_uniq Hm H1) (first_max_uniq Hr H2).
Qed.
Print Assumptions C34_correctness.

(** [ls] are the target classes: given as such, or as the first largest entries of rows of scores. *)
Definition targets_are (T : realFieldType) (target : targets T) (ls : seq nat) : Prop :=
  match target with
  | Labels ls' => ls = ls'
  | Rows rs => size ls = size rs /\ forall i, (i < size rs)%N -> first_max (nth [::] rs i) (nth 0%N ls i)
  end.
Lemma targets_areE (T : realFieldType) (target : targets T) ls : targets_are target ls -> ls = target_labels target.
Proof.
case: target => [//|rs] /= [Hs H]; apply: (@eq_from_nth _ 0%N) => [|i]; rewrite ?size_map // Hs => Hi.
rewrite (nth_map [::]) //; apply: first_max_uniq (H i Hi) _; apply: argmaxP => E.
by have [] := H i Hi; rewrite E.
Qed.

Lemma top_k_accuracyE (T : realFieldType) (C : nat) (pred : seq (seq T)) (target : targets T) (ks : seq nat) :
  ks <> [::] -> size pred = size (target_labels target) ->
  (forall r, r \in pred -> size r = C) ->
  accuracy C pred target ks =
  Ok [seq (count (fun pl => (pl.2 < C)%N && (rank_before pl.1 pl.2 < k)%N)
                 (zip pred (target_labels target)))%:R * 100%:R / (size pred)%:R | k <- ks].
Proof.
move=> Hk Hs HC; rewrite /accuracy; case: ks Hk => // k0 ks' _.
rewrite -Hs eqxx [~~ true]/=; cbv iota beta zeta; set ks := k0 :: ks'.
congr Ok; apply/eq_in_map => k Hk.
congr (_ * _ / _); set mk := minn (foldr maxn 0%N ks) C.
have Hkmax : (k <= foldr maxn 0%N ks)%N.
  elim: (ks) Hk => //= a l IH; rewrite inE => /orP [/eqP ->|/IH H]; rewrite leq_max ?leqnn // H orbT //.
have Ekm : minn (minn k mk) mk = minn k C.
  by rewrite /mk -minnA minnn minnA (minn_idPl Hkmax).
elim: pred (target_labels target) Hs HC => [|p pred IH] [|l ls] //= [Hs] HC.
have jc (a b : seq T) : jsum (a ++ b) = jsum a + jsum b by rewrite !jsumE big_cat.
rewrite jc [X in X + _]jsumE big_map.
have -> : jsum (flatten [seq [seq (if i == tl.2 then 1 else 0) | i <- take (minn k mk) tl.1]
     | tl <- zip [seq top_k_indices mk i | i <- pred] ls]) =
   (count (fun pl => (pl.2 < C)%N && (rank_before pl.1 pl.2 < k)%N) (zip pred ls))%:R :> T.
  by apply: IH => // r Hr; apply: HC; rewrite inE Hr orbT.
rewrite natrD; congr (_ + _).
rewrite take_top_k Ekm -big_mkcond /=.
have -> : \sum_(i <- top_k_indices (minn k C) p | i == l) 1 =
    (count (pred1 l) (top_k_indices (minn k C) p))%:R :> T by rewrite -sum1_count natr_sum.
rewrite count_uniq_mem ?top_k_uniq // mem_top_k (HC p) ?mem_head //.
case: (boolP (l < C)%N) => //= Hl; rewrite leq_min andbC.
by have := @rank_lt T p l; rewrite HC ?mem_head // => ->.
Qed.

(** Top-k accuracy: the percentage of samples whose target class exists and has fewer than [k]
    classes ranked before it. *)
Theorem C34_top_k_accuracy :
  forall (T : realFieldType) (C : nat) (pred : seq (seq T)) (target : targets T) (ls ks : seq nat),
  ks <> [::] -> targets_are target ls -> size pred = size ls ->
  (forall r, r \in pred -> size r = C) ->
  accuracy C pred target ks =
  Ok [seq (count (fun pl => (pl.2 < C)%N && (rank_before pl.1 pl.2 < k)%N)
                 (zip pred ls))%:R * 100%:R / (size pred)%:R | k <- ks].
Proof. by move=> T C pred target ls ks Hk /targets_areE -> Hs HC; apply: top_k_accuracyE. Qed.
Print Assumptions C34_top_k_accuracy.

(** Consequences: accuracies are percentages, never decrease with k, reach 100 for k = number of
    classes (with valid labels), and top-1 accuracy is the percentage of correct samples. *)
(** An empty tuple of [k]s is an error. *)
Theorem C34_no_top_k :
  forall (T : realFieldType) (C : nat) (pred : seq (seq T)) (target : targets T),
  accuracy C pred target [::] = Raise ValueError.
Proof. by []. Qed.
Print Assumptions C34_no_top_k.

Theorem C34_accuracy_monotone :
  forall (T : realFieldType) (C : nat) (pred : seq (seq T)) (target : targets T) ls (k1 k2 : nat) a1 a2,
  (0 < size pred)%N -> targets_are target ls -> size pred = size ls ->
  (forall r, r \in pred -> size r = C) -> (k1 <= k2)%N ->
  accuracy C pred target [:: k1; k2] = Ok [:: a1; a2] ->
  [/\ 0 <= a1 <= a2, a2 <= 100%:R
    & (C <= k2)%N -> (forall l, l \in ls -> (l < C)%N) -> a2 = 100%:R].
Proof.
move=> T C pred target ls k1 k2 a1 a2 Hn Ht Hs HC Hk; rewrite (C34_top_k_accuracy _ Ht) // => -[<- <-].
have Hnr : 0 < (size pred)%:R :> T by rewrite ltr0n.
have Hz : size (zip pred ls) = size pred by rewrite size_zip -Hs minnn.
split.
- rewrite divr_ge0 ?mulr_ge0 ?ler0n //= ler_pmul2r ?invr_gt0 // ler_pmul2r ?ltr0n // ler_nat.
  by apply: sub_count => pl /= /andP [-> H]; rewrite (leq_trans H).
- rewrite ler_pdivr_mulr // mulrC ler_pmul2l ?ltr0n // ler_nat -Hz.
  exact: count_size.
- move=> HCk Hl; suff -> : count (fun pl => (pl.2 < C)%N && (rank_before pl.1 pl.2 < k2)%N)
      (zip pred ls) = size pred by rewrite mulrAC mulfV ?mul1r // gt_eqF.
  apply/eqP; rewrite -[X in _ == X]Hz -all_count; apply/allP => -[p l] /= Hpl.
  have [Hp Hl'] : p \in pred /\ l \in ls.
    elim: (pred) (ls) Hpl {Hn Ht Hs HC Hnr Hz Hl} => [|p' ps IH] [|l' ls0] //=.
    rewrite !inE => /orP [/eqP [-> ->]|/IH [-> ->]]; by rewrite ?eqxx ?orbT.
  rewrite (Hl _ Hl') /= (leq_trans _ HCk) // -(HC _ Hp); apply: rank_lt.
  by rewrite HC //; apply: Hl.
Qed.
Print Assumptions C34_accuracy_monotone.

Theorem C34_top1_is_correctness :
  forall (T : realFieldType) (C : nat) (pred : seq (seq T)) (target : targets T) bs,
  (0 < C)%N -> (forall r, r \in pred -> size r = C) ->
  correctness pred target = Ok bs ->
  accuracy C pred target [:: 1%N] = Ok [:: (count id bs)%:R * 100%:R / (size pred)%:R].
Proof.
move=> T C pred target bs HC0 HC; rewrite /correctness; case: eqP => // Hs [<-].
rewrite top_k_accuracyE //=; congr (Ok [:: _]); congr (_%:R * _ / _).
rewrite count_map; apply: eq_in_count => -[p l] /= Hpl.
have Hp : size p = C.
  apply: HC; elim: (pred) (target_labels target) Hpl {Hs} => [|p' ps IH] [|l' ls] //=.
  by rewrite !inE => /orP [/eqP [-> _]|/IH ->]; rewrite ?eqxx ?orbT.
have Hne : p <> [::] by move=> E; rewrite E in Hp; rewrite -Hp in HC0.
have Hm := argmaxP Hne.
apply/idP/idP => [/andP [Hl]|/eqP <-].
  rewrite ltnS leqn0 /rank_before -leqn0 leqNgt -has_count => /hasPn Hno.
  apply/eqP; apply: first_max_uniq Hm _; split=> [|j Hj|j Hj]; first by rewrite Hp.
    have := Hno j; rewrite mem_iota add0n Hj => /(_ isT); rewrite negb_or -leNgt => /andP [-> //].
  have Hj' : (j < size p)%N by rewrite Hp (ltn_trans Hj).
  have := Hno j; rewrite mem_iota add0n Hj' => /(_ isT); rewrite negb_or -leNgt Hj andbT => /andP [H1 H2].
  by rewrite lt_neqAle H1 eq_sym H2.
case: Hm => H1 H2 H3; rewrite -Hp H1 /= ltnS leqn0 /rank_before -leqn0 leqNgt -has_count.
apply/hasPn => j; rewrite mem_iota add0n => /= Hj; rewrite negb_or -leNgt H2 //=.
rewrite negb_and; case: (ltnP j (argmax p)) => Hja; last by rewrite orbT.
by rewrite gt_eqF ?H3.
Qed.
Print Assumptions C34_top1_is_correctness.

(** Ties: with scores 1, 3, 3 class 1 is the prediction and class 2 comes second. *)
Example C34_example :
  correctness [:: [:: 1 : rat; 3%:R; 3%:R]; [:: 2%:R; 0; 1]] (Labels _ [:: 2; 0]%N) = Ok [:: false; true] /\
  accuracy 3 [:: [:: 1 : rat; 3%:R; 3%:R]; [:: 2%:R; 0; 1]] (Labels _ [:: 2; 0]%N) [:: 1; 2]%N =
    Ok [:: 50%:R; 100%:R].
Proof. by split; vm_compute; [|congr (Ok [:: _; _]); apply/eqP]. Qed.

(** multiclass_brier is minus the squared distance to the one-hot target, averaged over samples and
    classes; so it is never positive, whereas the documented score is a mean of squares. *)
Theorem C35_brier_value :
  forall (T : realFieldType) (C : nat) (prob : seq (seq T)) (labels : seq nat),
  size prob = size labels -> (forall r, r \in prob -> size r = C) ->
  (forall l, l \in labels -> (l < C)%N) ->
  multiclass_brier C prob (Labels T labels) =
  Ok (- (\sum_(pl <- zip prob labels) \sum_(c <- iota 0 C)
           (nth 0 pl.1 c - (if c == pl.2 then 1 else 0)) ^+ 2) / (size prob * C)%:R).
Proof.
move=> T C prob labels Hs HC Hl; rewrite /multiclass_brier size_map -Hs eqxx /=.
have -> : all (fun r : seq T => size r == C) ([seq one_hot T C i | i <- labels] ++ prob).
  rewrite all_cat; apply/andP; split; apply/allP => r; last by move/HC ->.
  by move=> /mapP [l _ ->]; rewrite size_map size_iota.
rewrite /= /jmean mulNr; congr (Ok (- (_ / _%:R))); last first.
  elim: prob labels Hs HC {Hl} => [|p prob IH] [|l ls] //= [Hs] HC.
  rewrite size_cat IH // => [|r Hr]; last by apply: HC; rewrite inE Hr orbT.
  by rewrite size_map size_zip !size_map size_iota HC ?mem_head // minnn mulSn.
rewrite jsumE.
elim: prob labels Hs HC Hl => [|p prob IH] [|l ls] //=; first by rewrite !big_nil.
move=> [Hs] HC Hl.
rewrite big_cat big_cons /= IH //; last 2 first.
- by move=> r Hr; apply: HC; rewrite inE Hr orbT.
- by move=> l' Hl'; apply: Hl; rewrite inE Hl' orbT.
congr (_ + _); have Hp : size p = C by apply: HC; rewrite mem_head.
have Hl0 : (l < C)%N by apply: Hl; rewrite mem_head.
set s2 := jsum _.
have Es2 : s2 = \sum_(c <- iota 0 C) (nth 0 p c) ^+ 2.
  by rewrite /s2 jsumE big_map -Hp -{1}(mkseq_nth 0 p) /mkseq big_map.
have -> : [seq 1 - 2%:R * x + s2 | x <- p] = [seq 1 - 2%:R * nth 0 p c + s2 | c <- iota 0 C].
  by rewrite -{1}(mkseq_nth 0 p) /mkseq -map_comp Hp.
rewrite zip_map -map_comp big_map /=.
rewrite (eq_bigr (fun c => if c == l then 1 - 2%:R * nth 0 p c + s2 else 0)); last first.
  by move=> c _ /=; case: eqP; rewrite ?mul1r ?mul0r.
rewrite -big_mkcond -big_filter filter_pred1_uniq ?iota_uniq ?mem_iota // big_seq1.
rewrite [RHS](eq_bigr (fun c => (nth 0 p c) ^+ 2 + (if c == l then 1 - 2%:R * nth 0 p c else 0))).
  rewrite big_split /= -Es2 -big_mkcond -big_filter filter_pred1_uniq ?iota_uniq ?mem_iota // big_seq1.
  by rewrite addrC.
move=> c _; case: eqP => _; last by rewrite subr0 addr0.
by rewrite sqrrB1 -addrA; congr (_ + _); rewrite addrC mulr_natl.
Qed.
Print Assumptions C35_brier_value.

Theorem C35_never_positive :
  forall (T : realFieldType) (C : nat) (prob : seq (seq T)) (labels : seq nat) b,
  size prob = size labels -> (forall r, r \in prob -> size r = C) ->
  (forall l, l \in labels -> (l < C)%N) ->
  multiclass_brier C prob (Labels T labels) = Ok b -> b <= 0.
Proof.
move=> T C prob labels b Hs HC Hl; rewrite C35_brier_value // => -[<-].
rewrite mulNr oppr_le0 divr_ge0 ?ler0n // sumr_ge0 // => pl _.
by rewrite sumr_ge0 // => c _; rewrite sqr_ge0.
Qed.
Print Assumptions C35_never_positive.

(** The documented value - the mean squared difference, which is never negative - is not what is
    returned: a completely wrong prediction over two classes scores -1. *)
Theorem C35_documented_value_refuted :
  exists b : rat, multiclass_brier 2 [:: [:: 0 : rat; 1]] (Labels _ [:: 0%N]) = Ok b /\ b = -1.
Proof.
by eexists; split; first reflexivity; apply/eqP; vm_compute.
Qed.
Print Assumptions C35_documented_value_refuted.
