(** Property C33, continued: finer bins. *)
From mathcomp Require Import all_ssreflect all_algebra.
From Verif Require Import Base Metrics MetricsSpec MetricsProofs P_Metrics.
Set Implicit Arguments.
Unset Strict Implicit.
Unset Printing Implicit Defensive.
Import GRing.Theory Num.Theory Order.TTheory.
Local Open Scope ring_scope.

Section Bins.
Variable T : realFieldType.

(** Every bin of [k * B] bins is part of one of [B] bins. *)
Lemma in_coarse_bin B k b (x : T) : (0 < k)%N -> (0 < B)%N -> in_bin (k * B) b x -> in_bin B (b %/ k) x.
Proof.
move=> k0 B0 /and3P [Hb H1 H2].
have Bp : 0 < B%:R :> T by rewrite ltr0n.
have kp : 0 < k%:R :> T by rewrite ltr0n.
have sc (m : nat) : m%:R / B%:R = (m * k)%:R / (k * B)%:R :> T.
  by rewrite [(m * k)%N]mulnC !natrM -mulf_div divff ?mul1r // gt_eqF.
apply/and3P; split; first by rewrite ltn_divLR // mulnC.
- case/orP: H1 => [/eqP ->|H1]; first by rewrite div0n.
  apply/orP; right; apply: le_trans H1; rewrite sc ler_pmul2r ?invr_gt0 ?ltr0n ?muln_gt0 ?k0 // ler_nat.
  exact: leq_trunc_div.
- case/orP: H2 => [/eqP ->|H2].
    apply/orP; left; case: (k) (B) k0 B0 => [|k'] [|B'] // _ _.
    by rewrite mulnC mulSn addSn /= addnC divnMDl // divn_small // addn0.
  apply/orP; right; apply: lt_le_trans H2 _; rewrite sc ler_pmul2r ?invr_gt0 ?ltr0n ?muln_gt0 ?k0 // ler_nat.
  exact: ltn_ceil.
Qed.


Lemma coarse_sum (f : T * T -> T) B k b samples : (0 < k)%N -> (0 < B)%N ->
  bin_sum f B b samples = \sum_(b' <- iota 0 (k * B) | (b' %/ k)%N == b) bin_sum f (k * B) b' samples.
Proof.
move=> k0 B0; have kB : (0 < k * B)%N by rewrite muln_gt0 k0.
rewrite /bin_sum big_mkcond /= [RHS](eq_bigr (fun b' => \sum_(s <- samples) (if in_bin (k * B) b' s.1 then f s else 0))); last first.
  by move=> b' _; rewrite big_mkcond.
rewrite exchange_big /=; apply: eq_bigr => s _.
have [c [Hc E]] := in_bin_ex s.1 kB; have [d [Hd E']] := in_bin_ex s.1 B0.
have Ed : d = (c %/ k)%N.
  by apply/eqP; rewrite eq_sym -E'; apply: in_coarse_bin; rewrite ?E.
rewrite E' Ed -big_mkcondr /=.
rewrite (eq_bigl (fun b' => (b' == c) && ((c %/ k)%N == b))); last first.
  by move=> b'; rewrite E andbC; case: (b' =P c) => // ->.
rewrite -big_filter_cond filter_pred1_uniq ?iota_uniq ?mem_iota // big_cons big_nil eq_sym addr0.
by [].
Qed.
End Bins.

(** C33.  Splitting every bin into [k] bins never decreases the expected or the maximum calibration
    error; with one bin both are the difference between the average confidence and the accuracy. *)
Theorem C33_finer_bins :
  forall (T : realFieldType) (confidence correctness : seq T) (B k : nat),
  (0 < B)%N -> (0 < k)%N -> (0 < size confidence)%N -> size confidence = size correctness ->
  exists e m e' m',
  [/\ expected_calibration_error confidence correctness B = Ok e,
      maximum_calibration_error confidence correctness B = Ok m,
      expected_calibration_error confidence correctness (k * B) = Ok e',
      maximum_calibration_error confidence correctness (k * B) = Ok m' & e <= e' /\ m <= m'].
Proof.
move=> T conf corr B k B0 k0 Hn Hs; have kB : (0 < k * B)%N by rewrite muln_gt0 k0.
have [e [m [E1 [E2 [[b [Hb Em]] _ _ _]]]]] := C33_ece_le_mce B0 Hn Hs.
have [e' [m' [E1' [E2' [_ Hm' /andP [e0' Hem'] _]]]]] := C33_ece_le_mce kB Hn Hs.
exists e, m, e', m'; split=> //.
set samples := zip conf corr in Em Hm'; pose f (s : T * T) := s.2 - s.1.
have CS g := coarse_sum g _ samples k0 B0.
have Dv b' : (b' < k * B)%N -> (b' %/ k < B)%N by move=> H; rewrite ltn_divLR // mulnC.
have Ab b' : `|bin_sum f B b' samples| <= \sum_(c <- iota 0 (k * B) | (c %/ k)%N == b') `|bin_sum f (k * B) c samples|.
  by rewrite (CS _ f); exact: ler_norm_sum.
split.
- move: E1 E1'; rewrite !eceE // => -[<-] [<-]; rewrite ler_pmul2r ?invr_gt0 ?ltr0n //.
  apply: (@le_trans _ _ (\sum_(b' <- iota 0 B) \sum_(c <- iota 0 (k * B) | (c %/ k)%N == b') `|bin_sum f (k * B) c samples|)).
    by apply: ler_sum => b' _; exact: Ab.
  rewrite (exchange_big_dep predT) //= !big_seq; apply: ler_sum => c; rewrite mem_iota add0n => /= Hc.
  rewrite -big_filter (eq_filter (a2 := pred1 (c %/ k)%N)) => [|b']; last by rewrite /= eq_sym.
  by rewrite filter_pred1_uniq ?iota_uniq ?mem_iota ?Dv // big_seq1.
- have m0' : 0 <= m' := le_trans e0' Hem'.
  rewrite Em bin_mean_diff -/samples -/f.
  have [E0|N0] := eqVneq (bin_count B b samples) 0%N; first by rewrite /bin_mean E0 eqxx normr0.
  have Np : 0 < (bin_count B b samples)%:R :> T by rewrite ltr0n lt0n.
  have cnt D c : (bin_count D c samples)%:R = bin_sum (fun=> 1) D c samples :> T.
    by rewrite /bin_sum /bin_count -sum1_count natr_sum.
  have : `|bin_sum f B b samples| <= (bin_count B b samples)%:R * m'.
    apply: le_trans (Ab b) _; rewrite cnt (CS _ (fun=> 1)) mulr_suml.
    rewrite big_seq_cond [X in _ <= X]big_seq_cond; apply: ler_sum => c /andP []; rewrite mem_iota add0n => /= Hc _.
    by rewrite -cnt bin_sum_mean normrM ger0_norm ?ler0n // ler_wpmul2l ?ler0n // -bin_mean_diff Hm'.
  by rewrite bin_sum_mean normrM gtr0_norm // ler_pmul2l.
Qed.
Print Assumptions C33_finer_bins.

(** One bin: both errors are the difference between average confidence and accuracy. *)
Theorem C33_one_bin :
  forall (T : realFieldType) (confidence correctness : seq T),
  (0 < size confidence)%N -> size confidence = size correctness ->
  let samples := zip confidence correctness in
  let gap := `|average snd samples - average fst samples| in
  expected_calibration_error confidence correctness 1 = Ok gap /\
  maximum_calibration_error confidence correctness 1 = Ok gap.
Proof.
move=> T conf corr Hn Hs samples gap.
have Es : size samples = size conf by rewrite size_zip -Hs minnn.
have A (x : T) : in_bin 1 0 x by [].
have G : gap = `|bin_mean snd 1 0 samples - bin_mean fst 1 0 samples|.
  rewrite /gap /bin_mean /bin_count /bin_sum /average.
  rewrite (eq_count (a2 := predT)) => [|s]; last exact: A.
  by rewrite count_predT Es; case: eqP Hn => [->|_ _].
have [e [m [E1 [E2 [[b [Hb Em]] H _ _]]]]] := C33_ece_le_mce (isT : (0 < 1)%N) Hn Hs.
have b0 : b = 0%N by case: (b) Hb.
rewrite E2 Em b0 -G; split=> //.
have [e2 [E3 [Ev _ _]]] := C33_ece_value (isT : (0 < 1)%N) Hn Hs.
rewrite E3; congr Ok; rewrite Ev [iota 0 1]/= big_seq1 /gap /average -mulrBl -sumrB normrM [`|_^-1|]ger0_norm ?invr_ge0 ?ler0n //.
Qed.
Print Assumptions C33_one_bin.

(** Non-vacuity: two samples; two bins separate them, one bin hides both errors. *)
Example C33_finer_bins_example :
  expected_calibration_error [:: 1 / 4%:R; 3%:R / 4%:R] [:: 1; 0 : rat] 1 = Ok 0 /\
  expected_calibration_error [:: 1 / 4%:R; 3%:R / 4%:R] [:: 1; 0 : rat] (2 * 1) = Ok (3%:R / 4%:R).
Proof. by split; vm_compute; congr Ok; apply/eqP. Qed.
