(** Property C58: the regression metrics are the scores they are named after, stated with integrals
    over the real line. *)
From Coq Require Import Reals Lra.
From Coquelicot Require Import Coquelicot.
From mathcomp Require Import all_ssreflect all_algebra.
From Verif Require Import Base PyTree RealStruct RealSums Metrics MetricsSpec MetricsProofs Normal CrpsProofs Gauss P_Regression.
Set Implicit Arguments.
Unset Strict Implicit.
Unset Printing Implicit Defensive.
Import GRing.Theory Num.Theory Order.TTheory.
Local Open Scope ring_scope.

(** Specification.  [gaussian m s] is the density of the normal distribution; [F] is the distribution
    function of the density [p]; the continuous ranked probability score of a forecast with
    distribution function [F] and an observation [y] is the integral of the squared difference between
    [F] and the step at [y]; [e] is the expectation of [g] under the density [p]. *)
Definition gaussian (m s y : R) : R :=
  exp (- (y - m) ^+ 2 / (2%:R * s ^+ 2)) / sqrt (2%:R * PI * s ^+ 2).
Definition is_cdf (p F : R -> R) : Prop := forall x, is_RInt_gen p (Rbar_locally m_infty) (at_point x) (F x).
Definition is_crps (F : R -> R) (y v : R) : Prop :=
  is_RInt_gen (fun x => pow (Rminus (F x) (if Rle_dec y x is left _ then 1 else 0)) 2)
    (Rbar_locally m_infty) (Rbar_locally p_infty) v.
Definition expectation (p g : R -> R) (e : R) : Prop :=
  is_RInt_gen (fun y => p y * g y) (Rbar_locally m_infty) (Rbar_locally p_infty) e.
(** The entries of three arrays, one after the other. *)
Definition entries3 (m s y : arr R) : seq (R * R * R) := zip (zip (adata m) (adata s)) (adata y).

Lemma gaussianE m s y : 0 < s -> gaussian m s y = gauss_density m s y.
Proof.
move=> Hs; have Hs' : Rlt 0 s by apply/RltP.
rewrite /gaussian /gauss_density !expr2.
have N1 : 2%:R * (s * s) != 0 by rewrite !mulf_neq0 ?pnatr_eq0 ?gt_eqF.
have N2 : sqrt (2%:R * PI * (s * s)) != 0.
  apply/eqP/Rgt_not_eq; apply: sqrt_lt_R0; apply/RltP.
  have HP : 0 < PI by apply/RltP; exact: PI_RGT_0.
  apply: mulr_gt0; last exact: mulr_gt0.
  by apply: mulr_gt0 HP; rewrite ltr0n.
by rewrite -!RdivE // -!INRE; toR; rewrite /= /Rdiv Rmult_1_l Rmult_comm.
Qed.

(** [gaussian m s] is a probability density with mean [m] and variance [s^2]. *)
Theorem C58_density :
  forall m s : R, 0 < s ->
  [/\ expectation (gaussian m s) (fun _ => 1) 1, expectation (gaussian m s) (fun y => y) m
    & expectation (gaussian m s) (fun y => (y - m) ^+ 2) (s ^+ 2)].
Proof.
move=> m s /RltP Hs; split.
- have D := @density_quadratic m s Hs 1 0 0.
  have E0 : Rplus 1 (Rmult 0 (Rmult s s)) = 1 by toR; rewrite /=; lra.
  rewrite E0 in D; apply: (is_RInt_gen_ext _ _ _ _ D); apply: filter_forall => ab y _.
  by rewrite gaussianE //; last exact/RltP; congr (_ * _); toR; rewrite /=; lra.
- have D := @density_quadratic m s Hs m 1 0.
  have E0 : Rplus m (Rmult 0 (Rmult s s)) = m by toR; rewrite /=; lra.
  rewrite E0 in D; apply: (is_RInt_gen_ext _ _ _ _ D); apply: filter_forall => ab y _.
  by rewrite gaussianE //; last exact/RltP; congr (_ * _); toR; rewrite /=; lra.
- have D := @density_quadratic m s Hs 0 0 1.
  have E0 : Rplus 0 (Rmult 1 (Rmult s s)) = s ^+ 2 by rewrite expr2; toR; rewrite /=; lra.
  rewrite E0 in D; apply: (is_RInt_gen_ext _ _ _ _ D); apply: filter_forall => ab y _.
  by rewrite gaussianE //; last exact/RltP; congr (_ * _); rewrite expr2; toR; rewrite /=; lra.
Qed.
Print Assumptions C58_density.

Lemma zip3_entries m s y : zip3 (adata m) (adata s) (adata y) = entries3 m s y.
Proof. by []. Qed.

(** [crps_gaussian] sums (or averages) the continuous ranked probability scores of the entries. *)
Theorem C58_crps :
  forall (m s y : arr R) (F : nat -> R -> R),
  ashape m = ashape s -> ashape s = ashape y -> wf_arr m -> wf_arr s -> wf_arr y ->
  (forall x, x \in adata s -> 0 < x) ->
  (forall i, (i < size (adata m))%N -> is_cdf (gaussian (nth 0 (adata m) i) (nth 0 (adata s) i)) (F i)) ->
  exists v : seq R, [/\ size v = size (adata m),
    forall i, (i < size (adata m))%N -> is_crps (F i) (nth 0 (adata y) i) (nth 0 v i),
    crps_gaussian m s y false = Ok (\sum_(c <- v) c)
  & crps_gaussian m s y true = Ok ((\sum_(c <- v) c) / (size (adata m))%:R)].
Proof.
move=> m s y F E1 E2 Wm Ws Wy Hs HF.
have Z1 := size_zipwf E1 Wm Ws; have Z2 := size_zipwf E2 Ws Wy.
have Zl : size (entries3 m s y) = size (adata m) by rewrite !size_zip -Z2 -Z1 !minnn.
exists [seq crps_term t.1.1 t.1.2 t.2 | t <- entries3 m s y].
rewrite size_map /crps_gaussian shape_eq3T //= zip3_entries jsumE size_map Zl; split=> // i Hi.
rewrite (nth_map ((0, 0), 0)) ?Zl // nth_zip ?size_zip -?Z2 -?Z1 ?minnn // nth_zip //=.
have Hsi : 0 < nth 0 (adata s) i by apply: Hs; apply: mem_nth; rewrite -Z1.
have Hsi' : Rlt 0 (nth 0 (adata s) i) by apply/RltP.
apply: (is_RInt_gen_ext _ _ _ _ (@crps_integral (nth 0 (adata m) i) _ (nth 0 (adata y) i) Hsi')).
apply: filter_forall => ab x _; congr (pow (Rminus _ _) 2).
have HFx := HF i Hi x.
have HG : is_RInt_gen (gauss_density (nth 0 (adata m) i) (nth 0 (adata s) i)) (Rbar_locally m_infty) (at_point x) (F i x).
  apply: (is_RInt_gen_ext _ _ _ _ HFx).
  by apply: filter_forall => ab' z _; rewrite gaussianE.
by rewrite -(is_RInt_gen_unique _ _ HG) (is_RInt_gen_unique _ _ (@density_cdf (nth 0 (adata m) i) _ Hsi' x)).
Qed.
Print Assumptions C58_crps.

(** A forecast with a small standard deviation is scored by its absolute error. *)
Theorem C58_crps_absolute_error :
  forall (m s y : R), 0 < s ->
  exists c, crps_gaussian (Arr [:: 1%N] [:: m]) (Arr [:: 1%N] [:: s]) (Arr [:: 1%N] [:: y]) false = Ok c /\
    `|c - `|y - m| | <= s / sqrt PI.
Proof.
move=> m s y /RltP Hs; eexists; split; first reflexivity.
have Hp : Rlt 0 (sqrt PI) by apply: sqrt_lt_R0; exact: PI_RGT_0.
have [A B] := @crps_abs_error m s y Hs.
have S2 : Rle (sqrt (IZR 2)) (IZR 2).
  rewrite -{2}(sqrt_square (IZR 2)); last by lra.
  apply: sqrt_le_1_alt; lra.
have Hq : Rle (Rdiv (Rminus (sqrt (IZR 2)) (IZR 1)) (sqrt PI)) (Rdiv (IZR 1) (sqrt PI)).
  apply: Rmult_le_compat_r; first by apply: Rlt_le; apply: Rinv_0_lt_compat.
  by lra.
rewrite /= addr0 -RdivE; last by apply/eqP/Rgt_not_eq.
move: (crps_term m s y) A B => c A B.
rewrite -!RabsE; toR; apply/RleP; apply: Rabs_le.
have Hq' := Rmult_le_compat_l s _ _ (Rlt_le _ _ Hs) Hq.
have E1 : Rmult s (Rdiv (IZR 1) (sqrt PI)) = Rdiv s (sqrt PI) by rewrite /Rdiv Rmult_1_l.
rewrite E1 in A Hq'; have E2 : Rplus y (Ropp m) = Rminus y m by [].
by rewrite E2; split; lra.
Qed.
Print Assumptions C58_crps_absolute_error.

(** The negative log-likelihood is a proper score: a sum of entry scores [f m s y] whose expectation
    under [N(m0, s0^2)] is least for the forecast [m0, s0] and for no other. *)
Theorem C58_nll_proper :
  exists f : R -> R -> R -> R,
  (forall (m s y : arr R) , ashape m = ashape s -> ashape s = ashape y ->
     nll_gaussian m s y false = Ok (\sum_(t <- entries3 m s y) f t.1.1 t.1.2 t.2)) /\
  forall m0 s0 m s : R, 0 < s0 -> 0 < s ->
  exists e e0, [/\ expectation (gaussian m0 s0) (f m s) e, expectation (gaussian m0 s0) (f m0 s0) e0,
    e0 <= e & e = e0 -> m = m0 /\ s = s0].
Proof.
exists (fun m s y => - norm_logpdf (Rminus m y) s); split.
  by move=> m s y E1 E2; rewrite /nll_gaussian shape_eq3T //= jsumE big_map -sumrN.
move=> m0 s0 m s H0 H1; have H0' : Rlt 0 s0 by apply/RltP.
have H1' : Rlt 0 s by apply/RltP.
exists (nll_mean m0 s0 m s), (nll_mean m0 s0 m0 s0).
have [A B] := @nll_mean_best m0 s0 m s H0' H1'; split=> //.
- apply: (is_RInt_gen_ext _ _ _ _ (@nll_expectation m0 s0 m s H0' H1')).
  by apply: filter_forall => ab y _; rewrite gaussianE.
- apply: (is_RInt_gen_ext _ _ _ _ (@nll_expectation m0 s0 m0 s0 H0' H0')).
  by apply: filter_forall => ab y _; rewrite gaussianE.
- exact/RleP.
Qed.
Print Assumptions C58_nll_proper.

(** The chi-squared statistic is a sum of entry scores whose expectation under [N(m0, s0^2)] is
    [(s0^2 + (m0 - m)^2) / s^2]: one per entry for the true distribution. *)
Theorem C58_chi_squared_expectation :
  exists f : R -> R -> R -> R,
  (forall (m s y : arr R), ashape m = ashape s -> ashape s = ashape y -> wf_arr m -> wf_arr s -> wf_arr y ->
     chi_squared m s y false = Ok (\sum_(t <- entries3 m s y) f t.1.1 t.1.2 t.2)) /\
  (forall m0 s0 m s : R, 0 < s0 -> 0 < s ->
     expectation (gaussian m0 s0) (f m s) ((s0 ^+ 2 + (m0 - m) ^+ 2) / s ^+ 2)) /\
  (forall m0 s0 : R, 0 < s0 -> expectation (gaussian m0 s0) (f m0 s0) 1).
Proof.
exists (fun m s y => (m - y) ^+ 2 / s ^+ 2).
have E (m0 s0 m s : R) : 0 < s0 -> 0 < s ->
    expectation (gaussian m0 s0) (fun y => (m - y) ^+ 2 / s ^+ 2) ((s0 ^+ 2 + (m0 - m) ^+ 2) / s ^+ 2).
  move=> H0 H1; have H0' : Rlt 0 s0 by apply/RltP.
  have H1' : Rlt 0 s by apply/RltP.
  have N : s ^+ 2 != 0 by rewrite expf_neq0 // gt_eqF.
  rewrite !expr2 in N *; rewrite -RdivE //.
  apply: (is_RInt_gen_ext _ _ _ _ (@chi_expectation m0 s0 m s H0' H1')).
  by apply: filter_forall => ab y _; rewrite gaussianE // !expr2 -RdivE.
split; last split=> //.
- move=> m s y E1 E2 Wm Ws Wy; have [-> _] := @C36_chi_squared m s y E1 E2 Wm Ws Wy.
  by [].
- move=> m0 s0 H0; have := E m0 s0 m0 s0 H0 H0; rewrite subrr expr0n addr0 divff //.
  by rewrite expf_neq0 // gt_eqF.
Qed.
Print Assumptions C58_chi_squared_expectation.

(** The hypotheses are met: the distribution function of every Gaussian exists. *)
Example C58_hypotheses_met : forall m s : R, 0 < s -> exists F, is_cdf (gaussian m s) F.
Proof.
move=> m s H0; have H0' : Rlt 0 s by apply/RltP.
exists (fun x => norm_cdf (Rdiv (Rminus x m) s)) => x.
apply: (is_RInt_gen_ext _ _ _ _ (@density_cdf m s H0' x)).
by apply: filter_forall => ab y _; rewrite gaussianE.
Qed.
