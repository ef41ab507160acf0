(** Property C66: the marginal likelihood as a function of its hyperparameters. *)
From Coq Require Import ZArith Reals Ranalysis5 Lra String SpecFloat.
From Flocq Require Import Core.Raux IEEE754.BinarySingleNaN.
From mathcomp Require Import all_ssreflect all_algebra.
From Verif Require Import Base RealStruct RealSums PyTree Mv GgnSpec Ggn GgnProofs Posterior PosteriorSpec PosteriorProofs
  PushforwardSpec PipelineSpec LowRankSolvers LowRankSpec LanczosProofs Likelihood GridSearch GridSpec GridProofs.
From Verif Require Import P_Pipeline P_Posterior P_Monotone P_LowRank P_Likelihood OrderProofs P_Compare P_Evidence P_Grid P_Calibrated.
Set Implicit Arguments.
Unset Strict Implicit.
Unset Printing Implicit Defensive.
Import GRing.Theory Num.Theory Order.TTheory.
Local Open Scope ring_scope.
Notation RR := [rcfType of R].

(** ** Concavity of the log determinant *)
Lemma ln_le_sub1 (x : R) : 0 < x -> ln x <= x - 1.
Proof.
move=> x0; have [E|N] := eqVneq (ln x) 0.
  rewrite E subr_ge0; have -> : x = 1 by apply: ln_inv => //; [exact/RltP | exact/RltP/ltr01 | rewrite ln_1].
  by [].
have := exp_ineq1 (ln x) _; rewrite exp_ln; last exact/RltP.
move=> /(_ (elimN eqP N))/RltP H; rewrite ler_subr_addl; exact: ltW.
Qed.

Lemma lndet_le n (B C : 'M[R]_n) : spd (R := RR) B -> spd (R := RR) C ->
  ln (\det B) - ln (\det C) <= \tr (invmx C *m B) - n%:R.
Proof.
move=> SB SC; have [L [_ _ U EC]] := spd_factor SC.
have UT : L^T \in unitmx by rewrite unitmx_tr.
pose M := (invmx L^T)^T *m B *m invmx L^T.
have SM : spd (R := RR) M by apply: spd_congr => //; rewrite unitmx_inv.
have /andP[M0 M1] := hadamard SM.
have /andP[B0 _] := hadamard SB; have /andP[C0 _] := hadamard SC.
have EM : \det M = \det B / \det C.
  rewrite /M !det_mulmx det_tr det_inv det_tr -EC det_mulmx det_tr invfM [_ * \det B]mulrC -mulrA //.
have := lnR_mono M0 M1; rewrite EM lnM ?invr_gt0 // lnV //; move/le_trans; apply.
have Hi (i : 'I_n) : 0 < M i i by apply: spd_diag_gt0.
rewrite (ln_prod _ Hi).1.
apply: (@le_trans _ _ (\sum_i (M i i - 1))); first by apply: ler_sum => i _; apply: ln_le_sub1.
rewrite sumrB sumr_const card_ord ler_add2r.
have -> : invmx C = invmx L^T *m (invmx L^T)^T.
  rewrite -EC; apply: (can_inj (mulKmx (spd_unit SC))) => //; rewrite -EC mulmxV ?unitmx_mul ?U //.
  by rewrite trmx_inv trmxK !mulmxA mulmxK // mulmxV.
by rewrite -mulmxA [X in _ <= X]mxtrace_mulC.
Qed.

(** ** The prior precision *)
(** The effective number of parameters [tr (c A (c A + tau I)^-1)]: every parameter counts with the share
    of its precision that comes from the data. *)
Definition effective_parameters P (A : 'M[R]_P) (c tau : R) : R :=
  \tr ((c *: A) *m invmx (c *: A + tau%:M)).
Definition square_norm P (v : 'cV[R]_P) : R := \sum_i v i ord0 ^+ 2.

Lemma spd_shift n (A : 'M[R]_n) t : psd (R := RR) A -> 0 < t -> spd (R := RR) (A + t%:M).
Proof.
move=> HA t0; apply: (@spd_add RR) => //; split=> [|v Hv]; first by rewrite /symmetric tr_scalar_mx.
by rewrite mul_scalar_mx dotvZ mulr_gt0 ?sqr_norm_gt0.
Qed.

Lemma effE P (A : 'M[R]_P) (c t : R) : psd (R := RR) A -> 0 <= c -> 0 < t ->
  effective_parameters A c t = P%:R - t * \tr (invmx (c *: A + t%:M)).
Proof.
move=> HA c0 t0; have S : spd (R := RR) (c *: A + t%:M) by apply: spd_shift => //; apply: psd_scale.
rewrite /effective_parameters -[X in X *m _](addrK t%:M) mulmxBl mulmxV ?spd_unit // mul_scalar_mx raddfB /= mxtrace1.
by rewrite mxtraceZ.
Qed.

(** Between none and all of the parameters. *)
Lemma eff_range P (A : 'M[R]_P) (c t : R) : psd (R := RR) A -> 0 <= c -> 0 < t ->
  0 <= effective_parameters A c t <= P%:R.
Proof.
move=> HA c0 t0; have S : spd (R := RR) (c *: A + t%:M) by apply: spd_shift => //; apply: psd_scale.
apply/andP; split.
  have [L [_ _ _ EL]] := spd_factor (spd_inv S); rewrite /effective_parameters -EL mulmxA mxtrace_mulC mulmxA.
  have /(@psd_congr RR _ _ _ L) HP : psd (R := RR) (c *: A) by apply: psd_scale.
  by apply: sumr_ge0 => i _; apply: (@psd_diag RR).
rewrite effE // ler_subl_addr ler_addl; apply: mulr_ge0; first exact: ltW.
by apply: sumr_ge0 => i _; apply: ltW; apply: (@spd_diag_gt0 RR); apply: spd_inv.
Qed.

Lemma lndet_shrink P (A : 'M[R]_P) (t1 t2 : R) : psd (R := RR) A -> 0 < t1 -> 0 < t2 ->
  (ln (\det (A + t1%:M)) - P%:R * ln t1) - (ln (\det (A + t2%:M)) - P%:R * ln t2) <=
  (t2 - t1) / t1 * \tr (A *m invmx (A + t2%:M)).
Proof.
move=> HA H1 H2.
have D t : 0 < t -> ln (\det (A + t%:M)) - P%:R * ln t = ln (\det (t^-1 *: (A + t%:M))).
  move=> t0; have /andP[d0 _] := hadamard (spd_shift HA t0).
  by rewrite detZ lnM ?exprn_gt0 ?invr_gt0 // lnX ?invr_gt0 // lnV // mulrN addrC.
have S t : 0 < t -> spd (R := RR) (t^-1 *: (A + t%:M)).
  move=> t0; have [Sy Sp] := spd_shift HA t0; split; first by rewrite /symmetric linearZ /= Sy.
  by move=> v Hv; rewrite -scalemxAl dotvZ mulr_gt0 ?invr_gt0 // Sp.
rewrite !D //; apply: le_trans (lndet_le (S _ H1) (S _ H2)) _.
have U2 := spd_unit (spd_shift HA H2).
rewrite invmxZ ?invrK; last by rewrite unitmxZ // unitfE invr_eq0 gt_eqF.
rewrite -scalemxAl -scalemxAr scalerA mxtraceZ.
set H := A + t2%:M in U2 *.
have -> : A + t1%:M = H + (t1 - t2)%:M by rewrite /H -addrA -raddfD /= [t2 + _]addrC subrK.
have -> : \tr (invmx H *m (H + (t1 - t2)%:M)) = P%:R + (t1 - t2) * \tr (invmx H).
  by rewrite mulmxDr mulVmx // mul_mx_scalar mxtraceD mxtrace1 mxtraceZ.
have -> : \tr (A *m invmx H) = P%:R - t2 * \tr (invmx H).
  by rewrite -[X in X *m _](addrK t2%:M) -/H mulmxBl mulmxV // mul_scalar_mx raddfB /= mxtrace1 mxtraceZ.
move: (\tr _) => T; rewrite le_eqVlt; apply/orP; left; apply/eqP.
have n1 : t1 != 0 by rewrite gt_eqF.
rewrite -!(RinvE n1).
move: (P%:R : R) => p; eqR; toR; field; exact/eqP.
Qed.


(** A stronger prior leaves fewer effective parameters. *)
Lemma eff_decreasing P (A : 'M[R]_P) (c t1 t2 : R) : psd (R := RR) A -> 0 <= c -> 0 < t1 -> t1 <= t2 ->
  effective_parameters A c t2 <= effective_parameters A c t1.
Proof.
move=> HA c0 H1 H12; have H2 := lt_le_trans H1 H12.
have HA' : psd (R := RR) (c *: A) by apply: psd_scale.
have S1 := spd_shift HA' H1; have S2 := spd_shift HA' H2.
have LE : loewner_le (R := RR) (c *: A + t1%:M) (c *: A + t2%:M).
  rewrite /loewner_le opprD addrACA subrr add0r -raddfB /=; split; first by rewrite /symmetric tr_scalar_mx.
  by move=> v; rewrite mul_scalar_mx dotvZ mulr_ge0 ?subr_ge0 // (@dotvv_ge0 RR).
have [B EB] := psd_gram_exists (loewner_inv S1 S2 LE).
rewrite /effective_parameters -subr_ge0 -raddfB /= -mulmxBr -EB mulmxA mxtrace_mulC mulmxA.
by apply: sumr_ge0 => i _; apply: (@psd_diag RR); apply: (@psd_congr RR).
Qed.

Lemma half_lt (x : R) : 0 < x -> x / 2%:R < x.
Proof. by move=> x0; rewrite ltr_pdivr_mulr ?ltr0n // ltr_pmulr // ltr1n. Qed.

(** The number of effective parameters depends continuously on the prior precision. *)
Lemma eff_lipschitz P (A : 'M[R]_P) (c t1 t2 : R) : psd (R := RR) A -> 0 <= c -> 0 < t1 -> t1 <= t2 ->
  0 <= effective_parameters A c t1 - effective_parameters A c t2 <= (t2 - t1) * (P%:R / t1).
Proof.
move=> HA c0 H1 H12; have H2 := lt_le_trans H1 H12.
rewrite subr_ge0 eff_decreasing //=.
have HA' : psd (R := RR) (c *: A) by apply: psd_scale.
have S1 := spd_shift HA' H1; have S2 := spd_shift HA' H2.
have LE : loewner_le (R := RR) (c *: A + t1%:M) (c *: A + t2%:M).
  rewrite /loewner_le opprD addrACA subrr add0r -raddfB /=; split; first by rewrite /symmetric tr_scalar_mx.
  by move=> v; rewrite mul_scalar_mx dotvZ mulr_ge0 ?subr_ge0 // (@dotvv_ge0 RR).
have := tr_mono (loewner_inv S1 S2 LE).
have /andP[e0 _] := eff_range HA c0 H1; move: e0; rewrite !effE //.
set u1 := \tr _; set u2 := \tr _; rewrite subr_ge0 => Hu1 Hu.
rewrite opprB addrC addrA subrK.
have : t2 * u2 - t1 * u1 <= (t2 - t1) * u1 by rewrite mulrBl ler_add2r ler_pmul2l.
move/le_trans; apply; rewrite ler_wpmul2l ?subr_ge0 //.
by rewrite ler_pdivl_mulr // mulrC.
Qed.

Lemma eff_continuous P (A : 'M[R]_P) (c t : R) : psd (R := RR) A -> 0 <= c -> 0 < t ->
  continuity_pt (effective_parameters A c) t.
Proof.
move=> HA c0 t0 e /RltP e0; pose M : R := P%:R / (t / 2%:R) + 1.
have h0 : 0 < t / 2%:R by rewrite divr_gt0 ?ltr0n.
have M0 : 0 < M by rewrite ltr_paddl ?ltr01 // divr_ge0 ?ler0n // ltW.
exists (Num.min (t / 2%:R) (e / M)); split.
  by apply/RltP; rewrite lt_minr h0 divr_gt0.
suff H (x : R) : `|x - t| < Num.min (t / 2%:R) (e / M) -> `|effective_parameters A c x - effective_parameters A c t| < e.
  by move=> x [_ /RltP Hd]; apply/RltP; apply: H.
rewrite lt_minr => /andP[D1 D2].
have Hx : t / 2%:R < x.
  have : t - x < t / 2%:R by apply: le_lt_trans D1; rewrite distrC ler_norm.
  rewrite ltr_subl_addr -ltr_subl_addl; apply: le_lt_trans.
  by rewrite ler_subr_addr -splitr.
have x0 := lt_trans h0 Hx.
have B a b : t / 2%:R < a -> a <= b -> `|effective_parameters A c a - effective_parameters A c b| <= (b - a) * M.
  move=> Ha ab; have a0 := lt_trans h0 Ha; have /andP[l0 l1] := eff_lipschitz HA c0 a0 ab.
  rewrite ger0_norm //; apply: le_trans l1 _; rewrite ler_wpmul2l ?subr_ge0 // /M ler_paddr ?ler01 //.
  by rewrite ler_wpmul2l ?ler0n // lef_pinv ?posrE // ltW.
have Ht : t / 2%:R < t := half_lt t0.
have Hle : `|effective_parameters A c x - effective_parameters A c t| <= `|x - t| * M.
  have [xt|/ltW tx] := lerP x t.
    exact: B.
  by rewrite distrC; apply: B.
by apply: le_lt_trans Hle _; rewrite -ltr_pdivl_mulr.
Qed.

Lemma eff_gt0 P (A : 'M[R]_P) (c t : R) : psd (R := RR) A -> 0 < c -> A != 0 -> 0 < t -> 0 < effective_parameters A c t.
Proof.
move=> HA c0 A0 t0; have HA' : psd (R := RR) (c *: A) := psd_scale (ltW c0) HA.
have SI := spd_inv (spd_shift HA' t0); have [B EB] := psd_gram_exists HA'.
have /andP[e0 _] := eff_range HA (ltW c0) t0; rewrite lt_neqAle e0 andbT eq_sym.
apply/eqP => E; case/eqP: A0; apply: (scalerI (a := c)); first by rewrite gt_eqF.
rewrite scaler0 -EB; suff -> : B = 0 by rewrite mul0mx.
have [_ PI] := SI; have PI' := spd_psd SI.
apply/matrixP => i j; rewrite [RHS]mxE; apply/eqP/negPn/negP => N.
have cj : col j B != 0 by apply/eqP => /colP/(_ i)/eqP; rewrite !mxE (negPf N).
have D k : (B^T *m invmx (c *: A + t%:M) *m B) k k = dotv (col k B) (invmx (c *: A + t%:M) *m col k B).
  by rewrite -mulmxA mulmx_entry col_mulE.
have : effective_parameters A c t = \sum_k dotv (col k B) (invmx (c *: A + t%:M) *m col k B).
  rewrite /effective_parameters -{1}EB -mulmxA mxtrace_mulC; by apply: eq_bigr => k _; rewrite D.
rewrite E (bigD1 j) //= => /eqP; rewrite eq_sym gt_eqF // ltr_paddr ?PI //.
by apply: sumr_ge0 => k _; have [_ Q] := PI'; apply: Q.
Qed.

(** A curve that rises up to some point of the grid and falls from there on: patience never changes the
    outcome of the search for its maximum. *)
Lemma peak_patience (prec emax : Z) (rn : R -> binary_float prec emax) (E : R -> R) (left : R -> bool)
    (obj : nat -> R -> res spec_float) (lo hi : R) n p :
  (forall t1 t2, t1 <= t2 -> left t2 -> left t1) ->
  (forall t1 t2, 0 < t1 -> t1 <= t2 -> left t2 -> E t1 <= E t2) ->
  (forall t1 t2, 0 < t1 -> t1 <= t2 -> ~~ left t1 -> E t2 <= E t1) ->
  (forall x y, is_finite (rn x) = true -> is_finite (rn y) = true -> x <= y -> B2R (rn x) <= B2R (rn y)) ->
  (forall tau, List.In tau (logspace lo hi n) -> is_finite (rn (- E tau)) = true) ->
  (forall i tau, List.In tau (logspace lo hi n) -> obj i tau = Ok (B2SF (rn (- E tau)))) ->
  Rle lo hi -> (0 < p)%N ->
  (optimize_prior_prec obj lo hi n (Some (Z.of_nat p)) None).2 = (optimize_prior_prec obj lo hi n None None).2.
Proof.
move=> L0 L1 L2 Hm Hf Hobj lohi p0; rewrite /optimize_prior_prec; set grid := logspace lo hi n in Hf Hobj *.
have szg : size grid = n by rewrite /grid /logspace size_map size_iota.
pose g i := nth 1 grid i.
have gE i : (i < n)%N -> List.nth_error grid i = Some (g i).
  by rewrite -szg /g; elim: (grid) i => [|a l IH] [|i] //= H; apply: IH.
have fin i : (i < n)%N -> is_finite (rn (- E (g i))) = true.
  by move=> Hi; apply: Hf; apply: (@List.nth_error_In _ _ i); apply: gE.
have g0 i : (i < n)%N -> 0 < g i.
  by move=> Hi; apply: (@logspace_gt0 lo hi n); apply: (@List.nth_error_In _ _ i); apply: gE.
have gle i : (i.+1 < n)%N -> g i <= g i.+1.
  move=> Hi; rewrite /g /grid /logspace !(nth_map 0%N) ?size_iota // ?(ltnW Hi) // !nth_iota // ?(ltnW Hi) // !add0n.
  apply/RleP; apply: Rle_Rpower; first by lra.
  case: eqP => [|Hn]; first by lra.
  have Hn1 : Rlt 0 (INR n.-1) by apply: lt_0_INR; apply/ssrnat.ltP; rewrite -ltnS prednK //; exact: leq_ltn_trans Hi.
  have Hd : Rle 0 (Rmult (Rminus hi lo) (Rinv (INR n.-1))).
    by apply: Rmult_le_pos; [lra | apply: Rlt_le; apply: Rinv_0_lt_compat].
  by rewrite S_INR /Rdiv; move: (Rmult (Rminus hi lo) _) Hd (INR i) => d Hd r; apply: Rplus_le_compat_l; rewrite Rmult_plus_distr_r Rmult_1_l; apply: Rle_trans (Rplus_le_compat_l (Rmult r d) _ _ Hd); rewrite Rplus_0_r; apply: Rle_refl.
have vE i : (i < n)%N -> value obj grid i = score (Ok (B2SF (rn (- E (g i))))).
  by move=> Hi; rewrite /value gE // Hobj //; apply: (@List.nth_error_In _ _ i); apply: gE.
have ge i j : (i < n)%N -> (j < n)%N -> E (g j) <= E (g i) -> lt_score (value obj grid j) (value obj grid i) = false.
  move=> Hi Hj H; rewrite !vE //; apply/negP => /(lt_score_real (fin _ Hj) (fin _ Hi)); rewrite ltNge => /negP; apply.
  by apply: Hm; [exact: fin | exact: fin | rewrite ler_opp2].
have nesc i : ~ escapes obj grid i by case=> q [e [Hq]]; rewrite Hobj //; exact: (@List.nth_error_In _ _ i).
pose k := find (fun u => ~~ left u) grid.
have kl i : (i < k)%N -> left (g i) by move=> Hi; apply: negbFE; exact: (before_find 1 Hi).
have kr i : (k <= i)%N -> (i < n)%N -> ~~ left (g i).
  elim: i => [|i IH] Hk Hi.
    by move: Hk; rewrite leqn0 => /eqP Hk; rewrite /g -Hk; apply: (@nth_find _ 1 (fun u => ~~ left u)); rewrite has_find -/k Hk szg.
  move: Hk; rewrite leq_eqVlt => /orP[/eqP Hk|Hk].
    by rewrite /g -Hk; apply: (@nth_find _ 1 (fun u => ~~ left u)); rewrite has_find -/k Hk szg.
  by apply: contra (IH Hk (ltnW Hi)); apply: L0; apply: gle.
have dn i : (i < n)%N -> (i.+1 < k)%N -> lt_score (value obj grid i) (value obj grid i.+1) = false.
  move=> Hi Hk; have Hi1 : (i.+1 < n)%N by apply: leq_trans Hk _; rewrite -szg find_size.
  by apply: ge => //; apply: L1; [apply: g0 | apply: gle | apply: kl].
have upp i : (k <= i)%N -> (i.+1 < n)%N -> lt_score (value obj grid i.+1) (value obj grid i) = false.
  move=> Hk Hi; apply: ge => //; [exact: ltnW|apply: L2; [apply: g0; exact: ltnW|exact: gle|apply: kr => //; exact: ltnW]].
have kn : (k <= n)%N by rewrite -szg find_size.
case: (boolP ((k < n)%N && (0 < k)%N)) => [/andP[k1 k0]|Hk]; last first.
  have Hk' : k = 0%N \/ k = n.
    by move: Hk; rewrite negb_and -leqNgt -eqn0Ngt => /orP[H|/eqP]; [right; apply/eqP; rewrite eqn_leq kn|left].
  apply: (@C32_patience_harmless _ _ _ _ k.-1) => // [i Hi|i Hi Hin].
  - have Hik : (i.+1 < k)%N by move: Hi; case: (k).
    by apply: dn => //; apply: leq_trans kn; apply: ltnW.
  - rewrite szg in Hin; case: Hk' => Ek; first by apply: upp => //; rewrite Ek.
    by move: Hi; rewrite Ek; case: (n) Hin => // m; rewrite ltnS /= => H1 H2; move: (leq_trans H1 H2); rewrite ltnn.
case: (boolP (lt_score (value obj grid k) (value obj grid k.-1))) => Hlt.
  apply: (@C32_patience_harmless _ _ _ _ k) => // [i Hi|i Hi Hin]; last by apply: upp => //; rewrite -szg.
  move: (Hi); rewrite -{1}(prednK k0) ltnS leq_eqVlt => /orP[/eqP Ei|Hi'].
    have kn1 : (k.-1 < n)%N by rewrite -Ei (leq_trans Hi).
    rewrite Ei prednK //; move: Hlt; rewrite !vE //.
    move/(lt_score_real (fin _ k1) (fin _ kn1)) => Hlt; apply/negP => /(lt_score_real (fin _ kn1) (fin _ k1)).
    by rewrite ltNge (ltW Hlt).
  by apply: dn; [exact: leq_trans Hi kn | rewrite -(prednK k0) ltnS].
apply: (@C32_patience_harmless _ _ _ _ k.-1) => // [i Hi|i Hi Hin].
  have Hik : (i.+1 < k)%N by rewrite -(prednK k0) ltnS.
  by apply: dn => //; apply: leq_trans kn; apply: ltnW.
move: Hi; rewrite leq_eqVlt => /orP[/eqP Ei|Hi]; first by rewrite -Ei prednK //; apply: negbTE.
by rewrite prednK // in Hi; apply: upp => //; rewrite -szg.
Qed.

Section PriorPrecision.
Variables (P K : nat) (X : Type) (model : X -> 'cV[R]_P -> 'cV[R]_K) (A : 'M[R]_P) (s2 sg : option R) (lsf L : R)
  (data : seq (X * 'cV[R]_K)) (params : 'cV[R]_P) (loss_fn : closs_arg K) (full_fn : seq (X * 'cV[R]_K) -> 'cV[R]_P -> loss_out K).
Hypotheses (HA : psd (R := RR) A) (Hs : 0 <= odflt 1 s2) (Hl : 0 < lsf)
  (Ec : concatenate_model_and_loss_fn model loss_fn = Ok full_fn) (El : full_fn data params = Scalar K L).

(** [E tau] is what [marginal_log_likelihood] returns at prior precision [tau] (full curvature [A], loss
    with a scalar value), everything else being fixed. *)
Definition evidence_curve (E : R -> R) : Prop :=
  forall tau, 0 < tau ->
    marginal_log_likelihood model (FullCurv A) (MllPrior (@PriorArguments RR (Some tau) s2) sg) data params loss_fn lsf =
    Ok (Scalar K (E tau)).
Notation eff := (effective_parameters A (odflt 1 s2)).
Notation N := (square_norm params).

Lemma evidence_value : evidence_curve (fun tau => - (L / (2%:R * odflt 1 sg)) + 2%:R^-1 * (P%:R * ln lsf) +
    2%:R^-1 * (P%:R * ln tau - tau * N - ln (\det (odflt 1 s2 *: A + tau%:M)))).
Proof.
move=> tau Ht.
rewrite /marginal_log_likelihood /marginal_log_likelihood_with Ec /= /full_curvature_to_precision /=.
rewrite /full_marginal_log_likelihood /marginal_from /joint_log_likelihood /= El /=.
rewrite -/(get_sigma_squared (@PriorArguments RR (Some tau) s2)).
have -> : get_sigma_squared (@PriorArguments RR (Some tau) s2) = odflt 1 s2 by case: (s2).
rewrite scalemx1.
have SP : spd (R := RR) (odflt 1 s2 *: A + tau%:M) by apply: spd_shift => //; apply: psd_scale.
have /andP[D0 _] := hadamard SP.
rewrite /full_log_det detZ gtr0_norm; last by rewrite mulr_gt0 ?exprn_gt0 ?invr_gt0.
rewrite lnM ?exprn_gt0 ?invr_gt0 // lnX ?invr_gt0 // lnV // /evidence /log_prior -/(square_norm params).
congr Ok; congr Scalar.
move: (ln (\det _)) (ln (2%:R * PI)) (ln lsf) (ln tau) (P%:R : R) => d p l q n.
rewrite mulNr div1r [_ * L]mulrC; move: (L / _) (square_norm params) => a b.
numR; eqR; field.
Qed.

Theorem C66_prior_precision : exists2 E, evidence_curve E &
  forall t1 t2, 0 < t1 -> 0 < t2 ->
    (t2 - t1) / 2%:R * (eff t1 / t2 - N) <= E t2 - E t1 <= (t2 - t1) / 2%:R * (eff t2 / t1 - N).
Proof.
set c := - (L / (2%:R * odflt 1 sg)) + 2%:R^-1 * (P%:R * ln lsf).
have HE := evidence_value; exists (fun tau => c + 2%:R^-1 * (P%:R * ln tau - tau * N - ln (\det (odflt 1 s2 *: A + tau%:M)))) => //.
have HA' : psd (R := RR) (odflt 1 s2 *: A) by apply: psd_scale.
have up t1 t2 : 0 < t1 -> 0 < t2 ->
    (c + 2%:R^-1 * (P%:R * ln t2 - t2 * N - ln (\det (odflt 1 s2 *: A + t2%:M)))) -
    (c + 2%:R^-1 * (P%:R * ln t1 - t1 * N - ln (\det (odflt 1 s2 *: A + t1%:M)))) <=
    (t2 - t1) / 2%:R * (eff t2 / t1 - N).
  move=> H1 H2; have := lndet_shrink HA' H1 H2; rewrite -/(eff t2) => H.
  have -> : (t2 - t1) / 2%:R * (eff t2 / t1 - N) = 2%:R^-1 * ((t2 - t1) / t1 * eff t2) - 2%:R^-1 * ((t2 - t1) * N).
    by move: (t1^-1) (eff t2) (N) => r e w; numR; eqR; field.
  have h0 : 0 < 2%:R^-1 :> R by rewrite invr_gt0 ltr0n.
  rewrite ler_subr_addr; move: H; rewrite -(ler_pmul2l h0); apply: le_trans.
  move: (ln (\det _)) (ln (\det _)) (ln t1) (ln t2) (N) (P%:R : R) => d1 d2 l1 l2 w n.
  rewrite le_eqVlt; apply/orP; left; apply/eqP; numR; eqR; field.
move=> t1 t2 H1 H2; rewrite up // andbT -ler_opp2 opprB; apply: le_trans (up t2 t1 H2 H1) _.
by rewrite -mulNr -mulNr opprB.
Qed.

Lemma curve_bounds E t1 t2 : evidence_curve E -> 0 < t1 -> 0 < t2 ->
  (t2 - t1) / 2%:R * (eff t1 / t2 - N) <= E t2 - E t1 <= (t2 - t1) / 2%:R * (eff t2 / t1 - N).
Proof.
move=> HE H1 H2; have [E' HE' B] := C66_prior_precision.
have Eq s : 0 < s -> E s = E' s by move=> s0; have := HE s s0; rewrite HE' // => -[].
by rewrite !Eq // B.
Qed.

(** A prior precision that beats a smaller one [a] and a larger one [b] (in particular the neighbours on
    a grid): the effective number of parameters lies between [a |th|^2] and [b |th|^2]. *)
Theorem C66_grid_neighbours E a t b : evidence_curve E -> 0 < a -> a < t -> t < b -> E a <= E t -> E b <= E t ->
  a * N <= eff t <= b * N.
Proof.
move=> HE a0 Ha Hb Ea Eb; have t0 := lt_trans a0 Ha; have b0 := lt_trans t0 Hb.
have two : 0 < 2%:R :> R by rewrite ltr0n.
apply/andP; split.
  have /andP[+ _] := curve_bounds HE t0 a0; rewrite -opprB mulNr mulNr => H.
  have {}H : 0 <= (t - a) / 2%:R * (eff t / a - N).
    by rewrite -oppr_le0; apply: le_trans H _; rewrite subr_le0.
  by move: H; rewrite pmulr_rge0 ?divr_gt0 ?subr_gt0 // subr_ge0 ler_pdivl_mulr // mulrC.
have /andP[+ _] := curve_bounds HE t0 b0 => H.
have {}H : (b - t) / 2%:R * (eff t / b - N) <= 0 by apply: le_trans H _; rewrite subr_le0.
by move: H; rewrite pmulr_rle0 ?divr_gt0 ?subr_gt0 // subr_le0 ler_pdivr_mulr // mulrC.
Qed.

(** The best prior precision (over an interval around it) satisfies [tau |th|^2 = ] effective number of
    parameters. *)
Theorem C66_best_precision E t d : evidence_curve E -> 0 < t -> 0 < d ->
  (forall t', 0 < t' -> `|t' - t| < d -> E t' <= E t) -> t * N = eff t.
Proof.
move=> HE t0 d0 Hmax.
have N0 : 0 <= N by apply: sumr_ge0 => i _; apply: sqr_ge0.
have step e : 0 < e -> e < d -> e < t -> (t - e) * N <= eff t <= (t + e) * N.
  move=> e0 ed et; apply: (C66_grid_neighbours HE).
  - by rewrite subr_gt0.
  - by rewrite ltr_subl_addr ltr_addl.
  - by rewrite ltr_addl.
  - apply: Hmax; first by rewrite subr_gt0.
    by rewrite addrAC subrr sub0r normrN gtr0_norm.
  - apply: Hmax; first by rewrite addr_gt0.
    by rewrite addrAC subrr add0r gtr0_norm.
apply/eqP; rewrite eq_le; apply/andP; split; rewrite leNgt; apply/negP => H.
- have [Nz|Nz] := eqVneq N 0.
    by move: H; rewrite Nz mulr0 ltNge; have /andP[-> _] := eff_range HA Hs t0.
  have Np : 0 < N by rewrite lt_neqAle eq_sym Nz.
  pose e := Num.min (Num.min (d / 2%:R) (t / 2%:R)) ((t * N - eff t) / 2%:R / N).
  have two : 0 < 2%:R :> R by rewrite ltr0n.
  have e0 : 0 < e by rewrite !lt_minr !divr_gt0 ?subr_gt0.
  have ed : e < d by apply: le_lt_trans (half_lt d0); rewrite !le_minl lexx.
  have et : e < t by apply: le_lt_trans (half_lt t0); rewrite !le_minl lexx orbT.
  have /andP[+ _] := step e e0 ed et; rewrite leNgt => /negP; apply.
  rewrite mulrBl ltr_subr_addl -ltr_subr_addr; apply: le_lt_trans (_ : _ <= (t * N - eff t) / 2%:R) _.
    by rewrite -ler_pdivl_mulr // le_minl lexx orbT.
  by apply: half_lt; rewrite subr_gt0.
- have [Nz|Nz] := eqVneq N 0.
    pose e := Num.min (d / 2%:R) (t / 2%:R).
    have two : 0 < 2%:R :> R by rewrite ltr0n.
    have e0 : 0 < e by rewrite !lt_minr !divr_gt0.
    have ed : e < d by apply: le_lt_trans (half_lt d0); rewrite !le_minl lexx.
    have et : e < t by apply: le_lt_trans (half_lt t0); rewrite !le_minl lexx orbT.
    have /andP[_] := step e e0 ed et; rewrite Nz mulr0 leNgt => /negP; apply.
    by move: H; rewrite Nz mulr0.
  have Np : 0 < N by rewrite lt_neqAle eq_sym Nz.
  pose e := Num.min (Num.min (d / 2%:R) (t / 2%:R)) ((eff t - t * N) / 2%:R / N).
  have two : 0 < 2%:R :> R by rewrite ltr0n.
  have e0 : 0 < e by rewrite !lt_minr !divr_gt0 ?subr_gt0.
  have ed : e < d by apply: le_lt_trans (half_lt d0); rewrite !le_minl lexx.
  have et : e < t by apply: le_lt_trans (half_lt t0); rewrite !le_minl lexx orbT.
  have /andP[_] := step e e0 ed et; rewrite leNgt => /negP; apply.
  rewrite mulrDl -ltr_subr_addl; apply: le_lt_trans (_ : _ <= (eff t - t * N) / 2%:R) _.
    by rewrite -ler_pdivl_mulr // le_minl lexx orbT.
  by apply: half_lt; rewrite subr_gt0.
Qed.

(** Conversely a solution of this equation is the best of all prior precisions, and the only one unless
    the parameters are zero. *)
Theorem C66_fixed_point E t : evidence_curve E -> 0 < t -> t * N = eff t -> forall t', 0 < t' -> E t' <= E t.
Proof.
move=> HE t0 Et t' t0'; have /andP[_ H] := curve_bounds HE t0 t0'; rewrite -subr_le0; apply: le_trans H _.
have -> : eff t' / t - N = (eff t' - eff t) / t by rewrite mulrBl -Et mulrAC divff ?mul1r // gt_eqF.
have n2 : 0 <= 2%:R^-1 :> R by rewrite invr_ge0 ler0n.
have nt : 0 <= t^-1 by rewrite invr_ge0 ltW.
have [tt|tt] := lerP t t'.
  have He : eff t' - eff t <= 0 by rewrite subr_le0; exact: eff_decreasing.
  by apply: (@mulr_ge0_le0 RR); [rewrite mulr_ge0 ?subr_ge0 | apply: (@mulr_le0_ge0 RR)].
have He : 0 <= eff t' - eff t by rewrite subr_ge0; apply: eff_decreasing => //; apply: ltW.
by apply: (@mulr_le0_ge0 RR); [apply: (@mulr_le0_ge0 RR) => //; rewrite subr_le0 ltW | rewrite mulr_ge0].
Qed.
Theorem C66_fixed_point_unique t t' : 0 < t -> 0 < t' -> params != 0 -> t * N = eff t -> t' * N = eff t' -> t = t'.
Proof.
have Np : params != 0 -> 0 < N.
  by move=> Hp; have := @sqr_norm_gt0 RR _ params Hp; rewrite /dotv /square_norm; congr (_ < _); apply: eq_bigr => i _; rewrite expr2.
move=> t0 t0' /Np N0.
wlog tt : t t' t0 t0' / t <= t'.
  move=> W E1 E2; have [H|/ltW H] := lerP t t'; first by apply: W.
  by apply/esym; apply: W.
move=> E1 E2; apply/eqP; rewrite eq_le tt /= -(ler_pmul2r N0) E1 E2; exact: eff_decreasing.
Qed.

(** There is exactly one best prior precision, provided there is curvature and the parameters are not
    zero; it is at most [P / |th|^2]. *)
Theorem C66_unique_optimum E : evidence_curve E -> 0 < odflt 1 s2 -> A != 0 -> params != 0 ->
  exists t, [/\ 0 < t <= P%:R / N, forall t', 0 < t' -> E t' <= E t &
    forall u, 0 < u -> (forall t', 0 < t' -> E t' <= E u) -> u = t].
Proof.
move=> HE c0 A0 p0.
have N0 : 0 < N.
  by have := @sqr_norm_gt0 RR _ params p0; rewrite /dotv /square_norm; congr (_ < _); apply: eq_bigr => i _; rewrite expr2.
pose g t := t * N - eff t.
pose b := P%:R / N + 1.
have b0 : 0 < b by rewrite ltr_paddl ?ltr01 // divr_ge0 ?ler0n // ltW.
have gb : 0 < g b.
  have /andP[_ eb] := eff_range HA Hs b0; rewrite subr_gt0; apply: le_lt_trans eb _.
  by rewrite /b mulrDl divfK ?gt_eqF // mul1r ltr_addl.
have eb0 := eff_gt0 HA c0 A0 b0.
pose a := Num.min (b / 2%:R) (eff b / 2%:R / N).
have a0 : 0 < a by rewrite lt_minr !divr_gt0 ?ltr0n.
have ab : a < b by apply: le_lt_trans (half_lt b0); rewrite le_minl lexx.
have ga : g a < 0.
  rewrite subr_lt0; apply: lt_le_trans (eff_decreasing HA Hs a0 (ltW ab)).
  apply: le_lt_trans (half_lt eb0); rewrite -ler_pdivl_mulr // le_minl lexx orbT //.
have [t [[/RleP at' /RleP tb] gt]] : {z : R | (Rle a z /\ Rle z b) /\ g z = 0}.
  apply: IVT_interv; [|exact/RltP|exact/RltP|exact/RltP].
  move=> x [/RleP Hx _]; apply: continuity_pt_minus; last by apply: eff_continuous => //; apply: lt_le_trans a0 Hx.
  by apply: continuity_pt_mult; [apply: derivable_continuous_pt; apply: derivable_pt_id | apply: continuity_pt_const].
have t0 : 0 < t by apply: lt_le_trans at'.
have Et : t * N = eff t by apply/eqP; rewrite -subr_eq0; apply/eqP.
exists t; split.
- by rewrite t0 ler_pdivl_mulr // Et; have /andP[] := eff_range HA Hs t0.
- exact: C66_fixed_point.
by move=> u u0 Hu; apply: C66_fixed_point_unique => //; apply: (C66_best_precision HE u0 ltr01) => t' t0' _; apply: Hu.
Qed.

(** Beyond [P / |th|^2] the marginal likelihood decreases; for parameters zero it never decreases. *)
Theorem C66_large_precision E t1 t2 : evidence_curve E -> (0 < P)%N -> 0 < t1 -> t1 < t2 -> P%:R <= t1 * N -> E t2 < E t1.
Proof.
move=> HE P0 H1 H12 HP; have H2 := lt_trans H1 H12.
have /andP[_ H] := curve_bounds HE H1 H2; rewrite -subr_lt0; apply: le_lt_trans H _.
rewrite pmulr_rlt0; last by rewrite divr_gt0 ?subr_gt0 ?ltr0n.
rewrite subr_lt0 ltr_pdivr_mulr // mulrC; apply: lt_le_trans HP.
have SP : spd (R := RR) (odflt 1 s2 *: A + t2%:M) by apply: spd_shift => //; apply: psd_scale.
rewrite effE // ltr_subl_addr ltr_addl mulr_gt0 // /mxtrace (bigD1 (Ordinal P0)) //= ltr_paddr //.
  by apply: sumr_ge0 => i _; apply: ltW; apply: (@spd_diag_gt0 RR); apply: spd_inv.
by apply: (@spd_diag_gt0 RR); apply: spd_inv.
Qed.
Theorem C66_zero_parameters E t1 t2 : evidence_curve E -> params = 0 -> 0 < t1 -> t1 <= t2 -> E t1 <= E t2.
Proof.
move=> HE Hp H1 H12; have H2 := lt_le_trans H1 H12.
have Nz : N = 0 by rewrite /square_norm Hp; apply: big1 => i _; rewrite mxE expr0n.
have /andP[H _] := curve_bounds HE H1 H2; rewrite -subr_ge0; apply: le_trans H; rewrite Nz subr0.
have /andP[e0 _] := eff_range HA Hs H1.
by rewrite mulr_ge0 ?divr_ge0 ?subr_ge0 ?ler0n // ltW.
Qed.
(** Up to the best prior precision the marginal likelihood never decreases, from there on it never
    increases. *)
Theorem C66_unimodal E t t1 t2 : evidence_curve E -> 0 < t -> t * N = eff t -> 0 < t1 -> t1 <= t2 ->
  (t2 <= t -> E t1 <= E t2) /\ (t <= t1 -> E t2 <= E t1).
Proof.
move=> HE t0 Et H1 H12; have H2 := lt_le_trans H1 H12.
have N0 : 0 <= N by apply: sumr_ge0 => i _; apply: sqr_ge0.
have /andP[L1 U1] := curve_bounds HE H1 H2.
have d0 : 0 <= (t2 - t1) / 2%:R by rewrite divr_ge0 ?subr_ge0 ?ler0n.
split=> Ht.
  rewrite -subr_ge0; apply: le_trans L1; apply: mulr_ge0 => //; rewrite subr_ge0 ler_pdivl_mulr // mulrC.
  apply: le_trans (eff_decreasing HA Hs H1 (le_trans H12 Ht)); rewrite -Et; exact: ler_wpmul2r.
rewrite -subr_le0; apply: le_trans U1 _; apply: (@mulr_ge0_le0 RR) => //; rewrite subr_le0 ler_pdivr_mulr // mulrC.
apply: le_trans (eff_decreasing HA Hs t0 (le_trans Ht H12)) _; rewrite -Et; exact: ler_wpmul2r.
Qed.

(** Strictly so unless the parameters are zero. *)
Theorem C66_strictly_unimodal E t t1 t2 : evidence_curve E -> params != 0 -> 0 < t -> t * N = eff t -> 0 < t1 -> t1 < t2 ->
  (t2 <= t -> E t1 < E t2) /\ (t <= t1 -> E t2 < E t1).
Proof.
move=> HE p0 t0 Et H1 H12; have H2 := lt_trans H1 H12.
have N0 : 0 < N.
  by have := @sqr_norm_gt0 RR _ params p0; rewrite /dotv /square_norm; congr (_ < _); apply: eq_bigr => i _; rewrite expr2.
pose m := (t1 + t2) / 2%:R.
have two : 0 < 2%:R :> R by rewrite ltr0n.
have m1 : t1 < m by rewrite ltr_pdivl_mulr // mulrDr mulr1 ltr_add2l.
have m2 : m < t2 by rewrite ltr_pdivr_mulr // mulrDr mulr1 ltr_add2r.
have m0 := lt_trans H1 m1.
have rise a b : 0 < a -> a < b -> b < t -> E a < E b.
  move=> a0 ab bt; have b0 := lt_trans a0 ab; have /andP[L1 _] := curve_bounds HE a0 b0.
  rewrite -subr_gt0; apply: lt_le_trans L1; rewrite mulr_gt0 ?divr_gt0 ?subr_gt0 // ltr_pdivl_mulr // mulrC.
  apply: lt_le_trans (eff_decreasing HA Hs a0 (ltW (lt_trans ab bt))); rewrite -Et ltr_pmul2r //.
have fall a b : t < a -> a < b -> E b < E a.
  move=> ta ab; have a0 := lt_trans t0 ta; have b0 := lt_trans a0 ab; have /andP[_ U1] := curve_bounds HE a0 b0.
  rewrite -subr_lt0; apply: le_lt_trans U1 _; rewrite pmulr_rlt0 ?divr_gt0 ?subr_gt0 // subr_lt0 ltr_pdivr_mulr // mulrC.
  apply: le_lt_trans (eff_decreasing HA Hs t0 (ltW (lt_trans ta ab))) _; rewrite -Et ltr_pmul2r //.
split=> Ht.
  apply: lt_le_trans (rise t1 m H1 m1 (lt_le_trans m2 Ht)) _.
  exact: (C66_unimodal HE t0 Et m0 (ltW m2)).1.
apply: lt_le_trans (fall m t2 (le_lt_trans Ht m1) m2) _.
exact: (C66_unimodal HE t0 Et H1 (ltW m1)).2.
Qed.

(** Wherever a point [q] of a grid does at least as well as its neighbours [a] and [b], the best of all
    prior precisions lies strictly between them. *)
Theorem C66_grid_bracket E t : evidence_curve E -> params != 0 -> 0 < t -> (forall t', 0 < t' -> E t' <= E t) ->
  (forall a q, 0 < a -> a < q -> E a <= E q -> a < t) /\ (forall q b, 0 < q -> q < b -> E b <= E q -> t < b).
Proof.
move=> HE p0 t0 Hmax.
have Et : t * N = eff t by apply: (C66_best_precision HE t0 ltr01) => t' t0' _; apply: Hmax.
split=> [a q a0 aq Ea|q b q0 qb Eb]; rewrite ltNge; apply/negP => H.
  by have [_ /(_ H)] := C66_strictly_unimodal HE p0 t0 Et a0 aq; rewrite ltNge Ea.
by have [/(_ H) + _] := C66_strictly_unimodal HE p0 t0 Et q0 qb; rewrite ltNge Eb.
Qed.

(** Every curve has this shape, possibly with one side missing. *)
Lemma curve_shape E : evidence_curve E -> exists left : R -> bool,
  [/\ forall t1 t2, t1 <= t2 -> left t2 -> left t1,
      forall t1 t2, 0 < t1 -> t1 <= t2 -> left t2 -> E t1 <= E t2
    & forall t1 t2, 0 < t1 -> t1 <= t2 -> ~~ left t1 -> E t2 <= E t1].
Proof.
move=> HE; have [p0|p0] := eqVneq params 0.
  by exists (fun=> true); split=> // t1 t2 H1 H12 _; apply: C66_zero_parameters.
have [c0|c0] := eqVneq (odflt 1 s2 *: A) 0.
  exists (fun=> false); split=> // t1 t2 H1 H12 _; have H2 := lt_le_trans H1 H12.
  have /andP[_ U1] := curve_bounds HE H1 H2; rewrite -subr_le0; apply: le_trans U1 _.
  rewrite /effective_parameters c0 mul0mx raddf0 mul0r sub0r.
  apply: (@mulr_ge0_le0 RR); first by rewrite divr_ge0 ?subr_ge0 ?ler0n.
  by rewrite oppr_le0; apply: sumr_ge0 => i _; apply: sqr_ge0.
have [cn An] : odflt 1 s2 != 0 /\ A != 0.
  by split; apply/eqP => Z; move: c0; rewrite Z ?scale0r ?scaler0 eqxx.
have cp : 0 < odflt 1 s2 by rewrite lt_neqAle eq_sym cn.
have [t [/andP[t0 _] Ht _]] := C66_unique_optimum HE cp An p0.
have Et : t * N = eff t by apply: (C66_best_precision HE t0 ltr01) => t' t0' _; apply: Ht.
exists (fun u => u <= t); split=> [t1 t2 H12 H2|t1 t2 H1 H12 H2|t1 t2 H1 H12].
- exact: le_trans H12 H2.
- exact: (C66_unimodal HE t0 Et H1 H12).1.
by rewrite -ltNge => H2; apply: (C66_unimodal HE t0 Et H1 H12).2; apply: ltW.
Qed.

(** Calibrating by the marginal likelihood (rounded by some monotone rounding to finite floats) on a
    logarithmic grid: stopping early never changes the outcome, whatever the patience. *)
Theorem C66_patience (prec emax : Z) (rn : R -> binary_float prec emax) E (lo hi : R) n p : evidence_curve E ->
  (forall x y, is_finite (rn x) = true -> is_finite (rn y) = true -> x <= y -> B2R (rn x) <= B2R (rn y)) ->
  (forall tau, List.In tau (logspace lo hi n) -> is_finite (rn (- E tau)) = true) -> Rle lo hi -> (0 < p)%N ->
  (optimize_prior_prec (fun _ tau => Ok (B2SF (rn (- E tau)))) lo hi n (Some (Z.of_nat p)) None).2 =
  (optimize_prior_prec (fun _ tau => Ok (B2SF (rn (- E tau)))) lo hi n None None).2.
Proof.
move=> HE Hm Hf lohi p0; have [left [L0 L1 L2]] := curve_shape HE.
exact: (peak_patience L0 L1 L2 Hm Hf).
Qed.
End PriorPrecision.
Print Assumptions C66_prior_precision.
Print Assumptions C66_grid_neighbours.
Print Assumptions C66_best_precision.
Print Assumptions C66_fixed_point.
Print Assumptions C66_fixed_point_unique.
Print Assumptions C66_unique_optimum.
Print Assumptions C66_large_precision.
Print Assumptions C66_zero_parameters.
Print Assumptions C66_unimodal.
Print Assumptions C66_strictly_unimodal.
Print Assumptions C66_grid_bracket.
Print Assumptions C66_patience.

(** ** Hyperparameters that the marginal likelihood cannot choose *)
Section Other.
Variables (P K : nat) (X : Type) (model : X -> 'cV[R]_P -> 'cV[R]_K) (A : 'M[R]_P) (L tau : R)
  (data : seq (X * 'cV[R]_K)) (params : 'cV[R]_P) (loss_fn : closs_arg K) (full_fn : seq (X * 'cV[R]_K) -> 'cV[R]_P -> loss_out K).
Hypotheses (HA : psd (R := RR) A) (Ht : 0 < tau)
  (Ec : concatenate_model_and_loss_fn model loss_fn = Ok full_fn) (El : full_fn data params = Scalar K L).
Let mll s2 sg lsf :=
  marginal_log_likelihood model (FullCurv A) (MllPrior (@PriorArguments RR (Some tau) s2) sg) data params loss_fn lsf.

Let value s2 sg lsf : 0 <= odflt 1 s2 -> 0 < lsf -> mll s2 sg lsf = Ok (Scalar K
  (- (L / (2%:R * odflt 1 sg)) + 2%:R^-1 * (P%:R * ln lsf) +
    2%:R^-1 * (P%:R * ln tau - tau * square_norm params - ln (\det (odflt 1 s2 *: A + tau%:M))))).
Proof. by move=> Hs Hl; exact: (evidence_value sg HA Hs Hl Ec El Ht). Qed.

(** The noise level ["sigma"]: as the normalising constant of the likelihood is missing, every larger value
    is better (whenever the loss is not zero). *)
Theorem C66_noise_optimum_refuted s2 lsf s : 0 <= odflt 1 s2 -> 0 < lsf -> 0 < L -> 0 < s ->
  forall s', s < s' -> exists v v', [/\ mll s2 (Some s) lsf = Ok (Scalar K v), mll s2 (Some s') lsf = Ok (Scalar K v') & v < v'].
Proof.
move=> Hs Hl L0 s0 s' ss; eexists; eexists; split; [exact: value | exact: value |].
have s0' := lt_trans s0 ss.
rewrite ltr_add2r ltr_add2r ltr_opp2 /= ltr_pmul2l // ltf_pinv ?ltr_pmul2l ?ltr0n // posrE mulr_gt0 ?ltr0n //.
Qed.

(** The loss scaling factor: every larger value is better, without bound. *)
Theorem C66_loss_scaling_optimum_refuted s2 sg l (b : R) : 0 <= odflt 1 s2 -> (0 < P)%N -> 0 < l ->
  exists2 l', l < l' & exists v v', [/\ mll s2 sg l = Ok (Scalar K v), mll s2 sg l' = Ok (Scalar K v') & v + b < v'].
Proof.
move=> Hs P0 l0; pose e : R := 2%:R * `|b| + 1.
have e0 : 0 < e by rewrite ltr_paddl ?ltr01 // mulr_ge0 ?ler0n.
have x1 : 1 < exp e.
  apply/RltP; have := exp_increasing 0%R e; rewrite exp_0; apply; exact/RltP.
have ll : l < l * exp e by rewrite ltr_pmulr.
exists (l * exp e) => //; eexists; eexists; split; [exact: value | apply: value => //; exact: lt_trans ll |].
have xp : 0 < exp e := lt_trans ltr01 x1.
rewrite lnM // ln_exp [_ + b]addrAC ltr_add2r -addrA ltr_add2l mulrDr mulrDr ltr_add2l.
apply: (@lt_le_trans _ _ (2%:R^-1 * e)); last first.
  by rewrite ler_pmul2l ?invr_gt0 ?ltr0n // ler_pmull // ler1n.
rewrite /e mulrDr mulrA mulVf ?pnatr_eq0 // mul1r mulr1; apply: le_lt_trans (ler_norm b) _.
by rewrite ltr_addl invr_gt0 ltr0n.
Qed.

(** [sigma_squared], which here only multiplies the curvature: a larger value is never better. *)
Theorem C66_curvature_scale c1 c2 sg lsf : 0 <= c1 -> c1 <= c2 -> 0 < lsf ->
  exists v1 v2, [/\ mll (Some c1) sg lsf = Ok (Scalar K v1), mll (Some c2) sg lsf = Ok (Scalar K v2) & v2 <= v1].
Proof.
move=> H1 H12 Hl; have H2 := le_trans H1 H12.
eexists; eexists; split; [exact: value | exact: value |].
rewrite ler_add2l ler_pmul2l ?invr_gt0 ?ltr0n // ler_add2l ler_opp2 /=.
have S1 := spd_shift (psd_scale H1 HA) Ht; have S2 := spd_shift (psd_scale H2 HA) Ht.
have /andP[d1 _] := hadamard S1; apply: lnR_mono => //; apply: (@det_mono RR) => //.
rewrite /loewner_le opprD addrACA subrr addr0 -scalerBl; apply: psd_scale => //; by rewrite subr_ge0.
Qed.
End Other.
Print Assumptions C66_noise_optimum_refuted.
Print Assumptions C66_loss_scaling_optimum_refuted.
Print Assumptions C66_curvature_scale.

(** Non-vacuity: one parameter, at 1, curvature 1/2; the best prior precision is 1/2. *)
Example C66_example (y : 'cV[R]_1) (E : R -> R) :
  let A : 'M[R]_1 := (2%:R^-1)%:M in
  let params : 'cV[R]_1 := const_mx 1 in
  psd (R := RR) A /\
  (evidence_curve (fun (_ : unit) p => p) A None None 1 [:: (tt, y)] params (CLossStr 1 "mse") E ->
   2%:R^-1 * square_norm params = effective_parameters A 1 2%:R^-1 /\ forall t', 0 < t' -> E t' <= E 2%:R^-1).
Proof.
move=> A params; have h0 : 0 < 2%:R^-1 :> R by rewrite invr_gt0 ltr0n.
have HA : psd (R := RR) A.
  split=> [|v]; first by rewrite /symmetric tr_scalar_mx.
  by rewrite mul_scalar_mx dotvZ mulr_ge0 ?(ltW h0) // (@dotvv_ge0 RR).
split=> // HE.
have Ef : 2%:R^-1 * square_norm params = effective_parameters A 1 2%:R^-1.
  rewrite /effective_parameters scale1r /A -raddfD /= invmx_scalar -scalar_mxM mxtrace_scalar.
  rewrite /square_norm big_ord1 mxE expr1n mulr1 (_ : 2%:R^-1 + 2%:R^-1 = 1 :> R) ?invr1 ?mulr1 //.
  by numR; eqR; field.
split=> //; apply: (C66_fixed_point HA (s2 := None) _ _ _ _ HE) => //; rewrite ?ler01 ?ltr01 //.
Qed.
