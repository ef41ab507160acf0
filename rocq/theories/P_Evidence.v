(** C56: for linear models with Gaussian noise the marginal likelihood is a density that can be
    written down: what the code reports compared with it. *)
From Coq Require Import Reals Lra String.
From mathcomp Require Import all_ssreflect all_algebra.
From Verif Require Import Base PyTree RealStruct RealSums GgnSpec Ggn GgnProofs Posterior PosteriorSpec PosteriorProofs
  Likelihood Normal CrpsProofs PredictivesProofs P_Likelihood P_Pipeline.
Set Implicit Arguments.
Unset Strict Implicit.
Unset Printing Implicit Defensive.
Import GRing.Theory Num.Theory Order.TTheory.
Local Open Scope ring_scope.

(** ** Specification *)

(** The log density of the normal distribution with mean [mu] and covariance [S] at [y]. *)
Definition log_normal_density (m : nat) (mu : 'cV[R]_m) (S : 'M[R]_m) (y : 'cV[R]_m) : R :=
  - 2%:R^-1 * dotv (y - mu) (invmx S *m (y - mu)) - 2%:R^-1 * ln (\det ((2%:R * PI) *: S)).

Section Data.
Variables (X : Type) (K : nat) (data : seq (X * 'cV[R]_K)).
(** One vector of length [K] per sample, stacked; the design matrix of an affine model
    [A x * th + b x]. *)
Definition stack (F : X * 'cV[R]_K -> 'cV[R]_K) : 'cV[R]_(size data * K) :=
  (mxvec (\matrix_(i < size data, k < K) F (tnth (in_tuple data) i) k ord0))^T.
Definition design (P : nat) (A : X -> 'M[R]_(K, P)) : 'M[R]_(size data * K, P) :=
  \matrix_(i, p) stack (fun d => col p (A d.1)) i ord0.

(** With prior [th ~ N(0, I / tau)] and targets [A x * th + b x + noise], noise of variance [s], the
    targets have distribution [N(b, s I + Phi Phi^T / tau)]: its log density at the targets is the
    log evidence. *)
Definition log_evidence (P : nat) (A : X -> 'M[R]_(K, P)) (b : X -> 'cV[R]_K) (s tau : R) : R :=
  log_normal_density (stack (fun d => b d.1)) (s%:M + tau^-1 *: (design A *m (design A)^T))
    (stack (fun d => d.2)).
End Data.

(** ** Lemmas on matrices *)

Ltac eqR := match goal with |- @eq _ ?a ?b => change (@eq R a b) end.

Lemma spd_det_gt0 n (A : 'M[R]_n) : spd A -> 0 < \det A.
Proof.
move=> S; have U := spd_unit S.
have [L E] := @full_scale_exists [rcfType of R] n A S; have [HS _] := S; have [_ _ _ EL] := full_scale_spec HS E.
have D : \det L ^+ 2 * \det A = 1.
  have := congr1 (fun M => \det (M *m A)) EL.
  by rewrite mulVmx // det1 !det_mulmx det_tr expr2.
have HL : \det L != 0.
  by apply/eqP => Z; move/eqP: D; rewrite Z expr0n /= mul0r eq_sym oner_eq0.
have -> : \det A = (\det L ^+ 2)^-1 by rewrite -[LHS](mulKf (expf_neq0 2 HL)) D mulr1.
by rewrite invr_gt0 lt0r expf_neq0 // sqr_ge0.
Qed.

Section Quadratic.
Variables (m P : nat) (Phi : 'M[R]_(m, P)) (y : 'cV[R]_m) (s tau : R).
Hypotheses (Hs : 0 < s) (Ht : 0 < tau).

Let S := s%:M + tau^-1 *: (Phi *m Phi^T).
Let H := s^-1 *: (Phi^T *m Phi) + tau *: 1%:M.

Lemma psd_gram a b (A : 'M[R]_(a, b)) : psd (A *m A^T).
Proof.
split; first by rewrite /symmetric trmx_mul trmxK.
move=> v; rewrite -mulmxA dotv_mul; rewrite /dotv.
by apply: sumr_ge0 => i _; rewrite -expr2 sqr_ge0.
Qed.

Lemma spd_S : spd S.
Proof.
have -> : S = 1^-1 *: (tau^-1 *: (Phi *m Phi^T) + s *: 1%:M).
  by rewrite invr1 scale1r scalemx1 addrC.
apply: (@spd_precision [rcfType of R]) => //; last by rewrite ltr01.
  exact: psd_gram.
by rewrite invr_ge0 ltW.
Qed.
Lemma spd_H : spd H.
Proof.
have -> : H = 1^-1 *: (s^-1 *: (Phi^T *m Phi) + tau *: 1%:M) by rewrite invr1 scale1r.
apply: (@spd_precision [rcfType of R]) => //; last by rewrite ltr01.
  by have := psd_gram Phi^T; rewrite trmxK.
by rewrite invr_ge0 ltW.
Qed.

(** The exponent. *)
Lemma evidence_exponent (th : 'cV[R]_P) : H *m th = s^-1 *: (Phi^T *m y) ->
  dotv (Phi *m th - y) (Phi *m th - y) / s + tau * dotv th th = dotv y (invmx S *m y).
Proof.
move=> E; pose r := s^-1 *: (y - Phi *m th).
have Hs0 : s != 0 by rewrite gt_eqF. have Ht0 : tau != 0 by rewrite gt_eqF.
have E1 : Phi^T *m r = tau *: th.
  rewrite /r -scalemxAr mulmxBr scalerBr -E /H mulmxDl -scalemxAl mulmxA -scalemxAl mul1mx.
  by rewrite addrC addrA addNr add0r.
have E2 : S *m r = y.
  rewrite /S mulmxDl mul_scalar_mx -scalemxAl -mulmxA E1 -scalemxAr [tau^-1 *: _]scalerA mulVf // scale1r.
  by rewrite /r scalerA mulfV // scale1r subrK.
have -> : invmx S *m y = r by rewrite -{1}E2 mulKmx // spd_unit //; apply: spd_S.
have Er : r = s^-1 *: (y - Phi *m th) by []. clearbody r.
have -> : dotv y r = s * dotv r r + tau^-1 * dotv (Phi^T *m r) (Phi^T *m r).
  rewrite -{1}E2 /S mulmxDl dotvDl mul_scalar_mx dotvZl -scalemxAl dotvZl -mulmxA; congr (_ + _ * _).
  by rewrite dotvC dotv_mul.
congr (_ + _).
  rewrite Er dotvZl dotvZ mulVKf // mulrC -opprB; congr (_ * _).
  by rewrite -scaleN1r dotvZ dotvZl mulN1r mulN1r opprK.
by rewrite E1 dotvZ dotvZl mulKf //.
Qed.

(** The determinant. *)
Lemma evidence_det : \det ((2%:R * PI) *: S) = (2%:R * PI * s) ^+ m * tau ^- P * \det H.
Proof.
have Hs0 : s != 0 by rewrite gt_eqF. have Ht0 : tau != 0 by rewrite gt_eqF.
have -> : (2%:R * PI) *: S = (2%:R * PI * s) *: (1%:M + ((s * tau)^-1 *: Phi) *m Phi^T).
  rewrite -[in RHS]scalerA; congr (_ *: _); rewrite scalerDr scalemx1 -scalemxAl scalerA invfM mulrA.
  by rewrite mulfV // mul1r.
rewrite detZ sylvester -[RHS]mulrA; congr (_ * _).
have -> : H = tau *: (1%:M + Phi^T *m ((s * tau)^-1 *: Phi)).
  rewrite scalerDr addrC; congr (_ + _).
  by rewrite -scalemxAr scalerA invfM mulrCA mulfV // mulr1.
by rewrite detZ mulrA mulVf ?mul1r // expf_neq0.
Qed.

(** First-order condition: a maximiser of the joint density solves the normal equations. *)
Lemma max_normal_equations (th : 'cV[R]_P) :
  (forall th', dotv (Phi *m th - y) (Phi *m th - y) / s + tau * dotv th th <=
               dotv (Phi *m th' - y) (Phi *m th' - y) / s + tau * dotv th' th') ->
  H *m th = s^-1 *: (Phi^T *m y).
Proof.
move=> Hmin; pose g := H *m th - s^-1 *: (Phi^T *m y).
suff Hg : g = 0 by apply/eqP; rewrite -subr_eq0 -/g Hg.
have Eg : g = H *m th - s^-1 *: (Phi^T *m y) by []. clearbody g.
have Hs0 : s != 0 by rewrite gt_eqF.
have Dh : dotv g (H *m g) = dotv (Phi *m g) (Phi *m g) / s + tau * dotv g g.
  by rewrite /H mulmxDl dotvD -scalemxAl dotvZ -mulmxA dotv_tr mulrC -[tau *: _ *m g]scalemxAl dotvZ mul1mx.
have Dg : dotv g g = dotv (Phi *m g) (Phi *m th - y) / s + tau * dotv g th.
  rewrite {2}Eg dotvB /H mulmxDl dotvD -scalemxAl dotvZ -mulmxA dotv_tr -[tau *: _ *m th]scalemxAl dotvZ mul1mx.
  by rewrite dotvZ dotv_tr dotvB mulrBl addrAC ![_ / s]mulrC.
(* along the gradient *)
have Q t : dotv (Phi *m (th + t *: g) - y) (Phi *m (th + t *: g) - y) / s + tau * dotv (th + t *: g) (th + t *: g)
   = dotv (Phi *m th - y) (Phi *m th - y) / s + tau * dotv th th + (2%:R * t * dotv g g + t ^+ 2 * dotv g (H *m g)).
  have -> : Phi *m (th + t *: g) - y = (Phi *m th - y) + t *: (Phi *m g).
    by rewrite mulmxDr -scalemxAr addrAC.
  move: (Phi *m th - y) Dg => a Dg; rewrite [in RHS]Dg Dh.
  rewrite !dotvD !dotvDl !dotvZ !dotvZl [dotv a (Phi *m g)]dotvC [dotv th g]dotvC.
  move: (dotv _ _) (dotv _ _) (dotv _ _) (dotv _ _) (dotv _ _) (dotv _ _) => b c d e f k.
  rewrite expr2; numR; eqR; field; exact/eqP.
have G0 : 0 <= dotv g g by rewrite /dotv; apply: sumr_ge0 => i _; rewrite -expr2 sqr_ge0.
have Gz : dotv g g = 0 -> g = 0.
  move=> /eqP; rewrite /dotv psumr_eq0; last by move=> i _; rewrite -expr2 sqr_ge0.
  move=> /allP Z; apply/colP => i; rewrite mxE.
  by have := Z i (mem_index_enum i); rewrite -expr2 sqrf_eq0 => /eqP.
apply: Gz; apply/eqP; rewrite eq_le G0 andbT.
pose A := dotv g g; pose B := dotv g (H *m g).
have B0 : 0 <= B.
  have [_ HH] := spd_H; rewrite /B; have [->|Hn] := eqVneq g 0; last by apply: ltW; apply: HH.
  by rewrite mulmx0 dotv0.
pose t := - (A / (B + 1)).
have B1 : 0 < B + 1 by rewrite ltr_spaddr ?ltr01.
have := Hmin (th + t *: g); rewrite Q ler_addl -/A -/B /t.
have -> : 2%:R * - (A / (B + 1)) * A + (- (A / (B + 1))) ^+ 2 * B = - ((A / (B + 1)) ^+ 2 * (B + 2%:R)).
  have EA : A = A / (B + 1) * (B + 1) by rewrite divfK // gt_eqF.
  rewrite {2}EA; move: (A / (B + 1)) => q; rewrite !expr2; numR; eqR; ring.
rewrite oppr_ge0 => L.
have : (A / (B + 1)) ^+ 2 * (B + 2%:R) == 0.
  by rewrite eq_le L mulr_ge0 ?sqr_ge0 // addr_ge0 ?ler0n.
rewrite mulf_eq0 [B + _ == 0]gt_eqF ?orbF; last by rewrite ltr_spaddr ?ltr0n.
by rewrite sqrf_eq0 mulf_eq0 invr_eq0 [B + 1 == 0]gt_eqF ?orbF // => /eqP ->.
Qed.

Lemma normal_equations_min (th : 'cV[R]_P) : H *m th = s^-1 *: (Phi^T *m y) ->
  forall th', dotv (Phi *m th - y) (Phi *m th - y) / s + tau * dotv th th <=
              dotv (Phi *m th' - y) (Phi *m th' - y) / s + tau * dotv th' th'.
Proof.
move=> E th'; have Hs0 : s != 0 by rewrite gt_eqF.
have [g ->] : exists g, th' = th + g by exists (th' - th); rewrite addrCA subrr addr0.
have Dh : dotv g (H *m g) = dotv (Phi *m g) (Phi *m g) / s + tau * dotv g g.
  by rewrite /H mulmxDl dotvD -scalemxAl dotvZ -mulmxA dotv_tr mulrC -[tau *: _ *m g]scalemxAl dotvZ mul1mx.
have Dg : dotv (Phi *m g) (Phi *m th - y) / s + tau * dotv g th = 0.
  have := congr1 (dotv g) E; rewrite /H mulmxDl dotvD -scalemxAl dotvZ -mulmxA dotv_tr -[tau *: _ *m th]scalemxAl dotvZ mul1mx.
  by rewrite dotvZ dotv_tr dotvB mulrBl ![_ / s]mulrC addrAC => ->; rewrite subrr.
have -> : Phi *m (th + g) - y = (Phi *m th - y) + Phi *m g by rewrite mulmxDr addrAC.
move: (Phi *m th - y) Dg => a Dg.
have -> : dotv (a + Phi *m g) (a + Phi *m g) / s + tau * dotv (th + g) (th + g) =
    dotv a a / s + tau * dotv th th + 2%:R * (dotv (Phi *m g) a / s + tau * dotv g th) + dotv g (H *m g).
  rewrite Dh !dotvD !dotvDl [dotv a (Phi *m g)]dotvC [dotv th g]dotvC.
  move: (dotv _ _) (dotv _ _) (dotv _ _) (dotv _ _) (dotv _ _) (dotv _ _) => b c d e f k.
  by numR; eqR; field; exact/eqP.
rewrite Dg mulr0 addr0 ler_addl; have [_ HH] := spd_H.
by have [->|Hn] := eqVneq g 0; [rewrite mulmx0 dotv0|apply: ltW; apply: HH].
Qed.
End Quadratic.

Section Stack.
Variables (X : Type) (K P : nat) (data : seq (X * 'cV[R]_K)) (A : X -> 'M[R]_(K, P)).

Lemma dotv_stack F G : dotv (stack data F) (stack data G) = \sum_(d <- data) dotv (F d) (G d).
Proof.
rewrite /dotv (reindex _ (curry_mxvec_bij _ _)) /= [RHS]big_tnth [RHS]pair_bigA /=.
apply: eq_bigr => -[i k] _ /=.
by rewrite /stack !mxE !mxvecE !mxE.
Qed.
Lemma stackB F G : stack data F - stack data G = stack data (fun d => F d - G d).
Proof.
rewrite /stack -linearB -linearB /=; congr (mxvec _)^T.
by apply/matrixP => i k; rewrite !mxE.
Qed.
Lemma design_mul th : design data A *m th = stack data (fun d => A d.1 *m th).
Proof.
apply/colP => i; rewrite mxE.
case/mxvec_indexP: i => i k; rewrite /stack mxE mxvecE mxE mxE.
by apply: eq_bigr => p _; rewrite !mxE mxvecE !mxE.
Qed.
Lemma gramE (v : 'cV[R]_P) :
  (design data A)^T *m (design data A *m v) = \sum_(d <- data) (A d.1)^T *m (A d.1 *m v).
Proof.
apply: dotv_inj => w; rewrite dotvC dotv_tr !design_mul dotv_stack dotvC dotv_sum.
by apply: eq_bigr => d _; rewrite dotv_tr.
Qed.
Lemma dotv_sqr n (v : 'cV[R]_n) : dotv v v = \sum_i v i ord0 ^+ 2.
Proof. by apply: eq_bigr => i _; rewrite expr2. Qed.
Lemma mse_stack (b : X -> 'cV[R]_K) th :
  foldr +%R 0 [seq \sum_i ((A d.1 *m th + b d.1 - d.2) i ord0) ^+ 2 | d <- data] =
  dotv (design data A *m th - (stack data (fun d => d.2) - stack data (fun d => b d.1)))
       (design data A *m th - (stack data (fun d => d.2) - stack data (fun d => b d.1))).
Proof.
rewrite foldrE big_map design_mul !stackB dotv_stack; apply: eq_bigr => d _.
by rewrite dotv_sqr opprB addrA.
Qed.
End Stack.

(** ** C56 *)

(** For a model affine in its parameters, at the most probable parameters, and with a curvature that
    is the one of the data term, the reported marginal likelihood is the exact log evidence for noise
    variance [sigma], but for the constant [- N K / 2 log (2 pi sigma)] of the noise density, which the
    data term of the code leaves out. *)
Theorem C56_affine_evidence :
  forall (X : Type) (P K : nat) (A : X -> 'M[R]_(K, P)) (b : X -> 'cV[R]_K) (data : seq (X * 'cV[R]_K))
    (C : 'M[R]_P) (s2 : option R) (s tau : R) (params : 'cV[R]_P),
  let model (x : X) (p : 'cV[R]_P) : 'cV[R]_K := A x *m p + b x in
  let pa := MllPrior (@PriorArguments [rcfType of R] (Some tau) s2) (Some s) in
  0 < s -> 0 < tau ->
  (forall v : 'cV[R]_P, odflt 1 s2 *: (C *m v) = s^-1 *: \sum_(d <- data) (A d.1)^T *m (A d.1 *m v)) ->
  (forall full_fn, concatenate_model_and_loss_fn model (CLossStr K "mse") = Ok full_fn ->
     forall (th : 'cV[R]_P) l l', joint_log_likelihood full_fn pa params data = Ok (Scalar K l) ->
       joint_log_likelihood full_fn pa th data = Ok (Scalar K l') -> l' <= l) ->
  marginal_log_likelihood model (FullCurv C) pa data params (CLossStr K "mse") 1 =
  Ok (Scalar K (log_evidence data A b s tau + (size data * K)%:R / 2%:R * ln (2%:R * PI * s))).
Proof.
move=> X P K A b data C s2 s tau params model pa Hs Ht HC Hmax.
set y := stack data (fun d => d.2) - stack data (fun d => b d.1).
set Phi := design data A.
have Hs0 : s != 0 by rewrite gt_eqF.
have EC : odflt 1 s2 *: C = s^-1 *: (Phi^T *m Phi).
  apply/matrixP => i j; have := congr1 (fun v : 'cV_P => v i ord0) (HC (delta_mx j ord0)).
  rewrite -gramE -/Phi mulmxA -!colE => E; move: E; rewrite !mxE => ->; congr (_ * _).
pose q th := dotv (Phi *m th - y) (Phi *m th - y) / s + tau * dotv th th.
have Ej th : forall full_fn, concatenate_model_and_loss_fn model (CLossStr K "mse") = Ok full_fn ->
    joint_log_likelihood full_fn pa th data =
    Ok (Scalar K (- 2%:R^-1 * q th - 2%:R^-1 * P%:R * (ln (2%:R * PI) - ln tau))).
  move=> full_fn [<-]; rewrite /joint_log_likelihood /= mse_stack -/y -/Phi /log_prior -dotv_sqr addrA.
  congr (Ok (Scalar _ (_ + _))); last by rewrite !mulNr.
  rewrite /q mulrDr mulrA; congr (_ + _); last by rewrite mulrA.
  by rewrite div1r invfM !mulNr mulrAC.
have Emin th : q params <= q th.
  have [f Ef] : exists f, concatenate_model_and_loss_fn model (CLossStr K "mse") = Ok f by eexists.
  have := Hmax f Ef th _ _ (Ej params f Ef) (Ej th f Ef).
  by rewrite ler_add2r !mulNr ler_opp2 ler_pmul2l ?invr_gt0 ?ltr0n.
have EN := max_normal_equations Hs Ht Emin.
have EE := evidence_exponent Hs Ht EN.
have ED := evidence_det Phi Hs Ht.
have DH := spd_det_gt0 (spd_H Phi Hs Ht).
rewrite /marginal_log_likelihood /marginal_log_likelihood_with [X in bind X _]/=; cbn [bind].
have -> : full_curvature_to_precision C (mp_prior pa) 1 = Ok (s^-1 *: (Phi^T *m Phi) + tau *: 1%:M).
  by rewrite /full_curvature_to_precision /= /get_sigma_squared /= EC invr1 scale1r.
cbn [bind]; rewrite /full_marginal_log_likelihood /marginal_from (Ej params) //; cbn [bind].
rewrite /loss_map; congr (Ok (Scalar _ _)).
rewrite /log_evidence /log_normal_density -/Phi -/y -EE -/(q params) ED.
rewrite /evidence /full_log_det ger0_norm ?(ltW DH) //.
have T2 : 0 < 2%:R * PI * s by rewrite mulr_gt0 // tpi_gt0.
have T3 : 0 < (2%:R * PI * s) ^+ (size data * K) by rewrite exprn_gt0.
have T4 : 0 < tau ^- P by rewrite invr_gt0 exprn_gt0.
rewrite [ln (_ * _ * \det _)]lnM ?mulr_gt0 // [ln (_ * tau ^- P)]lnM // [ln (_ ^+ _)]lnX // lnV ?exprn_gt0 //.
rewrite [ln (tau ^+ _)]lnX //.
move: (ln (\det _)) (ln (2%:R * PI * s)) (ln (2%:R * PI)) (ln tau) (q params) => d1 d2 d3 d4 d5.
move: (P%:R : R) ((size data * K)%:R : R) => p n; numR; eqR; field.
Qed.
Print Assumptions C56_affine_evidence.

(** With laplax's own GGN matrix for "mse" (which is [2 Phi^T Phi]) this takes
    [sigma_squared = 1 / (2 sigma)] in the prior arguments. *)
Theorem C56_ggn_evidence :
  forall (X : Type) (P K : nat) (A : X -> 'M[R]_(K, P)) (b : X -> 'cV[R]_K) (data : seq (X * 'cV[R]_K))
    (C : 'M[R]_P) (s tau : R) (params : 'cV[R]_P) mv,
  let model (x : X) (p : 'cV[R]_P) : 'cV[R]_K := A x *m p + b x in
  let pa := MllPrior (@PriorArguments [rcfType of R] (Some tau) (Some (2%:R * s)^-1)) (Some s) in
  0 < s -> 0 < tau ->
  create_ggn_mv model (fun x _ => A x) params data (LossStr "mse"%string) None None None = Ok mv ->
  (forall v : 'cV[R]_P, C *m v = mv v) ->
  (forall full_fn, concatenate_model_and_loss_fn model (CLossStr K "mse") = Ok full_fn ->
     forall (th : 'cV[R]_P) l l', joint_log_likelihood full_fn pa params data = Ok (Scalar K l) ->
       joint_log_likelihood full_fn pa th data = Ok (Scalar K l') -> l' <= l) ->
  marginal_log_likelihood model (FullCurv C) pa data params (CLossStr K "mse") 1 =
  Ok (Scalar K (log_evidence data A b s tau + (size data * K)%:R / 2%:R * ln (2%:R * PI * s))).
Proof.
move=> X P K A b data C s tau params mv model pa Hs Ht Emv HC Hmax.
apply: C56_affine_evidence => // v; rewrite HC.
move: Emv; rewrite /create_ggn_mv /curv_scaling_factor.
case: (size data) => [//|n] /=; rewrite divff ?pnatr_eq0 // => -[<-].
rewrite ggn_mvE scale1r invfM mulrC -scalerA; congr (_ *: _); rewrite scaler_sumr; apply: eq_bigr => d _.
by rewrite /mse_hessian_mv -scalemxAr scalerA mulVf ?scale1r // pnatr_eq0.
Qed.
Print Assumptions C56_ggn_evidence.

(** The default [sigma = sigma_squared = 1] - all that calibration ever passes is the prior precision -
    mixes two noise levels: the data term that of variance 1, the determinant that of variance 1/2.
    Seen as a function of the prior precision, the value then differs from the evidence by more than a
    constant: one parameter, one observation 0, trained parameter 0 (the maximum of the joint density
    for every prior precision). *)
Theorem C56_default_noise_refuted :
  exists (data : seq (unit * 'cV[R]_1)) (C : 'M[R]_1) mv,
    let A (_ : unit) : 'M[R]_1 := 1%:M in let b (_ : unit) : 'cV[R]_1 := 0 in
    let model (x : unit) (p : 'cV[R]_1) : 'cV[R]_1 := A x *m p + b x in
    let pa tau := MllPrior (@PriorArguments [rcfType of R] (Some tau) None) None in
    [/\ create_ggn_mv model (fun x _ => A x) 0 data (LossStr "mse"%string) None None None = Ok mv,
        forall v : 'cV[R]_1, C *m v = mv v,
        forall full_fn tau, concatenate_model_and_loss_fn model (CLossStr 1 "mse") = Ok full_fn -> 0 < tau ->
          forall (th : 'cV[R]_1) l l', joint_log_likelihood full_fn (pa tau) 0 data = Ok (Scalar 1 l) ->
            joint_log_likelihood full_fn (pa tau) th data = Ok (Scalar 1 l') -> l' <= l &
        exists m1 m2,
          [/\ marginal_log_likelihood model (FullCurv C) (pa 1) data 0 (CLossStr 1 "mse") 1 = Ok (Scalar 1 m1),
              marginal_log_likelihood model (FullCurv C) (pa 2%:R) data 0 (CLossStr 1 "mse") 1 = Ok (Scalar 1 m2) &
              m1 - log_evidence data A b 1 1 != m2 - log_evidence data A b 1 2%:R]].
Proof.
pose data := [:: (tt, 0 : 'cV[R]_1)].
pose A (_ : unit) : 'M[R]_1 := 1%:M; pose b (_ : unit) : 'cV[R]_1 := 0.
exists data, 2%:R%:M, (fun v => ggn_mv (fun x p => A x *m p + b x) (fun x _ => A x) 0
   (fun v _ _ => mse_hessian_mv v) (1 / 1) v data).
split.
- by rewrite /create_ggn_mv /curv_scaling_factor /=.
- move=> v; rewrite ggn_mvE big_cons big_nil addr0 divr1 scale1r /A trmx1 !mul1mx.
  by rewrite /mse_hessian_mv mul_scalar_mx.
- move=> full_fn tau [<-] Ht th l l' /=; rewrite /joint_log_likelihood /= => -[<-] [<-].
  rewrite /log_prior !addrA ler_add2r.
  rewrite !big_ord_recl !big_ord0 !addr0 !mulmx0 !mul1mx !subr0 !mxE expr0n /= !mulr0 addr0.
  have S0 : 0 <= th ord0 ord0 ^+ 2 by rewrite sqr_ge0.
  rewrite !mulNr -opprD oppr_le0; apply: addr_ge0; rewrite ?mulr1; apply: mulr_ge0 => //.
    by rewrite divr_ge0 ?ler0n ?ler01.
  by rewrite mulr_ge0 ?invr_ge0 ?ler0n // ltW.
have Hs1 : 0 < (1 : R) by rewrite ltr01.
have Hs2 : 0 < (2%:R : R) by rewrite ltr0n.
have M tau : 0 < tau -> marginal_log_likelihood (fun x p => A x *m p + b x) (FullCurv 2%:R%:M)
     (MllPrior (@PriorArguments [rcfType of R] (Some tau) None) None) data 0 (CLossStr 1 "mse") 1 =
   Ok (Scalar 1 (2%:R^-1 * ln tau - 2%:R^-1 * ln (2%:R + tau))).
  move=> Ht; rewrite /marginal_log_likelihood /marginal_log_likelihood_with /= /full_curvature_to_precision /= /get_sigma_squared /=.
  rewrite /full_marginal_log_likelihood /marginal_from /joint_log_likelihood /=.
  congr (Ok (Scalar _ _)).
  have -> : full_log_det (1^-1 *: (1 *: 2%:R%:M + tau *: 1%:M) : 'M[R]_1) = ln (2%:R + tau).
    rewrite /full_log_det det_mx11 !mxE !eqxx /= !mulr1n invr1 !mul1r mulr1 ger0_norm //.
    by rewrite addr_ge0 ?ler0n // ltW.
  rewrite /log_prior /evidence !big_ord_recl !big_ord0 !addr0 !mulmx0 !subr0 !mxE expr0n /= !mulr0 !add0r.
  by move: (ln _) (ln tau) (ln (2%:R * PI)) => u v w; numR; eqR; field.
have Ev tau : 0 < tau -> log_evidence data A b 1 tau =
    - 2%:R^-1 * (ln (2%:R * PI) - ln tau + ln (1 + tau)).
  move=> Ht; rewrite /log_evidence /log_normal_density evidence_det //.
  have -> : stack data (fun d => d.2) - stack data (fun d => b d.1) = 0.
    by rewrite stackB; apply/colP => i; case/mxvec_indexP: i => i k; rewrite /stack mxE mxvecE !mxE (ord1 i) /= !mxE subrr.
  rewrite mulmx0 dotv0 mulr0 add0r.
  have -> : (design data A)^T *m design data A = (1%:M : 'M[R]_1).
    apply/matrixP => i j; have := congr1 (fun v : 'cV_1 => v i ord0) (gramE data A (delta_mx j ord0)).
    by rewrite mulmxA -colE mxE => ->; rewrite big_cons big_nil addr0 /A trmx1 !mul1mx !mxE (ord1 i) (ord1 j) !eqxx.
  rewrite det_mx11 !mxE !eqxx /= invr1 !mulr1n mul1r !mulr1 -mulNr; congr (_ * _).
  rewrite !expr1 lnM ?divr_gt0 ?tpi_gt0 ?addr_gt0 // lnM ?invr_gt0 ?tpi_gt0 // lnV //.
exists (2%:R^-1 * ln 1 - 2%:R^-1 * ln (2%:R + 1)), (2%:R^-1 * ln 2%:R - 2%:R^-1 * ln (2%:R + 2%:R)).
split; [exact: M | exact: M | rewrite !Ev //].
have E4 : ln (2%:R + 2%:R) = 2%:R * ln 2%:R :> R.
  by have -> : 2%:R + 2%:R = 2%:R ^+ 2 :> R; [rewrite expr2; numR; eqR; ring|rewrite lnX].
have E8 : 3%:R * ln 2%:R < 2%:R * ln 3%:R :> R.
  by rewrite -!lnX ?ltr0n // -!natrX; apply/RltP; apply: ln_increasing; apply/RltP; rewrite ?ltr0n ?ltr_nat.
have E3 : 2%:R + 1 = 3%:R :> R by rewrite -[1]/(1%:R) -natrD.
have E3' : 1 + 2%:R = 3%:R :> R by rewrite addrC.
have E2 : 1 + 1 = 2%:R :> R by rewrite -[1]/(1%:R) -natrD.
rewrite ln1R E4 E3 E3' E2; apply/eqP => E; move: E8; rewrite ltNge => /negP; apply; rewrite le_eqVlt; apply/orP; left.
apply/eqP; move: E; move: (ln 2%:R) (ln 3%:R) (ln (2%:R * PI)) => u v w; numR => E; eqR; lra.
Qed.
Print Assumptions C56_default_noise_refuted.

(** Hypotheses met: for every affine model, data set, noise level and prior precision there is a
    maximiser of the joint density, and the GGN matrix. *)
Example C56_hypotheses_met :
  forall (X : Type) (P K : nat) (A : X -> 'M[R]_(K, P)) (b : X -> 'cV[R]_K) (data : seq (X * 'cV[R]_K)) (s tau : R),
  let model (x : X) (p : 'cV[R]_P) : 'cV[R]_K := A x *m p + b x in
  let pa := MllPrior (@PriorArguments [rcfType of R] (Some tau) (Some (2%:R * s)^-1)) (Some s) in
  0 < s -> 0 < tau -> data <> [::] ->
  exists C params mv,
  [/\ create_ggn_mv model (fun x _ => A x) params data (LossStr "mse"%string) None None None = Ok mv,
      forall v : 'cV[R]_P, C *m v = mv v &
      forall full_fn, concatenate_model_and_loss_fn model (CLossStr K "mse") = Ok full_fn ->
     forall (th : 'cV[R]_P) l l', joint_log_likelihood full_fn pa params data = Ok (Scalar K l) ->
       joint_log_likelihood full_fn pa th data = Ok (Scalar K l') -> l' <= l].
Proof.
move=> X P K A b data s tau model pa Hs Ht D0.
set y := stack data (fun d => d.2) - stack data (fun d => b d.1).
set Phi := design data A.
pose H := s^-1 *: (Phi^T *m Phi) + tau *: 1%:M.
have UH : H \in unitmx by apply: spd_unit; apply: spd_H.
pose params := invmx H *m (s^-1 *: (Phi^T *m y)).
have EN : H *m params = s^-1 *: (Phi^T *m y) by rewrite mulKVmx.
have Hmin := normal_equations_min Hs Ht EN.
exists (2%:R *: (Phi^T *m Phi)), params, (fun v => ggn_mv model (fun x _ => A x) params
   (fun v _ _ => mse_hessian_mv v) 1 v data).
split.
- rewrite /create_ggn_mv /curv_scaling_factor; case: (data) D0 => [//|d l] _ /=.
  by rewrite divff // pnatr_eq0.
- move=> v; rewrite ggn_mvE scale1r -scalemxAl -mulmxA gramE scaler_sumr; apply: eq_bigr => d _.
  by rewrite /mse_hessian_mv -scalemxAr.
move=> full_fn [<-] th l l'; rewrite /joint_log_likelihood /= !mse_stack -/y -/Phi /log_prior => -[<-] [<-].
rewrite !addrA ler_add2r -!dotv_sqr.
have Ej a c : - (1 / (2%:R * s)) * a + - 2%:R^-1 * tau * c = - 2%:R^-1 * (a / s + tau * c).
  by rewrite mulrDr [- _ * (tau * c)]mulrA; congr (_ + _); rewrite div1r invfM !mulNr mulrA mulrAC.
by rewrite !Ej !mulNr ler_opp2 ler_pmul2l ?invr_gt0 ?ltr0n.
Qed.
