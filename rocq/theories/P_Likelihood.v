(** C38: marginal likelihood. *)
From Coq Require Import Reals Lra String.
From mathcomp Require Import all_ssreflect all_algebra.
From Verif Require Import Base PyTree RealStruct RealSums Ggn Posterior PosteriorSpec Likelihood Normal CrpsProofs
  PredictivesProofs.
Set Implicit Arguments.
Unset Strict Implicit.
Unset Printing Implicit Defensive.
Import GRing.Theory Num.Theory Order.TTheory.
Local Open Scope ring_scope.

(** ** Logarithms of products and of determinants *)
Lemma ln1R : ln (1 : R) = 0. Proof. exact: ln_1. Qed.
Lemma lnM (x y : R) : 0 < x -> 0 < y -> ln (x * y) = ln x + ln y.
Proof. by move=> /RltP Hx /RltP Hy; rewrite -RmultE ln_mult. Qed.
Lemma lnV (x : R) : 0 < x -> ln x^-1 = - ln x.
Proof.
move=> Hx; rewrite -RinvE ?gt_eqF // ln_Rinv //; exact/RltP.
Qed.
Lemma ln_prod (I : Type) (r : seq I) (F : I -> R) : (forall i, 0 < F i) ->
  ln (\prod_(i <- r) F i) = \sum_(i <- r) ln (F i) /\ 0 < \prod_(i <- r) F i.
Proof.
move=> H; elim: r => [|x r [IH Hp]]; first by rewrite !big_nil ln1R ltr01.
by rewrite !big_cons lnM // IH mulr_gt0.
Qed.
Lemma lnX (x : R) k : 0 < x -> ln (x ^+ k) = k%:R * ln x.
Proof.
move=> Hx; elim: k => [|k IH]; first by rewrite expr0 ln1R mul0r.
by rewrite exprS lnM ?exprn_gt0 // IH -[k.+1]add1n natrD mulrDl mul1r.
Qed.

Lemma sylvester (T : comRingType) (m n : nat) (A : 'M[T]_(m, n)) (B : 'M[T]_(n, m)) :
  \det (1%:M + A *m B) = \det (1%:M + B *m A).
Proof.
pose M := block_mx (1%:M : 'M_m) (- A) B (1%:M : 'M_n).
have E1 : \det M = \det (1%:M + B *m A).
  have : \det (M *m block_mx 1%:M A 0 1%:M) = \det (block_mx (1%:M : 'M_m) 0 B (1%:M + B *m A)).
    by rewrite /M mulmx_block !mulmx1 !mul1mx !mulmx0 !addr0 subrr [B *m A + _]addrC.
  by rewrite det_mulmx det_ublock det_lblock !det1 !mul1r mulr1.
have E2 : \det M = \det (1%:M + A *m B).
  have : \det (block_mx 1%:M A 0 1%:M *m M) = \det (block_mx (1%:M + A *m B) 0 B (1%:M : 'M_n)).
    by rewrite /M mulmx_block !mulmx1 !mul1mx !mul0mx !add0r addNr.
  by rewrite det_mulmx det_ublock det_lblock !det1 !mul1r mulr1.
by rewrite -E1 E2.
Qed.

(** ** The evidence *)

(** log p(theta) for independent N(0, 1/tau) entries: the sum of the log densities. *)
Definition log_gauss_prior (P : nat) (tau : R) (th : 'cV[R]_P) : R :=
  \sum_i ln (gauss_density 0 (Rinv (sqrt tau)) (th i ord0)).

Lemma log_prior_gauss P (tau : R) (th : 'cV[R]_P) : 0 < tau -> log_prior tau th = log_gauss_prior tau th.
Proof.
move=> Ht; have Ht' : Rlt 0 tau by apply/RltP.
rewrite /log_gauss_prior.
transitivity (\sum_(i < P) (- 2%:R^-1 * tau * th i ord0 ^+ 2 + - 2%:R^-1 * (ln (2%:R * PI) - ln tau))).
  rewrite big_split /= -mulr_sumr sumr_const card_ord /log_prior; congr (_ + _).
  by rewrite mulrAC mulr_natr.
apply: eq_bigr => i _; rewrite gauss_precision // expr2.
by numR.
Qed.

Lemma tpi_gt0 : 0 < 2%:R * PI.
Proof. by rewrite mulr_gt0 ?ltr0n //; apply/RltP; exact: PI_RGT_0. Qed.

(** The docstring's [- 1/2 log |H / (2 pi)|]. *)
Lemma evidenceE P (H : 'M[R]_P) : 0 < \det H ->
  evidence P (full_log_det H) = 2%:R^-1 * ln (\det ((2%:R * PI)^-1 *: H)).
Proof.
move=> Hd; rewrite detZ lnM ?exprn_gt0 ?invr_gt0 ?tpi_gt0 // lnX ?invr_gt0 ?tpi_gt0 //.
rewrite lnV ?tpi_gt0 // /evidence /full_log_det ger0_norm ?ltW // mulrDr !mulrN mulrA.
by rewrite -mulrA mulNr.
Qed.

(** Full curvature, scalar loss: the Laplace evidence
    [log p(D | th) + log p(th) - 1/2 log |H / 2 pi|] with [H = (sigma^2 C + tau I) / lsf]. *)
Theorem C38_full_value :
  forall (P K : nat) (X : Type) (model : X -> 'cV[R]_P -> 'cV[R]_K)
    (C : 'M[R]_P) (pa : mll_prior) data params loss_fn (lsf tau L : R) full_fn,
  prior_prec (mp_prior pa) = Some tau -> 0 < tau ->
  concatenate_model_and_loss_fn model loss_fn = Ok full_fn -> full_fn data params = Scalar K L ->
  let H := lsf^-1 *: (odflt 1 (sigma_squared (mp_prior pa)) *: C + tau *: 1%:M) in
  0 < \det H ->
  marginal_log_likelihood model (FullCurv C) pa data params loss_fn lsf =
  Ok (Scalar K (- (L / (2%:R * odflt 1 (mp_sigma pa))) + log_gauss_prior tau params
                - 2%:R^-1 * ln (\det ((2%:R * PI)^-1 *: H)))).
Proof.
move=> P K X model C pa data params loss_fn lsf tau L full_fn Et Ht Ec El H Hd.
rewrite /marginal_log_likelihood /marginal_log_likelihood_with Ec /= /full_curvature_to_precision /get_prior_prec Et /=.
rewrite /full_marginal_log_likelihood /marginal_from /joint_log_likelihood /get_prior_prec Et /= El /=.
by rewrite evidenceE // log_prior_gauss // mulNr div1r [_ * L]mulrC.
Qed.
Print Assumptions C38_full_value.

Lemma det_diag_pos P (d : 'cV[R]_P) : (forall i, 0 < d i ord0) ->
  full_log_det (diag_mx d^T) = diagonal_log_det d.
Proof.
move=> Hd; rewrite /full_log_det /diagonal_log_det det_diag.
have [E Hp] := @ln_prod _ (index_enum (ordinal_finType P)) (fun i => d i ord0) Hd.
rewrite ger0_norm; last by apply: prodr_ge0 => i _; rewrite mxE ltW.
by rewrite -E; congr ln; apply: eq_bigr => i _; rewrite mxE.
Qed.

(** Diagonal curvature gives exactly what the full curvature with that diagonal gives. *)
Theorem C38_diagonal_agrees_with_full :
  forall (P K : nat) (X : Type) (model : X -> 'cV[R]_P -> 'cV[R]_K)
    (d : 'cV[R]_P) (pa : mll_prior) data params loss_fn (lsf : R),
  (forall tau, prior_prec (mp_prior pa) = Some tau ->
     forall i, 0 < (odflt 1 (sigma_squared (mp_prior pa)) * d i ord0 + tau) / lsf) ->
  marginal_log_likelihood model (DiagonalCurv d) pa data params loss_fn lsf =
  marginal_log_likelihood model (FullCurv (diag_mx d^T)) pa data params loss_fn lsf.
Proof.
move=> P K X model d pa data params loss_fn lsf Hpos; rewrite /marginal_log_likelihood /marginal_log_likelihood_with.
case: concatenate_model_and_loss_fn => //= full_fn.
rewrite /diagonal_curvature_to_precision /full_curvature_to_precision /get_prior_prec.
case Et : (prior_prec (mp_prior pa)) => [tau|] //=.
rewrite /diagonal_marginal_log_likelihood /full_marginal_log_likelihood; congr marginal_from.
rewrite -det_diag_pos; last by move=> i; rewrite mxE mulr1; apply: Hpos.
congr full_log_det; apply/matrixP => i j; rewrite !mxE; case: eqP => _; last by rewrite !mulr0n !mulr0 addr0 mulr0.
by rewrite !mulr1n mulrC.
Qed.
Print Assumptions C38_diagonal_agrees_with_full.

(** ** Low rank *)

Lemma full_log_det_low_rank P r (U : 'M[R]_(P, r)) (S : 'cV[R]_r) (s : R) :
  orthonormal U -> 0 < s -> (forall i, 0 < s + S i ord0) ->
  full_log_det (low_rank_dense U S s) = P%:R * ln s + \sum_i ln (1 + S i ord0 / s).
Proof.
move=> HU Hs HS; have Hs0 : s != 0 by rewrite gt_eqF.
have -> : low_rank_dense U S s = s *: (1%:M + U *m (s^-1 *: diag_mx S^T *m U^T)).
  rewrite scalerDr scalemx1 /low_rank_dense addrC; congr (_ + _).
  by rewrite -scalemxAl -scalemxAr scalerA mulfV // scale1r mulmxA.
rewrite /full_log_det detZ sylvester -mulmxA HU mulmx1.
have -> : 1%:M + s^-1 *: diag_mx S^T = diag_mx (\row_i (1 + S i ord0 / s)).
  apply/matrixP => i j; rewrite !mxE; case: eqP => _; last by rewrite !mulr0n mulr0 addr0.
  by rewrite !mulr1n mulrC.
have Hp i : 0 < 1 + S i ord0 / s.
  have -> : 1 + S i ord0 / s = (s + S i ord0) / s by rewrite mulrDl mulfV.
  by rewrite divr_gt0.
rewrite det_diag.
have [E Hq] := @ln_prod _ (index_enum (ordinal_finType r)) (fun i => 1 + S i ord0 / s) Hp.
under eq_bigr do rewrite mxE.
rewrite ger0_norm; last by apply: ltW; apply: mulr_gt0 => //; apply: exprn_gt0.
by rewrite lnM ?exprn_gt0 // lnX // E.
Qed.

(** The log determinant of [U diag(S) U^T + s I] is the docstring's [P log s + sum log (1 + S/s)];
    the code computes [R log s + sum log (1 + s S)]. *)
Theorem C38_low_rank_log_determinant :
  forall (P r : nat) (U : 'M[R]_(P, r)) (S : 'cV[R]_r) (s : R),
  orthonormal U -> 0 < s -> (forall i, 0 < s + S i ord0) ->
  ln `|\det (low_rank_dense U S s)| = P%:R * ln s + \sum_i ln (1 + S i ord0 / s) /\
  low_rank_log_det (LowRankTerms U S s) = r%:R * ln s + \sum_i ln (1 + s * S i ord0).
Proof. by move=> P r U S s HU Hs HS; split => //; exact: full_log_det_low_rank. Qed.
Print Assumptions C38_low_rank_log_determinant.

(** They agree when [prior_prec / loss_scaling_factor = 1]: then the low-rank marginal likelihood
    is that of the dense matrix (for the curvature [U diag(S) U^T]). *)
Theorem C38_low_rank_unit_precision :
  forall (P K r : nat) (X : Type) (model : X -> 'cV[R]_P -> 'cV[R]_K)
    (U : 'M[R]_(P, r)) (S : 'cV[R]_r) (c : R) (pa : mll_prior) data params loss_fn,
  orthonormal U -> prior_prec (mp_prior pa) = Some 1 ->
  (forall i, 0 < 1 + odflt 1 (sigma_squared (mp_prior pa)) * S i ord0) ->
  marginal_log_likelihood model (LowRankCurv (LowRankTerms U S c)) pa data params loss_fn 1 =
  marginal_log_likelihood model (FullCurv (U *m diag_mx S^T *m U^T)) pa data params loss_fn 1.
Proof.
move=> P K r X model U S c pa data params loss_fn HU Et HS; rewrite /marginal_log_likelihood /marginal_log_likelihood_with.
case: concatenate_model_and_loss_fn => //= full_fn.
rewrite /low_rank_curvature_to_precision /full_curvature_to_precision /get_prior_prec Et /=.
rewrite /low_rank_marginal_log_likelihood /full_marginal_log_likelihood; congr marginal_from.
have Es : odflt 1 (sigma_squared (mp_prior pa)) = get_sigma_squared (mp_prior pa) by [].
rewrite {}Es in HS; set sg := get_sigma_squared _ in HS *.
have -> : 1^-1 *: (sg *: (U *m diag_mx S^T *m U^T) + 1 *: 1%:M) = low_rank_dense U (sg *: S) 1.
  rewrite invr1 !scale1r /low_rank_dense; congr (_ + _).
  by rewrite linearZ /= linearZ /= -scalemxAr -scalemxAl.
rewrite full_log_det_low_rank // ?ltr01 //; last by move=> i; rewrite mxE.
rewrite /low_rank_log_det /= divr1 ln1R !mulr0; congr (_ + _).
by apply: eq_bigr => i _; rewrite mul1r divr1.
Qed.
Print Assumptions C38_low_rank_unit_precision.

(** ... and differ otherwise: one parameter, rank one, [U = 1], [S = 1], [tau = 2]: log 6 in place of
    log 3. *)
Theorem C38_low_rank_refuted :
  exists (U : 'M[R]_1) (S : 'cV[R]_1) (pa : mll_prior),
    orthonormal U /\ prior_prec (mp_prior pa) = Some 2%:R /\
    forall (params : 'cV[R]_1) (loss_fn : seq 'cV[R]_1 -> seq 'cV[R]_1 -> R) (data : seq (unit * 'cV[R]_1))
      (model : unit -> 'cV[R]_1 -> 'cV[R]_1),
    exists a b : R,
    marginal_log_likelihood model (LowRankCurv (LowRankTerms U S 0)) pa data params (CLossCallable loss_fn) 1
      = Ok (Scalar 1 a) /\
    marginal_log_likelihood model (FullCurv (U *m diag_mx S^T *m U^T)) pa data params (CLossCallable loss_fn) 1
      = Ok (Scalar 1 b) /\ b - a = 2%:R^-1 * ln 2%:R /\ b != a.
Proof.
pose pa := MllPrior (@PriorArguments [rcfType of R] (Some 2%:R) None) None.
have HU : orthonormal (1%:M : 'M[R]_1) by rewrite /orthonormal trmx1 mul1mx.
exists 1%:M, (const_mx 1), pa; split=> //; split=> // params loss_fn data model.
pose J := - (1 / (2%:R * 1)) * loss_fn [seq model d.1 params | d <- data] [seq d.2 | d <- data] + log_prior 2%:R params.
exists (J - evidence 1 (low_rank_log_det (LowRankTerms (1%:M : 'M[R]_1) (1 *: const_mx 1) (2%:R / 1)))).
exists (J - evidence 1 (full_log_det (1^-1 *: (1 *: (1%:M *m diag_mx (const_mx 1 : 'cV[R]_1)^T *m 1%:M^T) + 2%:R *: 1%:M)))).
split; first by [].
split; first by [].
have E : 1^-1 *: (1 *: (1%:M *m diag_mx (const_mx 1 : 'cV[R]_1)^T *m 1%:M^T) + 2%:R *: 1%:M) =
   low_rank_dense (1%:M : 'M[R]_1) (const_mx 1) 2%:R.
  by rewrite invr1 !scale1r scalemx1 /low_rank_dense.
rewrite E full_log_det_low_rank ?ltr0n //; last by move=> i; rewrite mxE addr_gt0 ?ltr0n ?ltr01.
rewrite /low_rank_log_det /= !big_ord_recl !big_ord0 !mxE !addr0 divr1 !mul1r mulr1.
have E3 : 1 + 2%:R = 3%:R :> R by rewrite -[1]/(1%:R) -natrD.
have E4 : 1 + 1 / 2%:R = 3%:R / 2%:R :> R by rewrite -E3 mulrDl mulfV ?pnatr_eq0 // addrC.
rewrite E3; rewrite div1r in E4; rewrite E4 lnM ?invr_gt0 ?ltr0n // lnV ?ltr0n //.
have H2 : 0 < ln (2%:R : R).
  by rewrite -ln1R; apply/RltP; apply: ln_increasing; [exact: Rlt_0_1|apply/RltP; rewrite ltr1n].
have D : J - evidence 1 (ln 2%:R + (ln 3%:R - ln 2%:R)) - (J - evidence 1 (ln 2%:R + ln 3%:R)) = 2%:R^-1 * ln 2%:R.
  rewrite opprB addrC addrA subrK /evidence opprD addrACA subrr add0r -mulrBr; congr (_ * _).
  by rewrite opprD addrACA subrr add0r opprB addrC subrK.
split=> //; rewrite -subr_eq0 D mulf_neq0 ?invr_eq0 ?pnatr_eq0 // gt_eqF //.
Qed.
Print Assumptions C38_low_rank_refuted.

(** ** The noise level *)

(** The data term ignores ["sigma_squared"], the key from which the posterior precision takes the
    noise level, and divides by [2 sigma] (not [2 sigma^2]) for the key ["sigma"]. *)
Theorem C38_noise_key_refuted :
  forall (P K : nat) (X : Type) (full_fn : seq (X * 'cV[R]_K) -> 'cV[R]_P -> loss_out K)
    (tau : R) (s2 s2' : option R) (sg : R) params data L,
  full_fn data params = Scalar K L ->
  joint_log_likelihood full_fn (MllPrior (@PriorArguments [rcfType of R] (Some tau) s2) None) params data =
  joint_log_likelihood full_fn (MllPrior (@PriorArguments [rcfType of R] (Some tau) s2') None) params data /\
  joint_log_likelihood full_fn (MllPrior (@PriorArguments [rcfType of R] (Some tau) s2) (Some sg)) params data =
    Ok (Scalar K (- (L / (2%:R * sg)) + log_prior tau params)).
Proof.
move=> P K X full_fn tau s2 s2' sg params data L E; split=> //.
by rewrite /joint_log_likelihood /= E /= mulNr div1r mulrC.
Qed.
Print Assumptions C38_noise_key_refuted.

(** With the loss ["cross_entropy"] the "marginal log-likelihood" is not a number but an array with
    one entry per sample and class, each of which contains the whole prior and determinant. *)
Theorem C38_cross_entropy_not_scalar_refuted :
  forall (P K : nat) (X : Type) (model : X -> 'cV[R]_P -> 'cV[R]_K)
    (curv : curv_estimate P) (pa : mll_prior) data params (lsf : R) out,
  marginal_log_likelihood model curv pa data params (CLossStr K "cross_entropy") lsf = Ok out ->
  exists vs, out = PerEntry vs /\ size vs = size data.
Proof.
move=> P K X model curv pa data params lsf out; rewrite /marginal_log_likelihood /marginal_log_likelihood_with /=.
case: curv => [c|c|r c];
  rewrite /full_curvature_to_precision /diagonal_curvature_to_precision /low_rank_curvature_to_precision;
  rewrite /full_marginal_log_likelihood /diagonal_marginal_log_likelihood /low_rank_marginal_log_likelihood;
  rewrite /marginal_from /joint_log_likelihood; case: get_prior_prec => //= tau [<-];
  by eexists; split; first reflexivity; rewrite !size_map.
Qed.
Print Assumptions C38_cross_entropy_not_scalar_refuted.

(** Missing ["prior_prec"], unsupported losses. *)
Theorem C38_errors :
  forall (P K : nat) (X : Type) (model : X -> 'cV[R]_P -> 'cV[R]_K)
    (curv : curv_estimate P) (pa : mll_prior) data params (lsf : R),
  (forall s, s <> "mse"%string -> s <> "cross_entropy"%string ->
     marginal_log_likelihood model curv pa data params (CLossStr K s) lsf = Raise ValueError) /\
  (prior_prec (mp_prior pa) = None ->
     marginal_log_likelihood model curv pa data params (CLossStr K "mse") lsf = Raise KeyError).
Proof.
move=> P K X model curv pa data params lsf; split.
  by move=> s H1 H2; rewrite /marginal_log_likelihood /marginal_log_likelihood_with /=; do 2 (case: String.eqb_spec => // _).
move=> H; rewrite /marginal_log_likelihood /marginal_log_likelihood_with /=.
by case: curv => [c|c|r c];
  rewrite /full_curvature_to_precision /diagonal_curvature_to_precision /low_rank_curvature_to_precision
     /get_prior_prec H.
Qed.
Print Assumptions C38_errors.

(** Hypotheses met: two parameters, unit curvature. *)
Example C38_example :
  let pa := MllPrior (@PriorArguments [rcfType of R] (Some 1) None) None in
  let model (x : unit) (p : 'cV[R]_2) := p in
  let data := [:: (tt, 0 : 'cV[R]_2)] in
  marginal_log_likelihood model (DiagonalCurv (const_mx 1)) pa data 0 (CLossStr 2 "mse") 1 =
  marginal_log_likelihood model (FullCurv 1%:M) pa data 0 (CLossStr 2 "mse") 1.
Proof.
move=> pa model data; rewrite C38_diagonal_agrees_with_full; last first.
  by move=> tau [<-] i; rewrite mxE /get_sigma_squared /= mul1r divr1 addr_gt0 ?ltr01.
by congr (marginal_log_likelihood _ (FullCurv _)); apply/matrixP => i j; rewrite !mxE.
Qed.
