(** Property C63: how the low-rank and diagonal approximations compare with the full posterior they
    approximate (loss scaling factor 1, where their formulas agree). *)
From Coq Require Import Reals Lra String.
From mathcomp Require Import all_ssreflect all_algebra.
From Verif Require Import Base RealStruct RealSums PyTree Mv GgnSpec Ggn GgnProofs Posterior PosteriorSpec PosteriorProofs
  PushforwardSpec PipelineSpec LowRankSolvers LowRankSpec LanczosProofs Likelihood.
From Verif Require Import P_Pipeline P_Posterior P_Monotone P_LowRank P_Likelihood OrderProofs.
Set Implicit Arguments.
Unset Strict Implicit.
Unset Printing Implicit Defensive.
Import GRing.Theory Num.Theory Order.TTheory.
Local Open Scope ring_scope.

Section Compare.
Variable T : rcfType.

(** The full posterior of curvature [A] and the low-rank posterior of [U diag(S) U^T] (same prior,
    same noise) exist, and their variances in direction [v] are [full v] and [low v]. *)
Definition compared (n r : nat) (A : 'M[T]_n) (U : 'M[T]_(n, r)) (S : 'cV[T]_r) (s2 : option T) (tau : T)
    (full low : 'cV[T]_n -> T) : Prop :=
  let pa := PriorArguments (Some tau) s2 in
  exists precF L precR,
    [/\ full_curvature_to_precision A pa 1 = Ok precF, full_prec_to_posterior_state precF = Some L,
        low_rank_curvature_to_precision (LowRankTerms U S 0) pa 1 = Ok precR &
        forall v, full v = dotv v (full_posterior_state_to_cov L v) /\
          low v = dotv v (low_rank_posterior_state_to_cov (low_rank_prec_to_posterior_state precR) v)].

Lemma comparedP n r (A : 'M[T]_n) (U : 'M[T]_(n, r)) (S : 'cV[T]_r) (s2 : option T) (tau : T) :
  psd A -> orthonormal U -> (forall j, 0 <= S j ord0) -> 0 <= odflt 1 s2 -> 0 < tau ->
  let PF := odflt 1 s2 *: A + tau%:M in
  let PL := odflt 1 s2 *: low_rank_dense U S 0 + tau%:M in
  [/\ spd PF, spd PL &
    compared A U S s2 tau (fun v => dotv v (invmx PF *m v)) (fun v => dotv v (invmx PL *m v))].
Proof.
move=> HA HU HS Hs Ht PF PL.
have HD : psd (low_rank_dense U S 0).
  rewrite /low_rank_dense raddf0 addr0 -[X in X *m diag_mx _]trmxK; apply: psd_congr.
  split; first by rewrite /symmetric tr_diag_mx.
  move=> w; apply: sumr_ge0 => p _; rewrite mul_diag_mx !mxE mulrCA -expr2.
  by rewrite mulr_ge0 ?sqr_ge0.
have S1 : spd (tau%:M : 'M[T]_n).
  split=> [|w Hw]; first by rewrite /symmetric tr_scalar_mx.
  by rewrite mul_scalar_mx dotvZ mulr_gt0 ?sqr_norm_gt0.
have SF : spd PF by apply: spd_add => //; apply: psd_scale.
have SL : spd PL by apply: spd_add => //; apply: psd_scale.
split=> //.
have [precF [L [E1 E2 EF H1 _]]] := C20_full_posterior HA Hs Ht ltr01.
have [||precR [E3 [H2 _ _]]] := @C22_low_rank_posterior T n r U S 0 s2 tau 1 HU.
- by rewrite divr1.
- by move=> i; rewrite divr1 ltr_paddl // mulr_ge0.
exists precF, L, precR; split=> // v.
have EPF : precF = PF by rewrite EF /posterior_precision invr1 scale1r scalemx1.
split; congr dotv; first by rewrite -{1}(H1 v) EPF mulKmx // spd_unit.
rewrite -{1}(H2 v) divr1.
have -> : odflt 1 s2 *: (U *m diag_mx S^T *m U^T) + tau%:M = PL by rewrite /PL /low_rank_dense raddf0 addr0.
by rewrite mulKmx // spd_unit.
Qed.

(** Ritz pairs (what Lanczos and LOBPCG return).  In the direction of a returned vector the low-rank
    posterior claims at least as much certainty as the full one, in directions orthogonal to all of
    them it keeps the prior and claims at most as much; the sum of the variances of all parameters
    is not understated. *)
Theorem C63_ritz_pairs :
  forall (n r : nat) (A : 'M[T]_n) (U : 'M[T]_(n, r)) (S : 'cV[T]_r) (s2 : option T) (tau : T),
  psd A -> orthonormal U -> U^T *m (A *m U) = diag_mx S^T -> 0 <= odflt 1 s2 -> 0 < tau ->
  exists full low, compared A U S s2 tau full low /\
    [/\ forall j, low (col j U) = (odflt 1 s2 * S j ord0 + tau)^-1 /\ low (col j U) <= full (col j U),
        forall v, U^T *m v = 0 -> low v = dotv v v / tau /\ full v <= low v
      & \sum_i full (delta_mx i ord0) <= \sum_i low (delta_mx i ord0)].
Proof.
move=> n r A U S s2 tau HA HU HR Hs Ht.
have HS j : 0 <= S j ord0.
  have -> : S j ord0 = (U^T *m A *m U) j j by rewrite -mulmxA HR mxE eqxx mulr1n mxE.
  by apply: psd_diag; apply: psd_congr.
have [SF SL HC] := comparedP HA HU HS Hs Ht.
eexists; eexists; split; first exact: HC.
move: SF SL {HC}; set PF := _ + tau%:M; set PL := _ + tau%:M => SF SL.
have UL := spd_unit SL; have UF := spd_unit SF.
have EL v : PL *m v = odflt 1 s2 *: (U *m (diag_mx S^T *m (U^T *m v))) + tau *: v.
  by rewrite /PL mulmxDl -scalemxAl mul_scalar_mx /low_rank_dense raddf0 addr0 !mulmxA.
split.
- move=> j; set u := col j U; set p := odflt 1 s2 * S j ord0 + tau.
  have p0 : 0 < p by rewrite ltr_paddl // mulr_ge0.
  have uu : dotv u u = 1.
    have := congr1 (fun M : 'M[T]_r => M j j) HU; rewrite [in RHS]mxE eqxx mulr1n => <-.
    by rewrite mulmx_entry.
  have Eu : U^T *m u = delta_mx j ord0 by rewrite /u colE mulmxA HU mul1mx.
  have Ep : PL *m u = p *: u.
    rewrite EL Eu.
    have -> : diag_mx S^T *m (delta_mx j ord0 : 'cV[T]_r) = S j ord0 *: delta_mx j ord0.
      by apply/colP => k; rewrite mul_diag_mx !mxE; case: eqP => [->|_] //; rewrite /= !mulr0.
    by rewrite -scalemxAr -colE scalerA -scalerDl.
  have Eq : u = p *: (invmx PL *m u) by rewrite scalemxAr -Ep mulKmx.
  have Elow : dotv u (invmx PL *m u) = p^-1.
    have : dotv u (p *: (invmx PL *m u)) = 1 by rewrite -Eq.
    by rewrite dotvZ => /(congr1 ( *%R p^-1)); rewrite mulrA mulVf ?gt_eqF // mul1r mulr1.
  split=> //; rewrite Elow.
  have uF : dotv u (PF *m u) = p.
    rewrite /PF mulmxDl -scalemxAl mul_scalar_mx dotvD !dotvZ uu mulr1; congr (_ * _ + _).
    have := congr1 (fun M : 'M[T]_r => M j j) HR; rewrite [in RHS]mxE eqxx mulr1n [S^T _ _]mxE => <-.
    by rewrite /u mulmx_entry [col j (A *m U)]col_mulE.
  pose w := invmx PF *m u - p^-1 *: u.
  have [_ Q] := spd_psd SF; have := Q w.
  have Pw : PF *m w = u - p^-1 *: (PF *m u) by rewrite /w mulmxBr mulKVmx // scalemxAr.
  rewrite Pw /w dotvB !dotvBl !dotvZ !dotvZl uu uF mulr1.
  have -> : dotv (invmx PF *m u) (PF *m u) = 1 by rewrite dotv_mul; have [-> _] := SF; rewrite mulKVmx.
  by rewrite mulr1 mulVf ?gt_eqF // mulr1 subrr subr0 subr_ge0 dotvC.
- move=> v Hv.
  have Ep : PL *m v = tau *: v by rewrite EL Hv !mulmx0 scaler0 add0r.
  have Eq : v = tau *: (invmx PL *m v) by rewrite scalemxAr -Ep mulKmx.
  have Elow : dotv v (invmx PL *m v) = dotv v v / tau.
    have : dotv v (tau *: (invmx PL *m v)) = dotv v v by rewrite -Eq.
    by rewrite dotvZ => <-; rewrite mulrAC divff ?mul1r ?gt_eqF.
  split=> //; rewrite Elow.
  have HB : spd (tau%:M : 'M[T]_n).
    split=> [|w Hw]; first by rewrite /symmetric tr_scalar_mx.
    by rewrite mul_scalar_mx dotvZ mulr_gt0 ?sqr_norm_gt0.
  have LB : loewner_le (tau%:M : 'M[T]_n) PF by rewrite /loewner_le /PF addrK; apply: psd_scale.
  have [_ Q] := loewner_inv HB SF LB; have := Q v.
  by rewrite mulmxBl dotvB invmx_scalar mul_scalar_mx dotvZ subr_ge0 [_^-1 * _]mulrC.
have D (M : 'M[T]_n) : \sum_i dotv (delta_mx i ord0) (M *m delta_mx i ord0) = \tr M.
  by apply: eq_bigr => i _; rewrite dotvC dotv_delta -colE mxE.
rewrite !D.
pose A' := (odflt 1 s2 / tau) *: A; have HA' : psd A' by apply: psd_scale => //; rewrite divr_ge0 // ltW.
have t0 : tau != 0 by rewrite gt_eqF.
have EF : PF = tau *: (1%:M + A').
  by rewrite scalerDr scalerA mulrC divfK // scalemx1 addrC.
have EL' : PL = tau *: (1%:M + (U *m U^T) *m A' *m (U *m U^T)).
  rewrite /A' -scalemxAr -scalemxAl -(ritz_compress HR) scalerDr scalerA mulrC divfK // scalemx1 addrC //.
have U1 : 1%:M + A' \in unitmx by rewrite addrC spd_unit // ; apply: spd_add => //; apply: spd1.
have U2 : 1%:M + (U *m U^T) *m A' *m (U *m U^T) \in unitmx.
  rewrite -(unitmxZ _ (a := tau)) ?unitfE // -EL' //.
rewrite EF EL' !invmxZ ?unitmxZ ?unitfE // !mxtraceZ ler_pmul2l ?invr_gt0 //.
apply: tr_compress => //; [exact: proj_sym | exact: proj_idem].
Qed.

(** Exact eigenpairs: the truncated posterior never claims more certainty than the full one, in any
    direction. *)
Theorem C63_eigenpairs_conservative :
  forall (n r : nat) (A : 'M[T]_n) (U : 'M[T]_(n, r)) (S : 'cV[T]_r) (s2 : option T) (tau : T),
  psd A -> orthonormal U -> A *m U = U *m diag_mx S^T -> 0 <= odflt 1 s2 -> 0 < tau ->
  exists full low, compared A U S s2 tau full low /\ forall v, full v <= low v.
Proof.
move=> n r A U S s2 tau HA HU HE Hs Ht.
have HR : U^T *m (A *m U) = diag_mx S^T by rewrite HE mulmxA HU mul1mx.
have HS j : 0 <= S j ord0.
  have -> : S j ord0 = (U^T *m A *m U) j j by rewrite -mulmxA HR mxE eqxx mulr1n mxE.
  by apply: psd_diag; apply: psd_congr.
have [SF SL HC] := comparedP HA HU HS Hs Ht.
eexists; eexists; split; first exact: HC.
move=> v; have H : loewner_le (odflt 1 s2 *: low_rank_dense U S 0 + tau%:M) (odflt 1 s2 *: A + tau%:M).
  rewrite /loewner_le opprD addrACA subrr addr0 -scalerBr; apply: psd_scale => //.
  exact: (eig_below HA HU HE).
have [_ Q] := loewner_inv SL SF H; have := Q v.
by rewrite mulmxBl dotvB subr_ge0.
Qed.
End Compare.
Print Assumptions C63_ritz_pairs.
Print Assumptions C63_eigenpairs_conservative.

(** A run of [lanczos_lowrank] (no breakdown, correct symmetric eigensolver): the posterior built from
    its result compared with the full one. *)
Theorem C63_lanczos_posterior :
  forall (R : rcfType) (eigh : forall k : nat, 'M[R]_k -> 'cV[R]_k * 'M[R]_k)
    (Key : Type) (normal : Key -> nat -> seq R)
    (op : operand R) (l : layout R) (key : option Key) (b : seq R) (rank : nat) (tol : R)
    mv_dtype calc_dtype return_dtype (x64 : bool)
    (A : 'M[R]_(size b)) alpha beta V (s2 : option R) (tau : R),
  psd A -> represents op l A -> cv_of (size b) b != 0 ->
  lanczos_iterations (fun v => Ok (A *m v)) (cv_of (size b) b) rank tol true = Ok (alpha, beta, V) ->
  (forall j, (j.+1 < rank)%N -> nth 0 beta j != 0) ->
  eigh_correct (construct_tridiagonal rank alpha beta) (eigh rank (construct_tridiagonal rank alpha beta)) ->
  0 <= odflt 1 s2 -> 0 < tau ->
  exists (U : 'M[R]_(size b, rank)) (S : 'cV[R]_rank) d full low,
    [/\ lanczos_lowrank eigh normal op key (Some b) l rank tol mv_dtype calc_dtype return_dtype true x64 =
          (x64, Ok (LowRankResult (LowRankTerms U S 0) d)),
        compared A U S s2 tau full low,
        forall j, low (col j U) <= full (col j U),
        forall v, U^T *m v = 0 -> full v <= low v
      & \sum_i full (delta_mx i ord0) <= \sum_i low (delta_mx i ord0)].
Proof.
move=> R eigh Key normal op l key b rank tol mvd calc ret x64 A alpha beta V s2 tau HA Hr b0 E H He Hs Ht.
have [U [S [d [E1 [O1 O2 _ _ _]]]]] :=
  @C26_lanczos_lowrank R eigh Key normal op l key b rank tol mvd calc ret x64 A alpha beta V (proj1 HA) Hr b0 E H He.
have [full [low [HC [H1 H2 H3]]]] := C63_ritz_pairs HA O1 O2 Hs Ht.
exists U, S, d, full, low; split=> // [j|v Hv]; first by have [] := H1 j.
by have [] := H2 v Hv.
Qed.
Print Assumptions C63_lanczos_posterior.

(** "The low-rank posterior never is more certain than the full one" is false for Lanczos: one
    iteration on the matrix with rows (16, 12), (12, 9) started at the first basis vector gives that
    parameter variance 1/17; the full posterior has 5/13. *)
Section Refuted.
Variable R : rcfType.
Notation A2 := (ex_A R).
Let eighd (k : nat) (M : 'M[R]_k) : 'cV[R]_k * 'M[R]_k := (\col_i M i i, 1%:M).
Let e0 : 'cV[R]_2 := ex_e R o0.

Lemma ex_A_psd : psd A2.
Proof.
pose g : 'cV[R]_2 := \col_i nth 0 [:: 4%:R; 3%:R] i.
have -> : A2 = (g^T)^T *m 1%:M *m g^T.
  rewrite mulmx1 trmxK; apply/matrixP => i j; rewrite !mxE big_ord1 !mxE.
  by case: i => [[|[|//]] Hi]; case: j => [[|[|//]] Hj]; rewrite /= -natrM.
by apply: psd_congr; apply: spd_psd; apply: spd1.
Qed.

Lemma ex_run : lanczos_iterations (fun v => Ok (A2 *m v)) (cv_of 2 [:: 1; 0]) 1 1 true =
  Ok ([:: 16%:R], [:: 12%:R], [:: e0; ex_e R o1]).
Proof.
have -> : cv_of 2 [:: 1; 0] = e0.
  by apply/colP => i; rewrite !mxE; case: i => [[|[|//]] Hi].
have E0 : (norm2 e0)^-1 *: e0 = e0.
  by have := @ex_norm R 1 o0 ler01; rewrite scale1r => ->; rewrite invr1 scale1r.
rewrite /lanczos_iterations E0 /= /lanczos_body /= /iteration_step /=.
rewrite ex_A0 !jdotE dotvD !dotvZ !ex_dot !eqxx mulr1.
have N01 : (o0 == o1) = false by [].
have T12 : (12%:R < 1 :> R) = false by rewrite ltNge ler1n.
have P12 : 0 < 12%:R :> R by rewrite ltr0n.
rewrite N01 mulr0 addr0 addrAC subrr add0r /reorthogonalize /= ex_norm ?ler0n // T12 P12.
by rewrite scalerA mulVf ?pnatr_eq0 // scale1r.
Qed.

Theorem C63_lanczos_conservative_refuted :
  exists (A : 'M[R]_2) (eigh : forall k : nat, 'M[R]_k -> 'cV[R]_k * 'M[R]_k),
  psd A /\ (forall M : 'M[R]_1, eigh_correct M (eigh 1%N M)) /\
  forall op l (x64 : bool), represents op l A ->
  exists (U : 'M[R]_(2, 1)) (S : 'cV[R]_1) d full low,
    [/\ lanczos_lowrank eigh (fun (_ : unit) _ => [::]) op None (Some [:: 1; 0]) l 1 1 None Float64 None true x64 =
          (x64, Ok (LowRankResult (LowRankTerms U S 0) d)),
        compared A U S None 1 full low,
        low (delta_mx ord0 ord0) = 17%:R^-1, full (delta_mx ord0 ord0) = 5%:R / 13%:R
      & low (delta_mx ord0 ord0) < full (delta_mx ord0 ord0)].
Proof.
exists A2, eighd; split; first exact: ex_A_psd.
split.
  move=> M; split; rewrite /= ?/orthonormal ?trmx1 ?mul1mx ?mulmx1 //.
  by apply/matrixP => i j; rewrite !ord1 !mxE eqxx mulr1n.
move=> op l x64 Hr.
have b0 : cv_of (size [:: 1; 0 : R]) [:: 1; 0 : R] != 0.
  by apply/negP => /eqP /(congr1 (fun v : 'cV[R]_2 => v ord0 ord0)) /eqP; rewrite !mxE /= oner_eq0.
have [s [_ _ E EL]] := @lowrank_run R eighd unit (fun _ _ => [::]) op None [:: 1; 0] l 1 1 None Float64 None x64 A2 b0 Hr.
move: E; rewrite [LHS]ex_run => -[Ea Eb EV]; rewrite -Ea -Eb -EV in EL.
set U := basis_mx _ _ *m _ in EL; set S : 'cV[R]_1 := (eighd _).1 in EL.
have EU : U = e0.
  rewrite /U mulmx1; apply/matrixP => i j; rewrite !mxE ord1 /=.
  by rewrite mxE.
have ES : S = (16%:R)%:M by apply/matrixP => i j; rewrite !ord1 !mxE.
have OU : orthonormal U.
  rewrite EU /orthonormal; apply/matrixP => i j; rewrite !ord1 -dotvE ex_dot mxE !eqxx //.
have HS j : 0 <= S j ord0 by rewrite ES ord1 mxE eqxx mulr1n ler0n.
have [SF SL HC] := @comparedP R 2 1 A2 U S None 1 ex_A_psd OU HS ler01 ltr01.
move: SF SL HC; rewrite /= !scale1r; set PF := A2 + _; set PL := _ + 1%:M => SF SL HC.
exists U, S; eexists; exists (fun v => dotv v (invmx PF *m v)), (fun v => dotv v (invmx PL *m v)).
have Elow : dotv e0 (invmx PL *m e0) = 17%:R^-1.
  have Ep : PL *m e0 = 17%:R *: e0.
    rewrite /PL mulmxDl mul1mx /low_rank_dense raddf0 addr0 EU ES -!mulmxA.
    have -> : e0^T *m e0 = 1%:M.
      by apply/matrixP => i j; rewrite !ord1 -dotvE ex_dot mxE !eqxx.
    rewrite mulmx1 tr_scalar_mx.
    have -> : diag_mx (16%:R)%:M = (16%:R)%:M :> 'M[R]_1.
      by apply/matrixP => i j; rewrite !ord1 !mxE !eqxx !mulr1n.
    by rewrite mul_mx_scalar -{2}[e0]scale1r -scalerDl -[1]/(1%:R) -natrD.
  have Eq : e0 = 17%:R *: (invmx PL *m e0) by rewrite scalemxAr -Ep mulKmx // spd_unit.
  have : dotv e0 (17%:R *: (invmx PL *m e0)) = 1 by rewrite -Eq ex_dot eqxx.
  rewrite dotvZ => /(congr1 ( *%R 17%:R^-1)).
  by rewrite mulrA mulVf ?pnatr_eq0 // mul1r mulr1.
have Efull : dotv e0 (invmx PF *m e0) = 5%:R / 13%:R.
  pose w : 'cV[R]_2 := \col_i nth 0 [:: 5%:R / 13%:R; - 6%:R / 13%:R] i.
  have n13 : 13%:R != 0 :> R by rewrite pnatr_eq0.
  have Ew : PF *m w = e0.
    apply/colP => i; rewrite mxE !big_ord_recl big_ord0 !mxE /= addr0.
    have q (a c : nat) : (c * 6 <= a * 5)%N -> a%:R * (5%:R / 13%:R) + c%:R * (- 6%:R / 13%:R) = (a * 5 - c * 6)%:R / 13%:R :> R.
      by move=> H; rewrite natrB // mulrBl !natrM mulNr mulrN !mulrA.
    have E1 : 16%:R + 1 = 17%:R :> R by rewrite -[1]/(1%:R) -natrD.
    have E2 : 9%:R + 1 = 10%:R :> R by rewrite -[1]/(1%:R) -natrD.
    case: i => [[|[|//]] Hi]; rewrite /= ?mulr1n ?mulr0n ?addr0 ?E1 ?E2 q //.
      by rewrite -[(_ - _)%N]/13%N divff.
    by rewrite -[(_ - _)%N]/0%N mul0r.
  have -> : invmx PF *m e0 = w by rewrite -Ew mulKmx // spd_unit.
  by rewrite dotvC dotv_delta mxE.
split; rewrite -?/(ex_e R o0) -?/e0 ?Elow ?Efull //.
  exact: EL.
rewrite ltr_pdivl_mulr ?ltr0n // mulrC ltr_pdivr_mulr ?ltr0n // -natrM ltr_nat //.
Qed.
End Refuted.
Print Assumptions C63_lanczos_conservative_refuted.

(** Dropping pairs with non-negative values from a low-rank result never lowers a variance. *)
Theorem C63_dropping_pairs :
  forall (R : rcfType) (n r q : nat) (A : 'M[R]_n) (U1 : 'M[R]_(n, r)) (U2 : 'M[R]_(n, q)) (S1 : 'cV[R]_r) (S2 : 'cV[R]_q)
    (s2 : option R) (tau : R),
  psd A -> orthonormal (row_mx U1 U2) -> (forall j, 0 <= S1 j ord0) -> (forall j, 0 <= S2 j ord0) ->
  0 <= odflt 1 s2 -> 0 < tau ->
  exists full low1 low12,
    [/\ compared A U1 S1 s2 tau full low1, compared A (row_mx U1 U2) (col_mx S1 S2) s2 tau full low12
      & forall v, low12 v <= low1 v].
Proof.
move=> R n r q A U1 U2 S1 S2 s2 tau HA HU H1 H2 Hs Ht.
have : block_mx (U1^T *m U1) (U1^T *m U2) (U2^T *m U1) (U2^T *m U2) = block_mx 1%:M 0 0 1%:M.
  by rewrite -mul_col_row -tr_row_mx HU scalar_mx_block.
case/eq_block_mx => O1 _ _ _.
have HS j : 0 <= col_mx S1 S2 j ord0 by rewrite mxE; case: splitP => k _.
have [SF SL1 HC1] := comparedP HA O1 H1 Hs Ht.
have [_ SL2 HC2] := comparedP HA HU HS Hs Ht.
exists (fun v => dotv v (invmx (odflt 1 s2 *: A + tau%:M) *m v)); eexists; eexists; split; [exact: HC1|exact: HC2|].
move=> v; have H : loewner_le (odflt 1 s2 *: low_rank_dense U1 S1 0 + tau%:M)
    (odflt 1 s2 *: low_rank_dense (row_mx U1 U2) (col_mx S1 S2) 0 + tau%:M).
  rewrite /loewner_le opprD addrACA subrr addr0 -scalerBr; apply: psd_scale => //.
  have -> : low_rank_dense (row_mx U1 U2) (col_mx S1 S2) 0 - low_rank_dense U1 S1 0 = U2 *m diag_mx S2^T *m U2^T.
    rewrite /low_rank_dense !raddf0 !addr0 tr_col_mx tr_row_mx diag_mx_row mul_row_block !mulmx0 addr0 add0r.
    by rewrite mul_row_col addrAC subrr add0r.
  rewrite -[X in X *m diag_mx _]trmxK; apply: psd_congr.
  split; first by rewrite /symmetric tr_diag_mx.
  move=> w; apply: sumr_ge0 => p _; rewrite mul_diag_mx !mxE mulrCA -expr2.
  by rewrite mulr_ge0 ?sqr_ge0.
have [_ Q] := loewner_inv SL1 SL2 H; have := Q v.
by rewrite mulmxBl dotvB subr_ge0.
Qed.
Print Assumptions C63_dropping_pairs.

(** The diagonal approximation understates the variance of every single parameter (C54), but of a
    combination of parameters it may state more or less than the full posterior: with curvature
    (1, 1), (1, 1) and prior precision 1, the sum of the two parameters has variance 1 instead of
    2/3, their difference 1 instead of 2. *)
Theorem C63_diagonal_either_way :
  forall R : rcfType, exists (A : 'M[R]_2) (u w : 'cV[R]_2) precF L precD,
    let pa := PriorArguments (Some 1) None in
    let full v := dotv v (full_posterior_state_to_cov L v) in
    let diag v := dotv v (diagonal_posterior_state_to_cov (diagonal_prec_to_posterior_state precD) v) in
    [/\ psd A /\ full_curvature_to_precision A pa 1 = Ok precF, full_prec_to_posterior_state precF = Some L,
        diagonal_curvature_to_precision (\col_i A i i) pa 1 = Ok precD,
        (full u = 2%:R / 3%:R /\ diag u = 1) & (full w = 2%:R /\ diag w = 1)].
Proof.
move=> R; pose A : 'M[R]_2 := const_mx 1; pose u : 'cV[R]_2 := const_mx 1.
pose w : 'cV[R]_2 := \col_i (-1) ^+ i.
have HA : psd A.
  have -> : A = (u^T)^T *m 1%:M *m u^T.
    by rewrite mulmx1 trmxK; apply/matrixP => i j; rewrite !mxE big_ord1 !mxE mulr1.
  by apply: psd_congr; apply: spd_psd; apply: spd1.
have [precF [L [E1 E2 EF H1 _]]] := @C20_full_posterior R 2 A None 1 1 HA ler01 ltr01 ltr01.
have [|precD [E3 H3 [_ _ H4 _]]] := @C21_diagonal_posterior R 2 (\col_i A i i) None 1 1.
  by move=> i; rewrite !mxE /= mulr1 divr1 addr_gt0 ?ltr01.
have n2 : 1 + 1 = 2%:R :> R by rewrite -[1]/(1%:R) -natrD.
have D i : precD i ord0 = 2%:R by rewrite H3 !mxE /= mulr1 divr1 n2.
exists A, u, w, precF, L, precD; split=> //.
- have EP : precF *m u = 3%:R *: u.
    rewrite EF /posterior_precision invr1 !scale1r mulmxDl mul1mx; apply/colP => i.
    by rewrite !mxE !big_ord_recl big_ord0 !mxE addr0 !mulr1 n2 -[1]/(1%:R) -natrD.
  have SP : spd precF by rewrite EF; apply: spd_precision => //; rewrite ?ler01 ?ltr01.
  have Ec : full_posterior_state_to_cov L u = 3%:R^-1 *: u.
    rewrite -[LHS](mulKmx (spd_unit SP)) H1.
    have {1}-> : u = 3%:R^-1 *: (precF *m u) by rewrite EP scalerA mulVf ?scale1r // pnatr_eq0.
    by rewrite -scalemxAr mulKmx // spd_unit.
  have uu : dotv u u = 2%:R by rewrite /dotv !big_ord_recl big_ord0 !mxE !mulr1 addr0 n2.
  rewrite Ec dotvZ uu mulrC; split=> //.
  rewrite /dotv !big_ord_recl big_ord0 !H4 !D !mxE addr0 !mul1r.
  by rewrite -mulr2n -[_^-1 *+ 2]mulr_natr mulVf // pnatr_eq0.
- have EP : precF *m w = w.
    rewrite EF /posterior_precision invr1 !scale1r mulmxDl mul1mx; apply/colP => i.
    by rewrite !mxE !big_ord_recl big_ord0 !mxE /= expr0 expr1 addr0 !mul1r subrr add0r.
  have SP : spd precF by rewrite EF; apply: spd_precision => //; rewrite ?ler01 ?ltr01.
  have Ec : full_posterior_state_to_cov L w = w.
    by rewrite -[LHS](mulKmx (spd_unit SP)) H1 -{1}EP mulKmx // spd_unit.
  have ww : dotv w w = 2%:R.
    by rewrite /dotv !big_ord_recl big_ord0 !mxE /= expr0 expr1 mulrNN !mulr1 addr0 n2.
  rewrite Ec ww; split=> //.
  rewrite /dotv !big_ord_recl big_ord0 !H4 !D !mxE /= expr0 expr1 addr0 !mulrA mulrNN !mul1r.
  by rewrite -mulr2n -[_^-1 *+ 2]mulr_natr mulVf // pnatr_eq0.
Qed.
Print Assumptions C63_diagonal_either_way.

(** Non-vacuity: on the matrix with rows (16, 12), (12, 9), the first basis vector with value 16 is a
    Ritz pair and no eigenpair; (4/5, 3/5) with value 25 is an eigenpair. *)
Example C63_example (R : rcfType) :
  let U0 : 'M[R]_(2, 1) := delta_mx ord0 ord0 in
  let S0 : 'cV[R]_1 := const_mx 16%:R in
  let U : 'M[R]_(2, 1) := \col_i nth 0 [:: 4%:R / 5%:R; 3%:R / 5%:R] i in
  let S : 'cV[R]_1 := const_mx 25%:R in
  [/\ psd (ex_A R), orthonormal U0 /\ U0^T *m (ex_A R *m U0) = diag_mx S0^T, ex_A R *m U0 <> U0 *m diag_mx S0^T
    & orthonormal U /\ ex_A R *m U = U *m diag_mx S^T].
Proof.
move=> U0 S0 U S.
have n5 : 5%:R != 0 :> R by rewrite pnatr_eq0.
have D (c : R) : diag_mx (const_mx c : 'cV[R]_1)^T = c%:M.
  by apply/matrixP => i j; rewrite !ord1 !mxE eqxx mulr1n.
split; first exact: ex_A_psd.
- split; first by apply/matrixP => i j; rewrite !ord1 -dotvE dotv_delta !mxE !eqxx.
  apply/matrixP => i j; rewrite !ord1 D mulmxA -mulmxA -[ex_A R *m U0]/(ex_A R *m ex_e R o0) ex_A0.
  rewrite -dotvE dotvC dotv_delta !mxE /= ?eqxx ?mulr1 ?mulr0 ?addr0 //.
- rewrite D mul_mx_scalar -[ex_A R *m U0]/(ex_A R *m ex_e R o0) ex_A0 => /colP /(_ o1) /eqP.
  by rewrite !mxE /= !mulr0 add0r mulr1 pnatr_eq0.
split.
  apply/matrixP => i j; rewrite !ord1 -dotvE /dotv !big_ord_recl big_ord0 !mxE /= addr0.
  have q (a : nat) : a%:R / 5%:R * (a%:R / 5%:R) = (a * a)%:R / 25%:R :> R.
    by rewrite mulrACA -invfM -!natrM.
  by rewrite !q -mulrDl -natrD divff ?pnatr_eq0.
rewrite D mul_mx_scalar; apply/colP => i; rewrite !mxE !big_ord_recl big_ord0 !mxE /= addr0.
case: i => [[|[|//]] Hi] /=; by rewrite !mulrA -!natrM -mulrDl -natrD.
Qed.

(** ** Evidence *)
Lemma lnR_mono (x y : R) : 0 < x -> x <= y -> ln x <= ln y.
Proof.
move=> Hx; rewrite le_eqVlt => /orP[/eqP ->//|H].
by apply: ltW; apply/RltP; apply: ln_increasing; apply/RltP.
Qed.

(** The diagonal approximation never reports a larger marginal likelihood than the full curvature it
    takes the diagonal of. *)
Theorem C63_diagonal_evidence :
  forall (P K : nat) (X : Type) (model : X -> 'cV[R]_P -> 'cV[R]_K)
    (A : 'M[R]_P) (s2 sg : option R) (tau lsf L : R) data params loss_fn full_fn,
  psd (R := [rcfType of R]) A -> 0 <= odflt 1 s2 -> 0 < tau -> 0 < lsf ->
  concatenate_model_and_loss_fn model loss_fn = Ok full_fn -> full_fn data params = Scalar K L ->
  let pa := MllPrior (@PriorArguments [rcfType of R] (Some tau) s2) sg in
  exists a b,
    [/\ marginal_log_likelihood model (DiagonalCurv (\col_i A i i)) pa data params loss_fn lsf = Ok (Scalar K a),
        marginal_log_likelihood model (FullCurv A) pa data params loss_fn lsf = Ok (Scalar K b) & a <= b].
Proof.
move=> P K X model A s2 sg tau lsf L data params loss_fn full_fn HA Hs Ht Hl Ec El pa.
rewrite /marginal_log_likelihood /marginal_log_likelihood_with Ec /=.
rewrite /diagonal_marginal_log_likelihood /full_marginal_log_likelihood /marginal_from /joint_log_likelihood /= El /=.
eexists; eexists; split; [reflexivity | reflexivity |].
rewrite ler_add2l ler_opp2 /evidence ler_add2l ler_pmul2l ?invr_gt0 ?ltr0n //.
rewrite -/(get_sigma_squared (PriorArguments (Some tau) s2)).
have Es : get_sigma_squared (@PriorArguments [rcfType of R] (Some tau) s2) = odflt 1 s2 by case: (s2).
rewrite Es; set Pm := lsf^-1 *: _.
have SP : spd (R := [rcfType of R]) Pm := spd_precision HA Hs Ht Hl.
have /andP[D0 D1] := hadamard SP.
rewrite /full_log_det ger0_norm; last exact: ltW.
apply: le_trans (lnR_mono D0 D1) _.
have Hi (i : 'I_P) : 0 < Pm i i by rewrite /Pm !mxE eqxx mulr1 mulrC; apply: C21_applicable.
rewrite (ln_prod _ Hi).1 /diagonal_log_det le_eqVlt; apply/orP; left; apply/eqP.
by apply: eq_bigr => i _; congr ln; rewrite !mxE eqxx !mulr1 mulrC.
Qed.
Print Assumptions C63_diagonal_evidence.

(** Ritz pairs, [prior_prec = 1] (where the low-rank formula is right, C38): the low-rank marginal
    likelihood is at least that of the full curvature. *)
Theorem C63_ritz_evidence :
  forall (P K r : nat) (X : Type) (model : X -> 'cV[R]_P -> 'cV[R]_K)
    (A : 'M[R]_P) (U : 'M[R]_(P, r)) (S : 'cV[R]_r) (s2 sg : option R) (L : R) data params loss_fn full_fn,
  psd (R := [rcfType of R]) A -> orthonormal U -> U^T *m (A *m U) = diag_mx S^T -> 0 <= odflt 1 s2 ->
  concatenate_model_and_loss_fn model loss_fn = Ok full_fn -> full_fn data params = Scalar K L ->
  let pa := MllPrior (@PriorArguments [rcfType of R] (Some 1) s2) sg in
  exists a b,
    [/\ marginal_log_likelihood model (FullCurv A) pa data params loss_fn 1 = Ok (Scalar K a),
        marginal_log_likelihood model (LowRankCurv (LowRankTerms U S 0)) pa data params loss_fn 1 = Ok (Scalar K b)
      & a <= b].
Proof.
move=> P K r X model A U S s2 sg L data params loss_fn full_fn HA HU HR Hs Ec El pa.
have Es : get_sigma_squared (mp_prior pa) = odflt 1 s2 by rewrite /pa; case: (s2).
have HS j : 0 <= S j ord0.
  have -> : S j ord0 = (U^T *m A *m U) j j by rewrite -mulmxA HR mxE eqxx mulr1n mxE.
  by apply: (@psd_diag [rcfType of R]); apply: psd_congr.
rewrite (C38_low_rank_unit_precision model 0 (pa := pa) data params loss_fn HU) //; last first.
  by move=> i; rewrite [odflt _ _]Es ltr_paddr ?ltr01 // mulr_ge0.
rewrite /marginal_log_likelihood /marginal_log_likelihood_with Ec /= /full_curvature_to_precision /=.
rewrite /full_marginal_log_likelihood /marginal_from /joint_log_likelihood /= El /=.
eexists; eexists; split; [reflexivity | reflexivity |].
rewrite ler_add2l ler_opp2 /evidence ler_add2l ler_pmul2l ?invr_gt0 ?ltr0n //.
rewrite -/(get_sigma_squared (mp_prior pa)) Es !invr1 !scale1r.
set A' := odflt 1 s2 *: A; have HA' : psd (R := [rcfType of R]) A' by apply: psd_scale.
have -> : odflt 1 s2 *: (U *m diag_mx S^T *m U^T) + 1%:M = 1%:M + (U *m U^T) *m A' *m (U *m U^T).
  by rewrite /A' -scalemxAr -scalemxAl -(ritz_compress (T := [rcfType of R]) HR) /low_rank_dense raddf0 addr0 addrC.
rewrite [A' + _]addrC.
have HP : psd (R := [rcfType of R]) ((U *m U^T) *m A' *m (U *m U^T)).
  by rewrite -{1}(proj_sym (T := [rcfType of R]) U); apply: psd_congr.
have S1 := spd1 [rcfType of R] P.
have SP : spd (R := [rcfType of R]) (1%:M + (U *m U^T) *m A' *m (U *m U^T)) by rewrite addrC; apply: spd_add.
have SA : spd (R := [rcfType of R]) (1%:M + A') by rewrite addrC; apply: spd_add.
have /andP[D1 _] := hadamard SP; have /andP[D2 _] := hadamard SA.
rewrite /full_log_det (ger0_norm (ltW D1)) (ger0_norm (ltW D2)); apply: lnR_mono => //.
by apply: (det_compress HA' (proj_sym U) (proj_idem HU)).
Qed.
Print Assumptions C63_ritz_evidence.

(** Non-vacuity of the comparison of evidences: the mean squared error of one observation. *)
Example C63_evidence_example (y p : 'cV[R]_2) :
  exists full_fn L,
    concatenate_model_and_loss_fn (fun (_ : unit) (q : 'cV[R]_2) => q) (CLossStr 2 "mse") = Ok full_fn /\
    full_fn [:: (tt, y)] p = Scalar 2 L /\ psd (R := [rcfType of R]) (ex_A [rcfType of R]).
Proof. by eexists; eexists; split; first reflexivity; split; [reflexivity | exact: ex_A_psd]. Qed.
