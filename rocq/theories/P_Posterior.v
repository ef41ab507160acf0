(** Properties C20-C25: Gaussian posteriors. *)
From mathcomp Require Import all_ssreflect all_algebra.
From Verif Require Import Base PyTree TreeSpec Mv PyTreeProofs MvProofs GgnSpec GgnProofs Posterior PosteriorSpec
  PosteriorProofs PosteriorTree.
Set Implicit Arguments.
Unset Strict Implicit.
Unset Printing Implicit Defensive.
Import GRing.Theory Num.Theory Order.TTheory.
Local Open Scope ring_scope.

(** The documented posterior precision [(sigma^2 C + tau I) / lsf]. *)
Definition posterior_precision (R : rcfType) n (C : 'M[R]_n) (s2 tau lsf : R) : 'M[R]_n :=
  lsf^-1 *: (s2 *: C + tau *: 1%:M).

Lemma sigma_default (R : rcfType) (tau s2 : option R) :
  get_sigma_squared (PriorArguments tau s2) = odflt 1 s2.
Proof. by case: s2. Qed.

(** C20.  A factor is produced exactly for positive definite precisions ... *)
Theorem C20_scale_exists_iff_spd :
  forall (R : rcfType) (n : nat) (prec : 'M[R]_n), symmetric prec ->
  (exists L, full_prec_to_scale prec = Some L) <-> spd prec.
Proof.
move=> R n prec Hs; split; last exact: full_scale_exists.
by case=> L /(full_scale_spec Hs) [].
Qed.
Print Assumptions C20_scale_exists_iff_spd.

(** ... and it is the lower-triangular factor of the inverse precision, unique among those
    with positive diagonal. *)
Theorem C20_scale_correct :
  forall (R : rcfType) (n : nat) (prec L : 'M[R]_n), symmetric prec ->
  full_prec_to_scale prec = Some L ->
  [/\ lower_triangular L, positive_diagonal L, prec *m (L *m L^T) = 1%:M
    & forall L', lower_triangular L' -> positive_diagonal L' -> prec *m (L' *m L'^T) = 1%:M -> L' = L].
Proof.
move=> R n prec L Hs E; have [S T D P] := full_scale_spec Hs E.
have U := spd_unit S.
split=> //; first by rewrite P mulmxV.
move=> L' T' D' P'; apply: (lower_factor_unique T D T' D').
by rewrite P -[L' *m _](mulKmx U) P' mulmx1.
Qed.
Print Assumptions C20_scale_correct.

(** Only the symmetric part of the precision matters. *)
Theorem C20_scale_symmetrises :
  forall (R : rcfType) (n : nat) (prec : 'M[R]_n),
  full_prec_to_scale prec = full_prec_to_scale (2%:R^-1 *: (prec + prec^T)).
Proof.
move=> R n prec; rewrite /full_prec_to_scale /cholesky flipZ flipD flip_tr.
by rewrite [in RHS]sym_part_id //; apply: sym_part.
Qed.
Print Assumptions C20_scale_symmetrises.

(** Full posterior: for positive semi-definite curvature, prior precision [tau > 0],
    [sigma^2 >= 0] (default 1) and positive loss scaling, the state exists, [cov] solves
    with the documented precision, and [cov = scale . scale^T]. *)
Theorem C20_full_posterior :
  forall (R : rcfType) (n : nat) (C : 'M[R]_n) (s2 : option R) (tau lsf : R),
  psd C -> 0 <= odflt 1 s2 -> 0 < tau -> 0 < lsf ->
  exists prec L,
    [/\ full_curvature_to_precision C (PriorArguments (Some tau) s2) lsf = Ok prec,
        full_prec_to_posterior_state prec = Some L,
        prec = posterior_precision C (odflt 1 s2) tau lsf,
        forall v, prec *m full_posterior_state_to_cov L v = v
      & forall v w, dotv w (full_posterior_state_to_cov L v) =
           dotv (L^T *m w) (L^T *m v) /\ full_posterior_state_to_scale L v = L *m v].
Proof.
move=> R n C s2 tau lsf HC Hs Ht Hl.
have S := spd_precision HC Hs Ht Hl.
have [L E] := full_scale_exists S; have [HS _] := S; have [_ T D P] := full_scale_spec HS E.
exists (posterior_precision C (odflt 1 s2) tau lsf), L; split=> //.
- by move=> v; rewrite /full_posterior_state_to_cov P mulmxA mulmxV ?spd_unit // mul1mx.
- by move=> v w; split=> //; rewrite /full_posterior_state_to_cov -mulmxA dotv_mul.
Qed.
Print Assumptions C20_full_posterior.

Theorem C20_missing_prior_prec :
  forall (R : rcfType) (n r : nat) (C : 'M[R]_n) (c : 'cV[R]_n) (t : low_rank_terms R n r) s2 lsf,
  let pa := PriorArguments None s2 in
  [/\ full_curvature_to_precision C pa lsf = Raise KeyError,
      diagonal_curvature_to_precision c pa lsf = Raise KeyError
    & low_rank_curvature_to_precision t pa lsf = Raise KeyError].
Proof. by []. Qed.
Print Assumptions C20_missing_prior_prec.

(** Non-vacuity: the zero curvature is positive semi-definite; an indefinite matrix gets no
    factor. *)
Example C20_nonvacuous (R : rcfType) n :
  psd (0 : 'M[R]_n) /\ full_prec_to_scale (- 1%:M : 'M[R]_n.+1) = None.
Proof.
split; first by split=> [|v]; rewrite /symmetric ?trmx0 // mul0mx dotv0.
case E: (full_prec_to_scale _) => [L|//].
have Hs : symmetric (- 1%:M : 'M[R]_n.+1) by rewrite /symmetric linearN /= trmx1.
have N0 : const_mx 1 != 0 :> 'cV[R]_n.+1.
  by apply/eqP => /matrixP /(_ ord0 ord0) /eqP; rewrite !mxE oner_eq0.
have [[_ HP] _ _ _] := full_scale_spec Hs E; have := HP _ N0.
rewrite mulNmx mul1mx -scaleN1r dotvZ mulN1r oppr_gt0 => H.
by have := lt_trans (sqr_norm_gt0 N0) H; rewrite ltxx.
Qed.

(** C21.  Diagonal posterior. *)
Theorem C21_diagonal_posterior :
  forall (R : rcfType) (n : nat) (c : 'cV[R]_n) (s2 : option R) (tau lsf : R),
  (forall i, 0 < (odflt 1 s2 * c i ord0 + tau) / lsf) ->
  exists prec,
    [/\ diagonal_curvature_to_precision c (PriorArguments (Some tau) s2) lsf = Ok prec,
        forall i, prec i ord0 = (odflt 1 s2 * c i ord0 + tau) / lsf
      & let st := diagonal_prec_to_posterior_state prec in
        [/\ forall i, 0 < st i ord0 /\ (st i ord0) ^+ 2 = 1 / prec i ord0,
            forall v i, diagonal_posterior_state_to_scale st v i ord0 =
                        v i ord0 / Num.sqrt (prec i ord0),
            forall v i, diagonal_posterior_state_to_cov st v i ord0 = v i ord0 / prec i ord0
          & forall v, diagonal_posterior_state_to_cov st v =
              diagonal_posterior_state_to_scale st (diagonal_posterior_state_to_scale st v)]].
Proof.
move=> R n c s2 tau lsf Hp; eexists; split; first by [].
  by move=> i; rewrite mxE mulr1; case: s2 {Hp}.
move: Hp => /= Hp; have Hq i : 0 < ((odflt 1 s2 * c i ord0 + tau * 1) / lsf)^-1.
  by rewrite mulr1 invr_gt0.
have Ep : (fun i => get_sigma_squared (PriorArguments (Some tau) s2) * c i ord0 + tau * 1) =1
          (fun i => odflt 1 s2 * c i ord0 + tau * 1) by move=> i; case: s2 {Hp Hq}.
split.
- move=> i; rewrite !mxE Ep sqrtr_gt0; split=> //.
  by rewrite sqr_sqrtr ?div1r // ltW.
- by move=> v i; rewrite !mxE Ep sqrtrV; [rewrite mulrC|rewrite mulr1 ltW].
- by move=> v i; rewrite !mxE Ep sqr_sqrtr; [rewrite mulrC|rewrite ltW].
- by move=> v; apply/colP => i; rewrite !mxE expr2 mulrA.
Qed.
Print Assumptions C21_diagonal_posterior.

(** Positive semi-definite curvature has a non-negative diagonal, so the hypothesis holds for
    positive prior precision and loss scaling. *)
Theorem C21_applicable :
  forall (R : rcfType) (n : nat) (C : 'M[R]_n) (s2 tau lsf : R),
  psd C -> 0 <= s2 -> 0 < tau -> 0 < lsf -> forall i, 0 < (s2 * C i i + tau) / lsf.
Proof.
move=> R n C s2 tau lsf [_ HP] Hs Ht Hl i; rewrite divr_gt0 // ltr_paddl // mulr_ge0 //.
have := HP (delta_mx i ord0); rewrite dotvC dotv_delta mxE (bigD1 i) //= mxE !eqxx mulr1 big1 ?addr0 //.
by move=> j /negbTE Hj; rewrite mxE Hj mulr0.
Qed.
Print Assumptions C21_applicable.

(** C22.  Low-rank operators as dense matrices. *)
Theorem C22_low_rank_mv_dense :
  forall (R : rcfType) (n r : nat) (U : 'M[R]_(n, r)) (S : 'cV[R]_r) (s : R) v,
  create_low_rank_mv (LowRankTerms U S s) v = low_rank_dense U S s *m v.
Proof. by move=> R n r U S s v; rewrite low_rank_mvE. Qed.
Print Assumptions C22_low_rank_mv_dense.

Theorem C22_low_rank_square :
  forall (R : rcfType) (n r : nat) (U : 'M[R]_(n, r)) (S : 'cV[R]_r) (s : R), orthonormal U ->
  forall v, create_low_rank_mv (low_rank_square (LowRankTerms U S s)) v =
    create_low_rank_mv (LowRankTerms U S s) (create_low_rank_mv (LowRankTerms U S s) v).
Proof.
move=> R n r U S s HU v; rewrite !low_rank_mvE mulmxA.
by have /= -> := @low_rank_squareE R n r (LowRankTerms U S s) HU.
Qed.
Print Assumptions C22_low_rank_square.

(** The posterior of [U diag(S) U^T] with prior [tau > 0] and loss scaling [lsf > 0]. *)
Theorem C22_low_rank_posterior :
  forall (R : rcfType) (n r : nat) (U : 'M[R]_(n, r)) (S : 'cV[R]_r) (s0 : R) (s2 : option R)
    (tau lsf : R), orthonormal U -> 0 < tau / lsf ->
  (forall i, 0 < odflt 1 s2 * S i ord0 + tau / lsf) ->
  exists prec,
    low_rank_curvature_to_precision (LowRankTerms U S s0) (PriorArguments (Some tau) s2) lsf = Ok prec
    /\ let st := low_rank_prec_to_posterior_state prec in
       let P := odflt 1 s2 *: (U *m diag_mx S^T *m U^T) + (tau / lsf)%:M in
       [/\ forall v, P *m low_rank_posterior_state_to_cov st v = v,
           forall v, low_rank_posterior_state_to_cov st v =
             low_rank_posterior_state_to_scale st (low_rank_posterior_state_to_scale st v)
         & forall v w, dotv w (low_rank_posterior_state_to_scale st v) =
             dotv (low_rank_posterior_state_to_scale st w) v].
Proof.
move=> R n r U S s0 s2 tau lsf HU Ht HS; eexists; split; first by [].
have Es : get_sigma_squared (PriorArguments (Some tau) s2) = odflt 1 s2 by case: s2 {HS}.
rewrite /= Es; split.
- move=> v; rewrite /low_rank_posterior_state_to_cov low_rank_mvE mulmxA.
  set st := low_rank_prec_to_posterior_state _.
  have := @low_rank_scale_cov R n r (LowRankTerms U (odflt 1 s2 *: S) (tau / lsf)) HU Ht.
  rewrite -/st /=; have -> : forall M, low_rank_dense U (odflt 1 s2 *: S) (tau / lsf) *m M =
     (odflt 1 s2 *: (U *m diag_mx S^T *m U^T) + (tau / lsf)%:M) *m M.
    have D : diag_mx (odflt 1 s2 *: S)^T = odflt 1 s2 *: diag_mx S^T by rewrite linearZ /= linearZ.
    by move=> M; rewrite /low_rank_dense D -scalemxAr -scalemxAl.
  move=> -> //; first by rewrite mul1mx.
  by move=> i; rewrite mxE.
- move=> v; rewrite /low_rank_posterior_state_to_cov /low_rank_posterior_state_to_scale !low_rank_mvE.
  by rewrite mulmxA; have /= -> := @low_rank_squareE R n r (low_rank_prec_to_posterior_state
      (LowRankTerms U (odflt 1 s2 *: S) (tau / lsf))) HU.
- move=> v w; rewrite /low_rank_posterior_state_to_scale !low_rank_mvE dotv_mul; congr (dotv (_ *m _) v).
  by rewrite /low_rank_dense linearD /= tr_scalar_mx !trmx_mul trmxK tr_diag_mx mulmxA.
Qed.
Print Assumptions C22_low_rank_posterior.

Example C22_nonvacuous (R : rcfType) : exists U : 'M[R]_(2, 1),
  orthonormal U /\ forall i : 'I_1, 0 < odflt 1 None * (const_mx 1 : 'cV[R]_1) i ord0 + 1 / 1.
Proof.
exists (delta_mx ord0 ord0); split.
  by apply/matrixP => i j; rewrite !ord1 !mxE !big_ord_recl big_ord0 !mxE /= mulr1 mulr0 !addr0.
by move=> i; rewrite mxE !mul1r invr1 addr_gt0 ?ltr01.
Qed.

(** C23.  With loss scaling 1 the routes agree: full and low-rank ... *)
Theorem C23_full_low_rank_agree :
  forall (R : rcfType) (n r : nat) (U : 'M[R]_(n, r)) (S : 'cV[R]_r) (s0 : R) (s2 : option R) (tau : R),
  orthonormal U -> 0 < tau -> (forall i, 0 < odflt 1 s2 * S i ord0 + tau) ->
  let pa := PriorArguments (Some tau) s2 in
  exists precF L precR,
    [/\ full_curvature_to_precision (U *m diag_mx S^T *m U^T) pa 1 = Ok precF,
        full_prec_to_posterior_state precF = Some L,
        low_rank_curvature_to_precision (LowRankTerms U S s0) pa 1 = Ok precR
      & forall v, full_posterior_state_to_cov L v =
          low_rank_posterior_state_to_cov (low_rank_prec_to_posterior_state precR) v].
Proof.
move=> R n r U S s0 s2 tau HU Ht HS pa.
have [|i|precR [ER [HR _ _]]] := @C22_low_rank_posterior R n r U S s0 s2 tau 1 HU.
- by rewrite divr1.
- by rewrite divr1.
have EF : full_curvature_to_precision (U *m diag_mx S^T *m U^T) pa 1 =
  Ok (odflt 1 s2 *: (U *m diag_mx S^T *m U^T) + (tau / 1)%:M).
  by rewrite /full_curvature_to_precision /= invr1 scale1r mulr1 scalemx1 sigma_default.
move: EF HR; set P := _ + _ => EF HR.
have SP : spd P.
  split; first by rewrite /symmetric linearD linearZ /= !trmx_mul trmxK tr_diag_mx tr_scalar_mx mulmxA.
  exact: low_rank_spd.
have [L EL] := full_scale_exists SP; have [HS' _] := SP; have [_ _ _ PL] := full_scale_spec HS' EL.
exists P, L, precR; split=> // v.
rewrite /full_posterior_state_to_cov PL -[X in _ *m X](HR v) mulmxA mulVmx ?spd_unit //.
by rewrite mul1mx.
Qed.
Print Assumptions C23_full_low_rank_agree.

(** ... and full and diagonal for a diagonal curvature (any loss scaling). *)
Theorem C23_full_diagonal_agree :
  forall (R : rcfType) (n : nat) (c : 'cV[R]_n) (s2 : option R) (tau lsf : R),
  (forall i, 0 < (odflt 1 s2 * c i ord0 + tau) / lsf) ->
  let pa := PriorArguments (Some tau) s2 in
  exists precF L precD,
    [/\ full_curvature_to_precision (diag_mx c^T) pa lsf = Ok precF,
        full_prec_to_posterior_state precF = Some L,
        diagonal_curvature_to_precision c pa lsf = Ok precD
      & forall v, full_posterior_state_to_cov L v =
            diagonal_posterior_state_to_cov (diagonal_prec_to_posterior_state precD) v /\
          full_posterior_state_to_scale L v =
            diagonal_posterior_state_to_scale (diagonal_prec_to_posterior_state precD) v].
Proof.
move=> R n c s2 tau lsf Hp pa.
have [precD [ED PD [SD HS HC _]]] := C21_diagonal_posterior Hp.
have EF : full_curvature_to_precision (diag_mx c^T) pa lsf = Ok (diag_mx precD^T).
  rewrite /full_curvature_to_precision /=; congr Ok; apply/matrixP => i j; rewrite !mxE PD.
  rewrite sigma_default.
  case: eqP => _; rewrite ?mulr0n ?mulr1n ?mulr0 ?addr0 ?mulr0 //.
  by rewrite mulr1 mulrC.
have SP : spd (diag_mx precD^T).
  split; first by rewrite /symmetric tr_diag_mx.
  move=> v Hv; have [i Hi] : exists i, v i ord0 != 0.
    apply/existsP; apply: contraR Hv; rewrite negb_exists => /forallP H; apply/eqP/colP => i.
    by have := H i; rewrite negbK mxE => /eqP.
  rewrite /dotv (bigD1 i) //= ltr_paddr //.
    by apply: sumr_ge0 => j _; rewrite mul_diag_mx !mxE PD mulrCA -expr2 mulr_ge0 ?sqr_ge0 // ltW.
  by rewrite mul_diag_mx !mxE PD mulrCA -expr2 mulr_gt0 // exprn_even_gt0.
have [L EL] := full_scale_exists SP; have [HS' _] := SP; have [_ T D PL] := full_scale_spec HS' EL.
exists (diag_mx precD^T), L, precD; split=> // v.
have HI : diag_mx precD^T *m diag_mx (\row_i (precD i ord0)^-1) = 1%:M.
  rewrite mulmx_diag; apply/matrixP => i j; rewrite !mxE; case: eqP => // _.
  by rewrite mulfV // PD gt_eqF.
split.
  rewrite /full_posterior_state_to_cov PL; apply/colP => i; rewrite HC.
  rewrite -[invmx _]mulmx1 -HI mulKmx ?spd_unit // mul_diag_mx !mxE.
  by rewrite mulrC.
have EL' : diag_mx (diagonal_prec_to_posterior_state precD)^T = L.
  apply: (lower_factor_unique T D).
  - by move=> i j Hij; rewrite !mxE -val_eqE /= ltn_eqF // mulr0n.
  - by move=> i; rewrite !mxE eqxx mulr1n; have [] := SD i; rewrite mxE.
  - rewrite PL tr_diag_mx mulmx_diag.
    rewrite -[invmx _]mulmx1 -HI mulKmx ?spd_unit //; congr diag_mx; apply/rowP => i.
    by rewrite !mxE -expr2; have [_] := SD i; rewrite mxE div1r.
by rewrite /full_posterior_state_to_scale -EL'; apply/colP => i; rewrite mul_diag_mx !mxE.
Qed.
Print Assumptions C23_full_diagonal_agree.

(** C24.  loss_scaling_factor divides the whole full and diagonal precision ... *)
Theorem C24_loss_scaling_full_diagonal :
  forall (R : rcfType) (n : nat) (C : 'M[R]_n) (c : 'cV[R]_n) s2 tau lsf,
  let pa := PriorArguments (Some tau) s2 in
  exists PF PD PF1 PD1,
    [/\ full_curvature_to_precision C pa lsf = Ok PF, full_curvature_to_precision C pa 1 = Ok PF1,
        diagonal_curvature_to_precision c pa lsf = Ok PD & diagonal_curvature_to_precision c pa 1 = Ok PD1]
    /\ PF = lsf^-1 *: PF1 /\ PD = lsf^-1 *: PD1.
Proof.
move=> R n C c s2 tau lsf pa; eexists; eexists; eexists; eexists; split; first by split; reflexivity.
split; first by rewrite invr1 scale1r.
by apply/colP => i; rewrite !mxE invr1 !mulr1 mulrC.
Qed.
Print Assumptions C24_loss_scaling_full_diagonal.

(** ... but the low-rank route divides only the prior: its covariance is that of the full
    route for the same curvature only if the loss scaling is 1 or the curvature is zero. *)
Theorem C24_loss_scaling_low_rank_wrong :
  forall (R : rcfType) (n r : nat) (U : 'M[R]_(n, r)) (S : 'cV[R]_r) (s0 : R) (s2 : option R)
    (tau lsf : R) precF L precR,
  let pa := PriorArguments (Some tau) s2 in
  let C := U *m diag_mx S^T *m U^T in
  orthonormal U -> 0 < tau -> 0 < lsf -> (forall i, 0 < odflt 1 s2 * S i ord0 + tau / lsf) ->
  full_curvature_to_precision C pa lsf = Ok precF ->
  full_prec_to_posterior_state precF = Some L ->
  low_rank_curvature_to_precision (LowRankTerms U S s0) pa lsf = Ok precR ->
  (forall v, full_posterior_state_to_cov L v =
             low_rank_posterior_state_to_cov (low_rank_prec_to_posterior_state precR) v) ->
  lsf = 1 \/ odflt 1 s2 *: C = 0.
Proof.
move=> R n r U S s0 s2 tau lsf precF L precR pa C HU Ht Hl HS EF EL ER H.
have [|i|precR' [ER' [HR _ _]]] := @C22_low_rank_posterior R n r U S s0 s2 tau lsf HU; [exact: divr_gt0|by []|].
move: HR ER ER'; rewrite -/pa -/C => HR -> [] Epr; rewrite -Epr in HR => {Epr}.
have HsF : symmetric precF.
  move: EF; rewrite /full_curvature_to_precision /= => -[<-].
  by rewrite /symmetric linearZ linearD !linearZ /= trmx1 !trmx_mul trmxK tr_diag_mx mulmxA.
have [SF _ _ PL] := full_scale_spec HsF EL.
have EP : precF = odflt 1 s2 *: C + (tau / lsf)%:M.
  have I1 : (odflt 1 s2 *: C + (tau / lsf)%:M) *m invmx precF = 1%:M.
    apply/matrixP => i j; have := HR (delta_mx j ord0).
    rewrite -H /full_posterior_state_to_cov PL mulmxA => /matrixP /(_ i ord0).
    rewrite mxE (bigD1 j) //= big1 => [|k /negbTE Hk]; last by rewrite [delta_mx _ _ _ _]mxE Hk mulr0.
    by rewrite ![delta_mx _ _ _ _]mxE !eqxx mulr1 addr0 andbT => ->; rewrite [1%:M i j]mxE.
  by rewrite -[LHS]mul1mx -I1 mulmxKV ?spd_unit.
move: EF; rewrite EP /full_curvature_to_precision /= => -[].
rewrite sigma_default.
rewrite scalerDr scalerA scalemx1 scale_scalar_mx [lsf^-1 * tau]mulrC => /addIr /eqP.
rewrite -subr_eq0 -scalerBl scaler_eq0 => /orP [|/eqP ->]; last by right; rewrite scaler0.
rewrite -{2}[odflt 1 s2]mul1r -mulrBl mulf_eq0 => /orP [|/eqP ->]; last by right; rewrite scale0r.
by rewrite subr_eq0 invr_eq1 => /eqP; left.
Qed.
Print Assumptions C24_loss_scaling_low_rank_wrong.


Example C24_nonvacuous (R : rcfType) : exists (U : 'M[R]_(2, 1)) precF L precR,
  let S := const_mx 1 : 'cV[R]_1 in let pa := PriorArguments (Some 1) None in
  [/\ orthonormal U, forall i, 0 < odflt 1 None * S i ord0 + 1 / 2%:R,
      full_curvature_to_precision (U *m diag_mx S^T *m U^T) pa 2%:R = Ok precF,
      full_prec_to_posterior_state precF = Some L
    & low_rank_curvature_to_precision (LowRankTerms U S 0) pa 2%:R = Ok precR]
  /\ U *m diag_mx S^T *m U^T <> 0.
Proof.
pose U : 'M[R]_(2, 1) := delta_mx ord0 ord0.
have HU : orthonormal U.
  by apply/matrixP => i j; rewrite !ord1 !mxE !big_ord_recl big_ord0 !mxE /= mulr1 mulr0 !addr0.
have P : psd (U *m diag_mx (const_mx 1 : 'cV[R]_1)^T *m U^T).
  have -> : diag_mx (const_mx 1 : 'cV[R]_1)^T = 1%:M.
    by apply/matrixP => i j; rewrite !ord1 !mxE eqxx !mulr1n.
  rewrite mulmx1; split; first by rewrite /symmetric trmx_mul trmxK.
  by move=> v; rewrite -mulmxA dotv_mul; apply: sumr_ge0 => i _; rewrite -expr2 sqr_ge0.
have [|||precF [L [E1 E2 _ _ _]]] := @C20_full_posterior R 2 _ None 1 2%:R P.
- exact: ler01.
- exact: ltr01.
- by rewrite ltr0n.
exists U, precF, L; eexists; split; first split; try exact: E1; try exact: E2; try by [].
  by move=> i; rewrite mxE !mul1r addr_gt0 ?ltr01 ?invr_gt0 ?ltr0n.
move=> /matrixP /(_ ord0 ord0) /eqP.
by rewrite !mxE !big_ord_recl !big_ord0 !mxE !big_ord_recl !big_ord0 !mxE /= !addr0 !mulr1 oner_eq0.
Qed.

(** C25.  Posterior functions over PyTrees: for every curvature method and every layout with
    at least one leaf, both operators take PyTrees of the layout to PyTrees of the layout,
    and act on the entries as the flat operators. *)
Theorem C25_posterior_over_pytree :
  forall (R : rcfType) (t : tree (arr R)) (Curv Prec State : Type)
    (m : curv_method R (get_size t) Curv Prec State) (curv : Curv) pa lsf p,
  leaves t <> [::] -> set_posterior_fn m curv (LTree t) pa lsf = Ok (Some p) ->
  exists prec cov scale,
    [/\ to_precision m curv pa lsf = Ok prec, to_state m prec = Some (post_state p),
        cov_mv p (post_state p) = Ok cov, scale_mv p (post_state p) = Ok scale &
    forall u : tree (arr R), wf_tree u -> same_layout t u ->
      (exists w, [/\ cov [:: u] tt = Ok w, same_layout t w, wf_tree w &
         cv_of _ (entries w) = to_cov m (post_state p) (cv_of _ (entries u))]) /\
      (exists w, [/\ scale [:: u] tt = Ok w, same_layout t w, wf_tree w &
         cv_of _ (entries w) = to_scale m (post_state p) (cv_of _ (entries u))])].
Proof.
move=> R t Curv Prec State m curv pa lsf p L0 E.
have [prec [E1 E2 H]] := set_posterior_tree L0 E.
have [[cov [Ec Hc]] [scale [Es Hs]]] := H (post_state p).
by exists prec, cov, scale; split=> // u W S; split; [apply: Hc|apply: Hs].
Qed.
Print Assumptions C25_posterior_over_pytree.

(** A None or integer layout: flat arrays in, flat arrays out. *)
Theorem C25_posterior_flat :
  forall (R : rcfType) (n : nat) (Curv Prec State : Type)
    (m : curv_method R n Curv Prec State) (curv : Curv) l pa lsf p,
  (l = LNone R \/ exists k, l = LInt R k) ->
  set_posterior_fn m curv l pa lsf = Ok (Some p) ->
  exists cov scale,
    [/\ cov_mv p (post_state p) = Ok cov, scale_mv p (post_state p) = Ok scale &
     forall d, size d = n ->
      cov [:: Leaf (Arr [:: n] d)] tt =
        Ok (Leaf (Arr [:: n] (of_cv (to_cov m (post_state p) (cv_of n d))))) /\
      scale [:: Leaf (Arr [:: n] d)] tt =
        Ok (Leaf (Arr [:: n] (of_cv (to_scale m (post_state p) (cv_of n d)))))].
Proof.
move=> R n Curv Prec State m curv l pa lsf p Hl E.
have [|prec [E1 E2 H]] := @set_posterior_flat R _ _ _ n m curv l pa lsf p _ E.
  by move=> t; case: Hl => [->|[k ->]].
have [[cov [Ec _]] [scale [Es _]]] := H (post_state p) 0.
exists cov, scale; split=> // d Hd.
have [[cov' [Ec' Hc]] [scale' [Es' Hs]]] := H (post_state p) (cv_of n d).
by move: Hc Hs; rewrite cv_ofK //; move: Ec' Es'; rewrite Ec Es => -[->] [->].
Qed.
Print Assumptions C25_posterior_flat.

(** End to end, full method: an operator that acts on PyTrees of layout [t] as the positive
    semi-definite matrix [A] gives a posterior whose covariance operator solves
    [(sigma^2 A + tau I) / lsf * w = u] in the entries. *)
Theorem C25_full_end_to_end :
  forall (R : rcfType) (A : nat -> nat -> R) (t : tree (arr R)) mv s2 tau lsf,
  let n := get_size t in
  let C : 'M[R]_n := \matrix_(i, j) A i j in
  (0 < n)%N -> acts_as A t t mv -> psd C -> 0 <= odflt 1 s2 -> 0 < tau -> 0 < lsf ->
  exists p cov,
    [/\ create_posterior_fn_full mv (LTree t) (PriorArguments (Some tau) s2) lsf n = Ok (Some p),
        cov_mv p (post_state p) = Ok cov &
    forall u : tree (arr R), wf_tree u -> same_layout t u ->
      exists w, [/\ cov [:: u] tt = Ok w, same_layout t w, wf_tree w &
        posterior_precision C (odflt 1 s2) tau lsf *m cv_of n (entries w) = cv_of n (entries u)]].
Proof.
move=> R A t mv s2 tau lsf n C H0 Ha HC Hs Ht Hl.
have L0 : leaves t <> [::] by move=> E; move: H0; rewrite /n /get_size E.
have [prec [L [E1 E2 Ep Hcov _]]] := C20_full_posterior HC Hs Ht Hl.
rewrite /create_posterior_fn_full (full_curvatureE L0 H0 Ha) /= mx_ofE -/C.
have [p Ep0] : exists p, set_posterior_fn (full_method R n) C (LTree t)
    (PriorArguments (Some tau) s2) lsf = Ok (Some p).
  rewrite /set_posterior_fn [to_precision _ _ _ _]E1 /= E2; by eexists.
have [prec' [cov [scale [F1 F2 F3 F4 F5]]]] := C25_posterior_over_pytree L0 Ep0.
exists p, cov; split=> // u W S.
have [[w [G1 G2 G3 G4]] _] := F5 u W S; exists w; split=> //.
rewrite G4 -Ep; move: F1 F2; rewrite /= E1 => -[<-]; rewrite /= E2 => -[<-].
exact: Hcov.
Qed.
Print Assumptions C25_full_end_to_end.

(** ... and the diagonal method: entry [i] is divided by [(sigma^2 A_ii + tau) / lsf]. *)
Theorem C25_diagonal_end_to_end :
  forall (R : rcfType) (A : nat -> nat -> R) (t : tree (arr R)) mv s2 tau lsf,
  let n := get_size t in
  leaves t <> [::] -> acts_as A t t mv ->
  (forall i, (i < n)%N -> 0 < (odflt 1 s2 * A i i + tau) / lsf) ->
  exists p cov,
    [/\ create_posterior_fn_diagonal mv (LTree t) (PriorArguments (Some tau) s2) lsf n = Ok (Some p),
        cov_mv p (post_state p) = Ok cov &
    forall u : tree (arr R), wf_tree u -> same_layout t u ->
      exists w, [/\ cov [:: u] tt = Ok w, same_layout t w, wf_tree w &
        forall i, (i < n)%N ->
        nth 0 (entries w) i = nth 0 (entries u) i / ((odflt 1 s2 * A i i + tau) / lsf)]].
Proof.
move=> R A t mv s2 tau lsf n L0 Ha Hp.
pose c : 'cV[R]_n := \col_i A i i.
have [|prec [E1 P1 [_ _ Hcov _]]] := @C21_diagonal_posterior R n c s2 tau lsf.
  by move=> i; rewrite mxE; apply: Hp.
rewrite /create_posterior_fn_diagonal /create_diagonal_curvature (diagonal_acts _ Ha) /= cv_of_mkseq -/c.
have [p Ep0] : exists p, set_posterior_fn (diagonal_method R n) c (LTree t)
    (PriorArguments (Some tau) s2) lsf = Ok (Some p).
  rewrite /set_posterior_fn [to_precision _ _ _ _]E1 /=; by eexists.
have [prec' [cov [scale [F1 F2 F3 F4 F5]]]] := C25_posterior_over_pytree L0 Ep0.
exists p, cov; split=> // u W S.
have [[w [G1 G2 G3 G4]] _] := F5 u W S; exists w; split=> // i Hi.
move: F1 F2; rewrite /= E1 => -[<-] [Est].
move/colP: G4 => /(_ (Ordinal Hi)); rewrite mxE => ->.
by rewrite /= -Est Hcov P1 !mxE.
Qed.
Print Assumptions C25_diagonal_end_to_end.

(** The full method with an integer layout fails although documented. *)
Theorem C25_full_int_layout_refuted :
  forall (R : rcfType) mv k pa lsf n,
  create_posterior_fn_full mv (LInt R k) pa lsf n = Raise AttributeError.
Proof. by []. Qed.
Print Assumptions C25_full_int_layout_refuted.

(** Non-vacuity of the end-to-end theorems: the identity operator on any layout. *)
Lemma acts_as_id (R : rcfType) (t : tree (arr R)) :
  acts_as (fun i j => if i == j then 1 else 0) t t (fun u => Ok u).
Proof.
move=> u W S; exists u; split=> //; rewrite /matvec.
apply: (@eq_from_nth _ 0); first by rewrite size_mkseq size_entries // (nentries_same S).
rewrite size_entries // -(nentries_same S) => i Hi; rewrite nth_mkseq //.
rewrite (big_cat_nat _ _ _ (leq0n i)) ?(ltnW Hi) //= [X in (_ + X)]big_ltn //.
rewrite eqxx mul1r !big_nat !big1 ?add0r ?addr0 // => j /andP [H1 H2].
+ by rewrite ltn_eqF // mul0r.
+ by rewrite gtn_eqF // mul0r.
Qed.
Example C25_nonvacuous (R : rcfType) (t : tree (arr R)) (n := get_size t) :
  psd (\matrix_(i < n, j < n) (if (i : nat) == j then 1 else 0 : R)).
Proof.
have -> : \matrix_(i < n, j < n) (if (i : nat) == j then 1 else 0 : R) = 1%:M.
  by apply/matrixP => i j; rewrite !mxE val_eqE; case: eqP.
split; first exact: trmx1.
by move=> v; rewrite mul1mx; apply: sumr_ge0 => i _; rewrite -expr2 sqr_ge0.
Qed.
