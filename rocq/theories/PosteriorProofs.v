(** Proofs about posteriors: Cholesky factorisation, full, diagonal and low-rank routes. *)
From mathcomp Require Import all_ssreflect all_algebra.
From Verif Require Import Base GgnSpec GgnProofs PyTree Mv Posterior PosteriorSpec.
Set Implicit Arguments.
Unset Strict Implicit.
Unset Printing Implicit Defensive.
Import GRing.Theory Num.Theory Order.TTheory.
Local Open Scope ring_scope.

Section Chol.
Variable R : rcfType.

Lemma sqr_norm_gt0 n (v : 'cV[R]_n) : v != 0 -> 0 < dotv v v.
Proof.
move=> H; have [i Hi] : exists i, v i ord0 != 0.
  apply/existsP; apply: contraR H; rewrite negb_exists => /forallP H; apply/eqP/colP => i.
  by have := H i; rewrite negbK mxE => /eqP.
rewrite /dotv (bigD1 i) //= ltr_paddr //; last by rewrite -expr2 exprn_even_gt0.
by apply: sumr_ge0 => j _; rewrite -expr2 sqr_ge0.
Qed.

Lemma spd_LLt n (L : 'M[R]_n) : lower_triangular L -> positive_diagonal L ->
  L \in unitmx /\ spd (L *m L^T).
Proof.
move=> HL HD.
have U : L \in unitmx.
  rewrite unitmxE det_trig; last by apply/is_trig_mxP => i j; apply: HL.
  by rewrite unitfE gt_eqF //; apply: prodr_gt0 => i _; apply: HD.
split=> //; split; first by rewrite /symmetric trmx_mul trmxK.
move=> v Hv; rewrite -mulmxA dotv_mul; apply: sqr_norm_gt0.
apply: contra Hv => /eqP H; rewrite -[v](mulKmx (x := L^T)) ?H ?mulmx0 //.
by rewrite unitmx_tr.
Qed.

Lemma potrf_sound n (A L : 'M[R]_n) : symmetric A -> potrf A = Some L ->
  [/\ lower_triangular L, positive_diagonal L & L *m L^T = A].
Proof.
elim: n A L => [|n IH] A L HA.
  by move=> _; split; [move=> [] | move=> [] |rewrite thinmx0 [RHS]thinmx0].
rewrite /=; change 'M_(n.+1) with 'M[R]_(1 + n) in A, L, HA |- *.
case: ltrP => // Ha.
set l := Num.sqrt (A ord0 ord0); set c := _ *: dlsubmx A.
case E: (potrf _) => [L'|//] [<-].
have Hl : 0 < l by rewrite sqrtr_gt0.
have Hll : l * l = A ord0 ord0 by rewrite -expr2 sqr_sqrtr // ltW.
have Eul : ulsubmx A = (A ord0 ord0)%:M.
  by apply/matrixP => i j; rewrite !ord1 !mxE lshift0 mulr1n.
have Eur : ursubmx A = (dlsubmx A)^T by rewrite trmx_dlsub HA.
have Edl : dlsubmx A = l *: c by rewrite scalerA divff ?scale1r // gt_eqF.
have [|T D P] := IH _ _ _ E.
  rewrite /symmetric linearB /= trmx_mul trmxK trmx_drsub.
  by rewrite HA.
split.
- move=> i j; rewrite !mxE; case: splitP => i' Ei; rewrite !mxE; case: splitP => j' Ej.
  + by rewrite Ei Ej !ord1.
  + by rewrite mxE.
  + by rewrite Ei Ej [j']ord1.
  + by rewrite Ei Ej ltn_add2l; apply: T.
- move=> i; rewrite !mxE; case: splitP => i' Ei; rewrite !mxE; case: splitP => j' Ej.
  + by rewrite [j']ord1 [i']ord1 mxE eqxx mulr1n.
  + by move: Ei; rewrite Ej [i']ord1.
  + by move: Ej; rewrite Ei [j']ord1.
  + have -> : i' = j' by apply/val_inj/eqP; rewrite -(eqn_add2l 1) -Ei -Ej.
    exact: D.
transitivity (block_mx l%:M 0 c L' *m (block_mx l%:M 0 c L')^T : 'M[R]_(1 + n)); first by [].
rewrite tr_block_mx mulmx_block !trmx0 !mul0mx !mulmx0 !addr0 -[RHS]submxK; congr block_mx.
- by rewrite tr_scalar_mx -scalar_mxM Hll Eul.
- rewrite mul_scalar_mx Eur Edl; exact: (esym (linearZ _ _)).
- by rewrite tr_scalar_mx mul_mx_scalar Edl.
- by rewrite P addrC subrK.
Qed.

Lemma dotv_block m n (u v : 'cV[R]_m) (w x : 'cV[R]_n) :
  dotv (col_mx u w) (col_mx v x) = dotv u v + dotv w x.
Proof.
rewrite /dotv big_split_ord /=; congr (_ + _); apply: eq_bigr => i _;
  by rewrite ?col_mxEu ?col_mxEd.
Qed.

Lemma dotv1 (u v : 'cV[R]_1) : dotv u v = u ord0 ord0 * v ord0 ord0.
Proof. by rewrite /dotv big_ord1. Qed.

Lemma potrf_complete n (A : 'M[R]_n) : spd A -> exists L, potrf A = Some L.
Proof.
elim: n A => [|n IH] A [HA HP]; first by exists 0.
rewrite /=; change 'M_(n.+1) with 'M[R]_(1 + n) in A.
have Eul : ulsubmx A = (A ord0 ord0)%:M.
  by apply/matrixP => i j; rewrite !ord1 !mxE lshift0 mulr1n.
have Eur : ursubmx A = (dlsubmx A)^T by rewrite trmx_dlsub HA.
have Ha : 0 < A ord0 ord0.
  have H0 : delta_mx ord0 ord0 != 0 :> 'cV[R]_(1 + n).
    by apply/eqP => /matrixP /(_ ord0 ord0) /eqP; rewrite !mxE oner_eq0.
  have := HP _ H0; rewrite dotvC dotv_delta mxE (bigD1 ord0) //= mxE eqxx mulr1 big1 ?addr0 //.
  by move=> j /negbTE Hj; rewrite mxE Hj mulr0.
rewrite leNgt Ha /=.
set l := Num.sqrt (A ord0 ord0).
have Hl : 0 < l by rewrite sqrtr_gt0.
have Hll : l^-1 * l^-1 = (A ord0 ord0)^-1 by rewrite -invfM -expr2 sqr_sqrtr // ltW.
set S := drsubmx A - _.
have ES : S = drsubmx A - (A ord0 ord0)^-1 *: (dlsubmx A *m (dlsubmx A)^T).
  by rewrite /S linearZ /= -scalemxAl -scalemxAr scalerA Hll.
have [|L ->] := IH S; last by eexists.
split.
  rewrite /symmetric ES linearB linearZ /= trmx_mul trmxK trmx_drsub.
  by rewrite HA.
move=> w Hw.
set b := dlsubmx A in ES *; set a := A ord0 ord0 in ES Ha Eul *.
pose x : 'cV[R]_1 := - (a^-1 *: (b^T *m w)).
have Hv : col_mx x w != 0.
  by apply: contra Hw => /eqP; rewrite -(col_mx0 R 1 n 1) => /eq_col_mx [_ ->].
have : 0 < dotv (col_mx x w) (A *m col_mx x w) by apply: HP.
rewrite -[X in X *m _]submxK mul_block_col dotv_block Eul Eur -/b.
have -> : a%:M *m x + b^T *m w = 0.
  by rewrite /x mul_scalar_mx scalerN scalerA divff ?gt_eqF // scale1r addNr.
rewrite dotv0 add0r ES mulmxBl addrC.
by rewrite /x mulmxN -scalemxAr -scalemxAl mulmxA.
Qed.

Lemma potrf_spd n (A : 'M[R]_n) : symmetric A -> (exists L, potrf A = Some L) <-> spd A.
Proof.
move=> HA; split; last exact: potrf_complete.
case=> L /(potrf_sound HA) [T D <-].
by case: (spd_LLt T D).
Qed.

(** ** flip *)
Lemma flipK n : involutive (@flip R n).
Proof. by move=> A; apply/matrixP => i j; rewrite !mxE !rev_ordK. Qed.
Lemma flip_mul n (A B : 'M[R]_n) : flip (A *m B) = flip A *m flip B.
Proof.
apply/matrixP => i j; rewrite !mxE (reindex_inj rev_ord_inj) /=.
by apply: eq_bigr => k _; rewrite !mxE.
Qed.
Lemma flip_tr n (A : 'M[R]_n) : flip A^T = (flip A)^T.
Proof. by apply/matrixP => i j; rewrite !mxE. Qed.
Lemma flip1 n : flip (1%:M : 'M[R]_n) = 1%:M.
Proof. by apply/matrixP => i j; rewrite !mxE (inj_eq rev_ord_inj). Qed.
Lemma flipZ n a (A : 'M[R]_n) : flip (a *: A) = a *: flip A.
Proof. by apply/matrixP => i j; rewrite !mxE. Qed.
Lemma flipD n (A B : 'M[R]_n) : flip (A + B) = flip A + flip B.
Proof. by apply/matrixP => i j; rewrite !mxE. Qed.

Lemma spd_flip n (A : 'M[R]_n) : spd A -> spd (flip A).
Proof.
move=> [HA HP]; split; first by rewrite /symmetric -flip_tr HA.
move=> v Hv; pose w : 'cV[R]_n := \col_i v (rev_ord i) ord0.
have Hw : w != 0.
  apply: contra Hv => /eqP E; apply/eqP/colP => i.
  by move/colP: E => /(_ (rev_ord i)); rewrite !mxE rev_ordK.
suff -> : dotv v (flip A *m v) = dotv w (A *m w) by apply: HP.
rewrite /dotv (reindex_inj rev_ord_inj) /=; apply: eq_bigr => i _.
rewrite [w i ord0]mxE; congr (_ * _); rewrite !mxE (reindex_inj rev_ord_inj) /=.
by apply: eq_bigr => j _; rewrite !mxE !rev_ordK.
Qed.

Lemma sym_part n (A : 'M[R]_n) : symmetric (2%:R^-1 *: (A + A^T)).
Proof. by rewrite /symmetric linearZ linearD /= trmxK addrC. Qed.
Lemma sym_part_id n (A : 'M[R]_n) : symmetric A -> 2%:R^-1 *: (A + A^T) = A.
Proof. by move=> ->; rewrite -mulr2n -scaler_nat scalerA mulVf ?scale1r // pnatr_eq0. Qed.

Lemma triu_id n (A : 'M[R]_n) : lower_triangular A^T -> triu A = A.
Proof.
move=> H; apply/matrixP => i j; rewrite mxE; case: leqP => // Hij.
by have := H j i Hij; rewrite mxE.
Qed.

(** Inverse of a lower triangular matrix. *)
Lemma lower_inv n (L X : 'M[R]_n) : lower_triangular L -> positive_diagonal L ->
  L *m X = 1%:M -> lower_triangular X /\ positive_diagonal X.
Proof.
move=> HL HD E.
have TX : lower_triangular X.
  suff H k (i j : 'I_n) : (i <= k)%N -> (i < j)%N -> X i j = 0 by move=> i j; apply: H (leqnn i).
  elim/ltn_ind: k i j => k IH i j Hik Hij.
  move/matrixP: E => /(_ i j); rewrite !mxE (bigD1 i) //= big1.
    rewrite addr0 (_ : (i == j) = false); last by rewrite -val_eqE ltn_eqF.
    by move/eqP; rewrite mulf_eq0 gt_eqF // => /eqP.
  move=> q; rewrite -val_eqE /= neq_ltn => /orP [Hq|Hq]; last by rewrite HL ?mul0r.
  by rewrite (IH q (leq_trans Hq Hik) q j (leqnn _) (ltn_trans Hq Hij)) mulr0.
split=> // i; move/matrixP: E => /(_ i i); rewrite !mxE eqxx (bigD1 i) //= big1.
  by rewrite addr0 => E; rewrite -(pmulr_rgt0 _ (HD i)) E ltr01.
move=> q; rewrite -val_eqE /= neq_ltn => /orP [Hq|Hq]; last by rewrite HL ?mul0r.
by rewrite TX ?mulr0.
Qed.

Lemma lower_mul n (A B : 'M[R]_n) : lower_triangular A -> lower_triangular B ->
  lower_triangular (A *m B) /\ forall i, (A *m B) i i = A i i * B i i.
Proof.
move=> HA HB; split.
  move=> i j Hij; rewrite mxE big1 // => k _; case: (ltnP i k) => H; first by rewrite HA ?mul0r.
  by rewrite HB ?mulr0 // (leq_ltn_trans H).
move=> i; rewrite mxE (bigD1 i) //= big1 ?addr0 // => k.
by rewrite -val_eqE /= neq_ltn => /orP [H|H]; [rewrite HB ?mulr0|rewrite HA ?mul0r].
Qed.

Lemma lower_factor_unique n (L L' : 'M[R]_n) :
  lower_triangular L -> positive_diagonal L -> lower_triangular L' -> positive_diagonal L' ->
  L *m L^T = L' *m L'^T -> L' = L.
Proof.
move=> T D T' D' E.
have [U _] := spd_LLt T D; have [U' _] := spd_LLt T' D'.
have [TI DI] : lower_triangular (invmx L) /\ positive_diagonal (invmx L).
  by apply: (lower_inv T D); rewrite mulmxV.
have [TQ EQ] := lower_mul TI T'.
have [Q QE] : exists Q, Q = invmx L *m L' by eexists.
rewrite -QE in TQ EQ.
have DQ : positive_diagonal Q by move=> i; rewrite EQ; apply: mulr_gt0.
have QQ : Q *m Q^T = 1%:M.
  rewrite QE trmx_mul mulmxA -(mulmxA (invmx L)) -E !mulmxA mulVmx // mul1mx.
  by rewrite trmx_inv mulmxV ?unitmx_tr.
have [TQt _] := lower_inv TQ DQ QQ.
suff HQ : Q = 1%:M by rewrite -[L'](mulKVmx U) -QE HQ mulmx1.
apply/matrixP => i j; rewrite [RHS]mxE.
case: (ltngtP i j) => H.
- by rewrite TQ // -val_eqE /= ltn_eqF.
- by have := TQt j i H; rewrite mxE => ->; rewrite -val_eqE /= gtn_eqF.
have {j H} -> : j = i by apply/val_inj.
rewrite eqxx.
move/matrixP: QQ => /(_ i i); rewrite mxE [RHS]mxE eqxx (bigD1 i) //= big1 => [|k].
  rewrite addr0 [Q^T _ _]mxE -expr2 => /eqP; rewrite sqrf_eq1 => /orP [/eqP -> //|/eqP H].
  by have := DQ i; rewrite H oppr_gt0 => H1; have := lt_trans H1 ltr01; rewrite ltxx.
rewrite -val_eqE /= neq_ltn => /orP [H|H]; last by rewrite TQ ?mul0r.
by rewrite (TQt k i H) mulr0.
Qed.

(** ** full_prec_to_scale *)
Lemma full_scale_spec n (prec L : 'M[R]_n) : symmetric prec ->
  full_prec_to_scale prec = Some L ->
  [/\ spd prec, lower_triangular L, positive_diagonal L & L *m L^T = invmx prec].
Proof.
move=> Hs; rewrite /full_prec_to_scale /cholesky.
have Hfs : symmetric (flip prec) by rewrite /symmetric -flip_tr Hs.
rewrite sym_part_id //; case E: (potrf _) => [Lf|//] [<-].
have [T D P] := potrf_sound Hfs E.
have [_ S] := spd_LLt T D.
have Sp : spd prec by rewrite -[prec]flipK -P; apply: spd_flip.
pose M := flip Lf.
have TM : lower_triangular M^T.
  move=> i j Hij; rewrite !mxE T //=.
  by rewrite ltn_sub2l // ?ltnS // (leq_ltn_trans _ (ltn_ord j)).
have DM : positive_diagonal M^T by move=> i; rewrite !mxE; apply: D.
have PM : M *m M^T = prec by rewrite -flip_tr -flip_mul P flipK.
have [UM _] := spd_LLt TM DM.
rewrite /solve_triangular_T -/M triu_id // mulmx1.
have [TL DL] : lower_triangular (invmx M^T) /\ positive_diagonal (invmx M^T).
  by apply: (lower_inv TM DM); rewrite mulmxV.
split=> //.
have UM' : M \in unitmx by rewrite -unitmx_tr.
rewrite -PM trmx_inv trmxK.
by apply: esym; apply: (can_inj (mulKmx (x := M *m M^T) _)) => //; rewrite ?unitmx_mul ?UM' //;
  rewrite mulmxV ?unitmx_mul ?UM' // -mulmxA (mulmxA M^T) mulmxV // mul1mx mulmxV.
Qed.

Lemma full_scale_exists n (prec : 'M[R]_n) : spd prec -> exists L, full_prec_to_scale prec = Some L.
Proof.
move=> H; rewrite /full_prec_to_scale /cholesky sym_part_id; last by case: (spd_flip H).
by have [L ->] := potrf_complete (spd_flip H); eexists.
Qed.

Lemma spd_unit n (A : 'M[R]_n) : spd A -> A \in unitmx.
Proof.
move=> H; have [L E] := potrf_complete H; have [HA _] := H.
have [T D <-] := potrf_sound HA E.
by have [U _] := spd_LLt T D; rewrite unitmx_mul unitmx_tr U.
Qed.

Lemma spd_precision n (C : 'M[R]_n) (s2 tau lsf : R) : psd C -> 0 <= s2 -> 0 < tau -> 0 < lsf ->
  spd (lsf^-1 *: (s2 *: C + tau *: 1%:M)).
Proof.
move=> [HC HP] Hs Ht Hl; split.
  by rewrite /symmetric linearZ linearD !linearZ /= HC trmx1.
move=> v Hv; rewrite -scalemxAl dotvZ mulmxDl -!scalemxAl mul1mx dotvD !dotvZ.
apply: mulr_gt0; first by rewrite invr_gt0.
apply: ltr_paddl; first exact: mulr_ge0.
by apply: mulr_gt0 => //; apply: sqr_norm_gt0.
Qed.
End Chol.

(** ** Diagonal and low rank *)
Section LowRank.
Variable R : rcfType.
Implicit Types (n r : nat).

Lemma low_rank_mvE n r (t : low_rank_terms R n r) v :
  create_low_rank_mv t v = low_rank_dense (lr_U t) (lr_S t) (lr_scalar t) *m v.
Proof.
rewrite /create_low_rank_mv /low_rank_dense mulmxDl mul_scalar_mx addrC; congr (_ + _).
rewrite -!mulmxA; congr (_ *m _); apply/colP => i; rewrite mul_diag_mx !mxE.
by congr (_ * _); rewrite mxE; apply: eq_bigr => k _; rewrite mxE.
Qed.

Lemma low_rank_mul n r (U : 'M[R]_(n, r)) (S T : 'cV[R]_r) (s t : R) : orthonormal U ->
  low_rank_dense U S s *m low_rank_dense U T t =
  low_rank_dense U (\col_i ((S i ord0 + s) * (T i ord0 + t) - s * t)) (s * t).
Proof.
move=> HU; rewrite /low_rank_dense.
have -> : diag_mx (\col_i ((S i ord0 + s) * (T i ord0 + t) - s * t))^T =
    diag_mx S^T *m diag_mx T^T + t *: diag_mx S^T + s *: diag_mx T^T.
  rewrite mulmx_diag -!linearZ -!linearD /=; congr diag_mx; apply/rowP => i; rewrite !mxE.
  by rewrite mulrDl !mulrDr addrA addrK [S i ord0 * t]mulrC.
rewrite mulmxDl !mulmxDr !mulmxDl -scalar_mxM !addrA; congr (_ + _).
rewrite mul_scalar_mx mul_mx_scalar -!scalemxAr -!scalemxAl; congr (_ + _ + _).
by rewrite -!mulmxA (mulmxA U^T) HU mul1mx.
Qed.

Lemma low_rank_one n r (U : 'M[R]_(n, r)) : low_rank_dense U 0 1 = 1%:M.
Proof.
by rewrite /low_rank_dense trmx0 (_ : diag_mx 0 = 0) ?mulmx0 ?mul0mx ?add0r //; apply: linear0.
Qed.

Lemma low_rank_squareE n r (t : low_rank_terms R n r) : orthonormal (lr_U t) ->
  let d t := low_rank_dense (lr_U t) (lr_S t) (lr_scalar t) in
  d (low_rank_square t) = d t *m d t.
Proof. by move=> HU /=; rewrite low_rank_mul. Qed.

Lemma low_rank_scale_cov n r (t : low_rank_terms R n r) : orthonormal (lr_U t) ->
  0 < lr_scalar t -> (forall i, 0 < lr_S t i ord0 + lr_scalar t) ->
  let d t := low_rank_dense (lr_U t) (lr_S t) (lr_scalar t) in
  let st := low_rank_prec_to_posterior_state t in
  d t *m d (low_rank_square st) = 1%:M.
Proof.
move=> HU Hs HS /=; rewrite low_rank_mul //.
have Hq x : 0 < x -> x * (Num.sqrt x)^-1 ^+ 2 = 1.
  by move=> Hx; rewrite exprVn sqr_sqrtr ?divff ?gt_eqF // ltW.
rewrite Hq // -[RHS](low_rank_one (lr_U t)); congr low_rank_dense.
by apply/colP => i; rewrite !mxE !subrK Hq // subrr.
Qed.

Lemma low_rank_spd n r (U : 'M[R]_(n, r)) (S : 'cV[R]_r) (s2 tau : R) : orthonormal U ->
  0 < tau -> (forall i, 0 < s2 * S i ord0 + tau) -> forall v, v != 0 ->
  0 < dotv v ((s2 *: (U *m diag_mx S^T *m U^T) + (tau / 1)%:M) *m v).
Proof.
move=> HU Ht HS v Hv; rewrite divr1.
pose t := LowRankTerms U (s2 *: S) tau.
pose q := low_rank_dense U (\col_i (Num.sqrt (s2 * S i ord0 + tau) - Num.sqrt tau)) (Num.sqrt tau).
have E : s2 *: (U *m diag_mx S^T *m U^T) + tau%:M = q *m q.
  rewrite low_rank_mul // -expr2 sqr_sqrtr ?ltW // /low_rank_dense; congr (_ + _).
  rewrite scalemxAl scalemxAr; congr (_ *m _ *m _); rewrite -linearZ /=; congr diag_mx.
  by apply/rowP => i; rewrite !mxE !subrK -expr2 sqr_sqrtr ?addrK // ltW.
have Sq : q^T = q by rewrite /q /low_rank_dense linearD /= tr_scalar_mx !trmx_mul trmxK tr_diag_mx mulmxA.
rewrite E -mulmxA dotv_mul Sq; apply: sqr_norm_gt0; apply: contra Hv => /eqP H.
have := @low_rank_scale_cov n r t HU Ht _; rewrite /= -/(low_rank_dense _ _ _).
have -> : low_rank_dense U (s2 *: S) tau = q *m q.
  rewrite -E /low_rank_dense; congr (_ + _).
  by rewrite scalemxAl scalemxAr; congr (_ *m _ *m _); rewrite -linearZ /= linearZ.
move=> /(_ _) I; apply/eqP; rewrite -[v]mul1mx.
have Hi : forall i, 0 < (s2 *: S) i ord0 + tau by move=> i; rewrite mxE.
rewrite -(mulmx1C (I Hi)).
by rewrite -!mulmxA H !mulmx0.
Qed.
End LowRank.
