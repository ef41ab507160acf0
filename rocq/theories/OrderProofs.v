(** Determinants, traces and the Loewner order (used by C63). *)
From mathcomp Require Import all_ssreflect all_algebra.
From Verif Require Import Base GgnSpec GgnProofs Posterior PosteriorSpec PosteriorProofs PushforwardSpec PipelineSpec.
From Verif Require Import P_Pipeline P_Monotone.
Set Implicit Arguments.
Unset Strict Implicit.
Unset Printing Implicit Defensive.
Import GRing.Theory Num.Theory Order.TTheory.
Local Open Scope ring_scope.

Section OrderProofs.
Variable T : rcfType.

(** Cholesky factors of positive definite matrices. *)
Lemma spd_factor n (A : 'M[T]_n) : spd A ->
  exists L : 'M[T]_n, [/\ lower_triangular L, positive_diagonal L, L \in unitmx & L *m L^T = A].
Proof.
move=> H; have [L E] := potrf_complete H; have [HA _] := H.
have [Tr D P] := potrf_sound HA E; have [U _] := spd_LLt Tr D; by exists L.
Qed.

Lemma det_lower n (L : 'M[T]_n) : lower_triangular L -> \det L = \prod_i L i i.
Proof. by move=> H; rewrite det_trig //; apply/is_trig_mxP => i j; apply: H. Qed.

(** Hadamard's inequality. *)
Lemma hadamard n (A : 'M[T]_n) : spd A -> 0 < \det A <= \prod_i A i i.
Proof.
move=> H; have [L [Tr D U <-]] := spd_factor H.
rewrite det_mulmx det_tr det_lower // -big_split /=; apply/andP; split.
  by apply: prodr_gt0 => i _; rewrite mulr_gt0 ?D.
apply: ler_prod => i _; apply/andP; split; first by rewrite mulr_ge0 ?ltW ?D.
rewrite [X in _ <= X]mxE (bigD1 i) //= [L^T i i]mxE ler_addl.
by apply: sumr_ge0 => j _; rewrite mxE -expr2 sqr_ge0.
Qed.

Lemma psd_diag n (A : 'M[T]_n) i : psd A -> 0 <= A i i.
Proof. by move=> [_ H]; have := H (delta_mx i ord0); rewrite dotvC dotv_delta -colE mxE. Qed.

Lemma spd_diag_gt0 n (A : 'M[T]_n) i : spd A -> 0 < A i i.
Proof.
move=> [_ HA]; have := HA (delta_mx i ord0); rewrite dotvC dotv_delta -colE mxE; apply.
by apply/eqP => /matrixP/(_ i ord0)/eqP; rewrite !mxE !eqxx oner_eq0.
Qed.

Lemma spd1 n : spd (1%:M : 'M[T]_n).
Proof. by split=> [|v Hv]; rewrite /symmetric ?trmx1 // mul1mx sqr_norm_gt0. Qed.
Lemma spd_add n (A B : 'M[T]_n) : psd A -> spd B -> spd (A + B).
Proof.
move=> [HA PA] [HB PB]; split; first by rewrite /symmetric linearD /= HA HB.
by move=> v Hv; rewrite mulmxDl dotvD ltr_paddl ?PB.
Qed.
Lemma spd_congr n (A B : 'M[T]_n) : spd A -> B \in unitmx -> spd (B^T *m A *m B).
Proof.
move=> [HA PA] U; split; first by rewrite /symmetric !trmx_mul trmxK HA mulmxA.
move=> v Hv; rewrite -!mulmxA dotv_tr; apply: PA.
by apply: contra Hv => /eqP E; rewrite -(mulKmx U v) E mulmx0.
Qed.
Lemma spd_inv n (A : 'M[T]_n) : spd A -> spd (invmx A).
Proof.
move=> H; split; first exact: spd_invmx_sym.
move=> v Hv; rewrite -[X in dotv X _](mulKVmx (spd_unit H)) dotvC; have [_ P] := H; apply: P.
by apply: contra Hv => /eqP E; rewrite -(mulKVmx (spd_unit H) v) E mulmx0.
Qed.

(** A positive definite matrix below the identity has determinant at most one; the determinant is
    monotone. *)
Lemma det_le1 n (A : 'M[T]_n) : spd A -> loewner_le A 1%:M -> \det A <= 1.
Proof.
move=> H HA; have /andP[_ /le_trans] := hadamard H; apply.
have E : \prod_(i : 'I_n) A i i <= \prod_(i : 'I_n) 1.
  apply: ler_prod => i _; rewrite (psd_diag _ (spd_psd H)) /=.
  by have := psd_diag i HA; rewrite !mxE eqxx subr_ge0.
by rewrite big1_eq in E.
Qed.
Lemma det_mono n (A B : 'M[T]_n) : spd A -> spd B -> loewner_le A B -> \det A <= \det B.
Proof.
move=> HA HB HAB; have [L [_ _ U EB]] := spd_factor HB.
have U' : L^T \in unitmx by rewrite unitmx_tr.
pose M := invmx L *m A *m invmx L^T.
have EM : M = (invmx L^T)^T *m A *m invmx L^T by rewrite trmx_inv trmxK.
have SM : spd M by rewrite EM; apply: spd_congr => //; rewrite unitmx_inv.
have LM : loewner_le M 1%:M.
  have -> : 1%:M = (invmx L^T)^T *m B *m invmx L^T.
    by rewrite trmx_inv trmxK -EB mulKmx // mulmxV.
  by rewrite EM /loewner_le -mulmxBl -mulmxBr; apply: psd_congr.
have := det_le1 SM LM; rewrite /M !det_mulmx !det_inv det_tr.
have D0 : \det B = \det L * \det L by rewrite -EB det_mulmx det_tr.
have DL : \det L != 0 by rewrite -unitfE -unitmxE.
have DP : 0 < \det B by have /andP[] := hadamard HB.
rewrite mulrAC -invfM -D0 mulrC ler_pdivr_mulr ?mul1r //.
Qed.

(** The determinant and the trace of the inverse of [I + X Y] do not depend on the order. *)
Lemma det_comm m n (X : 'M[T]_(m, n)) (Y : 'M[T]_(n, m)) : \det (1%:M + X *m Y) = \det (1%:M + Y *m X).
Proof.
have E1 : block_mx 1%:M (- X) Y 1%:M = block_mx 1%:M 0 Y 1%:M *m block_mx 1%:M (- X) 0 (1%:M + Y *m X).
  by rewrite mulmx_block !mul1mx !mul0mx !mulmx1 ?mulmx0 !addr0 mulmxN addrC addrK.
have E2 : block_mx 1%:M (- X) Y 1%:M = block_mx 1%:M (- X) 0 1%:M *m block_mx (1%:M + X *m Y) 0 Y 1%:M.
  by rewrite mulmx_block !mul1mx !mulmx1 ?mul0mx ?mulmx0 ?addr0 ?add0r mulNmx addrK.
have := congr1 determinant E1; rewrite E2 !det_mulmx !det_lblock !det_ublock !det1 !mul1r !mulr1.
by rewrite ?mul1r ?mulr1.
Qed.

Lemma tr_inv_comm n (X Y : 'M[T]_n) : 1%:M + Y *m X \in unitmx ->
  \tr (invmx (1%:M + X *m Y)) = \tr (invmx (1%:M + Y *m X)).
Proof.
move=> U; have U' : 1%:M + X *m Y \in unitmx by rewrite unitmxE det_comm -unitmxE.
set Z := invmx (1%:M + Y *m X).
have E : Z *m (1%:M + Y *m X) = 1%:M by rewrite mulVmx.
have E' : (1%:M + Y *m X) *m Z = 1%:M by rewrite mulmxV.
have -> : invmx (1%:M + X *m Y) = 1%:M - X *m Z *m Y.
  apply: (can_inj (mulKmx U')); rewrite mulmxV //.
  have F : (1%:M + X *m Y) *m X = X *m (1%:M + Y *m X).
    by rewrite mulmxDl mulmxDr mul1mx mulmx1 mulmxA.
  by rewrite mulmxBr mulmx1 !mulmxA F -(mulmxA X _ Z) E' mulmx1 addrK.
rewrite raddfB /= mxtrace_mulC mulmxA.
have -> : Y *m X *m Z = 1%:M - Z.
  by apply: (canRL (addrK _)); rewrite -[in RHS]E' mulmxDl mul1mx addrC.
by rewrite -raddfB /= opprB addrC subrK.
Qed.

Lemma tr_mono n (A B : 'M[T]_n) : loewner_le A B -> \tr A <= \tr B.
Proof.
move=> H; rewrite -subr_ge0 -raddfB /=; apply: sumr_ge0 => i _; exact: psd_diag.
Qed.

(** Positive semidefinite matrices are Gram matrices. *)
Lemma psd_off_diag n (A : 'M[T]_n) i j : psd A -> A i i = 0 -> A j i = 0.
Proof.
move=> HP E; have [HA PA] := HP.
pose e (k : 'I_n) : 'cV[T]_n := delta_mx k ord0.
have Q k l : dotv (e k) (A *m e l) = A k l by rewrite dotvC dotv_delta -colE mxE.
have S : A i j = A j i by rewrite -[in LHS]HA mxE.
have H (c : T) : 0 <= A j j + (c * A j i + c * A j i).
  have := PA (e j + c *: e i).
  by rewrite mulmxDr -scalemxAr dotvD !dotvDl !dotvZ !dotvZl !Q E S !mulr0 addr0 -addrA.
apply/eqP/negPn/negP => N.
have := H (- (A j j + 1) / A j i); rewrite -mulrA mulVf // mulr1.
set a := A j j; have Ha : 0 <= a by apply: psd_diag.
have -> : a + (- (a + 1) + - (a + 1)) = - (1 + (a + 1)).
  have {1}-> : a = a + 1 - 1 by rewrite addrK.
  by move: (a + 1) => d; rewrite addrA [X in X - d]addrAC subrr sub0r opprD.
rewrite oppr_ge0 leNgt => /negP; apply.
by rewrite ltr_paddr ?ltr01 // addr_ge0 ?ler01.
Qed.

Lemma psd_gram_exists n (A : 'M[T]_n) : psd A -> exists B : 'M[T]_n, B *m B^T = A.
Proof.
elim: n A => [|n IH] A HP; first by exists 0; rewrite thinmx0 [RHS]thinmx0.
change 'M_(n.+1) with 'M[T]_(1 + n) in A, HP |- *; have [HA PA] := HP.
have Eul : ulsubmx A = (A ord0 ord0)%:M.
  by apply/matrixP => i j; rewrite !ord1 !mxE lshift0 mulr1n.
have Eur : ursubmx A = (dlsubmx A)^T by rewrite trmx_dlsub HA.
set a := A ord0 ord0 in Eul; set b := dlsubmx A in Eur.
have Ha : 0 <= a by apply: psd_diag.
set l := Num.sqrt a; have Hll : l * l = a by rewrite -expr2 sqr_sqrtr.
have Hb : b = l *: (l^-1 *: b).
  have [E|N] := eqVneq l 0; last by rewrite scalerA divff ?scale1r.
  have E0 : a = 0 by rewrite -Hll E mul0r.
  rewrite E scale0r; apply/colP => i; rewrite !mxE.
  have -> : lshift n 0 = ord0 :> 'I_(1 + n) by apply: val_inj.
  exact: psd_off_diag.
set c := l^-1 *: b in Hb.
have [|L P] := IH (drsubmx A - c *m c^T).
  split; first by rewrite /symmetric linearB /= trmx_mul trmxK trmx_drsub HA.
  move=> w; pose x : 'cV[T]_1 := - (l^-1 *: (c^T *m w)).
  have H : 0 <= dotv (col_mx x w) (A *m col_mx x w) by apply: PA.
  move: H; rewrite -[X in dotv _ (X *m col_mx x w)]submxK mul_block_col dotv_block Eul Eur -/b.
  have [E|N] := eqVneq l 0.
    have -> : c = 0 by rewrite /c E invr0 scale0r.
    have -> : b = 0 by rewrite Hb E scale0r.
    have -> : a = 0 by rewrite -Hll E mul0r.
    by rewrite raddf0 !trmx0 !mul0mx !add0r dotv0 add0r subr0.
  have -> : a%:M *m x + b^T *m w = 0.
    rewrite /x mul_scalar_mx -Hll scalerN scalerA mulfK //.
    have -> : b^T = l *: c^T by rewrite [in LHS]Hb linearZ.
    by rewrite -scalemxAl addNr.
  rewrite dotv0 add0r mulmxBl addrC /x Hb mulmxN -scalemxAr -scalemxAl scalerA mulVf // scale1r.
  by rewrite mulmxA.
exists (block_mx l%:M 0 c L).
transitivity (block_mx l%:M 0 c L *m (block_mx l%:M 0 c L)^T : 'M[T]_(1 + n)); first by [].
rewrite tr_block_mx mulmx_block !trmx0 !mul0mx !mulmx0 !addr0 -[RHS]submxK; congr block_mx.
- by rewrite tr_scalar_mx -scalar_mxM Hll Eul.
- rewrite mul_scalar_mx Eur Hb; exact: (esym (linearZ _ _)).
- by rewrite tr_scalar_mx mul_mx_scalar -/b [RHS]Hb.
- by rewrite P addrC subrK.
Qed.

(** ** Compressions *)
Section Compress.
Variables (n : nat) (A Pi : 'M[T]_n).
Hypotheses (HA : psd A) (HS : Pi^T = Pi) (HI : Pi *m Pi = Pi).

Lemma psd_compl : psd (1%:M - Pi).
Proof.
have E : (1%:M - Pi)^T *m (1%:M - Pi) = 1%:M - Pi.
  by rewrite [(1%:M - Pi)^T]linearB /= trmx1 HS mulmxBl mul1mx mulmxBr mulmx1 HI subrr subr0.
by rewrite -E -[X in X *m _]mulmx1; apply: psd_congr; apply: spd_psd; apply: spd1.
Qed.

Lemma compress_gram : exists B : 'M[T]_n,
  [/\ A = B *m B^T, Pi *m A *m Pi = (Pi *m B) *m (B^T *m Pi),
      spd (1%:M + B^T *m Pi *m B), spd (1%:M + B^T *m B)
    & loewner_le (1%:M + B^T *m Pi *m B) (1%:M + B^T *m B)].
Proof.
have [B E] := psd_gram_exists HA; exists B; split=> //; first by rewrite -E !mulmxA.
- rewrite addrC; apply: spd_add (spd1 n); apply: psd_congr.
  rewrite -HI -[X in X *m _]HS -[X in X *m _]mulmx1; apply: psd_congr; apply: spd_psd; exact: spd1.
- rewrite addrC; apply: spd_add (spd1 n); rewrite -[X in X *m _]mulmx1; apply: psd_congr.
  by apply: spd_psd; apply: spd1.
rewrite /loewner_le opprD addrACA subrr add0r.
have -> : B^T *m B - B^T *m Pi *m B = B^T *m (1%:M - Pi) *m B by rewrite mulmxBr mulmx1 mulmxBl.
exact: psd_congr psd_compl.
Qed.

(** Compressing a positive semidefinite matrix lowers [det (I + A)] and raises [tr (I + A)^-1]. *)
Lemma det_compress : \det (1%:M + Pi *m A *m Pi) <= \det (1%:M + A).
Proof.
have [B [EA EP S1 S2 H]] := compress_gram.
rewrite EP EA [X in X <= _]det_comm [X in _ <= X]det_comm.
have E : B^T *m Pi *m (Pi *m B) = B^T *m Pi *m B by rewrite -!mulmxA (mulmxA Pi Pi) HI.
by rewrite E; apply: det_mono.
Qed.
Lemma tr_compress : \tr (invmx (1%:M + A)) <= \tr (invmx (1%:M + Pi *m A *m Pi)).
Proof.
have [B [EA EP S1 S2 H]] := compress_gram.
have E : B^T *m Pi *m (Pi *m B) = B^T *m Pi *m B by rewrite -!mulmxA (mulmxA Pi Pi) HI.
rewrite EP EA [X in X <= _]tr_inv_comm ?spd_unit // [X in _ <= X]tr_inv_comm E ?spd_unit //.
by apply: tr_mono; apply: loewner_inv.
Qed.
End Compress.

Section Ritz.
Variables (n r : nat) (A : 'M[T]_n) (U : 'M[T]_(n, r)) (S : 'cV[T]_r).
Hypotheses (HA : psd A) (HU : orthonormal U).

Lemma proj_sym : (U *m U^T)^T = U *m U^T.
Proof. by rewrite trmx_mul trmxK. Qed.
Lemma proj_idem : U *m U^T *m (U *m U^T) = U *m U^T.
Proof. by rewrite -!mulmxA (mulmxA U^T U) HU mul1mx. Qed.

(** Ritz pairs: the low-rank matrix is the compression of [A] to their span. *)
Lemma ritz_compress : U^T *m (A *m U) = diag_mx S^T ->
  low_rank_dense U S 0 = U *m U^T *m A *m (U *m U^T).
Proof. by move=> E; rewrite /low_rank_dense raddf0 addr0 -E !mulmxA. Qed.

(** Eigenpairs: it is below [A]. *)
Lemma eig_below : A *m U = U *m diag_mx S^T -> loewner_le (low_rank_dense U S 0) A.
Proof.
move=> E; rewrite /loewner_le /low_rank_dense raddf0 addr0.
set D := U *m _ *m _.
have EAP : A *m (U *m U^T) = D by rewrite mulmxA E.
have EPA : U *m U^T *m A = D.
  have [SA _] := HA.
  have -> : U *m U^T *m A = (A *m (U *m U^T))^T by rewrite trmx_mul proj_sym SA.
  by rewrite EAP /D !trmx_mul trmxK tr_diag_mx mulmxA.
have EDP : D *m (U *m U^T) = D by rewrite /D -!mulmxA (mulmxA U^T U) HU mul1mx.
have -> : A - D = (1%:M - U *m U^T)^T *m A *m (1%:M - U *m U^T).
  rewrite [(1%:M - U *m U^T)^T]linearB /= trmx1 proj_sym mulmxBl mul1mx EPA mulmxBr mulmx1 mulmxBl EAP.
  by rewrite EDP subrr subr0.
exact: psd_congr.
Qed.
End Ritz.
End OrderProofs.
