(** Property C50, continued: monotone uncertainty with Lanczos. *)
From Coq Require Import Reals Lra String.
From mathcomp Require Import all_ssreflect all_algebra.
From Verif Require Import Base RealStruct PyTree TreeSpec Mv PyTreeProofs TreeOpsProofs GgnSpec Ggn GgnProofs Posterior PosteriorSpec PosteriorProofs
  PosteriorTree LowRankSolvers LowRankSpec LanczosProofs EvalUtils Pushforward PushforwardSpec PushforwardProofs PipelineSpec TreeGgn Pipeline PipelineProofs PipelineApprox.
From Verif Require Import P_Ggn P_Posterior P_LowRank P_Pushforward P_Pipeline P_Monotone P_PipelineApprox OrderProofs.
Set Implicit Arguments.
Unset Strict Implicit.
Unset Printing Implicit Defensive.
Import GRing.Theory Num.Theory Order.TTheory.
Local Open Scope ring_scope.
Notation RR := [rcfType of R].

Lemma lanczos_terms (T : rcfType) (eigh : forall k : nat, 'M[T]_k -> 'cV[T]_k * 'M[T]_k)
    (Key : Type) (normal : Key -> nat -> seq T) (op : operand T) (l : layout T) (key : option Key) (b : seq T)
    (rank : nat) (tol : T) mvd calc ret x64 n (A : 'M[T]_n) alpha beta V :
  size b = n -> represents op l A -> cv_of n b != 0 ->
  lanczos_iterations (fun v => Ok (A *m v)) (cv_of n b) rank tol true = Ok (alpha, beta, V) ->
  let T0 := construct_tridiagonal rank alpha beta in
  lanczos_lowrank eigh normal op key (Some b) l rank tol mvd calc ret true x64 =
      (x64, Ok (LowRankResult (LowRankTerms (basis_mx rank V *m (eigh rank T0).2) (eigh rank T0).1 0)
        (asarray_dtype (dtype_eqb calc Float64) (default_dtype x64 ret)))).
Proof.
move=> Hb; subst n => Hr b0 E T0.
have [s [_ _ E' ->]] := @lowrank_run T eigh Key normal op key b l rank tol mvd calc ret x64 A b0 Hr.
by move: E'; rewrite E /T0 => -[-> -> ->].
Qed.

(** The low-rank terms do not depend on prior precision, noise, loss scaling or the flag found. *)
Lemma lanczos_posteriors :
  forall (X Key : Type) (K : nat) model_fn ad_jvp ad_vjp eigh normal1 (t : tree (arr R))
    (data : seq (X * arr R)) (s : string) nc nt f pred J (a : lanczos_args Key) b alpha beta V,
  let n := get_size t in
  let G := ggn_matrix K n s f pred J data in
  let rank := la_rank a in
  (0 < n)%N -> List.In s ggn_losses -> curv_scaling_factor nc nt (size data) = Ok f ->
  (forall d, List.In d data -> sample_ok K model_fn ad_jvp ad_vjp t pred J d) ->
  starts_from normal1 n a b ->
  lanczos_iterations (R := RR) (fun v => Ok (G *m v)) (cv_of n b) rank (la_tol a) true = Ok (alpha, beta, V) ->
  (forall j, (j.+1 < rank)%N -> nth 0 beta j != 0) ->
  eigh_correct (construct_tridiagonal rank alpha beta) (eigh rank (construct_tridiagonal rank alpha beta)) ->
  exists (U : 'M[R]_(n, rank)) (S : 'cV[R]_rank),
    [/\ orthonormal U, U^T *m (G *m U) = diag_mx S^T & forall j, 0 <= S j ord0] /\
    forall s2 tau lsf x64, 0 <= odflt 1 s2 -> 0 < tau -> 0 < lsf -> exists2 ps,
        laplace_posterior_lanczos K model_fn ad_jvp ad_vjp eigh normal1 t data s nc nt a s2 lsf tau x64 = (x64, Ok ps) &
        posterior_with (invmx (odflt 1 s2 *: low_rank_dense U S 0 + (tau / lsf)%:M)) ps.
Proof.
move=> X Key K model_fn ad_jvp ad_vjp eigh normal1 t data s nc nt f pred J a b alpha beta V n G rank
  n0 Hs Hf Hd [Ha Hb b0 Hstart] EL Hbeta He.
have L0 : leaves t <> [::] by move=> E; move: n0; rewrite /n /get_size E.
have [mv [Emv Hmv]] := C49_tree_ggn Hs Hf Hd.
rewrite -/n -/G in Hmv.
have HP : psd G := ggn_matrix_psd K n pred J data Hs (factor_ge0 Hf).
have Hr : represents (Callable mv) (LTree t) G by [].
have HL x64 := @lanczos_n RR eigh Key normal1 (Callable mv) (LTree t) (la_key a) b rank
  (la_tol a) (la_mv_dtype a) (la_calc_dtype a) (la_return_dtype a) x64 n G alpha beta V Hb (proj1 HP) Hr b0 EL Hbeta He.
have HT x64 := @lanczos_terms RR eigh Key normal1 (Callable mv) (LTree t) (la_key a) b rank
  (la_tol a) (la_mv_dtype a) (la_calc_dtype a) (la_return_dtype a) x64 n G alpha beta V Hb Hr b0 EL.
have [U [S [d [E1 [O1 O2 O3 O4 O5]]]]] := HL true.
have EE := congr1 (fun p => if p.2 is Ok r then LowRankResult (res_terms r) else LowRankResult (LowRankTerms U S 0)) E1.
rewrite HT /= in EE.
exists U, S; split; first by split=> //; exact: O3.
move=> s2 tau lsf x64 Hs2 Ht Hl.
have [ps [Eps Hps]] := @low_rank_operators t n rank U S 0 s2 tau lsf erefl L0 O1 Ht Hl Hs2 (O3 HP).
exists ps; last by apply: Hps => i i' j Ei; congr (U _ j); apply: val_inj.
rewrite /laplace_posterior_lanczos /flift /fbind Emv.
have -> : lanczos_lowrank (R := RR) eigh normal1 (Callable mv) (la_key a) (la_b a) (LTree t) (la_rank a) (la_tol a)
    (la_mv_dtype a) (la_calc_dtype a) (la_return_dtype a) (la_full a) x64 =
    (x64, Ok (LowRankResult (LowRankTerms U S 0)
       (asarray_dtype (dtype_eqb (la_calc_dtype a) Float64) (default_dtype x64 (la_return_dtype a))))).
  rewrite Ha; case: Hstart => [->|[-> [k Ek Ek']]]; first by rewrite HT EE.
  by rewrite Ek lanczos_key -/n Ek' -Ek HT EE.
by rewrite Eps.
Qed.

Section Route.
Variables (X Key : Type) (K : nat) (split : Key -> nat -> seq Key) (normal : Key -> seq nat -> seq R) (key0 : Key).
Variables (model_fn : X -> tree (arr R) -> res (arr R)) (ad_jvp ad_vjp : X -> tree (arr R) -> res (tree (arr R))).
Variables (t : tree (arr R)) (s : string) (pred : X -> arr R) (J : X -> nat -> nat -> R).
Variables (key : option Key) (kw : kwargs) (ops : seq lin_stat) (x : X).
Notation point := (test_point model_fn ad_jvp ad_vjp t s pred J kw ops x).
Notation data_ok := (data_ok K model_fn ad_jvp ad_vjp t pred J).
Let n := get_size t.
Variables (eigh : forall k : nat, 'M[R]_k -> 'cV[R]_k * 'M[R]_k) (normal1 : Key -> nat -> seq R).
Variables (a : lanczos_args Key) (b alpha beta : seq R) (V : seq 'cV[R]_n).
(** One run of the Lanczos route: flag afterwards and report. *)
Let run data nc nt s2 tau lsf x64 :=
  let: (flag, ps) := laplace_posterior_lanczos K model_fn ad_jvp ad_vjp eigh normal1 t data s nc nt a s2 lsf tau x64 in
  (flag, linearised_predictive split normal key0 model_fn ad_jvp ad_vjp t ps key
     (@lin_setup RR X :: [seq stat_fn o | o <- ops]) kw x).

(** With the same data, start vector and rank, increasing [sigma_squared] or the prior precision or
    decreasing the loss scaling factor increases no variance. *)
Theorem C50_lanczos_monotone data nc nt f s1 s2 tau1 tau2 lsf1 lsf2 x1 x2 :
  let G := ggn_matrix K n s f pred J data in
  point -> data_ok data -> curv_scaling_factor nc nt (size data) = Ok f ->
  lanczos_runs eigh normal1 a b alpha beta V G ->
  0 <= odflt 1 s1 -> odflt 1 s1 <= odflt 1 s2 -> 0 < tau1 -> tau1 <= tau2 -> 0 < lsf2 -> lsf2 <= lsf1 ->
  exists v1 v2, [/\ (run data nc nt s1 tau1 lsf1 x1).1 = x1 /\ (run data nc nt s2 tau2 lsf2 x2).1 = x2,
    reports (run data nc nt s1 tau1 lsf1 x1).2 v1, reports (run data nc nt s2 tau2 lsf2 x2).2 v2,
    size (adata v1) = prodn (ashape (pred x)) /\ size (adata v2) = prodn (ashape (pred x)) &
    forall i, nth 0 (adata v2) i <= nth 0 (adata v1) i].
Proof.
move=> G [[n0 Hs Mx [P0 HJ N0 Hsm Hv]] Ho] Hd Hf [H1 H2 H3 H4] Hs1 Hs12 Ht1 Ht12 Hl2 Hl12.
have Hs2 := le_trans Hs1 Hs12; have Ht2 := lt_le_trans Ht1 Ht12; have Hl1 := lt_le_trans Hl2 Hl12.
have [U [S [[O1 O2 O3] H]]] := lanczos_posteriors n0 Hs Hf Hd H1 H2 H3 H4.
have [ps1 E1 HP1] := H s1 tau1 lsf1 x1 Hs1 Ht1 Hl1.
have [ps2 E2 HP2] := H s2 tau2 lsf2 x2 Hs2 Ht2 Hl2.
have [r1 F1 R1] := C54_predictive split normal key0 key HP1 Mx P0 HJ N0 Hsm Ho.
have [r2 F2 R2] := C54_predictive split normal key0 key HP2 Mx P0 HJ N0 Hsm Ho.
have [v1 [V1 _ S1 D1]] := report_var Hv R1.
have [v2 [V2 _ S2 D2]] := report_var Hv R2.
exists v1, v2; rewrite /run E1 E2; split; [by [] | by exists r1 | by exists r2 | by [] | move=> i].
have [Hi|Hi] := ltnP i (prodn (ashape (pred x))); last by rewrite !nth_default ?S1 ?S2.
rewrite (D1 (Ordinal Hi)) (D2 (Ordinal Hi)); apply: loewner_diag.
have HD : psd (low_rank_dense U S 0).
  rewrite /low_rank_dense raddf0 addr0 -[X in X *m diag_mx _]trmxK; apply: psd_congr.
  split; first by rewrite /symmetric tr_diag_mx.
  move=> w; apply: sumr_ge0 => p _; rewrite mul_diag_mx !mxE mulrCA -expr2.
  by rewrite mulr_ge0 ?sqr_ge0.
have Sp sg c : 0 <= sg -> 0 < c -> spd (sg *: low_rank_dense U S 0 + c%:M).
  move=> Hsg Hc; have [Q1 Q2] := psd_scale Hsg HD; split.
    by rewrite /symmetric linearD /= Q1 tr_scalar_mx.
  move=> w Hw; rewrite mulmxDl dotvD ltr_paddl // ?Q2 // mul_scalar_mx dotvZ mulr_gt0 //.
  by rewrite sqr_norm_gt0.
have Sp1 := Sp _ _ Hs1 (divr_gt0 Ht1 Hl1); have Sp2 := Sp _ _ Hs2 (divr_gt0 Ht2 Hl2).
apply: (loewner_inv Sp1 Sp2).
rewrite /loewner_le opprD addrACA -scalerBl -raddfB /=.
apply: psd_add.
  by apply: psd_scale => //; rewrite subr_ge0.
rewrite -scalemx1; apply: psd_scale; last by apply: spd_psd; exact: spd1.
rewrite subr_ge0 ler_pdivr_mulr // mulrAC ler_pdivl_mulr //.
by apply: ler_pmul => //; exact: ltW.
Qed.
End Route.
Print Assumptions C50_lanczos_monotone.

(** The covariance in terms of the Lanczos run itself: basis [B], tridiagonal matrix [T]. *)
Lemma lanczos_operator :
  forall (X Key : Type) (K : nat) model_fn ad_jvp ad_vjp eigh normal1 (t : tree (arr R))
    (data : seq (X * arr R)) (s : string) nc nt f pred J (a : lanczos_args Key) b s2 tau lsf x64 alpha beta V,
  let n := get_size t in
  let G := ggn_matrix K n s f pred J data in
  let rank := la_rank a in
  let B : 'M[R]_(n, rank) := basis_mx rank V in
  let T := construct_tridiagonal rank alpha beta in
  (0 < n)%N -> List.In s ggn_losses -> curv_scaling_factor nc nt (size data) = Ok f ->
  (forall d, List.In d data -> sample_ok K model_fn ad_jvp ad_vjp t pred J d) ->
  0 <= odflt 1 s2 -> 0 < tau -> 0 < lsf ->
  starts_from normal1 n a b ->
  lanczos_iterations (R := RR) (fun v => Ok (G *m v)) (cv_of n b) rank (la_tol a) true = Ok (alpha, beta, V) ->
  (forall j, (j.+1 < rank)%N -> nth 0 beta j != 0) ->
  eigh_correct T (eigh rank T) ->
  exists2 ps, laplace_posterior_lanczos K model_fn ad_jvp ad_vjp eigh normal1 t data s nc nt a s2 lsf tau x64 = (x64, Ok ps) &
    posterior_with (invmx (odflt 1 s2 *: (B *m T *m B^T) + (tau / lsf)%:M)) ps.
Proof.
move=> X Key K model_fn ad_jvp ad_vjp eigh normal1 t data s nc nt f pred J a b s2 tau lsf x64 alpha beta V n G rank B T
  n0 Hs Hf Hd Hs2 Ht Hl [Ha Hb b0 Hstart] EL Hbeta He.
have L0 : leaves t <> [::] by move=> E; move: n0; rewrite /n /get_size E.
have [mv [Emv Hmv]] := C49_tree_ggn Hs Hf Hd.
rewrite -/n -/G in Hmv.
have HP : psd G := ggn_matrix_psd K n pred J data Hs (factor_ge0 Hf).
have Hr : represents (Callable mv) (LTree t) G by [].
have HT := @lanczos_terms RR eigh Key normal1 (Callable mv) (LTree t) (la_key a) b rank
  (la_tol a) (la_mv_dtype a) (la_calc_dtype a) (la_return_dtype a) x64 n G alpha beta V Hb Hr b0 EL.
rewrite -/B -/T in HT.
have [OB CT] : orthonormal B /\ B^T *m (G *m B) = T.
  have [st [E I _]] := lanczosE_break G rank (la_tol a) b0.
  move: EL; rewrite [LHS]E => -[Ea Eb EV]; rewrite /B /T -Ea -Eb -EV.
  rewrite -Eb in Hbeta.
  by split; [exact: basis_ortho I Hbeta | exact: basis_compress (proj1 HP) I Hbeta].
have [OQ TQ] := He; pose Q := (eigh rank T).2; pose S := (eigh rank T).1.
have D : (B *m Q)^T *m (G *m (B *m Q)) = diag_mx S^T := ritz_diag OQ TQ CT.
have OU : orthonormal (B *m Q) := ritz_ortho OB OQ.
have HS j : 0 <= S j ord0.
  have -> : S j ord0 = ((B *m Q)^T *m (G *m (B *m Q))) j j by rewrite D mxE eqxx mulr1n mxE.
  by rewrite mulmx_entry [col j (G *m _)]col_mulE; have [_ Hp] := HP; apply: Hp.
have [ps [Eps Hps]] := @low_rank_operators t n rank (B *m Q) S 0 s2 tau lsf erefl L0 OU Ht Hl Hs2 HS.
have ED : low_rank_dense (B *m Q) S 0 = B *m T *m B^T.
  by rewrite (ritz_dense OQ TQ CT) -CT !mulmxA.
exists ps; last first.
  by rewrite -ED; apply: Hps => i i' j Ei; congr ((B *m Q) _ j); apply: val_inj.
rewrite /laplace_posterior_lanczos /flift /fbind Emv.
have -> : lanczos_lowrank (R := RR) eigh normal1 (Callable mv) (la_key a) (la_b a) (LTree t) (la_rank a) (la_tol a)
    (la_mv_dtype a) (la_calc_dtype a) (la_return_dtype a) (la_full a) x64 =
    (x64, Ok (LowRankResult (LowRankTerms (B *m Q) S 0)
       (asarray_dtype (dtype_eqb (la_calc_dtype a) Float64) (default_dtype x64 (la_return_dtype a))))).
  rewrite Ha; case: Hstart => [->|[-> [k Ek Ek']]]; first exact: HT.
  by rewrite Ek lanczos_key -/n Ek' -Ek; exact: HT.
by rewrite Eps.
Qed.
