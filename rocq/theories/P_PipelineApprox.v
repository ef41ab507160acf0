(** Property C54: the workflow with the diagonal and the low-rank (Lanczos) approximations. *)
From Coq Require Import Reals String.
From mathcomp Require Import all_ssreflect all_algebra.
From Verif Require Import Base RealStruct PyTree TreeSpec Mv PyTreeProofs MvProofs
  TreeOpsProofs GgnSpec Ggn GgnProofs Posterior PosteriorSpec PosteriorProofs PosteriorTree
  LowRankSolvers LowRankSpec LanczosProofs
  EvalUtils Pushforward PushforwardSpec PushforwardProofs PipelineSpec TreeGgn Pipeline PipelineProofs
  PipelineApprox.
From Verif Require Import P_Ggn P_Posterior P_LowRank P_Pushforward P_Pipeline P_Monotone.
Set Implicit Arguments.
Unset Strict Implicit.
Unset Printing Implicit Defensive.
Import GRing.Theory Num.Theory Order.TTheory.
Local Open Scope ring_scope.

Notation RR := [rcfType of R].

(** The covariance operator of [ps] is [Sg] on PyTrees like [t], and its scale operator a square root
    of it. *)
Definition posterior_with (t : tree (arr R)) (Sg : 'M[R]_(get_size t)) (ps : posterior_state RR) : Prop :=
  exists L : 'M[R]_(get_size t),
    [/\ acts_mx Sg (ps_cov_mv ps), acts_mx L (ps_scale_mv ps) & L *m L^T = Sg].

(** ** Diagonal *)
(** The covariance [diag (lsf / (sigma^2 A_ii + tau))]. *)
Definition diagonal_cov n (A : 'M[R]_n) (s2 tau lsf : R) : 'M[R]_n :=
  diag_mx (\row_i (lsf / (s2 * A i i + tau))).

Lemma method_operators (t : tree (arr R)) (Curv Prec State : Type)
    (m : curv_method RR (get_size t) Curv Prec State) curv pa lsf prec st (Sg L : 'M[R]_(get_size t)) :
  leaves t <> [::] -> to_precision m curv pa lsf = Ok prec -> to_state m prec = Some st ->
  (forall v, to_cov m st v = Sg *m v) -> (forall v, to_scale m st v = L *m v) -> L *m L^T = Sg ->
  exists ps, bind (set_posterior_fn m curv (LTree t) pa lsf) (@operators_of State) = Ok ps /\
    posterior_with Sg ps.
Proof.
move=> L0 E1 E2 Hc Hs HL.
have [p Ep] : exists p, set_posterior_fn m curv (LTree t) pa lsf = Ok (Some p).
  by rewrite /set_posterior_fn E1 /= E2; eexists.
have [prec' [cov [scale [F1 F2 F3 F4 F5]]]] := C25_posterior_over_pytree L0 Ep.
have Est : post_state p = st by move: F2; rewrite E1 in F1; case: F1 => <-; rewrite E2 => -[].
exists (PosteriorState (fun u => cov [:: u] tt) (fun u => scale [:: u] tt)); split.
  by rewrite Ep /= F3 /= F4.
exists L; split=> // u W S; have [[w [G1 G2 G3 G4]] [w' [K1 K2 K3 K4]]] := F5 u W S.
- by exists w; split=> //; rewrite G4 Est Hc.
- by exists w'; split=> //; rewrite K4 Est Hs.
Qed.

Lemma diagonal_operators (t : tree (arr R)) (G : 'M[R]_(get_size t)) s2 tau lsf :
  leaves t <> [::] -> psd G -> 0 <= odflt 1 s2 -> 0 < tau -> 0 < lsf ->
  exists2 ps, bind (set_posterior_fn (diagonal_method RR (get_size t))
                      (cv_of (get_size t) (mkseq (fun i => entry G i i) (get_size t))) (LTree t)
                      (PriorArguments (Some tau) s2) lsf) (@operators_of _) = Ok ps &
    posterior_with (diagonal_cov G (odflt 1 s2) tau lsf) ps.
Proof.
move=> L0 HP Hs2 Ht Hl.
pose c : 'cV[R]_(get_size t) := \col_i G i i.
have Hp i : 0 < (odflt 1 s2 * c i ord0 + tau) / lsf by rewrite mxE; apply: C21_applicable.
have [prec [E1 P1 [H1 H2 H3 H4]]] := C21_diagonal_posterior Hp.
have Ps i : prec i ord0 = (odflt 1 s2 * G i i + tau) / lsf by rewrite P1 mxE.
have Pp i : 0 < prec i ord0 by rewrite P1.
have -> : cv_of (get_size t) (mkseq (fun i => entry G i i) (get_size t)) = c.
  by apply/colP => i; rewrite mxE [RHS]mxE nth_mkseq // entryE.
pose L : 'M[R]_(get_size t) := diag_mx (\row_i (Num.sqrt (prec i ord0))^-1).
have [|||ps [E Hps]] := @method_operators t _ _ _ (diagonal_method RR (get_size t)) c
  (PriorArguments (Some tau) s2) lsf prec _
  (diagonal_cov G (odflt 1 s2) tau lsf) L L0 E1 erefl; last by exists ps.
- move=> v; apply/colP => i; rewrite [LHS]H3 /diagonal_cov mul_diag_mx !mxE Ps.
  by rewrite invf_div mulrC.
- move=> v; apply/colP => i; rewrite [LHS]H2 /L mul_diag_mx !mxE mulrC //.
- rewrite /L tr_diag_mx mulmx_diag; congr diag_mx; apply/rowP => i; rewrite !mxE.
  by rewrite -invfM -expr2 sqr_sqrtr ?ltW // Ps invf_div.
Qed.

(** The diagonal approximation keeps the diagonal of the GGN matrix. *)
Theorem C54_diagonal_posterior :
  forall (X : Type) (K : nat) model_fn ad_jvp ad_vjp (t : tree (arr R))
    (data : seq (X * arr R)) (s : string) nc nt f pred J s2 tau lsf,
  (0 < get_size t)%N -> List.In s ggn_losses -> curv_scaling_factor nc nt (size data) = Ok f ->
  (forall d, List.In d data -> sample_ok K model_fn ad_jvp ad_vjp t pred J d) ->
  0 <= odflt 1 s2 -> 0 < tau -> 0 < lsf ->
  exists2 ps, laplace_posterior_diagonal K model_fn ad_jvp ad_vjp t data s nc nt s2 lsf tau = Ok ps
  & posterior_with (diagonal_cov (ggn_matrix K (get_size t) s f pred J data) (odflt 1 s2) tau lsf) ps.
Proof.
move=> X K model_fn ad_jvp ad_vjp t data s nc nt f pred J s2 tau lsf n0 Hs Hf Hd Hs2 Ht Hl.
have L0 : leaves t <> [::] by move=> E; move: n0; rewrite /get_size E.
have [mv [Emv Hmv]] := C49_tree_ggn Hs Hf Hd.
set G := ggn_matrix _ _ _ _ _ _ _ in Hmv *.
have HP : psd G := ggn_matrix_psd K (get_size t) pred J data Hs (factor_ge0 Hf).
clearbody G.
have [ps E Hps] := diagonal_operators L0 HP Hs2 Ht Hl.
rewrite /laplace_posterior_diagonal Emv; cbn [bind].
rewrite /create_posterior_fn_diagonal /create_diagonal_curvature.
rewrite [X in bind (bind X _) _](diagonal_acts _ (acts_mx_as Hmv)); cbn [bind].
by exists ps.
Qed.
Print Assumptions C54_diagonal_posterior.

(** ** Low rank *)
Lemma low_rank_operators (t : tree (arr R)) n r (U : 'M[R]_(n, r)) (S : 'cV[R]_r) s0 s2 tau lsf :
  n = get_size t -> leaves t <> [::] -> orthonormal U -> 0 < tau -> 0 < lsf -> 0 <= odflt 1 s2 ->
  (forall i, 0 <= S i ord0) ->
  exists ps, bind (set_posterior_fn (low_rank_method RR n r) (LowRankTerms U S s0) (LTree t)
                     (PriorArguments (Some tau) s2) lsf) (@operators_of _) = Ok ps /\
    forall U' : 'M[R]_(get_size t, r), (forall (i : 'I_n) (i' : 'I_(get_size t)) j, i = i' :> nat -> U i j = U' i' j) ->
    posterior_with (invmx (odflt 1 s2 *: low_rank_dense U' S 0 + (tau / lsf)%:M)) ps.
Proof.
move=> En L0 HU Ht Hl Hs2 HS; subst n.
have Htl : 0 < tau / lsf by apply: divr_gt0.
have Hp i : 0 < odflt 1 s2 * S i ord0 + tau / lsf by rewrite ltr_paddl ?mulr_ge0.
have [prec [E1 [H1 H2 H3]]] := @C22_low_rank_posterior _ _ _ U S s0 s2 tau lsf HU Htl Hp.
set P := odflt 1 s2 *: _ + _ in H1.
set st := low_rank_prec_to_posterior_state prec in H1 H2 H3.
pose L := low_rank_dense (lr_U st) (lr_S st) (lr_scalar st).
pose C := low_rank_dense (lr_U (low_rank_square st)) (lr_S (low_rank_square st)) (lr_scalar (low_rank_square st)).
have HL v : low_rank_posterior_state_to_scale st v = L *m v by rewrite /low_rank_posterior_state_to_scale low_rank_mvE.
have HC v : low_rank_posterior_state_to_cov st v = C *m v by rewrite /low_rank_posterior_state_to_cov low_rank_mvE.
have LL : L *m L^T = C.
  have -> : L^T = L by rewrite /L /low_rank_dense linearD /= tr_scalar_mx !trmx_mul trmxK tr_diag_mx mulmxA.
  apply/matrixP => i j; have := H2 (delta_mx j ord0); rewrite HC !HL mulmxA => /colP /(_ i).
  by rewrite -!colE ![col _ _ _ _]mxE.
have PC : P *m C = 1%:M.
  apply/matrixP => i j; have := H1 (delta_mx j ord0); rewrite HC mulmxA => /colP /(_ i).
  by rewrite -colE ![col _ _ _ _]mxE => ->; rewrite !mxE eqxx andbT.
have [ps [E Hps]] := @method_operators t _ _ _ (low_rank_method RR (get_size t) r) (LowRankTerms U S s0)
  (PriorArguments (Some tau) s2) lsf prec _ C L L0 E1 erefl HC HL LL.
exists ps; split=> // U' HUU.
have -> : U' = U by apply/matrixP => i j; rewrite -(HUU i i j).
have -> : odflt 1 s2 *: low_rank_dense U S 0 + (tau / lsf)%:M = P by rewrite /low_rank_dense raddf0 addr0.
suff -> : invmx P = C by [].
have UP : P \in unitmx by have [] := mulmx1_unit PC.
by rewrite -[RHS]mul1mx -(mulVmx UP) -mulmxA PC mulmx1.
Qed.

Lemma lanczos_n (T : rcfType) (eigh : forall k : nat, 'M[T]_k -> 'cV[T]_k * 'M[T]_k)
    (Key : Type) (normal : Key -> nat -> seq T) (op : operand T) (l : layout T) (key : option Key) (b : seq T)
    (rank : nat) (tol : T) mvd calc ret x64 n (A : 'M[T]_n) alpha beta V :
  size b = n -> symmetric A -> represents op l A -> cv_of n b != 0 ->
  lanczos_iterations (fun v => Ok (A *m v)) (cv_of n b) rank tol true = Ok (alpha, beta, V) ->
  (forall j, (j.+1 < rank)%N -> nth 0 beta j != 0) ->
  eigh_correct (construct_tridiagonal rank alpha beta) (eigh rank (construct_tridiagonal rank alpha beta)) ->
  exists (U : 'M[T]_(n, rank)) (S : 'cV[T]_rank) d,
    lanczos_lowrank eigh normal op key (Some b) l rank tol mvd calc ret true x64 =
      (x64, Ok (LowRankResult (LowRankTerms U S 0) d)) /\
    [/\ orthonormal U, U^T *m (A *m U) = diag_mx S^T, psd A -> forall j, 0 <= S j ord0,
        forall j, norm2 (A *m col j U - S j ord0 *: col j U) <= Num.max (nth 0 beta rank.-1) tol
      & rank = n -> low_rank_dense U S 0 = A].
Proof. by move=> Hb; subst n; apply: C26_lanczos_lowrank. Qed.

(** Without a start vector it is drawn with the key. *)
Lemma lanczos_key (T : rcfType) (eigh : forall k : nat, 'M[T]_k -> 'cV[T]_k * 'M[T]_k)
    (Key : Type) (normal : Key -> nat -> seq T) mv t (k : Key) rank tol mvd calc ret full :
  lanczos_lowrank eigh normal (Callable mv) (Some k) None (LTree t) rank tol mvd calc ret full =
  lanczos_lowrank eigh normal (Callable mv) (Some k) (Some (normal k (get_size t))) (LTree t) rank tol mvd calc ret full.
Proof. by []. Qed.

(** [a] asks for full reorthogonalisation and starts from [b]: given, or drawn with the key. *)
Definition starts_from (Key : Type) (normal1 : Key -> nat -> seq R) (n : nat) (a : lanczos_args Key) (b : seq R) : Prop :=
  [/\ la_full a = true, size b = n, cv_of n b != 0 &
      la_b a = Some b \/ la_b a = None /\ exists2 k, la_key a = Some k & normal1 k n = b].

(** Lanczos: the posterior is that of a rank-[rank] compression [U diag(S) U^T] of the GGN matrix [G]
    plus the prior; [(S, U)] are Ritz pairs of [G], each an eigenpair up to the last off-diagonal
    entry; at full rank the compression is [G].  The 64-bit flag is left as found. *)
Theorem C54_lanczos_posterior :
  forall (X Key : Type) (K : nat) model_fn ad_jvp ad_vjp eigh normal1 (t : tree (arr R))
    (data : seq (X * arr R)) (s : string) nc nt f pred J (a : lanczos_args Key) b s2 tau lsf x64 alpha beta V,
  let n := get_size t in
  let G := ggn_matrix K n s f pred J data in
  let rank := la_rank a in
  (0 < n)%N -> List.In s ggn_losses -> curv_scaling_factor nc nt (size data) = Ok f ->
  (forall d, List.In d data -> sample_ok K model_fn ad_jvp ad_vjp t pred J d) ->
  0 <= odflt 1 s2 -> 0 < tau -> 0 < lsf ->
  starts_from normal1 n a b ->
  lanczos_iterations (R := RR) (fun v => Ok (G *m v)) (cv_of n b) rank (la_tol a) true = Ok (alpha, beta, V) ->
  (forall j, (j.+1 < rank)%N -> nth 0 beta j != 0) ->
  eigh_correct (construct_tridiagonal rank alpha beta) (eigh rank (construct_tridiagonal rank alpha beta)) ->
  exists ps (U : 'M[R]_(n, rank)) (S : 'cV[R]_rank),
    [/\ laplace_posterior_lanczos K model_fn ad_jvp ad_vjp eigh normal1 t data s nc nt a s2 lsf tau x64 = (x64, Ok ps),
        posterior_with (invmx (odflt 1 s2 *: low_rank_dense U S 0 + (tau / lsf)%:M)) ps,
        [/\ orthonormal U, U^T *m (G *m U) = diag_mx S^T & forall j, 0 <= S j ord0],
        (forall j, norm2 (R := RR) (G *m col j U - S j ord0 *: col j U) <= Num.max (nth 0 beta rank.-1) (la_tol a))
      & rank = n -> low_rank_dense U S 0 = G].
Proof.
move=> X Key K model_fn ad_jvp ad_vjp eigh normal1 t data s nc nt f pred J a b s2 tau lsf x64 alpha beta V n G rank
  n0 Hs Hf Hd Hs2 Ht Hl [Ha Hb b0 Hstart] EL Hbeta He.
have L0 : leaves t <> [::] by move=> E; move: n0; rewrite /n /get_size E.
have [mv [Emv Hmv]] := C49_tree_ggn Hs Hf Hd.
rewrite -/n -/G in Hmv.
have HP : psd G := ggn_matrix_psd K n pred J data Hs (factor_ge0 Hf).
have Hr : represents (Callable mv) (LTree t) G by [].
have [U [S [d [E1 [O1 O2 O3 O4 O5]]]]] := @lanczos_n RR eigh Key normal1 (Callable mv) (LTree t) (la_key a) b rank
  (la_tol a) (la_mv_dtype a) (la_calc_dtype a) (la_return_dtype a) x64 n G alpha beta V Hb (proj1 HP) Hr b0 EL Hbeta He.
have [ps [Eps Hps]] := @low_rank_operators t n rank U S 0 s2 tau lsf erefl L0 O1 Ht Hl Hs2 (O3 HP).
exists ps, U, S; split=> //.
- rewrite /laplace_posterior_lanczos /flift /fbind Emv.
  have -> : lanczos_lowrank (R := RR) eigh normal1 (Callable mv) (la_key a) (la_b a) (LTree t) (la_rank a) (la_tol a)
      (la_mv_dtype a) (la_calc_dtype a) (la_return_dtype a) (la_full a) x64 =
      (x64, Ok (LowRankResult (LowRankTerms U S 0) d)).
    rewrite Ha; case: Hstart => [->|[-> [k Ek Ek']]]; first exact: E1.
    by rewrite Ek lanczos_key -/n Ek' -Ek; exact: E1.
  by rewrite Eps.
- by apply: Hps => i i' j Ei; congr (U _ j); apply: val_inj.
- by split=> //; exact: O3.
Qed.
Print Assumptions C54_lanczos_posterior.

(** ** Predictions *)
(** Whatever the approximation: the reported statistics are those of [N(f(x), J Sg J^T)]. *)
Theorem C54_predictive :
  forall (X Key : Type) split normal key0 model_fn ad_jvp ad_vjp (t : tree (arr R))
    (Sg : 'M[R]_(get_size t)) ps pred J (key : option Key) kw ops (x : X),
  posterior_with Sg ps ->
  model_fn x t = Ok (pred x) -> (0 < prodn (ashape (pred x)))%N ->
  is_jacobian (J x) t (pred x) (ad_jvp x) (ad_vjp x) ->
  odflt 0%N (kw_num_samples kw) = 0%N -> SSamples \notin ops ->
  (size (ashape (pred x)) <= 1)%N \/ no_var_after_cov ops ->
  exists2 r,
    linearised_predictive split normal key0 model_fn ad_jvp ad_vjp t (Ok ps) key
      (@lin_setup RR X :: [seq stat_fn o | o <- ops]) kw x = Ok r
    & lin_report (get_size t) (pred x) (J x) (entry Sg) ops r.
Proof.
move=> X Key split normal key0 model_fn ad_jvp ad_vjp t Sg ps pred J key kw ops x [L [E3 E4 E5]] Mx P0 HJ N0 Hsm Ho.
have [predict [r [F1 F2 F3]]] :=
  @C39_lin_statistics _ X Key split normal key0 model_fn ad_jvp ad_vjp t
    ps key kw ops x (pred x) (J x) _
    N0 Hsm Mx P0 HJ (acts_mx_as E3) Ho.
by exists r => //; rewrite /linearised_predictive; cbn [bind]; rewrite [X in bind X _]F1.
Qed.
Print Assumptions C54_predictive.

Section Routes.
Variables (X Key : Type) (K : nat) (split : Key -> nat -> seq Key) (normal : Key -> seq nat -> seq R) (key0 : Key).
Variables (model_fn : X -> tree (arr R) -> res (arr R)) (ad_jvp ad_vjp : X -> tree (arr R) -> res (tree (arr R))).
Variables (t : tree (arr R)) (s : string) (pred : X -> arr R) (J : X -> nat -> nat -> R).
Variables (key : option Key) (kw : kwargs) (ops : seq lin_stat) (x : X).
Let fns := @lin_setup RR X :: [seq stat_fn o | o <- ops].
Let n := get_size t.
Let out := pred x.
Let predictive ps := linearised_predictive split normal key0 model_fn ad_jvp ad_vjp t ps key fns kw x.
Let Jx : 'M[R]_(prodn (ashape out), n) := of_entries _ n (J x).
Notation point := (test_point model_fn ad_jvp ad_vjp t s pred J kw ops x).

Lemma cov_below_prior (Sg : 'M[R]_n) c (i : 'I_(prodn (ashape out))) : psd Sg -> loewner_le Sg c%:M ->
  0 <= (Jx *m Sg *m Jx^T) i i <= c * \sum_(0 <= p < n) J x i p ^+ 2.
Proof.
move=> [_ H0] Hc; apply/andP; split; first by rewrite dotv_diag; apply: H0.
apply: le_trans (loewner_diag _ _ Hc) _.
rewrite mul_mx_scalar -scalemxAl !mxE big_mkord le_eqVlt; apply/orP; left; apply/eqP.
congr (_ * _); apply: eq_bigr => p _; by rewrite !mxE expr2.
Qed.

(** Diagonal: variances [sum_p J_ip^2 lsf / (sigma^2 G_pp + tau)], between 0 and those of the prior. *)
Theorem C54_diagonal_predictive data nc nt f s2 tau lsf :
  let G := ggn_matrix K n s f pred J data in
  point -> data_ok K model_fn ad_jvp ad_vjp t pred J data -> curv_scaling_factor nc nt (size data) = Ok f ->
  0 <= odflt 1 s2 -> 0 < tau -> 0 < lsf ->
  exists r v,
    [/\ predictive (laplace_posterior_diagonal K model_fn ad_jvp ad_vjp t data s nc nt s2 lsf tau) = Ok r,
        lin_report n out (J x) (entry (diagonal_cov G (odflt 1 s2) tau lsf)) ops r,
        r_pred_var r = Some v /\ size (adata v) = prodn (ashape out) &
        forall i : 'I_(prodn (ashape out)),
          nth 0 (adata v) i = \sum_(p < n) J x i p ^+ 2 * (lsf / (odflt 1 s2 * G p p + tau)) /\
          0 <= nth 0 (adata v) i <= lsf / tau * \sum_(0 <= p < n) J x i p ^+ 2].
Proof.
move=> G [[n0 Hs Mx [P0 HJ N0 Hsm Hv]] Ho] Hd Hf Hs2 Ht Hl.
have [ps E1 HP] := C54_diagonal_posterior n0 Hs Hf Hd Hs2 Ht Hl.
rewrite -/n -/G in HP.
have HG : psd G := ggn_matrix_psd K n pred J data Hs (factor_ge0 Hf).
clearbody G.
have [r E2 H] := C54_predictive split normal key0 key HP Mx P0 HJ N0 Hsm Ho.
have [v [V1 V2 V3 V4]] := report_var Hv H.
exists r, v; split=> //; first by rewrite /predictive E1.
move=> i; rewrite V4 -/out -/n -/Jx.
have D0 p : 0 < lsf / (odflt 1 s2 * G p p + tau).
  by have := C21_applicable HG Hs2 Ht Hl p; rewrite -invr_gt0 invf_div.
have Dt p : lsf / (odflt 1 s2 * G p p + tau) <= lsf / tau.
  have H1 : 0 < odflt 1 s2 * G p p + tau.
    by move: (D0 p); rewrite pmulr_rgt0 // invr_gt0.
  rewrite ler_pmul2l // lef_pinv ?posrE // ler_addr mulr_ge0 //.
  have [_ Q] := HG; have := Q (delta_mx p ord0); rewrite dotvC dotv_delta -colE mxE; exact.
have Psd : psd (diagonal_cov G (odflt 1 s2) tau lsf).
  split; first by rewrite /symmetric tr_diag_mx.
  move=> w; apply: sumr_ge0 => p _; rewrite mul_diag_mx !mxE mulrCA -expr2.
  by rewrite mulr_ge0 ?sqr_ge0 // ltW.
split; last first.
  apply: cov_below_prior => //; split.
    by rewrite /symmetric linearB /= tr_diag_mx tr_scalar_mx.
  move=> w; apply: sumr_ge0 => p _; rewrite mulmxBl mul_diag_mx mul_scalar_mx !mxE -mulrBl mulrCA -expr2.
  by rewrite mulr_ge0 ?sqr_ge0 // subr_ge0.
rewrite -mulmxA mxE; apply: eq_bigr => p _; rewrite mul_diag_mx !mxE expr2.
by rewrite [X in _ * X]mulrC mulrA.
Qed.

(** Marginally, the diagonal approximation never is more uncertain about a weight than the full one. *)
Theorem C54_diagonal_understates (A : 'M[R]_n) s2 tau lsf (i : 'I_n) :
  psd A -> 0 <= s2 -> 0 < tau -> 0 < lsf ->
  diagonal_cov A s2 tau lsf i i <= invmx (posterior_precision A s2 tau lsf) i i.
Proof.
move=> HA Hs Ht Hl; set P := posterior_precision _ _ _ _.
have Sp : spd P := spd_precision HA Hs Ht Hl.
have U : P \in unitmx := spd_unit Sp.
have EP : P i i = (s2 * A i i + tau) / lsf by rewrite !mxE eqxx mulr1 mulrC.
have P0 : 0 < P i i by rewrite EP; apply: C21_applicable.
clearbody P.
have -> : diagonal_cov A s2 tau lsf i i = (P i i)^-1 by rewrite [LHS]mxE eqxx mulr1n [LHS]mxE EP invf_div.
pose w : 'cV[R]_n := col i (invmx P); pose u : 'cV[R]_n := (P i i)^-1 *: delta_mx i ord0.
have Pw : P *m w = delta_mx i ord0 by rewrite /w colE mulKVmx.
have [HS HPp] := spd_psd Sp.
have := HPp (w - u).
have DL (a : 'cV[R]_n) : dotv (delta_mx i ord0) a = a i ord0 by rewrite dotvC dotv_delta.
rewrite mulmxBr Pw dotvB !dotvBl /u -scalemxAr !dotvZ !dotvZl !DL !dotv_delta.
have -> : dotv w (P *m delta_mx i ord0) = 1.
  by rewrite dotv_mul HS Pw dotv_delta mxE !eqxx.
rewrite -colE [col i P i ord0]mxE [delta_mx _ _ _ _]mxE !eqxx /w [col i _ i ord0]mxE !mulr1.
by rewrite [_^-1 * P i i]mulVf ?gt_eqF // mulr1 subrr subr0 subr_ge0.
Qed.

Section Lanczos.
Variables (eigh : forall k : nat, 'M[R]_k -> 'cV[R]_k * 'M[R]_k) (normal1 : Key -> nat -> seq R).
Variables (a : lanczos_args Key) (b alpha beta : seq R) (V : seq 'cV[R]_n).
Let rank := la_rank a.
(** The iteration on [G] starts from [b], does not break down, and its tridiagonal matrix is
    diagonalised correctly. *)
Definition lanczos_runs (G : 'M[R]_n) : Prop :=
  [/\ starts_from normal1 n a b,
      lanczos_iterations (R := RR) (fun v => Ok (G *m v)) (cv_of n b) rank (la_tol a) true = Ok (alpha, beta, V),
      (forall j, (j.+1 < rank)%N -> nth 0 beta j != 0) &
      eigh_correct (construct_tridiagonal rank alpha beta) (@eigh rank (construct_tridiagonal rank alpha beta))].

(** Lanczos: the statistics are those of the compressed GGN matrix, variances between 0 and the
    prior's; the flag is unchanged. *)
Theorem C54_lanczos_predictive data nc nt f s2 tau lsf x64 :
  let G := ggn_matrix K n s f pred J data in
  point -> data_ok K model_fn ad_jvp ad_vjp t pred J data -> curv_scaling_factor nc nt (size data) = Ok f ->
  0 <= odflt 1 s2 -> 0 < tau -> 0 < lsf -> lanczos_runs G ->
  exists ps r v (U : 'M[R]_(n, rank)) (S : 'cV[R]_rank),
    [/\ laplace_posterior_lanczos K model_fn ad_jvp ad_vjp eigh normal1 t data s nc nt a s2 lsf tau x64 = (x64, Ok ps),
        predictive (Ok ps) = Ok r,
        lin_report n out (J x) (entry (invmx (odflt 1 s2 *: low_rank_dense U S 0 + (tau / lsf)%:M))) ops r,
        [/\ orthonormal U, U^T *m (G *m U) = diag_mx S^T & rank = n -> low_rank_dense U S 0 = G] &
        [/\ r_pred_var r = Some v, size (adata v) = prodn (ashape out) & forall i : 'I_(prodn (ashape out)),
          0 <= nth 0 (adata v) i <= lsf / tau * \sum_(0 <= p < n) J x i p ^+ 2]].
Proof.
move=> G [[n0 Hs Mx [P0 HJ N0 Hsm Hv]] Ho] Hd Hf Hs2 Ht Hl [H1 H2 H3 H4].
have [ps [U [S [E1 HP [O1 O2 O3] O4 O5]]]] := C54_lanczos_posterior x64 n0 Hs Hf Hd Hs2 Ht Hl H1 H2 H3 H4.
have [r E2 H] := C54_predictive split normal key0 key HP Mx P0 HJ N0 Hsm Ho.
have [v [V1 V2 V3 V4]] := report_var Hv H.
exists ps, r, v, U, S; split=> //; split=> // i; rewrite V4 -/out -/n -/Jx.
have tl : 0 < tau / lsf by apply: divr_gt0.
set P := _ + _.
have HD : psd (low_rank_dense U S 0).
  rewrite /low_rank_dense raddf0 addr0 -[X in X *m diag_mx _]trmxK; apply: psd_congr.
  split; first by rewrite /symmetric tr_diag_mx.
  move=> w; apply: sumr_ge0 => p _; rewrite mul_diag_mx !mxE mulrCA -expr2.
  by rewrite mulr_ge0 ?sqr_ge0.
have HB : spd ((tau / lsf)%:M : 'M[R]_n).
  split=> [|w Hw]; first by rewrite /symmetric tr_scalar_mx.
  by rewrite mul_scalar_mx dotvZ mulr_gt0 ?sqr_norm_gt0.
have Sp : spd P.
  have [Q1 Q2] := psd_scale Hs2 HD; have [B1 B2] := HB; split; first by rewrite /symmetric linearD /= Q1 B1.
  by move=> w Hw; rewrite mulmxDl dotvD ltr_paddl // ?Q2 // B2.
have EB : invmx ((tau / lsf)%:M : 'M[R]_n) = (lsf / tau)%:M by rewrite invmx_scalar invf_div.
apply: cov_below_prior.
  split; first exact: spd_invmx_sym.
  move=> w; rewrite -[X in dotv X _](mulKVmx (spd_unit Sp)) dotvC.
  by have [_ Q] := spd_psd Sp; apply: Q.
rewrite -EB; apply: loewner_inv => //.
by rewrite /loewner_le /P addrK; apply: psd_scale.
Qed.

(** At full rank and loss scaling 1 the Lanczos route reports the distribution of the full one. *)
Theorem C54_lanczos_full_rank data nc nt f s2 tau x64 :
  let G := ggn_matrix K n s f pred J data in
  let Sg := invmx (posterior_precision G (odflt 1 s2) tau 1) in
  point -> data_ok K model_fn ad_jvp ad_vjp t pred J data -> curv_scaling_factor nc nt (size data) = Ok f ->
  0 <= odflt 1 s2 -> 0 < tau -> lanczos_runs G -> rank = n ->
  exists ps r1 r2,
    [/\ laplace_posterior_lanczos K model_fn ad_jvp ad_vjp eigh normal1 t data s nc nt a s2 1 tau x64 = (x64, Ok ps),
        predictive (Ok ps) = Ok r1 /\ lin_report n out (J x) (entry Sg) ops r1 &
        predictive (laplace_posterior K model_fn ad_jvp ad_vjp t data s nc nt s2 1 tau) = Ok r2 /\
        lin_report n out (J x) (entry Sg) ops r2].
Proof.
move=> G Sg TP Hd Hf Hs2 Ht HR En.
have [ps [r1 [v [U [S [E1 E2 E3 [_ _ E4] _]]]]]] := C54_lanczos_predictive x64 TP Hd Hf Hs2 Ht ltr01 HR.
have [[n0 Hs Mx [P0 HJ N0 Hsm Hv]] Ho] := TP.
have [ps2 [L [F1 F2 F3 F4 _]]] := @C49_laplace_posterior X K model_fn ad_jvp ad_vjp t data s nc nt f pred J s2 tau 1
  n0 Hs Hf Hd Hs2 Ht ltr01.
have PW : posterior_with Sg ps2 by exists L.
have [r2 F5 F6] := C54_predictive split normal key0 key PW Mx P0 HJ N0 Hsm Ho.
exists ps, r1, r2; split=> //.
- split=> //; suff -> : Sg = invmx (odflt 1 s2 *: low_rank_dense U S 0 + (tau / 1)%:M) by [].
  rewrite /Sg E4 // divr1; congr invmx.
  by rewrite /posterior_precision invr1 scale1r scalemx1.
- by split=> //; rewrite /predictive F1.
Qed.
End Lanczos.
End Routes.
Print Assumptions C54_diagonal_predictive.
Print Assumptions C54_diagonal_understates.
Print Assumptions C54_lanczos_predictive.
Print Assumptions C54_lanczos_full_rank.

(** Non-vacuity: the example of C50 (two weights, identity Jacobian, one sample).  Diagonal: variance
    1/3.  Lanczos of rank 1 from the first unit vector. *)
Definition ex_eigh k (M : 'M[R]_k) : 'cV[R]_k * 'M[R]_k := (\col_i M i i, 1%:M).
Definition ex_args : lanczos_args unit :=
  LanczosArgs None (Some [:: 1; 0 : R]) 1 0 None Float64 None true.
Lemma ex_data1 a b : data_ok 2 (fun _ _ => Ok ex_out) (fun (_ : unit) u => Ok u) (fun _ u => Ok u) (Leaf ex_out) (fun _ => ex_out)
    (fun _ => @ident RR) [:: ex_y a b].
Proof. by move=> e [<-|[]]; split=> //; apply: is_jacobian_ident. Qed.
Lemma ex_factor : curv_scaling_factor None None 1 = Ok (1 : R).
Proof. by rewrite /curv_scaling_factor divff // pnatr_eq0. Qed.

Example C54_diagonal_example a b : exists r v,
  [/\ linearised_predictive (fun k n => nseq n k) (fun _ sh => nseq (prodn sh) 0) tt (fun _ _ => Ok ex_out)
        (fun (_ : unit) u => Ok u) (fun _ u => Ok u) (Leaf ex_out)
        (laplace_posterior_diagonal 2 (fun _ _ => Ok ex_out) (fun (_ : unit) u => Ok u) (fun _ u => Ok u) (Leaf ex_out)
          [:: ex_y a b] "mse" None None None 1 1) None (@lin_setup RR unit :: [seq stat_fn o | o <- [:: SVar]])
        (kw0 None) tt = Ok r,
      r_pred_var r = Some v & nth 0 (adata v) 0 = 3%:R^-1].
Proof.
have [r [v [E1 _ [E2 _] E3]]] := @C54_diagonal_predictive unit unit 2 (fun k n => nseq n k) (fun _ sh => nseq (prodn sh) 0) tt
  _ _ _ _ _ _ _ None _ _ _ [:: ex_y a b] None None 1 None 1 1 ex_test_point (@ex_data1 a b) ex_factor ler01 ltr01 ltr01.
exists r, v; split=> //; have [-> _] := E3 (@Ordinal 2 0 isT).
rewrite /ggn_matrix /= !big_cons !big_nil /loss_hessian /= ident1 trmx1 !mul1mx !mulmx1 addr0 scale1r.
rewrite !big_ord_recl big_ord0 /= !mxE /= /ident /= expr1n expr0n !mul1r mul0r !addr0 mulr1n.
by rewrite -(natrD _ 2 1).
Qed.
Example C54_lanczos_example a b : exists alpha beta V,
  lanczos_runs (t := Leaf ex_out) ex_eigh (fun _ m => nseq m 1) ex_args [:: 1; 0] alpha beta V
    (ggn_matrix 2 2 "mse" 1 (fun _ => ex_out) (fun _ => @ident RR) [:: ex_y a b]).
Proof.
set G := ggn_matrix _ _ _ _ _ _ _.
have b0 : cv_of 2 [:: 1; 0 : R] != 0.
  by apply/eqP => /colP /(_ (@Ordinal 2 0 isT)); rewrite !mxE /= => /eqP; rewrite oner_eq0.
have [alpha [beta [V [E _ _ _]]]] := @C26_lanczos_total RR 2 G (cv_of 2 [:: 1; 0]) 1 0 b0.
exists alpha, beta, V; split=> //; first by split=> //; left.
split=> /=; first by rewrite /orthonormal trmx1 mulmx1.
by rewrite mulmx1 mul1mx; apply/matrixP => i j; rewrite !ord1 !mxE.
Qed.
