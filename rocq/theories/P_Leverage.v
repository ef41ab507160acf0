(** Property C65: predictive uncertainty on the training data and away from it. *)
From Coq Require Import Reals Lra String.
From mathcomp Require Import all_ssreflect all_algebra.
From Verif Require Import Base RealStruct RealSums PyTree TreeSpec Mv PyTreeProofs MvProofs
  TreeOpsProofs GgnSpec Ggn GgnProofs Posterior PosteriorSpec PosteriorProofs PosteriorTree
  EvalUtils Pushforward PushforwardSpec PushforwardProofs PipelineSpec TreeGgn Pipeline PipelineProofs
  PipelineApprox LanczosProofs.
From Verif Require Import P_Ggn P_Posterior P_Pushforward P_Pipeline P_Monotone P_PipelineApprox OrderProofs P_Evidence
  P_Invariance.
Set Implicit Arguments.
Unset Strict Implicit.
Unset Printing Implicit Defensive.
Import GRing.Theory Num.Theory Order.TTheory.
Local Open Scope ring_scope.

Section Matrices.
Variable T : rcfType.

(** If [P] exceeds [c w w^T] by a positive definite matrix, then [w^T P^-1 w < 1 / c]. *)
Lemma leverage_lt n (P : 'M[T]_n) (w : 'cV[T]_n) c : spd P -> 0 < c ->
  (forall u, u != 0 -> c * dotv w u ^+ 2 < dotv u (P *m u)) -> dotv w (invmx P *m w) < c^-1.
Proof.
move=> Sp c0 H; have U := spd_unit Sp; set u := invmx P *m w.
have Pu : P *m u = w by rewrite /u mulKVmx.
have [Ew|Hw] := eqVneq u 0; first by rewrite Ew dotv0 invr_gt0.
have := H u Hw; rewrite Pu [dotv u w]dotvC => H1.
have v0 : 0 < dotv w u.
  have [_ PP] := Sp; have := PP u Hw; by rewrite Pu dotvC.
by move: H1; rewrite expr2 mulrA -[X in _ < X]mul1r ltr_pmul2r // -ltr_pdivl_mull // mulr1.
Qed.

(** A vector without curvature keeps its prior variance, and so does its share of every other vector. *)
Lemma prior_share n (P : 'M[T]_n) (w u : 'cV[T]_n) c : spd P -> 0 < c -> P *m u = c *: u ->
  dotv w u ^+ 2 <= c * dotv u u * dotv w (invmx P *m w).
Proof.
move=> Sp c0 Pu; have U := spd_unit Sp; have [Sy PP] := spd_psd Sp.
set v := invmx P *m w; have Pv : P *m v = w by rewrite /v mulKVmx.
have Q k : 0 <= dotv w v - k * dotv w u - k * dotv w u + k ^+ 2 * (c * dotv u u).
  have := PP (v - k *: u); rewrite mulmxBr -scalemxAr Pv Pu !dotvB !dotvBl !dotvZ !dotvZl [dotv v w]dotvC [dotv u w]dotvC.
  have -> : c * dotv v u = dotv w u by rewrite -dotvZ -Pu dotv_mul Sy Pv.
  by rewrite opprB [c * (k * _)]mulrCA [k * (k * _)]mulrA -expr2 addrA addrAC.
have [a0|a0] := eqVneq u 0; first by rewrite a0 !dotv0 expr0n /= mulr0 mul0r.
have ca : 0 < c * dotv u u by rewrite mulr_gt0 ?sqr_norm_gt0.
have := Q (dotv w u / (c * dotv u u)); set b := dotv w u; set e := c * dotv u u in ca *.
rewrite exprMn -[b / e * b]mulrAC -expr2.
have -> : b ^+ 2 * e^-1 ^+ 2 * e = b ^+ 2 / e by rewrite expr2 -!mulrA mulVf ?mulr1 // gt_eqF.
by rewrite addrNK subr_ge0 ler_pdivr_mulr // mulrC.
Qed.
End Matrices.

Lemma ce_shift K (z : 'cV[R]_K) (c : R) : (0 < K)%N -> loss_hessian "cross_entropy" z *m (const_mx c : 'cV[R]_K) = 0.
Proof.
case: K z => [//|K] z _; have [|h [/= [<-] E]] := @loss_hessianE K.+1 "cross_entropy"; first by right; left.
by rewrite -(E _ _ 0) ce_const.
Qed.

Section Data.
Variables (X Key : Type) (K : nat) (split : Key -> nat -> seq Key) (normal : Key -> seq nat -> seq R) (key0 : Key).
Variables (model_fn : X -> tree (arr R) -> res (arr R)) (ad_jvp ad_vjp : X -> tree (arr R) -> res (tree (arr R))).
Variables (t : tree (arr R)) (s : string) (pred : X -> arr R) (J : X -> nat -> nat -> R).
Variables (key : option Key) (kw : kwargs) (ops : seq lin_stat).
Notation n := (get_size t).
Notation point := (test_point model_fn ad_jvp ad_vjp t s pred J kw ops).
Notation ok := (data_ok K model_fn ad_jvp ad_vjp t pred J).
(** The report of the full linearised approximation at [x]. *)
Notation full := (run K split normal key0 model_fn ad_jvp ad_vjp t s key kw ops).
(** Hessian of the loss at the prediction for [z], and the change of that prediction when the parameters
    move by [u]. *)
Let Hs (z : X) : 'M[R]_K := loss_hessian s (cv_of K (adata (pred z))).
Let dpred (z : X) (u : 'cV[R]_n) : 'cV[R]_K := of_entries K n (J z) *m u.

Lemma ggn_quad f (data : seq (X * arr R)) (u : 'cV[R]_n) :
  dotv u (ggn_matrix K n s f pred J data *m u) = f * \sum_(d <- data) dotv (dpred d.1 u) (Hs d.1 *m dpred d.1 u).
Proof.
rewrite /ggn_matrix -scalemxAl dotvZ mulmx_suml dotv_sum; congr (_ * _); apply: eq_bigr => d _.
by rewrite -!mulmxA dotv_mul trmxK.
Qed.

Lemma dotv_coord_le m (v : 'cV[R]_m) i : v i ord0 ^+ 2 <= dotv v v.
Proof.
rewrite /dotv (bigD1 i) //= -expr2 ler_addl; apply: sumr_ge0 => j _; by rewrite -expr2 sqr_ge0.
Qed.

(** C65.  At a training input, if the loss has at least curvature [h] there, every reported variance is
    below [loss_scaling / (f h sigma^2)], whatever the prior and however flexible the model. *)
Theorem C65_training_variance data nc nt f s2 tau lsf d h :
  List.In d data -> point d.1 -> ok data -> curv_scaling_factor nc nt (size data) = Ok f -> 0 < f ->
  0 < odflt 1 s2 -> 0 < tau -> 0 < lsf -> 0 < h -> loewner_le h%:M (Hs d.1) ->
  exists v, [/\ reports (full d.1 data nc nt s2 tau lsf) v, size (adata v) = K &
    forall i, (i < K)%N -> nth 0 (adata v) i < lsf / (f * h * odflt 1 s2)].
Proof.
move=> Hin TP Hd Hf f0 Hs2 Ht Hl h0 [_ HH].
have [v [R1 A1 S1 E1]] := runP split normal key0 key TP Hd Hf (ltW Hs2) Ht Hl.
have [_ Sh _ _] := Hd d Hin.
have EK : prodn (ashape (pred d.1)) = K by rewrite Sh /= muln1.
exists v; split=> //; first by rewrite S1.
move=> i Hi; have Hi' : (i < prodn (ashape (pred d.1)))%N by rewrite EK.
rewrite (E1 (Ordinal Hi')) dotv_diag.
have [[n0 HL _ _] _] := TP.
have HG := ggn_matrix_psd K n pred J data HL (factor_ge0 Hf).
have Sp := spd_precision HG (ltW Hs2) Ht Hl.
have EG := ggn_quad f data; move: (ggn_matrix K n s f pred J data) EG Sp {HG E1} => G EG Sp.
rewrite -[lsf / _]invrK invf_div; apply: (leverage_lt (T := RR)) => //.
  by rewrite divr_gt0 // !mulr_gt0.
move=> u Hu; rewrite /posterior_precision -scalemxAl dotvZ mulmxDl dotvD -!scalemxAl !dotvZ mul1mx.
rewrite EG [f * h * odflt 1 s2 / lsf]mulrC -(mulrA lsf^-1) ltr_pmul2l ?invr_gt0 //.
apply: (@le_lt_trans _ _ (odflt 1 s2 * (f * \sum_(d <- data) dotv (dpred d.1 u) (Hs d.1 *m dpred d.1 u)))); last first.
  by rewrite ltr_addl mulr_gt0 // sqr_norm_gt0.
rewrite [f * h * odflt 1 s2]mulrC -(mulrA (odflt 1 s2)) ler_pmul2l // -mulrA ler_pmul2l //.
set y := dotv _ u.
have Ey : y = dpred d.1 u (Ordinal Hi) ord0.
  rewrite /y /dotv mxE; apply: eq_bigr => p _; by rewrite !mxE.
have Hz z w : 0 <= dotv w (Hs z *m w).
  have [_ HP] := loss_hessian_psd (cv_of K (adata (pred z))) HL; exact: HP.
apply: (@le_trans _ _ (dotv (dpred d.1 u) (Hs d.1 *m dpred d.1 u))).
  have := HH (dpred d.1 u); rewrite mulmxBl dotvB subr_ge0 mul_scalar_mx dotvZ; apply: le_trans.
  by rewrite ler_pmul2l // Ey dotv_coord_le.
elim: (data) Hin => [//|e l IH] [->|He]; rewrite big_cons.
  by rewrite ler_addl; apply: sumr_ge0 => e' _; apply: Hz.
by rewrite ler_paddl ?Hz // IH.
Qed.

(** Observing the same thing again and again: if [m] training inputs have the derivatives of the input [x]
    and at least curvature [h], the variances at [x] are below [loss_scaling / (m f h sigma^2)]. *)
Theorem C65_repeated_observations data nc nt f s2 tau lsf x h (like : X * arr R -> bool) :
  let m := count like data in
  point x -> prodn (ashape (pred x)) = K -> (0 < m)%N -> ok data -> curv_scaling_factor nc nt (size data) = Ok f -> 0 < f ->
  0 < odflt 1 s2 -> 0 < tau -> 0 < lsf -> 0 < h ->
  (forall d, like d -> loewner_le h%:M (Hs d.1) /\ forall i p, (i < K)%N -> (p < n)%N -> J d.1 i p = J x i p) ->
  exists v, [/\ reports (full x data nc nt s2 tau lsf) v, size (adata v) = K &
    forall i, (i < K)%N -> nth 0 (adata v) i < lsf / (m%:R * f * h * odflt 1 s2)].
Proof.
move=> m TP EK m0 Hd Hf f0 Hs2 Ht Hl h0 Hlike.
have [v [R1 A1 S1 E1]] := runP split normal key0 key TP Hd Hf (ltW Hs2) Ht Hl.
exists v; split=> //; first by rewrite S1.
move=> i Hi; have Hi' : (i < prodn (ashape (pred x)))%N by rewrite EK.
rewrite (E1 (Ordinal Hi')) dotv_diag.
have [[n0 HL _ _] _] := TP.
have HG := ggn_matrix_psd K n pred J data HL (factor_ge0 Hf).
have Sp := spd_precision HG (ltW Hs2) Ht Hl.
have EG := ggn_quad f data; move: (ggn_matrix K n s f pred J data) EG Sp {HG E1} => G EG Sp.
have mR : 0 < m%:R :> R by rewrite ltr0n.
rewrite -[lsf / _]invrK invf_div; apply: (leverage_lt (T := RR)) => //.
  by rewrite divr_gt0 // !mulr_gt0.
move=> u Hu; rewrite /posterior_precision -scalemxAl dotvZ mulmxDl dotvD -!scalemxAl !dotvZ mul1mx.
rewrite EG [m%:R * f * h * odflt 1 s2 / lsf]mulrC -(mulrA lsf^-1) ltr_pmul2l ?invr_gt0 //.
apply: (@le_lt_trans _ _ (odflt 1 s2 * (f * \sum_(d <- data) dotv (dpred d.1 u) (Hs d.1 *m dpred d.1 u)))); last first.
  by rewrite ltr_addl mulr_gt0 // sqr_norm_gt0.
rewrite [m%:R * f * h * odflt 1 s2]mulrC -(mulrA (odflt 1 s2)) ler_pmul2l // [m%:R * f]mulrC -!mulrA ler_pmul2l //.
set y := dotv _ u.
have Hz z w : 0 <= dotv w (Hs z *m w).
  have [_ HP] := loss_hessian_psd (cv_of K (adata (pred z))) HL; exact: HP.
rewrite /m; elim: (data) => [|e l IH]; first by rewrite big_nil mul0r.
rewrite big_cons /=; have := Hlike e; case: (like e) => [/(_ isT) [[_ HH] HJ]|_]; last by rewrite add0n; apply: le_trans IH _; rewrite ler_addr.
rewrite natrD mulrDl mul1r; apply: ler_add => //.
have Ey : y = dpred e.1 u (Ordinal Hi) ord0.
  rewrite /y /dotv mxE; apply: eq_bigr => p _; by rewrite !mxE /= HJ.
have := HH (dpred e.1 u); rewrite mulmxBl dotvB subr_ge0 mul_scalar_mx dotvZ; apply: le_trans.
by rewrite ler_pmul2l // Ey dotv_coord_le.
Qed.

(** If the loss does not see a move of the parameters along [u] on the training data (in particular if no
    training prediction changes), the variance at any input is at least the prior variance of the part of
    the prediction that [u] moves. *)
Theorem C65_unseen_directions data nc nt f s2 tau lsf x (u : 'cV[R]_n) :
  point x -> ok data -> curv_scaling_factor nc nt (size data) = Ok f ->
  0 <= odflt 1 s2 -> 0 < tau -> 0 < lsf ->
  (forall d, List.In d data -> Hs d.1 *m dpred d.1 u = 0) ->
  exists v, [/\ reports (full x data nc nt s2 tau lsf) v, size (adata v) = prodn (ashape (pred x)) &
    forall i, (i < prodn (ashape (pred x)))%N ->
      lsf / tau * (\sum_(p < n) J x i p * u p ord0) ^+ 2 <= nth 0 (adata v) i * dotv u u].
Proof.
move=> TP Hd Hf Hs2 Ht Hl Hu.
have [v [R1 A1 S1 E1]] := runP split normal key0 key TP Hd Hf Hs2 Ht Hl.
exists v; split=> // i Hi; rewrite (E1 (Ordinal Hi)) dotv_diag.
have [[n0 HL _ _] _] := TP.
have Sp := spd_precision (ggn_matrix_psd K n pred J data HL (factor_ge0 Hf)) Hs2 Ht Hl.
have Gu : ggn_matrix K n s f pred J data *m u = 0.
  rewrite /ggn_matrix -scalemxAl mulmx_suml.
  suff -> : \sum_(d <- data) (of_entries K n (J d.1))^T *m loss_hessian s (cv_of K (adata (pred d.1))) *m of_entries K n (J d.1) *m u = 0
    by rewrite scaler0.
  elim: (data) Hu => [|d l IH] Hu; first by rewrite big_nil.
  rewrite big_cons IH; last by move=> e He; apply: Hu; right.
  by rewrite -!mulmxA [_ *m (_ *m u)]Hu ?mulmx0 ?addr0 //; left.
have Pu : posterior_precision (ggn_matrix K n s f pred J data) (odflt 1 s2) tau lsf *m u = (tau / lsf) *: u.
  rewrite /posterior_precision -scalemxAl mulmxDl -[odflt 1 s2 *: _ *m u]scalemxAl Gu scaler0 add0r.
  by rewrite -scalemxAl mul1mx scalerA mulrC.
have := prior_share (T := RR) (row (Ordinal Hi) (of_entries (prodn (ashape (pred x))) n (J x)))^T Sp (divr_gt0 Ht Hl) Pu.
have -> : dotv (row (Ordinal Hi) (of_entries (prodn (ashape (pred x))) n (J x)))^T u = \sum_(p < n) J x i p * u p ord0.
  by apply: eq_bigr => p _; rewrite !mxE.
move=> H; rewrite -[lsf / tau]invrK invf_div mulrC ler_pdivr_mulr ?divr_gt0 //.
by apply: le_trans H _; rewrite -mulrA mulrC [dotv u u * _]mulrC.
Qed.

(** Away from the data: if the derivative of output [i] at [x] is orthogonal to those of all training
    predictions, its variance is the prior variance: nothing has been learnt about it. *)
Theorem C65_prior_away_from_data data nc nt f s2 tau lsf x i :
  point x -> ok data -> curv_scaling_factor nc nt (size data) = Ok f ->
  0 <= odflt 1 s2 -> 0 < tau -> 0 < lsf -> (i < prodn (ashape (pred x)))%N ->
  (forall d k, List.In d data -> (k < K)%N -> \sum_(p < n) J d.1 k p * J x i p = 0) ->
  exists v, [/\ reports (full x data nc nt s2 tau lsf) v, size (adata v) = prodn (ashape (pred x)) &
    nth 0 (adata v) i = lsf / tau * \sum_(p < n) J x i p ^+ 2].
Proof.
move=> TP Hd Hf Hs2 Ht Hl Hi Ho.
pose u : 'cV[R]_n := \col_p J x i p.
have Eu : \sum_(p < n) J x i p * u p ord0 = \sum_(p < n) J x i p ^+ 2.
  by apply: eq_bigr => p _; rewrite mxE expr2.
have Euu : dotv u u = \sum_(p < n) J x i p ^+ 2 by rewrite -Eu; apply: eq_bigr => p _; rewrite mxE.
have [|v [R1 S1 H1]] := @C65_unseen_directions data nc nt f s2 tau lsf x u TP Hd Hf Hs2 Ht Hl.
  move=> d Hin; rewrite (_ : dpred _ _ = 0) ?mulmx0 //; apply/colP => k; rewrite !mxE -[RHS](Ho d k Hin (ltn_ord k)).
  by apply: eq_bigr => p _; rewrite !mxE.
have [v' [R2 S2 H2]] := C50_below_prior split normal key0 key TP Hd Hf Hs2 Ht Hl.
have Ev : v' = v.
  by move: R1 R2 => [r1 E1 V1] [r2 E2 V2]; move: E2 V2; rewrite E1 => -[<-]; rewrite V1 => -[].
rewrite {v'}Ev in R2 S2 H2.
exists v; split=> //; have /andP[v0] := H2 i Hi; rewrite big_mkord; set S := \sum_(p < n) _ => Hle.
have := H1 i Hi; rewrite Eu Euu -/S.
have S0 : 0 <= S by apply: sumr_ge0 => p _; apply: sqr_ge0.
have [Sz|Sz] := eqVneq S 0; first by move=> _; apply/eqP; rewrite eq_le Hle Sz mulr0.
have Sp : 0 < S by rewrite lt_neqAle eq_sym Sz.
by rewrite expr2 mulrA ler_pmul2r // => Hge; apply/eqP; rewrite eq_le Hle.
Qed.

(** The named losses.  Squared error has curvature 2 everywhere; the binary cross-entropy has [p (1 - p)]
    at the predicted probability [p]; the cross-entropy has none along equal shifts of all logits, so a
    parameter direction whose effect on the training logits is a common shift keeps its prior variance. *)
Theorem C65_squared_error data nc nt f s2 tau lsf d :
  s = "mse"%string -> List.In d data -> point d.1 -> ok data -> curv_scaling_factor nc nt (size data) = Ok f -> 0 < f ->
  0 < odflt 1 s2 -> 0 < tau -> 0 < lsf ->
  exists v, [/\ reports (full d.1 data nc nt s2 tau lsf) v, size (adata v) = K &
    forall i, (i < K)%N -> nth 0 (adata v) i < lsf / (f * 2%:R * odflt 1 s2)].
Proof.
move=> Es Hin TP Hd Hf f0 Hs2 Ht Hl; apply: C65_training_variance => //; first by rewrite ltr0n.
rewrite /Hs Es /loss_hessian /= /loewner_le subrr; split=> [|v]; first by rewrite /symmetric trmx0.
by rewrite mul0mx dotv0.
Qed.

Theorem C65_binary_cross_entropy data nc nt f s2 tau lsf d h :
  s = "binary_cross_entropy"%string -> List.In d data -> point d.1 -> ok data ->
  curv_scaling_factor nc nt (size data) = Ok f -> 0 < f -> 0 < odflt 1 s2 -> 0 < tau -> 0 < lsf -> 0 < h ->
  (forall i, (i < K)%N -> let p := logistic (nth 0 (adata (pred d.1)) i) in h <= p * (1 - p)) ->
  exists v, [/\ reports (full d.1 data nc nt s2 tau lsf) v, size (adata v) = K &
    forall i, (i < K)%N -> nth 0 (adata v) i < lsf / (f * h * odflt 1 s2)].
Proof.
move=> Es Hin TP Hd Hf f0 Hs2 Ht Hl h0 Hp; apply: C65_training_variance => //.
set D := Hs d.1 - h%:M.
have DE i j : D i j = if i == j then logistic (nth 0 (adata (pred d.1)) i) * (1 - logistic (nth 0 (adata (pred d.1)) i)) - h else 0.
  by rewrite /D /Hs Es /loss_hessian /= !mxE; case: eqP => [->|_]; rewrite ?mulr1n // mulr0n subr0.
split; first by apply/matrixP => i j; rewrite [LHS]mxE !DE eq_sym; case: eqP => [->|].
move=> v; apply: sumr_ge0 => i _; rewrite mxE (bigD1 i) //= big1 => [|j Hj].
  by rewrite DE eqxx addr0 mulrCA -expr2 mulr_ge0 ?sqr_ge0 // subr_ge0; exact: Hp.
by rewrite DE eq_sym (negPf Hj) mul0r.
Qed.

Theorem C65_softmax_shift data nc nt f s2 tau lsf x (u : 'cV[R]_n) (c : X -> R) :
  s = "cross_entropy"%string -> (0 < K)%N -> point x -> ok data -> curv_scaling_factor nc nt (size data) = Ok f ->
  0 <= odflt 1 s2 -> 0 < tau -> 0 < lsf ->
  (forall d k, List.In d data -> (k < K)%N -> \sum_(p < n) J d.1 k p * u p ord0 = c d.1) ->
  exists v, [/\ reports (full x data nc nt s2 tau lsf) v, size (adata v) = prodn (ashape (pred x)) &
    forall i, (i < prodn (ashape (pred x)))%N ->
      lsf / tau * (\sum_(p < n) J x i p * u p ord0) ^+ 2 <= nth 0 (adata v) i * dotv u u].
Proof.
move=> Es K0 TP Hd Hf Hs2 Ht Hl Hc; apply: (C65_unseen_directions TP Hd Hf) => // d Hin.
have -> : dpred d.1 u = const_mx (c d.1).
  by apply/colP => k; rewrite !mxE -[RHS](Hc d k Hin (ltn_ord k)); apply: eq_bigr => p _; rewrite !mxE.
by rewrite /Hs Es ce_shift.
Qed.

(** Losses with constant curvature [h] (squared error: 2): the variances reported at the training inputs
    add up to what the data have taught about the [n] parameters - [loss_scaling n] less [tau] times the
    remaining parameter variance, in units of [f h sigma^2] - and so to less than
    [n loss_scaling / (f h sigma^2)], whatever the number of observations. *)
Theorem C65_total_training_variance data nc nt (f : R) (s2 : option R) (tau lsf h : R) (v : X -> arr R) :
  let Sg := invmx (posterior_precision (R := RR) (ggn_matrix K n s f pred J data) (odflt 1 s2) tau lsf) in
  (forall d, List.In d data -> point d.1) -> data <> [::] -> ok data -> curv_scaling_factor nc nt (size data) = Ok f -> 0 < f ->
  0 < odflt 1 s2 -> 0 < tau -> 0 < lsf -> 0 < h -> (forall z : 'cV[R]_K, loss_hessian s z = h%:M) ->
  (forall d, List.In d data -> reports (full d.1 data nc nt s2 tau lsf) (v d.1)) ->
  \sum_(d <- data) \sum_(i < K) nth 0 (adata (v d.1)) i = (lsf * n%:R - tau * \tr Sg) / (f * h * odflt 1 s2) /\
  \sum_(d <- data) \sum_(i < K) nth 0 (adata (v d.1)) i < n%:R * (lsf / (f * h * odflt 1 s2)).
Proof.
move=> Sg TP D0 Hd Hf f0 Hs2 Ht Hl h0 HH Hv.
have [e He] : exists e, List.In e data by case: (data) D0 => // e l _; exists e; left.
have [[n0 HL _ _] _] := TP e He.
have HG := ggn_matrix_psd K n pred J data HL (factor_ge0 Hf).
have Sp := spd_precision HG (ltW Hs2) Ht Hl.
have c0 : 0 < f * h * odflt 1 s2 by rewrite !mulr_gt0.
have E1 : \sum_(d <- data) \sum_(i < K) nth 0 (adata (v d.1)) i =
    \sum_(d <- data) \tr (of_entries K n (J d.1) *m Sg *m (of_entries K n (J d.1))^T).
  have Hin d : List.In d data -> \sum_(i < K) nth 0 (adata (v d.1)) i =
      \tr (of_entries K n (J d.1) *m Sg *m (of_entries K n (J d.1))^T).
    move=> Hd'; have [v' [R1 A1 S1 E]] := runP split normal key0 key (TP d Hd') Hd Hf (ltW Hs2) Ht Hl.
    have Ev : v' = v d.1.
      by move: (Hv d Hd') R1 => [r1 F1 V1] [r2 F2 V2]; move: F2 V2; rewrite F1 => -[<-]; rewrite V1 => -[].
    have [_ Sh _ _] := Hd d Hd'.
    have EK : prodn (ashape (pred d.1)) = K by rewrite Sh /= muln1.
    apply: eq_bigr => i _; rewrite -Ev.
    have Hi : (i < prodn (ashape (pred d.1)))%N by rewrite EK.
    rewrite (E (Ordinal Hi)) !mxE; apply: eq_bigr => p _; rewrite !mxE; congr (_ * _); apply: eq_bigr => q _; by rewrite !mxE.
  elim: (data) Hin => [|d l IH] Hin; first by rewrite !big_nil.
  by rewrite !big_cons Hin ?IH //; [move=> z Hz; apply: Hin; right | left].
have E2 : f * h * (\sum_(d <- data) \tr (of_entries K n (J d.1) *m Sg *m (of_entries K n (J d.1))^T)) =
    \tr (ggn_matrix K n s f pred J data *m Sg).
  rewrite /ggn_matrix -scalemxAl mxtraceZ -mulrA; congr (_ * _); rewrite mulmx_suml raddf_sum big_distrr /=.
  apply: eq_bigr => d _; rewrite HH mul_mx_scalar -!scalemxAl mxtraceZ; congr (_ * _).
  by rewrite mxtrace_mulC mulmxA.
have E3 : odflt 1 s2 * \tr (ggn_matrix K n s f pred J data *m Sg) = lsf * n%:R - tau * \tr Sg.
  rewrite -mxtraceZ scalemxAl.
  have -> : odflt 1 s2 *: ggn_matrix K n s f pred J data =
      lsf *: posterior_precision (R := RR) (ggn_matrix K n s f pred J data) (odflt 1 s2) tau lsf - tau%:M.
    move: (ggn_matrix _ _ _ _ _ _ _) => G.
    by rewrite /posterior_precision scalerA divff ?gt_eqF // scale1r scalemx1 addrK.
  rewrite mulmxBl -scalemxAl mulmxV ?spd_unit // mul_scalar_mx raddfB /= !mxtraceZ mxtrace1; by [].
have E4 : \sum_(d <- data) \sum_(i < K) nth 0 (adata (v d.1)) i = (lsf * n%:R - tau * \tr Sg) / (f * h * odflt 1 s2).
  apply: (canRL (mulfK (lt0r_neq0 c0))); rewrite E1 -E3 -E2.
  by rewrite mulrC [RHS]mulrCA -[LHS]mulrA.
split=> //; rewrite E4 mulrA ltr_pmul2r ?invr_gt0 // [n%:R * _]mulrC ltr_subl_addr ltr_addl mulr_gt0 //.
rewrite /mxtrace (bigD1 (Ordinal n0)) //= ltr_paddr //; last exact: (spd_diag_gt0 _ (spd_inv Sp)).
by apply: sumr_ge0 => p _; apply: ltW; exact: (spd_diag_gt0 _ (spd_inv Sp)).
Qed.
End Data.
Print Assumptions C65_training_variance.
Print Assumptions C65_repeated_observations.
Print Assumptions C65_unseen_directions.
Print Assumptions C65_squared_error.
Print Assumptions C65_binary_cross_entropy.
Print Assumptions C65_softmax_shift.
Print Assumptions C65_prior_away_from_data.
Print Assumptions C65_total_training_variance.

(** Non-vacuity: a model with two weights and two outputs, whose output [b] at input [b] is weight [b]
    and whose other output is constant.  One observation at input 0: the variance of output 0 there is
    [1/3 < 1/2]; at input 1 the variance of output 1 is the prior variance 1; the training variances add
    up to [1/3 < 1]. *)
Section Example.
Let out : arr R := Arr [:: 2%N] [:: 3%:R; 4%:R].
Let w : tree (arr R) := Leaf out.
Let J (b : bool) (i p : nat) : R := if (i == b) && (p == b) then 1 else 0.
Let jv b := mat_op (J b) w (Leaf out).
Let vj (b : bool) := mat_op (fun p a => J b a p) (Leaf out) w.
Let data (y : arr R) : seq (bool * arr R) := [:: (false, y)].
Let reports_at x v y := reports (@run bool unit 2 (fun k n => nseq n k) (fun _ sh => nseq (prodn sh) 0) tt
  (fun _ _ => Ok out) jv vj w "mse" None (kw0 None) [:: SVar] x (data y) None None None 1 1) v.
Let point x : test_point (fun _ _ => Ok out) jv vj w "mse" (fun _ => out) J (kw0 None) [:: SVar] x.
Proof. by split; [split=> //; [left | split=> //; apply: mat_op_jacobian] | left]. Qed.
Let ok y : ashape y = [:: 2%N] -> wf_arr y -> data_ok 2 (fun _ _ => Ok out) jv vj w (fun _ => out) J (data y).
Proof. by move=> S0 W0 d [<-|//]; split=> //; apply: mat_op_jacobian. Qed.

Example C65_example y : ashape y = [:: 2%N] -> wf_arr y ->
  exists v0 v1, [/\ reports_at false v0 y, reports_at true v1 y, nth 0 (adata v0) 0 < 2%:R^-1 & nth 0 (adata v1) 1 = 1] /\
    \sum_(i < 2) nth 0 (adata v0) i < 2%:R * 2%:R^-1.
Proof.
move=> S0 W0; have Hd := ok S0 W0.
have [|v0 [R0 _ H0]] := @C65_squared_error bool unit 2 (fun k n => nseq n k) (fun _ sh => nseq (prodn sh) 0) tt _ _ _ _ _ _ _
  None _ _ (data y) None None 1 None 1 1 (false, y) erefl _ (point false) Hd ex_factor ltr01 ltr01 ltr01 ltr01; first by left.
have [|v1 [R1 _ H1]] := @C65_prior_away_from_data bool unit 2 (fun k n => nseq n k) (fun _ sh => nseq (prodn sh) 0) tt _ _ _ _ _ _ _
  None _ _ (data y) None None 1 None 1 1 true 1 (point true) Hd ex_factor ler01 ltr01 ltr01 isT.
  by move=> d k [<-|//] _; rewrite !big_ord_recl big_ord0 /J /= !andbF mul0r mulr0 !addr0.
have P0 d : List.In d (data y) -> test_point (fun _ _ => Ok out) jv vj w "mse" (fun _ => out) J (kw0 None) [:: SVar] d.1.
  by move=> _; apply: point.
have V0 d : List.In d (data y) -> reports_at d.1 v0 y by move=> [<-|//].
have [_] := @C65_total_training_variance bool unit 2 (fun k n => nseq n k) (fun _ sh => nseq (prodn sh) 0) tt _ _ _ _ _ _ _
  None _ _ (data y) None None 1 None 1 1 2%:R (fun _ => v0) P0 (fun E => ltac:(discriminate E)) Hd ex_factor ltr01 ltr01 ltr01 ltr01
  (ltr0Sn _ 1) (fun _ => erefl) V0.
rewrite big_cons big_nil addr0 /= !mul1r mulr1 => HT.
exists v0, v1; split=> //; split=> //; first by have := H0 0%N isT; rewrite /= !mul1r mulr1.
by rewrite H1 !big_ord_recl big_ord0 /J /= expr0n expr1n divr1 mul1r add0r addr0.
Qed.
End Example.
