(** C59: the Laplace approximation as Gaussian-process regression, and its exactness for affine
    models. *)
From Coq Require Import Reals Lra String.
From mathcomp Require Import all_ssreflect all_algebra.
From Verif Require Import Base RealStruct RealSums PyTree TreeSpec Mv PyTreeProofs MvProofs TreeOpsProofs GgnSpec Ggn GgnProofs
  Posterior PosteriorSpec PosteriorProofs PosteriorTree EvalUtils Pushforward PushforwardSpec PushforwardProofs
  Likelihood PipelineSpec TreeGgn Pipeline PipelineProofs TreeMll.
From Verif Require Import StackProofs P_Ggn P_Posterior P_Pushforward P_Pipeline P_Likelihood P_Evidence P_TreeMll.
Set Implicit Arguments.
Unset Strict Implicit.
Unset Printing Implicit Defensive.
Import GRing.Theory Num.Theory Order.TTheory.
Local Open Scope ring_scope.

(** ** Specification: Gaussian-process regression *)

(** The posterior of a Gaussian process with prior mean [m0] and prior kernel [k], given the
    observations [data] with noise of variance [c]: [design data F] stacks the blocks [F x] of the
    inputs, [stack] the vectors. *)
Section Gp.
Variables (X : Type) (K : nat) (k : X -> X -> 'M[R]_K) (m0 : X -> 'cV[R]_K) (c : R)
  (data : seq (X * 'cV[R]_K)).
(** [k(x, X)] and [k(X, X)] *)
Definition kx (x : X) : 'M[R]_(K, size data * K) := (design data (fun x' => k x' x))^T.
Definition kxx : 'M[R]_(size data * K) := design data kx.
Definition gp_mean (x : X) : 'cV[R]_K :=
  m0 x + kx x *m (invmx (kxx + c%:M) *m (stack data (fun d => d.2) - stack data (fun d => m0 d.1))).
Definition gp_cov (x1 x2 : X) : 'M[R]_K :=
  k x1 x2 - kx x1 *m invmx (kxx + c%:M) *m (kx x2)^T.
End Gp.

(** ** Lemmas on matrices *)
Section Woodbury.
Variables (m P : nat) (Phi : 'M[R]_(m, P)) (s tau : R).
Hypotheses (Hs : 0 < s) (Ht : 0 < tau).
Let S := s%:M + tau^-1 *: (Phi *m Phi^T).
Let H := s^-1 *: (Phi^T *m Phi) + tau *: 1%:M.

Lemma woodbury : invmx H = tau^-1 *: 1%:M - (tau^-1 *: Phi^T) *m invmx S *m (tau^-1 *: Phi).
Proof.
have Hs0 : s != 0 by rewrite gt_eqF. have Ht0 : tau != 0 by rewrite gt_eqF.
have US : S \in unitmx by apply: spd_unit; apply: spd_S.
have UH : H \in unitmx by apply: spd_unit; apply: spd_H.
have E : H *m (tau^-1 *: Phi^T) = s^-1 *: (Phi^T *m S).
  rewrite /H /S mulmxDl mulmxDr mul_mx_scalar scalerDr scalerA mulVf // scale1r addrC.
  have -> : tau *: 1%:M *m (tau^-1 *: Phi^T) = Phi^T by rewrite -scalemxAl mul1mx scalerA mulfV // scale1r.
  by congr (_ + _); rewrite -scalemxAl -!scalemxAr mulmxA.
apply: (can_inj (mulKmx UH)); rewrite mulmxV // mulmxBr !mulmxA E.
have -> : s^-1 *: (Phi^T *m S) *m invmx S *m (tau^-1 *: Phi) = tau^-1 *: (s^-1 *: (Phi^T *m Phi)).
  by rewrite -!scalemxAl mulmxK // -!scalemxAr scalerA mulrC -scalerA.
have -> : H *m (tau^-1 *: 1%:M) = tau^-1 *: (s^-1 *: (Phi^T *m Phi)) + 1%:M.
  rewrite -scalemxAr mulmx1 /H scalerDr; congr (_ + _); by rewrite scalerA mulVf // scale1r.
by rewrite addrAC subrr add0r.
Qed.

Lemma ridge_dual (y : 'cV[R]_m) (th : 'cV[R]_P) :
  H *m th = s^-1 *: (Phi^T *m y) -> th = tau^-1 *: (Phi^T *m (invmx S *m y)).
Proof.
move=> E; have Hs0 : s != 0 by rewrite gt_eqF. have Ht0 : tau != 0 by rewrite gt_eqF.
have US : S \in unitmx by apply: spd_unit; apply: spd_S.
have UH : H \in unitmx by apply: spd_unit; apply: spd_H.
apply: (can_inj (mulKmx UH)); rewrite E.
have E' : H *m (tau^-1 *: Phi^T) = s^-1 *: (Phi^T *m S).
  rewrite /H /S mulmxDl mulmxDr mul_mx_scalar scalerDr scalerA mulVf // scale1r addrC.
  have -> : tau *: 1%:M *m (tau^-1 *: Phi^T) = Phi^T by rewrite -scalemxAl mul1mx scalerA mulfV // scale1r.
  by congr (_ + _); rewrite -scalemxAl -!scalemxAr mulmxA.
by rewrite [tau^-1 *: _]scalemxAl [H *m _]mulmxA E' -scalemxAl -mulmxA mulKVmx.
Qed.

Lemma joint_quadratic (y : 'cV[R]_m) (th th' : 'cV[R]_P) : H *m th = s^-1 *: (Phi^T *m y) ->
  dotv (Phi *m th' - y) (Phi *m th' - y) / s + tau * dotv th' th' =
  dotv (Phi *m th - y) (Phi *m th - y) / s + tau * dotv th th + dotv (th' - th) (H *m (th' - th)).
Proof.
move=> E; have Hs0 : s != 0 by rewrite gt_eqF.
have [g ->] : exists g, th' = th + g by exists (th' - th); rewrite addrCA subrr addr0.
rewrite [th + g - th]addrAC subrr add0r.
have Dh : dotv g (H *m g) = dotv (Phi *m g) (Phi *m g) / s + tau * dotv g g.
  by rewrite /H mulmxDl dotvD -scalemxAl dotvZ -mulmxA dotv_tr mulrC -[tau *: _ *m g]scalemxAl dotvZ mul1mx.
have Dg : dotv (Phi *m g) (Phi *m th - y) / s + tau * dotv g th = 0.
  have := congr1 (dotv g) E; rewrite /H mulmxDl dotvD -scalemxAl dotvZ -mulmxA dotv_tr -[tau *: _ *m th]scalemxAl dotvZ mul1mx.
  by rewrite dotvZ dotv_tr dotvB mulrBl ![_ / s]mulrC addrAC => ->; rewrite subrr.
have -> : Phi *m (th + g) - y = (Phi *m th - y) + Phi *m g by rewrite mulmxDr addrAC.
move: (Phi *m th - y) Dg => a Dg.
have -> : dotv (a + Phi *m g) (a + Phi *m g) / s + tau * dotv (th + g) (th + g) =
    dotv a a / s + tau * dotv th th + 2%:R * (dotv (Phi *m g) a / s + tau * dotv g th) + dotv g (H *m g).
  rewrite Dh !dotvD !dotvDl [dotv a (Phi *m g)]dotvC [dotv th g]dotvC.
  move: (dotv _ _) (dotv _ _) (dotv _ _) (dotv _ _) (dotv _ _) (dotv _ _) => b c d e f k.
  by numR; eqR; field; exact/eqP.
by rewrite Dg mulr0 addr0.
Qed.
End Woodbury.

(** The prior kernel [A(x) A(x')^T / tau] of a model with derivative [A]. *)
Section Kernel.
Variables (X : Type) (K P : nat) (A : X -> 'M[R]_(K, P)) (tau : R) (data : seq (X * 'cV[R]_K)).
Definition ntk (x x' : X) : 'M[R]_K := tau^-1 *: (A x *m (A x')^T).
Let Phi := design data A.

Lemma design_mulmx m (B : 'M[R]_(P, m)) : design data (fun x => A x *m B) = Phi *m B.
Proof.
apply/matrixP => i j; case/mxvec_indexP: i => i a.
rewrite !mxE mxvecE !mxE; apply: eq_bigr => p _.
by rewrite !mxE mxvecE !mxE.
Qed.
Lemma eq_design m (B C : X -> 'M[R]_(K, m)) : (forall x, B x = C x) -> design data B = design data C.
Proof. by move=> E; apply/matrixP => i j; case/mxvec_indexP: i => i a; rewrite !mxE !mxvecE !mxE E. Qed.
Lemma eq_gp_cov (k k' : X -> X -> 'M[R]_K) c x1 x2 : (forall x y, k x y = k' x y) ->
  gp_cov k c data x1 x2 = gp_cov k' c data x1 x2.
Proof.
move=> E; have E1 x : kx k data x = kx k' data x by rewrite /kx; congr trmx; apply: eq_design => y; apply: E.
by rewrite /gp_cov /kxx (eq_design E1) !E1 E.
Qed.
Lemma kx_ntk x : kx ntk data x = tau^-1 *: (A x *m Phi^T).
Proof.
rewrite /kx; have -> : design data (fun x' => ntk x' x) = Phi *m (tau^-1 *: (A x)^T).
  by rewrite -design_mulmx; apply: eq_design => x'; rewrite /ntk scalemxAr.
by rewrite trmx_mul linearZ /= trmxK scalemxAl.
Qed.
Lemma kxx_ntk : kxx ntk data = tau^-1 *: (Phi *m Phi^T).
Proof.
rewrite /kxx; have -> : design data (kx ntk data) = Phi *m (tau^-1 *: Phi^T).
  by rewrite -design_mulmx; apply: eq_design => x'; rewrite kx_ntk scalemxAr.
by rewrite scalemxAr.
Qed.
Lemma gp_covE c x1 x2 : 0 < c -> 0 < tau ->
  gp_cov ntk c data x1 x2 = A x1 *m invmx (c^-1 *: (Phi^T *m Phi) + tau *: 1%:M) *m (A x2)^T.
Proof.
move=> Hc Ht; rewrite woodbury // /gp_cov !kx_ntk kxx_ntk [_ + c%:M]addrC.
rewrite mulmxBr mulmxBl; congr (_ - _).
  by rewrite /ntk -scalemxAr -scalemxAl mulmx1.
by rewrite [in LHS]linearZ /= trmx_mul trmxK -!scalemxAr -!scalemxAl !mulmxA -!scalemxAr -?scalemxAl -?mulmxA.
Qed.
End Kernel.

(** ** C59: any model, squared error *)
Section Mse.
Variables (X : Type) (K : nat).
Variable model_fn : X -> tree (arr R) -> res (arr R).
Variables ad_jvp ad_vjp : X -> tree (arr R) -> res (tree (arr R)).
Variables (t : tree (arr R)) (data : seq (X * arr R)) (nc nt : option nat) (f : R).
Variables (pred : X -> arr R) (J : X -> nat -> nat -> R) (s2 : option R) (tau lsf : R).
Let n := get_size t.
(** The training data as vectors, the prior kernel [J(x) J(x')^T / tau] and the noise variance
    [1 / (2 f sigma^2)] that the squared error amounts to. *)
Definition vector_data (d : seq (X * arr R)) : seq (X * 'cV[R]_K) := [seq (p.1, cv_of K (adata p.2)) | p <- d].
Definition jacobian_at (x : X) : 'M[R]_(K, n) := of_entries K n (J x).
Definition noise (g : R) : R := (2%:R * g * odflt 1 s2)^-1.
Let D := vector_data data.
Let Phi := design D jacobian_at.
Let prec := posterior_precision (ggn_matrix K n "mse" f pred J data) (odflt 1 s2) tau lsf.

Lemma mse_gram : ggn_matrix K n "mse" f pred J data = (2%:R * f) *: (Phi^T *m Phi).
Proof.
apply/matrixP => i j; have E := congr1 (fun v : 'cV_n => v i ord0) (gramE D jacobian_at (delta_mx j ord0)).
rewrite mulmxA -colE -/Phi in E.
have E' : (Phi^T *m Phi) i j = \sum_(d <- data) ((jacobian_at d.1)^T *m jacobian_at d.1) i j.
  transitivity ((\sum_(d <- D) (jacobian_at d.1)^T *m (jacobian_at d.1 *m delta_mx j ord0 : 'cV_K)) i ord0).
    by rewrite -E [RHS]mxE.
  rewrite summxE big_map; apply: eq_bigr => d _.
  by rewrite mulmxA -colE mxE.
rewrite [RHS]mxE E' /ggn_matrix mxE summxE -[2%:R * f]mulrC -mulrA; congr (_ * _).
rewrite mulr_sumr; apply: eq_bigr => d _.
by rewrite /loss_hessian /= -/(jacobian_at d.1) mul_mx_scalar -scalemxAl mxE.
Qed.

Hypotheses (Hf : 0 < f) (Hs2 : 0 < odflt 1 s2) (Ht : 0 < tau) (Hl : 0 < lsf).
Lemma noise_gt0 : 0 < noise f.
Proof. by rewrite invr_gt0 !mulr_gt0 ?ltr0n. Qed.

Lemma mse_cov : invmx prec = lsf *: invmx ((noise f)^-1 *: (Phi^T *m Phi) + tau *: 1%:M).
Proof.
rewrite /prec /posterior_precision mse_gram scalerA /noise invrK [odflt 1 s2 * _]mulrC.
have U : (2%:R * f * odflt 1 s2 *: (Phi^T *m Phi) + tau *: 1%:M : 'M[R]_n) \in unitmx.
  by apply: spd_unit; have := spd_H Phi noise_gt0 Ht; rewrite /noise invrK.
by rewrite invmxZ ?invrK // unitmxZ // unitfE invr_eq0 gt_eqF.
Qed.

Lemma mse_gp x1 x2 (i j : 'I_K) :
  cov_entry n (J x1) (entry (invmx prec)) (J x2) i j = (lsf *: gp_cov (ntk jacobian_at tau) (noise f) D x1 x2) i j.
Proof.
rewrite cov_entryE -/(jacobian_at x1) -/(jacobian_at x2) mse_cov gp_covE //; last exact: noise_gt0.
by rewrite -scalemxAr -scalemxAl.
Qed.
End Mse.

(** The posterior kernel that laplax builds from the "mse" GGN is the posterior kernel of
    Gaussian-process regression with prior kernel [J(x) J(x')^T / tau] on the training inputs, with
    noise of variance [1 / (2 f sigma^2)] ([f] the scaling factor of the curvature), times the loss
    scaling factor. *)
Theorem C59_gp_kernel :
  forall (X Key : Type) (K : nat) split normal (key0 : Key) model_fn ad_jvp ad_vjp (t : tree (arr R))
    (data : seq (X * arr R)) nc nt f pred J s2 tau lsf layout kw,
  let n := get_size t in
  let cov x1 x2 := lsf *: gp_cov (ntk (jacobian_at K t J) tau) (noise s2 f) (vector_data K data) x1 x2 in
  (0 < n)%N -> curv_scaling_factor nc nt (size data) = Ok f -> 0 < f ->
  (forall d, List.In d data -> sample_ok K model_fn ad_jvp ad_vjp t pred J d) ->
  0 < odflt 1 s2 -> 0 < tau -> 0 < lsf ->
  exists ps kernel ds dense ds',
    [/\ laplace_posterior K model_fn ad_jvp ad_vjp t data "mse" nc nt s2 lsf tau = Ok ps,
        set_posterior_gp_kernel split normal key0 model_fn ad_jvp ad_vjp t ps false layout kw =
          Ok (KernelMv kernel, ds),
        set_posterior_gp_kernel split normal key0 model_fn ad_jvp ad_vjp t ps true (Some (LInt [rcfType of R] K)) kw =
          Ok (KernelDense dense, ds') &
        forall x1 x2,
          (forall x, x = x1 \/ x = x2 -> [/\ model_fn x t = Ok (pred x), ashape (pred x) = [:: K] &
             is_jacobian (J x) t (pred x) (ad_jvp x) (ad_vjp x)]) ->
          acts_as (entry (cov x1 x2)) (Leaf (pred x2)) (Leaf (pred x1)) (fun v => kernel v x1 x2 ds) /\
          ((0 < K)%N -> exists2 l, dense x1 x2 = Ok (Leaf (Arr [:: K; K] l)) &
             forall a b : 'I_K, nth 0 l (a * K + b) = cov x1 x2 a b)].
Proof.
move=> X Key K split normal key0 model_fn ad_jvp ad_vjp t data nc nt f pred J s2 tau lsf layout kw n cov
  n0 Hf Hf0 Hd Hs2 Ht Hl.
have [ps [L [E1 E3 _ _ _]]] := @C49_laplace_posterior X K model_fn ad_jvp ad_vjp t data "mse" nc nt f pred J s2 tau lsf
  n0 (or_introl erefl) Hf Hd (ltW Hs2) Ht Hl.
have [kernel [ds [E4 H4]]] := @C42_kernel_mv _ X Key split normal key0 model_fn ad_jvp ad_vjp t ps layout kw.
have [dense [ds' [E5 H5]]] := @C42_kernel_dense _ X Key split normal key0 model_fn ad_jvp ad_vjp t ps kw K.
exists ps, kernel, ds, dense, ds'; split=> // x1 x2 Hx.
have [M1 S1 J1] := Hx x1 (or_introl erefl); have [M2 S2 J2] := Hx x2 (or_intror erefl).
have EC (a b : 'I_K) := @mse_gp X K t data f pred J s2 tau lsf Hf0 Hs2 Ht Hl x1 x2 a b.
have HA := acts_mx_as E3.
split.
  move=> u W S; have [w [Ew Sw Ww Dw]] := H4 x1 x2 _ _ _ _ _ M2 J1 J2 HA u W S.
  exists w; split=> //; rewrite Dw /matvec; apply/eq_in_map => i.
  rewrite (nentries_leaf1 S1) (nentries_leaf1 S2) mem_iota => /andP [_ Hi].
  apply: eq_big_nat => j /andP [_ Hj]; congr (_ * _).
  by rewrite -[i]/(nat_of_ord (Ordinal Hi)) -[j]/(nat_of_ord (Ordinal Hj)) EC entryE.
move=> K0; have E := H5 x1 x2 _ _ _ _ _ _ S1 S2 K0 M2 J1 J2 HA.
eexists; first exact: E.
move=> a b; rewrite -EC.
rewrite (@nth_flatten_const _ _ _ K) ?size_map ?size_iota //; last first.
  by move=> a' Ha; rewrite (nth_map 0%N) ?size_iota // size_map size_iota.
by rewrite (nth_map 0%N) ?size_iota // nth_iota // (nth_map 0%N) ?size_iota // nth_iota.
Qed.
Print Assumptions C59_gp_kernel.

(** ** C59: models affine in their parameters *)

(** The array of a vector. *)
Definition vec_arr (K : nat) (v : 'cV[R]_K) : arr R := Arr [:: K] [seq v i ord0 | i <- enum 'I_K].
Lemma vec_arrK K (v : 'cV[R]_K) : cv_of K (adata (vec_arr v)) = v.
Proof. by apply/colP => i; rewrite mxE (nth_map i) ?size_enum_ord ?ltn_ord // nth_ord_enum. Qed.
Lemma vec_arr_wf K (v : 'cV[R]_K) : wf_arr (vec_arr v).
Proof. by rewrite /wf_arr /= size_map size_enum_ord muln1. Qed.

(** On parameters of the layout of [t] the model is [A(x) theta + b(x)], [theta] the vector of all
    entries, and its derivative is [A(x)]. *)
Definition affine_model (X : Type) (K : nat) (t : tree (arr R)) (A : X -> 'M[R]_(K, get_size t)) (b : X -> 'cV[R]_K)
    (model_fn : X -> tree (arr R) -> res (arr R)) ad_jvp ad_vjp : Prop :=
  (forall x u, wf_tree u -> same_layout t u ->
     model_fn x u = Ok (vec_arr (A x *m cv_of (get_size t) (entries u) + b x))) /\
  (forall x out, ashape out = [:: K] -> is_jacobian (entry (A x)) t out (ad_jvp x) (ad_vjp x)).

(** [t] is a most probable parameter under the joint density that laplax evaluates, for noise variance
    [s] and prior precision [tau]. *)
Definition is_map (X : Type) (model_fn : X -> tree (arr R) -> res (arr R)) (t : tree (arr R)) (pa : mll_prior)
    (data : seq (X * arr R)) : Prop :=
  forall ff u l l', tree_full_fn model_fn (TLossStr "mse") = Ok ff -> wf_tree u -> same_layout t u ->
    tree_joint_log_likelihood ff pa t data = Ok l -> tree_joint_log_likelihood ff pa u data = Ok l' -> l' <= l.

Section Affine.
Variables (X : Type) (K : nat).
Variable model_fn : X -> tree (arr R) -> res (arr R).
Variables ad_jvp ad_vjp : X -> tree (arr R) -> res (tree (arr R)).
Variable t : tree (arr R).
Let n := get_size t.
Variables (A : X -> 'M[R]_(K, n)) (b : X -> 'cV[R]_K).
Variables (data : seq (X * arr R)) (nc nt : option nat) (f s tau : R).
Let D := vector_data K data.
Let Phi := design D A.
Let y := stack D (fun d => d.2) - stack D (fun d => b d.1).
Let H := s^-1 *: (Phi^T *m Phi) + tau *: 1%:M.
Let q th := dotv (Phi *m th - y) (Phi *m th - y) / s + tau * dotv th th.
(** Prior precision [tau]; the noise variance [s] is handed over twice, for the joint density as
    [sigma], for the posterior as [sigma_squared = 1 / (2 f s)]. *)
Let pa := MllPrior (@PriorArguments [rcfType of R] (Some tau) (Some (2%:R * f * s)^-1)) (Some s).

Hypothesis n0 : (0 < n)%N.
Hypothesis Wt : wf_tree t.
Hypothesis HA : affine_model A b model_fn ad_jvp ad_vjp.
Hypothesis HD : forall d, List.In d data -> ashape d.2 = [:: K] /\ wf_arr d.2.
Hypotheses (Hs : 0 < s) (Ht : 0 < tau).

Lemma affine_joint u : wf_tree u -> same_layout t u ->
  forall ff, tree_full_fn model_fn (TLossStr "mse") = Ok ff ->
  tree_joint_log_likelihood ff pa u data =
  Ok (- 2%:R^-1 * q (cv_of n (entries u)) - 2%:R^-1 * n%:R * (ln (2%:R * PI) - ln tau)).
Proof.
move=> Wu Su ff [<-]; have [HM _] := HA.
have Lu : leaves u <> [::].
  by move=> E; move: n0; case: Su => _; rewrite /n /get_size E; case: (leaves t).
have Nu : get_size u = n by rewrite /n !get_sizeE (nentries_same Su).
pose pred x := vec_arr (A x *m cv_of n (entries u) + b x).
rewrite /tree_joint_log_likelihood full_flattenE //; cbn [bind].
rewrite (@mse_fullE X K model_fn u pred); last first.
  move=> d Hd; have [S1 W1] := HD Hd; split=> //; [exact: HM|exact: vec_arr_wf].
rewrite /=; congr Ok.
have -> : sse K pred data = dotv (Phi *m cv_of n (entries u) - y) (Phi *m cv_of n (entries u) - y).
  rewrite /Phi /y -mse_stack foldr_sum big_map big_map /sse; apply: eq_bigr => d _; apply: eq_bigr => k _ /=.
  by rewrite !mxE; congr ((_ - _) ^+ 2); have := congr1 (fun v : 'cV_K => v k ord0) (vec_arrK (A d.1 *m cv_of n (entries u) + b d.1)); rewrite !mxE.
have Eu : size (entries u) = n by rewrite size_entries // -Nu.
rewrite foldr_sum big_map (@sum_cv _ n) // -dotv_sqr addrA.
congr (_ + _); last by rewrite Nu !mulNr.
rewrite /q mulrDr mulrA; congr (_ + _); last by rewrite mulrA.
by rewrite div1r invfM !mulNr mulrAC.
Qed.

Hypothesis Hmap : is_map model_fn t pa data.

Lemma map_normal : H *m cv_of n (entries t) = s^-1 *: (Phi^T *m y).
Proof.
apply: max_normal_equations => // th'; rewrite -!/(q _).
have L0 : leaves t <> [::] by move=> E; move: n0; rewrite /n /get_size E.
have Sz : size [seq th' i ord0 | i <- enum 'I_n] = nentries t by rewrite size_map size_enum_ord /n get_sizeE.
have [u [_ Su Wu Eu]] := unflatten_ok L0 Sz.
have [ff Eff] : exists ff, tree_full_fn model_fn (TLossStr "mse") = Ok ff by eexists.
have := Hmap Eff Wu Su (affine_joint Wt (same_layout_refl t) Eff) (affine_joint Wu Su Eff).
rewrite ler_add2r !mulNr ler_opp2 ler_pmul2l ?invr_gt0 ?ltr0n // Eu.
by rewrite -[[seq _ | _ <- _]]/(adata (vec_arr th')) vec_arrK.
Qed.

Hypothesis Hnc : curv_scaling_factor nc nt (size data) = Ok f.
Hypothesis Hf : 0 < f.

Lemma affine_samples : forall d, List.In d data ->
  sample_ok K model_fn ad_jvp ad_vjp t (fun x => vec_arr (A x *m cv_of n (entries t) + b x)) (fun x => entry (A x)) d.
Proof.
have [HM HJ] := HA; move=> d _; split=> //.
- exact: HM.
- exact: vec_arr_wf.
- exact: HJ.
Qed.

Lemma affine_noise : noise (Some (2%:R * f * s)^-1) f = s.
Proof.
have Hs0 : s != 0 by rewrite gt_eqF. have Hf0 : f != 0 by rewrite gt_eqF.
have H2 : 2%:R * f != 0 by rewrite mulf_neq0 // pnatr_eq0.
rewrite /noise /=; have -> : 2%:R * f * (2%:R * f * s)^-1 = s^-1.
  by move: (2%:R * f) H2 => g Hg; rewrite invfM mulVKf.
by rewrite invrK.
Qed.
Lemma affine_jacobian x : jacobian_at K t (fun x => entry (A x)) x = A x.
Proof. exact: of_entriesK. Qed.
End Affine.

(** The posterior that laplax returns is the exact one: the joint density that laplax evaluates is, at
    every parameter, evidence times the normal density with the trained parameters as mean and the
    returned covariance operator as covariance (up to the constant of C56). *)
Theorem C59_exact_posterior :
  forall (X : Type) (K : nat) model_fn ad_jvp ad_vjp (t : tree (arr R)) (A : X -> 'M[R]_(K, get_size t)) b
    (data : seq (X * arr R)) nc nt f s tau,
  let n := get_size t in
  let s2 := (2%:R * f * s)^-1 in
  let pa := MllPrior (@PriorArguments [rcfType of R] (Some tau) (Some s2)) (Some s) in
  let D := vector_data K data in
  (0 < n)%N -> wf_tree t -> affine_model A b model_fn ad_jvp ad_vjp ->
  (forall d, List.In d data -> ashape d.2 = [:: K] /\ wf_arr d.2) ->
  curv_scaling_factor nc nt (size data) = Ok f -> 0 < f -> 0 < s -> 0 < tau ->
  is_map model_fn t pa data ->
  exists ps Sigma,
    [/\ laplace_posterior K model_fn ad_jvp ad_vjp t data "mse" nc nt (Some s2) 1 tau = Ok ps,
        acts_mx Sigma (ps_cov_mv ps), spd Sigma &
        forall ff u, tree_full_fn model_fn (TLossStr "mse") = Ok ff -> wf_tree u -> same_layout t u ->
          tree_joint_log_likelihood ff pa u data =
          Ok (log_evidence D A b s tau + (size D * K)%:R / 2%:R * ln (2%:R * PI * s) +
              log_normal_density (cv_of n (entries t)) Sigma (cv_of n (entries u)))].
Proof.
move=> X K model_fn ad_jvp ad_vjp t A b data nc nt f s tau n s2 pa D n0 Wt HA HD Hnc Hf Hs Ht Hmap.
have Hs2 : 0 < odflt 1 (Some s2) by rewrite /= invr_gt0 !mulr_gt0 ?ltr0n.
pose pred x := vec_arr (A x *m cv_of n (entries t) + b x).
have HS := @affine_samples _ _ _ _ _ _ _ _ data Wt HA; rewrite -/pred in HS.
have [ps [L [E1 E2 _ _ SP]]] := @C49_laplace_posterior X K model_fn ad_jvp ad_vjp t data "mse" nc nt f pred
   (fun x => entry (A x)) (Some s2) tau 1 n0 (or_introl erefl) Hnc HS (ltW Hs2) Ht ltr01.
pose Phi := design D A; pose H := s^-1 *: (Phi^T *m Phi) + tau *: 1%:M.
pose y := stack D (fun d => d.2) - stack D (fun d => b d.1).
have EH : posterior_precision (ggn_matrix K n "mse" f pred (fun x => entry (A x)) data) (odflt 1 (Some s2)) tau 1 = H.
  rewrite /posterior_precision mse_gram invr1 scale1r scalerA.
  have -> : design (vector_data K data) (jacobian_at K t (fun x => entry (A x))) = Phi.
    by apply: eq_design => x; apply: affine_jacobian.
  congr (_ *: _ + _); have := affine_noise Hs Hf; rewrite /noise -/s2 [odflt _ _ * _]mulrC => /(congr1 (@GRing.inv _)).
  by rewrite invrK.
rewrite EH in E2 SP; have UH := spd_unit SP.
have EN : H *m cv_of n (entries t) = s^-1 *: (Phi^T *m y) := map_normal n0 Wt HA HD Hs Ht Hmap.
exists ps, (invmx H); split=> //.
  split; first by rewrite /symmetric trmx_inv; case: SP => ->.
  move=> v Hv; have [_ P] := SP.
  have := P (invmx H *m v); rewrite mulKVmx // dotvC; apply.
  by apply/eqP => E; move/eqP: Hv; apply; rewrite -[v](mulKVmx UH) E mulmx0.
move=> ff u Eff Wu Su; rewrite (affine_joint f s tau n0 HA HD Wu Su Eff) -/D -/Phi -/y.
congr Ok; rewrite (joint_quadratic _ _ EN) // -/H.
rewrite /log_evidence /log_normal_density -/Phi -/y evidence_det // -/H -(evidence_exponent Hs Ht EN) invmxK.
have DH := spd_det_gt0 SP.
have T1 : 0 < 2%:R * PI :> R by apply: tpi_gt0.
have T2 : 0 < 2%:R * PI * s by rewrite mulr_gt0.
have T3 : 0 < (2%:R * PI * s) ^+ (size D * K) by rewrite exprn_gt0.
have T4 : 0 < tau ^- n by rewrite invr_gt0 exprn_gt0.
have -> : ln (\det ((2%:R * PI) *: invmx H)) = n%:R * ln (2%:R * PI) - ln (\det H).
  have DI : 0 < (\det H)^-1 by rewrite invr_gt0.
  have DX : 0 < (2%:R * PI) ^+ n :> R by rewrite exprn_gt0.
  by rewrite detZ det_inv (lnM DX DI) (lnX _ T1) (lnV DH).
rewrite [ln (_ * _ * \det _)]lnM ?mulr_gt0 // [ln (_ * tau ^- n)]lnM // [ln (_ ^+ _)]lnX // lnV ?exprn_gt0 //.
rewrite [ln (tau ^+ _)]lnX //.
move: (ln (\det _)) (ln (2%:R * PI * s)) (ln (2%:R * PI)) (ln tau) => d1 d2 d3 d4.
move: (dotv _ _ / s) (tau * _) (dotv (_ - _) (H *m _)) => e1 e2 e3.
move: (n%:R : R) ((size D * K)%:R : R) => p m; numR; eqR; field.
Qed.
Print Assumptions C59_exact_posterior.

(** So the predictive distribution is that of Gaussian-process regression: mean, covariance, variance
    and standard deviation at every test point, in whatever selection and order. *)
Theorem C59_exact_predictive :
  forall (X Key : Type) (K : nat) split normal key0 model_fn ad_jvp ad_vjp (t : tree (arr R))
    (A : X -> 'M[R]_(K, get_size t)) b (data : seq (X * arr R)) nc nt f s tau (key : option Key) kw ops x,
  let n := get_size t in
  let s2 := (2%:R * f * s)^-1 in
  let pa := MllPrior (@PriorArguments [rcfType of R] (Some tau) (Some s2)) (Some s) in
  let D := vector_data K data in
  let mu := gp_mean (ntk A tau) b s D x in
  let cov := gp_cov (ntk A tau) s D x x in
  (0 < n)%N -> wf_tree t -> affine_model A b model_fn ad_jvp ad_vjp ->
  (forall d, List.In d data -> ashape d.2 = [:: K] /\ wf_arr d.2) ->
  curv_scaling_factor nc nt (size data) = Ok f -> 0 < f -> 0 < s -> 0 < tau ->
  is_map model_fn t pa data -> (0 < K)%N ->
  odflt 0%N (kw_num_samples kw) = 0%N -> SSamples \notin ops ->
  exists r,
    [/\ laplace_predictive K split normal key0 model_fn ad_jvp ad_vjp t data "mse" nc nt (Some s2) tau 1 key
          (@lin_setup [rcfType of R] X :: [seq stat_fn o | o <- ops]) kw x = Ok r,
        r_map r = vec_arr mu,
        r_pred_mean r = (if ops is [::] then None else Some (vec_arr mu)),
        (if SCov \in ops then
           exists c, [/\ r_pred_cov r = Some c, ashape c = [:: K; K] &
             forall i j : 'I_K, aget c [:: i : nat; j : nat] = cov i j]
         else r_pred_cov r = None) &
        r_pred_var r = (if (SVar \in ops) || (SStd \in ops) then Some (vec_arr (\col_i cov i i)) else None) /\
        r_pred_std r = (if SStd \in ops then Some (vec_arr (\col_i Num.sqrt (cov i i))) else None)].
Proof.
move=> X Key K split normal key0 model_fn ad_jvp ad_vjp t A b data nc nt f s tau key kw ops x n s2 pa D mu cov
  n0 Wt HA HD Hnc Hf Hs Ht Hmap K0 HN Hops.
have Hs2 : 0 < odflt 1 (Some s2) by rewrite /= invr_gt0 !mulr_gt0 ?ltr0n.
pose pred x := vec_arr (A x *m cv_of n (entries t) + b x).
have HS := @affine_samples _ _ _ _ _ _ _ _ data Wt HA; rewrite -/pred in HS; have [HM HJ] := HA.
have [|||r E [R1 R2 R3 R4 R5]] := @C49_laplace_predictive X Key K split normal key0 model_fn ad_jvp ad_vjp t data "mse"
  nc nt f pred (fun x => entry (A x)) (Some s2) tau 1 key kw ops x n0 (or_introl erefl) Hnc HS (ltW Hs2) Ht ltr01
  (HM x t Wt (same_layout_refl t)) _ _ HN Hops.
- by rewrite /= muln1.
- exact: HJ.
- by left.
have Emu : pred x = vec_arr mu.
  rewrite /pred /mu /gp_mean addrC; congr (vec_arr (_ + _)).
  have EN := map_normal n0 Wt HA HD Hs Ht Hmap; rewrite -/D in EN.
  by rewrite [in LHS](ridge_dual Hs Ht EN) kx_ntk kxx_ntk -scalemxAr -scalemxAl mulmxA [s%:M + _]addrC.
have EC (i j : 'I_K) : cov_entry n (entry (A x)) (entry (invmx (posterior_precision (ggn_matrix K n "mse" f pred
    (fun x => entry (A x)) data) (odflt 1 (Some s2)) tau 1))) (entry (A x)) i j = cov i j.
  have En : noise (Some s2) f = s := affine_noise Hs Hf.
  rewrite (@mse_gp X K t data f pred (fun x => entry (A x)) (Some s2) tau 1) ?ltr01 // [noise _ _]En scale1r.
  have -> : gp_cov (ntk (jacobian_at K t (fun x => entry (A x))) tau) s (vector_data K data) x x = cov; last by [].
  by apply: eq_gp_cov => y z; rewrite /ntk !affine_jacobian.
exists r; split=> //; first by rewrite R1.
- by rewrite R2 Emu.
- case: ifP R3 => // _ [c [E1 E2 E3]]; exists c; split=> //; first by rewrite E2 /= muln1.
  move=> i j; rewrite -EC.
  have := E3 j [:: (i : nat)]; rewrite /= muln1 => -> //; first by rewrite /ravel_idx /= ?muln1 ?addn0.
  by rewrite /valid_idx /= ltn_ord.
have Ed (g : R -> R) : [seq g (cov_entry n (entry (A x)) (entry (invmx (posterior_precision (ggn_matrix K n "mse" f pred
    (fun x => entry (A x)) data) (odflt 1 (Some s2)) tau 1))) (entry (A x)) i i) | i <- iota 0 (prodn [:: K])] =
    adata (vec_arr (\col_i g (cov i i))).
  by rewrite /= muln1 -val_enum_ord -map_comp; apply: eq_map => a /=; rewrite EC mxE.
split.
  rewrite R4; case: ifP => // _; congr Some; rewrite -/n; have := Ed id; rewrite /vec_arr => ->; congr Arr.
rewrite R5; case: ifP => // _; congr Some; have := Ed Num.sqrt; rewrite /vec_arr => ->; congr Arr.
Qed.
Print Assumptions C59_exact_predictive.

(** Hypotheses met: for every layout of parameters, every [A], [b] and data set, there is an affine
    model with a most probable parameter of that layout. *)
Example C59_hypotheses_met :
  forall (X : Type) (K : nat) (t0 : tree (arr R)) (a : X -> nat -> nat -> R) b (data : seq (X * arr R)) f s tau,
  (0 < get_size t0)%N -> (forall d, List.In d data -> ashape d.2 = [:: K] /\ wf_arr d.2) -> 0 < s -> 0 < tau ->
  exists (t : tree (arr R)) model_fn ad_jvp ad_vjp,
    [/\ same_layout t0 t, wf_tree t,
        affine_model (fun x => of_entries K (get_size t) (a x)) b model_fn ad_jvp ad_vjp &
        is_map model_fn t (MllPrior (@PriorArguments [rcfType of R] (Some tau) (Some (2%:R * f * s)^-1)) (Some s)) data].
Proof.
move=> X K t0 a b data f s tau n0 HD Hs Ht.
pose D := vector_data K data.
pose Phi n := design D (fun x => of_entries K n (a x)).
pose H n := s^-1 *: ((Phi n)^T *m Phi n) + tau *: 1%:M.
pose y := stack D (fun d => d.2) - stack D (fun d => b d.1).
pose n := get_size t0; pose th := invmx (H n) *m (s^-1 *: ((Phi n)^T *m y)).
have L0 : leaves t0 <> [::] by move=> E; move: n0; rewrite /get_size E.
have Sz : size (adata (vec_arr th)) = nentries t0 by rewrite size_map size_enum_ord /n get_sizeE.
have [t [_ St Wt Et]] := unflatten_ok L0 Sz.
have En : get_size t = n by rewrite /n !get_sizeE (nentries_same St).
have EN : H (get_size t) *m cv_of (get_size t) (entries t) = s^-1 *: ((Phi (get_size t))^T *m y).
  by rewrite Et En vec_arrK mulKVmx // spd_unit //; apply: spd_H.
have nt : (0 < get_size t)%N by rewrite En.
have Lt : leaves t <> [::] by move=> E; move: nt; rewrite /get_size E.
pose A x := of_entries K (get_size t) (a x).
pose mv (B : nat -> nat -> R) m l u := matvec B m l (entries u).
exists t, (fun x u => Ok (vec_arr (A x *m cv_of (get_size t) (entries u) + b x))),
  (fun x u => Ok (Leaf (Arr [:: K] (mv (entry (A x)) K (nentries t) u)))),
  (fun x v => pytree_unflatten t (mv (fun p c => entry (A x) c p) (nentries t) K v)).
have HA : affine_model A b (fun x u => Ok (vec_arr (A x *m cv_of (get_size t) (entries u) + b x)))
  (fun x u => Ok (Leaf (Arr [:: K] (mv (entry (A x)) K (nentries t) u))))
  (fun x v => pytree_unflatten t (mv (fun p c => entry (A x) c p) (nentries t) K v)).
  split=> // x out So; have Eo := nentries_leaf1 So; split=> u Wu Su.
    exists (Leaf (Arr [:: K] (mv (entry (A x)) K (nentries t) u))); split=> //.
    - by split; rewrite //= So.
    - by rewrite /wf_tree /= andbT /wf_arr /= /mv /matvec size_map size_iota muln1.
    - by rewrite Eo /entries /= cats0.
  have Sz' : size (mv (fun p c => entry (A x) c p) (nentries t) K u) = nentries t.
    by rewrite /mv /matvec size_map size_iota.
  have [w [-> Sw Ww Ew]] := unflatten_ok Lt Sz'; exists w; split=> //.
  by rewrite Ew Eo.
split=> // ff u l l' Eff Wu Su.
rewrite (affine_joint f s tau nt HA HD Wt (same_layout_refl t) Eff) => -[<-].
rewrite (affine_joint f s tau nt HA HD Wu Su Eff) => -[<-].
rewrite ler_add2r !mulNr ler_opp2 ler_pmul2l ?invr_gt0 ?ltr0n //.
exact: (normal_equations_min Hs Ht EN).
Qed.
