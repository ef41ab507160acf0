(** Property C49, user-supplied losses: the workflow with a loss function instead of a named loss. *)
From Coq Require Import Reals Lra String.
From mathcomp Require Import all_ssreflect all_algebra.
From Verif Require Import Base RealStruct RealSums PyTree TreeSpec Mv PyTreeProofs MvProofs
  TreeOpsProofs GgnSpec Ggn GgnProofs Posterior PosteriorSpec PosteriorProofs PosteriorTree
  EvalUtils Pushforward PushforwardSpec PushforwardProofs PipelineSpec TreeGgn Pipeline PipelineProofs
  PipelineApprox.
From Verif Require Import P_Ggn P_Posterior P_Pushforward P_Pipeline P_Monotone P_PipelineApprox.
Set Implicit Arguments.
Unset Strict Implicit.
Unset Printing Implicit Defensive.
Import GRing.Theory Num.Theory Order.TTheory.
Local Open Scope ring_scope.

(** [f * sum_d J_d^T H(y_d, z_d) J_d]: [H y z] is the Hessian of the loss in the prediction, at
    prediction [z] and target [y]. *)
Definition custom_ggn_matrix (X : Type) (K n : nat) (H : 'cV[R]_K -> 'cV[R]_K -> 'M[R]_K) (f : R) (pred : X -> arr R)
    (J : X -> nat -> nat -> R) (data : seq (X * arr R)) : 'M[R]_n :=
  f *: \sum_(d <- data) ((of_entries K n (J d.1))^T *m H (cv_of K (adata d.2)) (cv_of K (adata (pred d.1)))
                         *m of_entries K n (J d.1)).

Section Custom.
Variables (X : Type) (K : nat).
Variables (model_fn : X -> tree (arr R) -> res (arr R)) (ad_jvp ad_vjp : X -> tree (arr R) -> res (tree (arr R))).
Variables (t : tree (arr R)) (pred : X -> arr R) (J : X -> nat -> nat -> R).
Variable H : 'cV[R]_K -> 'cV[R]_K -> 'M[R]_K.
Notation n := (get_size t).

Lemma reads_target (h : 'cV[R]_K -> 'cV[R]_K -> 'cV[R]_K -> 'cV[R]_K) (f : R) u data : (forall d, List.In d data -> size (adata d.2) = K) ->
  tree_ggn_mv model_fn ad_jvp ad_vjp t (hessian_on_arrays true h) f u data =
  tree_ggn_mv model_fn ad_jvp ad_vjp t (hessian_on_arrays false h) f u data.
Proof.
move=> Hy; rewrite /tree_ggn_mv.
suff -> : mapM (ggn_sample model_fn ad_jvp ad_vjp t (hessian_on_arrays true h) u) data =
    mapM (ggn_sample model_fn ad_jvp ad_vjp t (hessian_on_arrays false h) u) data by [].
elim: data Hy => [//|d data IH] Hy; rewrite /= IH; last by move=> e He; apply: Hy; right.
have -> // : ggn_sample model_fn ad_jvp ad_vjp t (hessian_on_arrays true h) u d =
    ggn_sample model_fn ad_jvp ad_vjp t (hessian_on_arrays false h) u d.
rewrite /ggn_sample; case: (model_fn d.1 t) => //= z; case: (ad_jvp d.1 u) => //= jv.
suff -> : hessian_on_arrays true h jv z d.2 = hessian_on_arrays false h jv z d.2 by [].
rewrite /hessian_on_arrays (Hy d) ?eqxx; last by left.
by case: jv => [[[|k [|? ?]] e]|] //; rewrite orTb orbT.
Qed.

(** The data: 1-D predictions of length [K] and targets with [K] entries. *)
Definition custom_ok (data : seq (X * arr R)) : Prop :=
  data_ok K model_fn ad_jvp ad_vjp t pred J data /\ (forall d, List.In d data -> size (adata d.2) = K).

(** C49.  The GGN operator of a user-supplied loss on PyTrees is multiplication with that matrix; unlike
    for the named losses, target by target. *)
Theorem C49_custom_loss_ggn data nc nt f :
  curv_scaling_factor nc nt (size data) = Ok f -> custom_ok data ->
  exists mv, tree_create_ggn_mv model_fn ad_jvp ad_vjp t data (LossCallable H) nc nt = Ok mv /\
    acts_mx (custom_ggn_matrix n H f pred J data) mv.
Proof.
move=> Hf [Hd Hy]; rewrite /tree_create_ggn_mv Hf /= /tree_create_ggn_mv_without_data /=.
eexists; split; first by [].
move=> u W S; have [w [E Sw Ww Ew]] := tree_ggn_mvP (fun jv z y => H y z *m jv) f Hd W S.
exists w; split=> //; first by rewrite reads_target.
rewrite Ew /custom_ggn_matrix -scalemxAl mulmx_suml; congr (_ *: _).
by apply: eq_bigr => d _; rewrite !mulmxA.
Qed.

Lemma custom_ggn_psd data f : 0 <= f ->
  (forall d, List.In d data -> psd (R := RR) (H (cv_of K (adata d.2)) (cv_of K (adata (pred d.1))))) ->
  psd (R := RR) (custom_ggn_matrix n H f pred J data).
Proof.
move=> Hf Hp; apply: psd_scale => //; elim: data Hp => [|d data IH] Hp; first by rewrite big_nil; apply: psd0.
rewrite big_cons; apply: psd_add; last by apply: IH => e He; apply: Hp; right.
by apply: psd_congr; apply: Hp; left.
Qed.

(** With a loss convex in the prediction at the data (positive semidefinite Hessians) the full posterior
    is the Gaussian with that curvature, and the linearised predictive distribution is the one of this
    posterior, in every selection of statistics. *)
Theorem C49_custom_loss_predictive (Key : Type) split normal (key0 : Key) data nc nt f s2 tau lsf key kw ops x :
  let prec := posterior_precision (R := RR) (custom_ggn_matrix n H f pred J data) (odflt 1 s2) tau lsf in
  curv_scaling_factor nc nt (size data) = Ok f -> custom_ok data ->
  (forall d, List.In d data -> psd (R := RR) (H (cv_of K (adata d.2)) (cv_of K (adata (pred d.1))))) ->
  0 <= odflt 1 s2 -> 0 < tau -> 0 < lsf ->
  (0 < n)%N -> model_fn x t = Ok (pred x) -> (0 < prodn (ashape (pred x)))%N ->
  is_jacobian (R := RR) (J x) t (pred x) (ad_jvp x) (ad_vjp x) ->
  odflt 0%N (kw_num_samples kw) = 0%N -> SSamples \notin ops ->
  (size (ashape (pred x)) <= 1)%N \/ no_var_after_cov ops ->
  exists mv p cov scale r,
    [/\ tree_create_ggn_mv model_fn ad_jvp ad_vjp t data (LossCallable H) nc nt = Ok mv,
        create_posterior_fn_full mv (LTree t) (@PriorArguments RR (Some tau) s2) lsf n = Ok (Some p),
        cov_mv p (post_state p) = Ok cov /\ scale_mv p (post_state p) = Ok scale,
        linearised_predictive split normal key0 model_fn ad_jvp ad_vjp t
          (Ok (PosteriorState (R := RR) (fun u => cov [:: u] tt) (fun u => scale [:: u] tt))) key
          (@lin_setup RR X :: [seq stat_fn o | o <- ops]) kw x = Ok r &
        lin_report (R := RR) n (pred x) (J x) (entry (invmx prec)) ops r].
Proof.
move=> prec Hf Hd Hp Hs2 Ht Hl n0 Mx P0 HJ N0 Hsm Ho.
have [mv [Emv Hmv]] := C49_custom_loss_ggn Hf Hd.
have HP : psd (R := RR) (custom_ggn_matrix n H f pred J data) by apply: custom_ggn_psd (factor_ge0 Hf) Hp.
have [p [cov [scale [L [E1 [E2 E2'] E3 E4 E5]]]]] := full_posteriorP (T := RR) n0 Hmv HP Hs2 Ht Hl.
pose ps := PosteriorState (R := RR) (fun u => cov [:: u] tt) (fun u => scale [:: u] tt).
have PW : posterior_with (t := t) (invmx prec) ps by exists L.
have [r F1 F2] := C54_predictive split normal key0 key PW Mx P0 HJ N0 Hsm Ho.
by exists mv, p, cov, scale, r.
Qed.

End Custom.
Print Assumptions C49_custom_loss_ggn.
Print Assumptions C49_custom_loss_predictive.

(** Non-vacuity: the loss [(y (z - y))^2], with Hessian [2 y^2] in the prediction, one observation with
    target 3, one parameter that is the prediction, [tau = 1]: variance 1/19. *)
Example C49_custom_loss_example : exists mv p cov scale r v,
  let out : arr R := Arr [:: 1%N] [:: 5%:R] in
  let model (_ : unit) (_ : tree (arr R)) : res (arr R) := Ok out in
  let ad (_ : unit) (u : tree (arr R)) : res (tree (arr R)) := Ok u in
  let H (y z : 'cV[R]_1) : 'M[R]_1 := (2%:R * y ord0 ord0 ^+ 2)%:M in
  [/\ tree_create_ggn_mv model ad ad (Leaf out) [:: (tt, Arr [:: 1%N] [:: 3%:R])] (LossCallable H) None None = Ok mv,
      create_posterior_fn_full mv (LTree (Leaf out)) (@PriorArguments RR (Some 1) None) 1 1 = Ok (Some p),
      cov_mv p (post_state p) = Ok cov /\ scale_mv p (post_state p) = Ok scale,
      linearised_predictive (fun k n => nseq n k) (fun _ sh => nseq (prodn sh) 0) tt model ad ad (Leaf out)
          (Ok (PosteriorState (R := RR) (fun u => cov [:: u] tt) (fun u => scale [:: u] tt))) None
          (@lin_setup RR unit :: [seq stat_fn o | o <- [:: SVar]]) (kw0 None) tt = Ok r &
      r_pred_var r = Some v /\ nth 0 (adata v) 0 = 19%:R^-1].
Proof.
pose out : arr R := Arr [:: 1%N] [:: 5%:R].
pose model (_ : unit) (_ : tree (arr R)) : res (arr R) := Ok out.
pose ad (_ : unit) (u : tree (arr R)) : res (tree (arr R)) := Ok u.
pose H (y z : 'cV[R]_1) : 'M[R]_1 := (2%:R * y ord0 ord0 ^+ 2)%:M.
pose data : seq (unit * arr R) := [:: (tt, Arr [:: 1%N] [:: 3%:R])].
have D : custom_ok 1 model ad ad (Leaf out) (fun _ => out) (fun _ => @ident RR) data.
  by split=> d [<-|//] //; split=> //; apply: is_jacobian_ident.
have Hp d : List.In d data -> psd (R := RR) (H (cv_of 1 (adata d.2)) (cv_of 1 (adata out))).
  move=> _; split; first by rewrite /symmetric tr_scalar_mx.
  move=> v; rewrite mul_scalar_mx dotvZ; apply: mulr_ge0; first by rewrite mulr_ge0 ?ler0n ?sqr_ge0.
  by apply: sumr_ge0 => i _; rewrite -expr2 sqr_ge0.
have [mv [p [cov [scale [r [E1 E2 E3 E4 E5]]]]]] :=
  @C49_custom_loss_predictive unit 1 model ad ad (Leaf out) (fun _ => out) (fun _ => @ident RR) H unit
    (fun k n => nseq n k) (fun _ sh => nseq (prodn sh) 0) tt data None None 1 None 1 1 None (kw0 None) [:: SVar] tt
    ex_factor D Hp ler01 ltr01 ltr01 isT erefl isT (is_jacobian_ident _) erefl isT (or_introl isT).
have [v [V1 V2 V3 V4]] := report_var (isT : SVar \in [:: SVar]) E5.
exists mv, p, cov, scale, r, v; split=> //; split=> //.
rewrite (V4 (@Ordinal 1 0 isT)) /custom_ggn_matrix /posterior_precision /= !big_cons !big_nil.
rewrite ident1 trmx1 !mul1mx !mulmx1 addr0 invr1 !scale1r /H !mxE /= -natrX -natrM -raddfD /= invmx_scalar mxE /=.
by rewrite mulr1n -(natrD _ 18 1).
Qed.
