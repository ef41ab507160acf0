(** C38, C52, C53: the marginal likelihood on PyTrees, as a calibration objective, and calibration with
    it. *)
From Coq Require Import ZArith Reals Lra String SpecFloat.
From Flocq Require Import Core.Raux IEEE754.BinarySingleNaN.
From mathcomp Require Import all_ssreflect all_algebra.
From Verif Require Import Base RealStruct PyTree TreeSpec Mv PyTreeProofs MvProofs TreeOpsProofs GgnSpec Ggn GgnProofs
  Posterior PosteriorSpec PosteriorProofs PosteriorTree EvalUtils Pushforward PushforwardSpec PushforwardProofs Normal
  Metrics MetricsSpec CrpsProofs GridSearch GridSpec GridProofs Api Objectives Likelihood
  PipelineSpec TreeGgn Pipeline PipelineProofs TreeMll.
From Verif Require Import P_Ggn P_Posterior P_Grid P_Api P_Pushforward P_Pipeline P_Monotone P_Objectives P_Likelihood
  P_Calibrated P_Evidence.
Set Implicit Arguments.
Unset Strict Implicit.
Unset Printing Implicit Defensive.
Import GRing.Theory Num.Theory Order.TTheory.
Local Open Scope ring_scope.

Lemma foldr_sum (T : ringType) (s : seq T) : foldr +%R 0 s = \sum_(x <- s) x.
Proof. by elim: s => [|x s IH]; rewrite ?big_nil ?big_cons //= IH. Qed.
Lemma sum_cv (T : rcfType) n (s : seq T) (F : T -> T) : size s = n ->
  \sum_(x <- s) F x = \sum_i F (cv_of n s i ord0).
Proof.
move=> <-; rewrite (big_nth 0) big_mkord; apply: eq_bigr => i _; by rewrite mxE.
Qed.

Section TreeMllProofs.
Notation RR := [rcfType of R].
Variables (X : Type) (K : nat).
Variable model_fn : X -> tree (arr R) -> res (arr R).
Variables (t : tree (arr R)) (pred : X -> arr R).
Hypothesis L0 : leaves t <> [::].
Hypothesis Wt : wf_tree t.

(** A point with prediction and target of length [K]. *)
Definition vector_point (d : X * arr R) : Prop :=
  [/\ model_fn d.1 t = Ok (pred d.1), ashape (pred d.1) = [:: K], wf_arr (pred d.1), ashape d.2 = [:: K] & wf_arr d.2].

(** The summed squared error. *)
Definition sse (data : seq (X * arr R)) : R :=
  \sum_(d <- data) \sum_(k < K) (nth 0 (adata (pred d.1)) k - nth 0 (adata d.2) k) ^+ 2.

Lemma squared_errorE d : vector_point d ->
  squared_error (pred d.1) d.2 =
  Ok (\sum_(k < K) (nth 0 (adata (pred d.1)) k - nth 0 (adata d.2) k) ^+ 2).
Proof.
move=> [_ E1 /eqP E2 E3 /eqP E4]; rewrite /squared_error E1 E3 eqxx E2 E4 E1 E3 eqxx /=.
rewrite foldr_sum big_map (big_nth (0, 0)) size_zip E2 E4 E1 E3 minnn /= muln1 big_mkord.
by congr Ok; apply: eq_bigr => k _; rewrite nth_zip ?E2 ?E4 ?E1 ?E3.
Qed.

Lemma mse_fullE data : (forall d, List.In d data -> vector_point d) ->
  (let! es := mapM (fun d : X * arr R => let! z := model_fn d.1 t in squared_error z d.2) data in
   Ok (foldr +%R 0 es)) = Ok (sse data).
Proof.
rewrite /sse; elim: data => [|d data IH] H; first by rewrite /= big_nil.
have Hd := H d (or_introl erefl); have [Ed _ _ _ _] := Hd.
have := IH (fun d' Hd' => H d' (or_intror Hd')).
rewrite /= Ed /= squared_errorE //=; case: (mapM _ data) => [es|//] /= [E].
by rewrite big_cons E.
Qed.

Let n := get_size t.
Lemma entries_size : size (entries t) = n.
Proof. by rewrite size_entries. Qed.

Lemma tree_mll_eq (tl : tloss_arg) (cl : closs_arg K) ff gg (curv : curv_estimate n) pa (data : seq (X * arr R)) lsf r :
  tree_full_fn model_fn tl = Ok ff ->
  concatenate_model_and_loss_fn (fun x (_ : 'cV[R]_n) => cv_of K (adata (pred x))) cl = Ok gg ->
  ff data t = Ok r ->
  gg [seq (d.1, cv_of K (adata d.2)) | d <- data] (cv_of n (entries t)) = Scalar K r ->
  (let! r := tree_marginal_log_likelihood model_fn curv pa data tl lsf in Ok (Scalar K r)) =
  marginal_log_likelihood (fun x _ => cv_of K (adata (pred x))) curv pa
    [seq (d.1, cv_of K (adata d.2)) | d <- data] (cv_of n (entries t)) cl lsf.
Proof.
move=> Et Ec Ef Eg; rewrite /tree_marginal_log_likelihood /marginal_log_likelihood /marginal_log_likelihood_with Et Ec; cbn [bind].
have J : (let! r := tree_joint_log_likelihood ff pa t data in Ok (Scalar K r)) =
   joint_log_likelihood gg pa (cv_of n (entries t)) [seq (d.1, cv_of K (adata d.2)) | d <- data].
  rewrite /tree_joint_log_likelihood /joint_log_likelihood full_flattenE //; cbn [bind].
  case: get_prior_prec => [tau|//]; cbn [bind]; rewrite Ef Eg; cbn [bind].
  congr (Ok (Scalar _ (_ * _ + _))).
  by rewrite /log_prior foldr_sum big_map (sum_cv _ entries_size).
case: curv => [c|c|k c].
- case: full_curvature_to_precision => [prec|//]; cbn [bind]; rewrite /full_marginal_log_likelihood /marginal_from -J.
  by case: tree_joint_log_likelihood.
- case: diagonal_curvature_to_precision => [prec|//]; cbn [bind]; rewrite /diagonal_marginal_log_likelihood /marginal_from -J.
  by case: tree_joint_log_likelihood.
- case: low_rank_curvature_to_precision => [prec|//]; cbn [bind]; rewrite /low_rank_marginal_log_likelihood /marginal_from -J.
  by case: tree_joint_log_likelihood.
Qed.

(** On PyTrees the marginal likelihood is that of the vectors of entries. *)
Theorem C38_over_pytrees (curv : curv_estimate n) pa (data : seq (X * arr R)) lsf :
  (forall d, List.In d data -> vector_point d) ->
  (let! r := tree_marginal_log_likelihood model_fn curv pa data (TLossStr "mse") lsf in Ok (Scalar K r)) =
  marginal_log_likelihood (fun x _ => cv_of K (adata (pred x))) curv pa
    [seq (d.1, cv_of K (adata d.2)) | d <- data] (cv_of n (entries t)) (CLossStr K "mse") lsf.
Proof.
move=> Hd; apply: (@tree_mll_eq _ _ _ _ _ _ _ _ (sse data)); [by []|by []|exact: mse_fullE|].
congr (Scalar _ _).
rewrite foldr_sum !big_map; apply: eq_bigr => d _; by apply: eq_bigr => k _; rewrite !mxE.
Qed.

(** The same for a loss function [f] of all predictions and all targets (in this order) that computes
    [g] on arrays of length [K]; an unknown name is a ValueError. *)
Theorem C38_over_pytrees_losses (curv : curv_estimate n) pa (data : seq (X * arr R)) lsf :
  (forall d, List.In d data -> vector_point d) ->
  (forall (f : seq (arr R) -> seq (arr R) -> res R) (g : seq 'cV[R]_K -> seq 'cV[R]_K -> R),
    (forall zs ys : seq (arr R), (forall a, List.In a (zs ++ ys) -> ashape a = [:: K] /\ wf_arr a) ->
       f zs ys = Ok (g [seq cv_of K (adata z) | z <- zs] [seq cv_of K (adata y) | y <- ys])) ->
    (let! r := tree_marginal_log_likelihood model_fn curv pa data (TLossCallable f) lsf in Ok (Scalar K r)) =
    marginal_log_likelihood (fun x _ => cv_of K (adata (pred x))) curv pa
      [seq (d.1, cv_of K (adata d.2)) | d <- data] (cv_of n (entries t)) (CLossCallable g) lsf) /\
  (forall s, s <> "mse"%string -> s <> "cross_entropy"%string ->
     tree_marginal_log_likelihood model_fn curv pa data (TLossStr s) lsf = Raise ValueError).
Proof.
move=> Hd; split=> [f g Hfg|s N1 N2]; last first.
  rewrite /tree_marginal_log_likelihood /tree_full_fn.
  by case: (String.eqb_spec s _) => [/N1|_] //; case: (String.eqb_spec s _) => [/N2|_].
apply: (@tree_mll_eq _ _ _ _ _ _ _ _ (g [seq cv_of K (adata (pred d.1)) | d <- data] [seq cv_of K (adata d.2) | d <- data])); [by []|by []| |].
  have -> : mapM (fun d : X * arr R => model_fn d.1 t) data = Ok [seq pred d.1 | d <- data].
    elim: data Hd => [|d data IH] Hd //=; have [-> _ _ _ _] := Hd d (or_introl erefl); cbn [bind].
    by rewrite IH // => d' Hd'; apply: Hd; right.
  cbn [bind]; rewrite Hfg; first by rewrite -!map_comp.
  move=> a /(@List.in_app_or _ _ _ _) [] /List.in_map_iff [d [<- /Hd [_ E1 E2 E3 E4]]]; by split.
by congr (Scalar _ (g _ _)); rewrite -map_comp.
Qed.
End TreeMllProofs.
Print Assumptions C38_over_pytrees.
Print Assumptions C38_over_pytrees_losses.

Section CalibratedMll.
Notation RR := [rcfType of R].
Variables (X Key A C M P T Kw Q : Type).
Variables (split : Key -> nat -> seq Key) (normal : Key -> seq nat -> seq R) (key0 key : Key) (N : nat).
Variable model_fn : X -> tree (arr R) -> res (arr R).
Variables ad_jvp ad_vjp : X -> tree (arr R) -> res (tree (arr R)).
Variables (t : tree (arr R)) (K : nat) (pred : X -> arr R) (J : X -> nat -> nat -> R).
Variables (train : seq (X * arr R)) (loss : string) (num_curv num_total : option nat) (f : R).
Variables (prec emax : Z) (rn : R -> binary_float prec emax).
Variables (aitem : A -> nat -> res A) (points : A * A -> seq (X * value)).
Variable custom_methods : sdict (custom_objective A (pushfn RR X) -> calibration_kwargs Kw -> res Q).
Hypothesis Wt : wf_tree t.
Hypothesis Hlaplace : laplace_ok model_fn ad_jvp ad_vjp t K pred J train loss num_curv num_total f.

Let n := get_size t.
Notation posterior_fn := (posterior model_fn ad_jvp ad_vjp t K train loss num_curv num_total).
Notation mll := (mll_of_laplace K model_fn ad_jvp ad_vjp t train loss num_curv num_total (TLossStr "mse")).
Notation objective := (objective_value split normal key0 model_fn ad_jvp ad_vjp t key N posterior_fn mll).
Notation calibrate := (calibration aitem
  (objective_at split normal key0 model_fn ad_jvp ad_vjp t key N posterior_fn mll points (fun r => B2SF (rn r)))
  custom_methods).

(** The negative Laplace evidence [- (log p(D | th) + log p(th) - 1/2 log |H / 2 pi|)], noise variance 1,
    [H = GGN + tau I]. *)
Definition neg_evidence_of (data : seq (X * arr R)) (tau : R) : R :=
  sse K pred data / 2%:R - log_gauss_prior tau (cv_of n (entries t))
  + 2%:R^-1 * ln (\det ((2%:R * PI)^-1 *: (ggn_matrix K n loss f pred J train + tau *: 1%:M))).

Theorem C52_mll_objective pfs (data : seq (X * arr R)) tau : 0 < tau ->
  (forall d, List.In d data -> vector_point K model_fn t pred d) ->
  objective MllObjective pfs [seq (d.1, VArr d.2) | d <- data] tau = Ok (neg_evidence_of data tau).
Proof.
move=> Ht Hd; have [n0 Hs Hf Htr] := Hlaplace.
have L0 : leaves t <> [::] by move=> E; move: n0; rewrite /get_size E.
have [mv [Emv Hmv]] := C49_tree_ggn Hs Hf Htr.
have HP := ggn_matrix_psd K n pred J train Hs (factor_ge0 Hf).
have Hspd : spd (ggn_matrix K n loss f pred J train + tau *: 1%:M).
  have := spd_precision HP ler01 Ht ltr01.
  by rewrite invr1 !scale1r.
rewrite /objective_value /mll_of_laplace Emv; cbn [bind].
rewrite (full_curvatureE L0 n0 (acts_mx_as Hmv)); cbn [bind]; rewrite mx_ofE.
have -> : \matrix_(i, j) entry (ggn_matrix K n loss f pred J train) i j = ggn_matrix K n loss f pred J train
  by exact: of_entriesK.
have -> : array_points [seq (d.1, VArr d.2) | d <- data] = Ok data.
  by rewrite /array_points; elim: (data) => [//|[x a] l /= ->].
cbn [bind].
set r := tree_marginal_log_likelihood _ _ _ _ _ _.
have := @C38_over_pytrees X K model_fn t pred L0 Wt (FullCurv (ggn_matrix K n loss f pred J train))
  (MllPrior (@PriorArguments RR (Some tau) None) None) data 1 Hd.
rewrite -/r (@C38_full_value n K X (fun x _ => cv_of K (adata (pred x))) (ggn_matrix K n loss f pred J train)
  (MllPrior (@PriorArguments RR (Some tau) None) None) _ _ (CLossStr K "mse") 1 tau _ _ erefl Ht erefl erefl); last first.
  by rewrite /get_sigma_squared /= invr1 !scale1r; apply: spd_det_gt0.
case: r => [r|//]; cbn [bind] => -[->] /=; congr Ok.
rewrite /get_sigma_squared /= invr1 !scale1r mulr1 /neg_evidence_of !opprD !opprK; congr (_ / _ - _ + _).
rewrite foldr_sum !big_map; apply: eq_bigr => d _; by apply: eq_bigr => k _; rewrite !mxE.
Qed.

(** C53.  Calibrating by the marginal likelihood returns the first point of the grid with the greatest
    (rounded) Laplace evidence; pushforward and predictive play no part beyond their names being
    accepted. *)
Theorem C53_calibrated_marginal_likelihood (obj method : string) (pf predt : enum_arg) (pfs : pf_setter * seq (pf_fn (pushfn RR X)))
    (a : objective_args C M P T) (ck : calibration_kwargs Kw) x y data :
  let grid := logspace (odflt (IZR (-3)) (ck_log_prior_prec_min ck)) (odflt (IZR 3) (ck_log_prior_prec_max ck))
                       (odflt 50%N (ck_grid_size ck)) in
  lower obj = "marginal_log_likelihood"%string -> lower method = "grid_search"%string ->
  setup_pushforward pf predt None = Ok pfs -> any_none a = false ->
  odflt None (ck_patience ck) = None -> odflt 50%N (ck_grid_size ck) <> 0%N ->
  points (x, y) = [seq (d.1, VArr d.2) | d <- data] ->
  (forall d, List.In d data -> vector_point K model_fn t pred d) ->
  (forall tau, List.In tau grid -> is_finite (rn (neg_evidence_of data tau)) = true) ->
  exists2 p,
    calibrate (DTuple [:: x; y]) predt pf None a (EStr obj) (EStr method) ck = (grid, Ok (PriorPrec Q p))
  & first_least rn (neg_evidence_of data) grid p.
Proof.
move=> grid Eobj Em Es Ha Hpat Hsz Ept Hd Hfin.
have Eo := C46_objective_table obj (is_classification predt) Ha.
rewrite Eobj /= in Eo.
apply: (calibrate_first_least aitem custom_methods (kind := MllObjective) (pfs := pfs)) => // tau Htau.
by rewrite Ept C52_mll_objective //; exact: logspace_gt0 Htau.
Qed.
End CalibratedMll.
Print Assumptions C52_mll_objective.
Print Assumptions C53_calibrated_marginal_likelihood.

(** Hypotheses met: the identity model on two parameters. *)
Section Example.
Let out : arr R := Arr [:: 2%N] [:: 1; 2%:R].
Let y : arr R := Arr [:: 2%N] [:: 0; 1].
Let model (_ : unit) (p : tree (arr R)) : res (arr R) :=
  if p is Leaf a then Ok a else Raise Unmodelled.
Let ad (_ : unit) (u : tree (arr R)) : res (tree (arr R)) := Ok u.
Let train : seq (unit * arr R) := [:: (tt, y)].

Example C53_mll_example :
  exists p, (calibration (A := arr R) (C := nat) (M := nat) (P := nat) (T := nat) (K := nat) (Q := nat) (fun a _ => Ok a)
    (objective_at (fun (k : unit) n => nseq n k) (ones_normal [rcfType of R]) tt model ad ad (Leaf out) tt 3
       (posterior model ad ad (Leaf out) 2 train "mse" None None)
       (mll_of_laplace 2 model ad ad (Leaf out) train "mse" None None (TLossStr "mse"))
       (fun _ => [:: (tt, VArr y)]) (fun r => B2SF (coarse r))) [::]
    (DTuple [:: out; y]) (EStr "none") (EStr "linear") None
    (ObjectiveArgs (Some 0%N) (Some 0%N) (Some 0%N) (Some 0%N) (Some true)) (EStr "Marginal_Log_Likelihood") (EStr "grid_search")
    (CalibrationKwargs None None None None [::])).2 = Ok (PriorPrec nat p).
Proof.
have Hl : laplace_ok model ad ad (Leaf out) 2 (fun _ => out) (fun _ => @ident [rcfType of R]) train
  "mse" None None (1%:R / 1%:R).
  split=> //; first by left.
  by move=> d [<-|//]; split=> //; exact: is_jacobian_ident.
have [|||||||||p -> _] := @C53_calibrated_marginal_likelihood unit unit (arr R) nat nat nat nat nat nat
  (fun (k : unit) n => nseq n k) (ones_normal [rcfType of R]) tt tt 3
  model ad ad (Leaf out) 2 (fun _ => out) (fun _ => @ident [rcfType of R]) train "mse" None None (1%:R / 1%:R)
  24 128 coarse (fun a _ => Ok a) (fun _ => [:: (tt, VArr y)]) [::] isT Hl
  "Marginal_Log_Likelihood" "grid_search" (EStr "linear") (EStr "none") (@regression_fns unit)
  (ObjectiveArgs (Some 0%N) (Some 0%N) (Some 0%N) (Some 0%N) (Some true))
  (CalibrationKwargs None None None None [::]) out y [:: (tt, y)] => //.
- by move=> d [<-|//].
- by move=> tau _; exact: coarse_finite.
by exists p.
Qed.
End Example.
