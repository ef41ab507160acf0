(** Property C53, continued: calibration by the marginal likelihood with patience. *)
From Coq Require Import ZArith Reals Lra String SpecFloat.
From Flocq Require Import Core.Raux IEEE754.BinarySingleNaN.
From mathcomp Require Import all_ssreflect all_algebra.
From Verif Require Import Base RealStruct PyTree TreeSpec Mv PyTreeProofs TreeOpsProofs GgnSpec Ggn GgnProofs Posterior PosteriorSpec PosteriorProofs
  EvalUtils Pushforward PushforwardSpec PushforwardProofs Normal Metrics MetricsSpec GridSearch GridSpec GridProofs Api Objectives
  PipelineSpec Pipeline PipelineProofs Likelihood TreeMll.
From Verif Require Import P_Ggn P_Posterior P_Grid P_Api P_Pushforward P_Pipeline P_Monotone P_Objectives P_Calibrated P_Likelihood P_Evidence
  P_TreeMll P_EvidenceShape.
Set Implicit Arguments.
Unset Strict Implicit.
Unset Printing Implicit Defensive.
Import GRing.Theory Num.Theory Order.TTheory.
Local Open Scope ring_scope.

Section Calibrated.
Notation RR := [rcfType of R].
Variables (X Key A C M P T Kw Q : Type).
Variables (split : Key -> nat -> seq Key) (normal : Key -> seq nat -> seq R) (key0 key : Key) (N : nat).
Variable model_fn : X -> tree (arr R) -> res (arr R).
Variables ad_jvp ad_vjp : X -> tree (arr R) -> res (tree (arr R)).
Variables (t : tree (arr R)) (K : nat) (pred : X -> arr R) (J : X -> nat -> nat -> R).
Variables (train : seq (X * arr R)) (loss : string) (num_curv num_total : option nat) (f : R).
Variables (prec emax : Z) (rn : R -> binary_float prec emax).
Variables (aitem : A -> nat -> res A) (points : A * A -> seq (X * value)).
Variable custom_methods : sdict (custom_objective A (pushfn RR X) -> calibration_kwargs Kw -> res Q).
Hypothesis Wt : wf_tree t.
Hypothesis Hlaplace : laplace_ok model_fn ad_jvp ad_vjp t K pred J train loss num_curv num_total f.

Let n := get_size t.
Notation posterior_fn := (posterior model_fn ad_jvp ad_vjp t K train loss num_curv num_total).
Notation mll := (mll_of_laplace K model_fn ad_jvp ad_vjp t train loss num_curv num_total (TLossStr "mse")).
Notation calibrate := (calibration aitem
  (objective_at split normal key0 model_fn ad_jvp ad_vjp t key N posterior_fn mll points (fun r => B2SF (rn r)))
  custom_methods).
Notation neg_evidence := (neg_evidence_of t K pred J train loss f).
Notation G := (ggn_matrix K n loss f pred J train).

(** The objective is the curve studied in C66. *)
Lemma neg_evidence_curve (data : seq (X * arr R)) :
  evidence_curve (fun (x : X) (_ : 'cV[R]_n) => cv_of K (adata (pred x))) G None None 1
    [seq (d.1, cv_of K (adata d.2)) | d <- data] (cv_of n (entries t)) (CLossStr K "mse") (fun tau => - neg_evidence data tau).
Proof.
move=> tau Ht; have [_ Hs Hf _] := Hlaplace.
have HP := ggn_matrix_psd K n pred J train Hs (factor_ge0 Hf).
have Hspd : spd (G + tau *: 1%:M).
  by have := spd_precision HP ler01 Ht ltr01; rewrite invr1 !scale1r.
rewrite (@C38_full_value n K X (fun x _ => cv_of K (adata (pred x))) G
  (MllPrior (@PriorArguments RR (Some tau) None) None) _ _ (CLossStr K "mse") 1 tau _ _ erefl Ht erefl erefl); last first.
  by rewrite /get_sigma_squared /= invr1 !scale1r; apply: spd_det_gt0.
congr (Ok (Scalar _ _)).
rewrite /get_sigma_squared /= invr1 !scale1r mulr1 /neg_evidence_of !opprD !opprK; congr (- (_ / _) + _ - _).
rewrite foldr_sum !big_map; apply: eq_bigr => d _; by apply: eq_bigr => k _; rewrite !mxE.
Qed.

(** C53.  Patience changes nothing: the outcome is still the first point of the whole grid with the
    greatest (rounded) Laplace evidence. *)
Theorem C53_marginal_likelihood_patience (obj method : string) (pf predt : enum_arg) (pfs : pf_setter * seq (pf_fn (pushfn RR X)))
    (a : objective_args C M P T) (ck : calibration_kwargs Kw) (p : nat) x y data :
  let lo := odflt (IZR (-3)) (ck_log_prior_prec_min ck) in
  let hi := odflt (IZR 3) (ck_log_prior_prec_max ck) in
  let grid := logspace lo hi (odflt 50%N (ck_grid_size ck)) in
  lower obj = "marginal_log_likelihood"%string -> lower method = "grid_search"%string ->
  setup_pushforward pf predt None = Ok pfs -> any_none a = false ->
  odflt None (ck_patience ck) = Some (Z.of_nat p) -> (0 < p)%N -> odflt 50%N (ck_grid_size ck) <> 0%N -> Rle lo hi ->
  points (x, y) = [seq (d.1, VArr d.2) | d <- data] ->
  (forall d, List.In d data -> vector_point K model_fn t pred d) ->
  (forall u v, is_finite (rn u) = true -> is_finite (rn v) = true -> u <= v -> B2R (rn u) <= B2R (rn v)) ->
  (forall tau, List.In tau grid -> is_finite (rn (neg_evidence data tau)) = true) ->
  exists2 q,
    (calibrate (DTuple [:: x; y]) predt pf None a (EStr obj) (EStr method) ck).2 = Ok (PriorPrec Q q)
  & first_least rn (neg_evidence data) grid q.
Proof.
move=> lo hi grid Eobj Em Es Ha Hpat p0 Hsz Hlh Ept Hd Hm Hfin.
pose ck0 := CalibrationKwargs (ck_log_prior_prec_min ck) (ck_log_prior_prec_max ck) (ck_grid_size ck) None (ck_others ck).
have [q E0 Fq] := @C53_calibrated_marginal_likelihood X Key A C M P T Kw Q split normal key0 key N model_fn ad_jvp ad_vjp t K
  pred J train loss num_curv num_total f prec emax rn aitem points custom_methods Wt Hlaplace obj method pf predt pfs a ck0 x y data Eobj Em Es Ha erefl Hsz Ept Hd Hfin.
exists q => //.
suff -> : (calibrate (DTuple [:: x; y]) predt pf None a (EStr obj) (EStr method) ck).2 =
    (calibrate (DTuple [:: x; y]) predt pf None a (EStr obj) (EStr method) ck0).2 by rewrite E0.
have Eo := C46_objective_table obj (is_classification predt) Ha; rewrite Eobj /= in Eo.
rewrite /calibration /calibration_by /builtin_search Es Eo [convert_to_enum CalibrationMethod _ _]/= Em /=.
have [_ Hs Hf _] := Hlaplace.
have HP := ggn_matrix_psd K n pred J train Hs (factor_ge0 Hf).
set oat := objective_at _ _ _ _ _ _ _ _ _ _ _ _ _ _ _ _.
have Hs0 : 0 <= odflt 1 (None : option R) by exact: ler01.
have [left [L0 L1 L2]] := curve_shape HP Hs0 ltr01
  (erefl : concatenate_model_and_loss_fn (fun (x : X) (_ : 'cV[R]_n) => cv_of K (adata (pred x))) (CLossStr K "mse") = Ok _) erefl
  (neg_evidence_curve data).
have H : (optimize_prior_prec oat lo hi (odflt 50%N (ck_grid_size ck)) (Some (Z.of_nat p)) None).2 =
         (optimize_prior_prec oat lo hi (odflt 50%N (ck_grid_size ck)) None None).2.
  apply: (@peak_patience prec emax rn (fun tau => - neg_evidence data tau) left) => // [tau Ht|i tau Ht].
    by rewrite opprK; exact: Hfin.
  rewrite opprK /oat /objective_at Ept (C52_mll_objective split normal key0 key N Wt Hlaplace) //; exact: logspace_gt0 Ht.
rewrite Hpat; move: H; rewrite -/lo -/hi.
by case: (optimize_prior_prec _ _ _ _ (Some _) _) => c1 o1; case: (optimize_prior_prec _ _ _ _ None _) => c2 o2 /= ->.
Qed.
End Calibrated.
Print Assumptions C53_marginal_likelihood_patience.

Lemma coarse_mono (u v : R) : u <= v -> B2R (coarse u) <= B2R (coarse v).
Proof.
move=> uv; rewrite /coarse; case: (lerP u 0) => u0; case: (lerP v 0) => v0 //=.
- by apply/RleP; rewrite /Defs.F2R /=; lra.
- by move: (lt_le_trans u0 uv); rewrite ltNge v0.
Qed.

(** Hypotheses met: the identity model on two parameters, patience 1. *)
Section Example.
Let out : arr R := Arr [:: 2%N] [:: 1; 2%:R].
Let y : arr R := Arr [:: 2%N] [:: 0; 1].
Let model (_ : unit) (p : tree (arr R)) : res (arr R) :=
  if p is Leaf a then Ok a else Raise Unmodelled.
Let ad (_ : unit) (u : tree (arr R)) : res (tree (arr R)) := Ok u.
Let train : seq (unit * arr R) := [:: (tt, y)].

Example C53_patience_example :
  exists p, (calibration (A := arr R) (C := nat) (M := nat) (P := nat) (T := nat) (K := nat) (Q := nat) (fun a _ => Ok a)
    (objective_at (fun (k : unit) n => nseq n k) (ones_normal [rcfType of R]) tt model ad ad (Leaf out) tt 3
       (posterior model ad ad (Leaf out) 2 train "mse" None None)
       (mll_of_laplace 2 model ad ad (Leaf out) train "mse" None None (TLossStr "mse"))
       (fun _ => [:: (tt, VArr y)]) (fun r => B2SF (coarse r))) [::]
    (DTuple [:: out; y]) (EStr "none") (EStr "linear") None
    (ObjectiveArgs (Some 0%N) (Some 0%N) (Some 0%N) (Some 0%N) (Some true)) (EStr "Marginal_Log_Likelihood") (EStr "grid_search")
    (CalibrationKwargs None None None (Some (Some (Z.of_nat 1))) [::])).2 = Ok (PriorPrec nat p).
Proof.
have Hl : laplace_ok model ad ad (Leaf out) 2 (fun _ => out) (fun _ => @ident [rcfType of R]) train
  "mse" None None (1%:R / 1%:R).
  split=> //; first by left.
  by move=> d [<-|//]; split=> //; exact: is_jacobian_ident.
have [||||||||||||p -> _] := @C53_marginal_likelihood_patience unit unit (arr R) nat nat nat nat nat nat
  (fun (k : unit) n => nseq n k) (ones_normal [rcfType of R]) tt tt 3
  model ad ad (Leaf out) 2 (fun _ => out) (fun _ => @ident [rcfType of R]) train "mse" None None (1%:R / 1%:R)
  24 128 coarse (fun a _ => Ok a) (fun _ => [:: (tt, VArr y)]) [::] isT Hl
  "Marginal_Log_Likelihood" "grid_search" (EStr "linear") (EStr "none") (@regression_fns unit)
  (ObjectiveArgs (Some 0%N) (Some 0%N) (Some 0%N) (Some 0%N) (Some true))
  (CalibrationKwargs None None None (Some (Some (Z.of_nat 1))) [::]) 1%N out y [:: (tt, y)] => //.
- by rewrite /=; lra.
- by move=> d [<-|//].
- by move=> u v _ _; exact: coarse_mono.
- by move=> tau _; exact: coarse_finite.
by exists p.
Qed.
End Example.
