(** Property C53: calibration from data to the chosen prior precision. *)
From Coq Require Import ZArith Reals Lra String SpecFloat.
From Flocq Require Import Core.Raux IEEE754.BinarySingleNaN.
From mathcomp Require Import all_ssreflect all_algebra.
From Verif Require Import Base RealStruct PyTree TreeSpec Mv PyTreeProofs TreeOpsProofs GgnSpec Ggn GgnProofs Posterior PosteriorSpec PosteriorProofs
  EvalUtils Pushforward PushforwardSpec PushforwardProofs Normal Metrics MetricsSpec CrpsProofs GridSearch GridSpec GridProofs Api Objectives
  PipelineSpec Pipeline PipelineProofs.
From Verif Require Import P_Ggn P_Posterior P_Grid P_Api P_Pushforward P_Pipeline P_Monotone P_Objectives.
Set Implicit Arguments.
Unset Strict Implicit.
Unset Printing Implicit Defensive.
Import GRing.Theory Num.Theory Order.TTheory.
Local Open Scope ring_scope.

Lemma in_nth_error (T : Type) (x : T) l : List.In x l -> exists i, List.nth_error l i = Some x.
Proof. exact: List.In_nth_error. Qed.

(** Points of the logarithmic grid are positive. *)
Lemma logspace_gt0 lo hi n tau : List.In tau (logspace lo hi n) -> 0 < tau.
Proof.
by move=> /List.in_map_iff [i [<- _]]; apply/RltP; exact: exp_pos.
Qed.

Section Round.
Variables (prec emax : Z).
Lemma lt_score_real (a b : binary_float prec emax) : is_finite a = true -> is_finite b = true ->
  lt_score (score (Ok (B2SF a))) (score (Ok (B2SF b))) = true <-> B2R a < B2R b.
Proof.
move=> Ha Hb.
have S c : is_finite c = true -> score (Ok (B2SF c)) = Some (B2SF (c : binary_float prec emax)) by case: c.
rewrite !S // /lt_score /SFltb.
have := Bcompare_correct prec emax a b Ha Hb; rewrite /Bcompare => ->.
case: (Rcompare_spec (B2R a) (B2R b)) => H; split=> //; first by move=> _; apply/RltP.
  by move/RltP; rewrite H => /Rlt_irrefl.
by move/RltP=> H'; case: (Rlt_asym _ _ H).
Qed.
End Round.

Section Calibrated.
Notation RR := [rcfType of R].
Variables (X Key A C M P T Kw Q : Type).
Variables (split : Key -> nat -> seq Key) (normal : Key -> seq nat -> seq R) (key0 key : Key) (N : nat).
Variable model_fn : X -> tree (arr R) -> res (arr R).
Variables ad_jvp ad_vjp : X -> tree (arr R) -> res (tree (arr R)).
Variables (t : tree (arr R)) (K : nat) (pred : X -> arr R) (J : X -> nat -> nat -> R).
Variables (train : seq (X * arr R)) (loss : string) (num_curv num_total : option nat) (f : R).
Variables (prec emax : Z) (rn : R -> binary_float prec emax).
Variables (aitem : A -> nat -> res A) (points : A * A -> seq (X * value)).
Variable custom_methods : sdict (custom_objective A (pushfn RR X) -> calibration_kwargs Kw -> res Q).
Variable mll : seq (X * value) -> R -> res R.

(** The training data and the model are as in C49. *)
Definition laplace_ok : Prop :=
  [/\ (0 < get_size t)%N, List.In loss ggn_losses, curv_scaling_factor num_curv num_total (size train) = Ok f &
      forall d, List.In d train -> sample_ok K model_fn ad_jvp ad_vjp t pred J d].
Hypothesis Hlaplace : laplace_ok.
Hypothesis Hsplit : forall k n, size (split k n) = n.
Hypothesis Hnormal : forall k s, size (normal k s) = prodn s.
Hypothesis K0 : (0 < K)%N.

(** The posterior built from the training data, with [loss_scaling_factor = 1]. *)
Definition posterior : R -> res (posterior_state RR) :=
  laplace_posterior K model_fn ad_jvp ad_vjp t train loss num_curv num_total None 1.
Notation objective := (objective_value split normal key0 model_fn ad_jvp ad_vjp t key N posterior mll).
Notation calibrate := (calibration aitem
  (objective_at split normal key0 model_fn ad_jvp ad_vjp t key N posterior mll points (fun r => B2SF (rn r)))
  custom_methods).

(** Predictive variance at [x] for prior precision [tau]: [(J (GGN + tau I)^-1 J^T)_kk]. *)
Definition Sigma (tau : R) : 'M[R]_(get_size t) :=
  invmx (ggn_matrix K (get_size t) loss f pred J train + tau *: 1%:M).
Definition variance (tau : R) (x : X) (k : 'I_K) : R :=
  (of_entries K (get_size t) (J x) *m Sigma tau *m (of_entries K (get_size t) (J x))^T) k k.

Lemma variance_pvar tau x (k : 'I_K) : pvar t J (entry (Sigma tau)) x k = variance tau x k.
Proof. exact: C49_matrix_form. Qed.

Lemma posterior_at tau : 0 < tau ->
  exists2 ps, posterior tau = Ok ps &
    [/\ posterior_ok t ps (entry (Sigma tau)), (exists2 S, acts_as S t t (ps_scale_mv ps) & True) &
        spd (ggn_matrix K (get_size t) loss f pred J train + tau *: 1%:M)].
Proof.
move=> Ht; have [n0 Hs Hf Hd] := Hlaplace.
have [ps [L [E1 E2 E3 E4 E5]]] := @C49_laplace_posterior X K model_fn ad_jvp ad_vjp t train loss num_curv num_total
  f pred J None tau 1 n0 Hs Hf Hd ler01 Ht ltr01.
have Ep : posterior_precision (ggn_matrix K (get_size t) loss f pred J train) 1 tau 1 =
    ggn_matrix K (get_size t) loss f pred J train + tau *: 1%:M.
  by rewrite /posterior_precision invr1 !scale1r.
rewrite /= Ep in E2 E4 E5.
exists ps => //; split=> //.
  by split; [exact: (acts_mx_as E2) | exists (entry L); exact: (acts_mx_as E3)].
by exists (entry L) => //; exact: (acts_mx_as E3).
Qed.

(** A nonzero row of the Jacobian gives a positive variance. *)
Lemma variance_gt0 tau x (k : 'I_K) p : 0 < tau -> (p < get_size t)%N -> J x k p != 0 -> 0 < variance tau x k.
Proof.
move=> Ht Hp Hne; have [ps _ [_ _ S]] := posterior_at Ht.
set B := ggn_matrix _ _ _ _ _ _ _ + _ in S.
have Bu := spd_unit S; have [BT BP] := S.
rewrite /variance /Sigma -/B dotv_diag.
set w := (row k _)^T; pose u := invmx B *m w.
have Bu' : B *m u = w by rewrite /u mulKVmx.
rewrite -/u -{1}Bu' dotvC; apply: BP; apply/eqP => u0; move: Bu'; rewrite u0 mulmx0 => w0.
move/eqP: Hne; apply; transitivity (w (Ordinal Hp) ord0); first by rewrite !mxE.
by rewrite -w0 mxE.
Qed.

(** The points of the calibration batch. *)
Definition calibration_point (x : X) : Prop :=
  point_ok model_fn ad_jvp ad_vjp t [:: K] pred J x /\
  forall k : 'I_K, exists2 p, (p < get_size t)%N & J x k p != 0.

(** Among the points of [grid], [p] is the first with the least rounded value of [F]. *)
Definition first_least (F : R -> R) (grid : seq R) (p : R) : Prop :=
  exists2 i, List.nth_error grid i = Some p &
    (forall g, List.In g grid -> B2R (rn (F p)) <= B2R (rn (F g))) /\
    (forall j g, (j < i)%N -> List.nth_error grid j = Some g -> B2R (rn (F p)) < B2R (rn (F g))).

Lemma calibrate_first_least (kind : objective_kind) (F : R -> R) pf predt obj method (a : objective_args C M P T)
    (ck : calibration_kwargs Kw) x y pfs :
  let grid := logspace (odflt (IZR (-3)) (ck_log_prior_prec_min ck)) (odflt (IZR 3) (ck_log_prior_prec_max ck))
                       (odflt 50%N (ck_grid_size ck)) in
  lower method = "grid_search"%string ->
  setup_pushforward pf predt None = Ok pfs ->
  build_calibration_objective obj a (is_classification predt) = Ok kind ->
  odflt None (ck_patience ck) = None -> odflt 50%N (ck_grid_size ck) <> 0%N ->
  (forall tau, List.In tau grid -> objective kind pfs (points (x, y)) tau = Ok (F tau)) ->
  (forall tau, List.In tau grid -> is_finite (rn (F tau)) = true) ->
  exists2 p, calibrate (DTuple [:: x; y]) predt pf None a obj (EStr method) ck = (grid, Ok (PriorPrec Q p))
           & first_least F grid p.
Proof.
move=> grid Em Epf Eo Hpat Hsz HF Hfin.
set oat := objective_at _ _ _ _ _ _ _ _ _ _ _ _ _.
have Eoat i tau : List.In tau grid -> oat kind pfs (x, y) i tau = Ok (B2SF (rn (F tau))).
  by move=> Hin; rewrite /oat /objective_at HF.
have Hesc i : ~ escapes (oat kind pfs (x, y)) grid i.
  by move=> [p [e [H1 H2 _]]]; move: H2; rewrite (Eoat _ _ (List.nth_error_In _ _ H1)).
have [p Ep] := @C46_calibration_searches_whole_grid A C M P T (pushfn RR X) Kw Q aitem oat custom_methods
  (DTuple [:: x; y]) predt pf None a obj method ck pfs kind x y Em erefl Epf Eo Hpat Hsz Hesc.
exists p; first exact: Ep.
have := @C46_calibration_first_minimiser A C M P T (pushfn RR X) Kw Q aitem oat custom_methods
  (DTuple [:: x; y]) predt pf None a obj method ck _ p Em Ep.
cbv zeta; move=> [pfs' [kind' [xy [E1 E2 E3 _ [i [H1 H2 H3]]]]]].
have [? ?] : pfs' = pfs /\ kind' = kind by move: E1 E2; rewrite Epf Eo => -[->] [->].
subst pfs' kind' xy.
rewrite -/grid in H1 H2 H3.
have V j g : List.nth_error grid j = Some g ->
    GridSpec.value (oat kind pfs (x, y)) grid j = score (Ok (B2SF (rn (F g)))).
  by move=> Hj; rewrite /GridSpec.value Hj (Eoat _ _ (List.nth_error_In _ _ Hj)).
have Fp : is_finite (rn (F p)) = true by apply: Hfin; exact: List.nth_error_In H1.
exists i => //; split=> [g Hg|j g Hj Eg].
  have [j Ej] := in_nth_error Hg.
  have Hj : (j < size grid)%N by apply/ssrnat.ltP/List.nth_error_Some; rewrite Ej.
  have := H2 j Hj; rewrite (V _ _ Ej) (V _ _ H1) => Hlt.
  case: (leP (B2R (rn (F p))) (B2R (rn (F g)))) => // /(lt_score_real (Hfin _ Hg) Fp).
  by rewrite Hlt.
have Fg := Hfin _ (List.nth_error_In _ _ Eg).
by have := H3 j Hj; rewrite (V _ _ Eg) (V _ _ H1) => /(lt_score_real Fp Fg).
Qed.

(** C53.  Calibrating a regression (predictive type "none", linearised pushforward) by the negative
    log-likelihood returns the first point of the logarithmic grid whose (rounded) average of
    [- ln N(y | f(x), (J (GGN + tau I)^-1 J^T)_kk)] over the batch is least. *)
Definition nll_of (data : seq (X * arr R)) (tau : R) : R :=
  - (\sum_(d <- data) \sum_(k < K)
       ln (gauss_density (nth 0 (adata (pred d.1)) k) (Num.sqrt (variance tau d.1 k)) (nth 0 (adata d.2) k)))
  / (size data * K)%:R.
Definition chi2_of (data : seq (X * arr R)) (tau : R) : R :=
  `| (\sum_(d <- data) \sum_(k < K)
       (nth 0 (adata (pred d.1)) k - nth 0 (adata d.2) k) ^+ 2 / variance tau d.1 k)
     / (size data * K)%:R - 1 |.

Definition regression_batch (x y : A) (data : seq (X * arr R)) : Prop :=
  [/\ points (x, y) = [seq (d.1, VArr d.2) | d <- data], data <> [::] &
      forall d, List.In d data -> [/\ calibration_point d.1, ashape d.2 = [:: K] & wf_arr d.2]].

Theorem C53_calibrated_regression (obj pf method : string) (a : objective_args C M P T)
    (ck : calibration_kwargs Kw) x y data :
  let grid := logspace (odflt (IZR (-3)) (ck_log_prior_prec_min ck)) (odflt (IZR 3) (ck_log_prior_prec_max ck))
                       (odflt 50%N (ck_grid_size ck)) in
  let F := if String.eqb (lower obj) "nll" then nll_of data else chi2_of data in
  lower obj = "nll"%string \/ lower obj = "chi_squared"%string ->
  lower pf = "linear"%string -> lower method = "grid_search"%string ->
  oa_model_fn a <> None -> oa_curv_type a <> None ->
  odflt None (ck_patience ck) = None -> odflt 50%N (ck_grid_size ck) <> 0%N ->
  regression_batch x y data ->
  (forall tau, List.In tau grid -> is_finite (rn (F tau)) = true) ->
  exists2 p,
    calibrate (DTuple [:: x; y]) (EStr "none") (EStr pf) None a (EStr obj) (EStr method) ck =
      (grid, Ok (PriorPrec Q p))
  & first_least F grid p.
Proof.
move=> grid F Hobj Epf Em Hm Hc Hpat Hsz [Ept D0 Hd] Hfin.
have K1 : (0 < prodn [:: K])%N by rewrite /= muln1.
have Es : setup_pushforward (EStr pf) (EStr "none") None = Ok (@regression_fns X).
  by rewrite C46_pushforward_table Epf.
have Nm : lower obj <> "marginal_log_likelihood"%string by case: Hobj => ->.
have [_ /(_ Hm Hc Nm) Eo] := @C46_missing_arguments C M P T a obj false.
have Hok d : List.In d data -> [/\ point_ok model_fn ad_jvp ad_vjp t [:: K] pred J d.1, ashape d.2 = [:: K] & wf_arr d.2].
  by case/Hd=> -[].
move: Hfin; rewrite {}/F => Hfin; case: Hobj => Eobj; rewrite Eobj /= in Hfin Eo *.
- apply: (@calibrate_first_least (NllObjective false) _ _ _ _ _ _ _ _ _ (@regression_fns X)) => // tau Htau; have t0 := logspace_gt0 Htau.
  have [ps Eps [Pp _ _]] := posterior_at t0.
  rewrite Ept (@C52_nll_objective X Key split normal key0 model_fn ad_jvp ad_vjp t [:: K] pred J posterior mll key N
    Hsplit Hnormal (entry (Sigma tau)) tau ps data D0 K1 Eps Pp Hok); last first.
    move=> d k /Hd [[_ Hr] _ _]; rewrite /= muln1 => Hk; have [p Hp Hne] := Hr (Ordinal Hk).
    by rewrite (variance_pvar tau d.1 (Ordinal Hk)); exact: variance_gt0 Hne.
  rewrite /nll_of /= muln1; congr (Ok (- _ / _)); apply: eq_bigr => d _; rewrite big_mkord.
  by apply: eq_bigr => k _; rewrite variance_pvar.
- apply: (@calibrate_first_least Chi2Objective _ _ _ _ _ _ _ _ _ (@regression_fns X)) => // tau Htau; have t0 := logspace_gt0 Htau.
  have [ps Eps [Pp _ _]] := posterior_at t0.
  rewrite Ept (@C52_chi2_objective X Key split normal key0 model_fn ad_jvp ad_vjp t [:: K] pred J posterior mll key N
    Hsplit Hnormal (entry (Sigma tau)) tau ps data D0 K1 Eps Pp Hok); last first.
    move=> d k /Hd [[_ Hr] _ _]; rewrite /= muln1 => Hk; have [p Hp Hne] := Hr (Ordinal Hk).
    by rewrite (variance_pvar tau d.1 (Ordinal Hk)); apply: ltW; exact: variance_gt0 Hne.
  rewrite /chi2_of /= muln1; congr (Ok `|_ / _ - _|); apply: eq_bigr => d _; rewrite big_mkord.
  by apply: eq_bigr => k _; rewrite variance_pvar.
Qed.

(** Calibrating a classification by "nll" with one-hot targets: every evaluation fails, and the
    smallest prior precision of the grid is returned without any error, whatever the patience. *)
Theorem C53_one_hot_targets_refuted (obj pf predt method : string) (a : objective_args C M P T)
    (ck : calibration_kwargs Kw) x y (data : seq (X * arr R)) :
  (0 < N)%N ->
  lower obj = "nll"%string -> lower pf = "linear"%string -> lower predt = "mc_bridge"%string ->
  lower method = "grid_search"%string ->
  oa_model_fn a <> None -> oa_curv_type a <> None -> odflt 50%N (ck_grid_size ck) <> 0%N ->
  regression_batch x y data ->
  (calibrate (DTuple [:: x; y]) (EStr predt) (EStr pf) None a (EStr obj) (EStr method) ck).2 =
  Ok (PriorPrec Q (Rpower (IZR 10) (odflt (IZR (-3)) (ck_log_prior_prec_min ck)))).
Proof.
move=> N0 Eobj Epf Epr Em Hm Hc Hsz [Ept D0 Hd].
have Es : setup_pushforward (EStr pf) (EStr predt) None = Ok (@mc_fns X).
  by rewrite C46_pushforward_table Epf Epr.
have Ecl : is_classification (EStr predt).
  by rewrite /is_classification /=; case: (String.eqb_spec predt "none") => // E; move: Epr; rewrite E.
have Nm : lower obj <> "marginal_log_likelihood"%string by rewrite Eobj.
have [_ /(_ Hm Hc Nm) Eo] := @C46_missing_arguments C M P T a obj true.
rewrite Eobj /= in Eo.
rewrite /calibration /calibration_by /builtin_search Es Ecl [build_calibration_objective _ _ _]Eo [convert_to_enum _ _ _]/= Em /=.
rewrite /optimize_prior_prec; set grid := logspace _ _ _.
have [gs Eg] : exists gs, grid = Rpower (IZR 10) (odflt (IZR (-3)) (ck_log_prior_prec_min ck)) :: gs.
  rewrite /grid /logspace; case: (odflt 50%N _) Hsz => [//|n] _ /=; eexists; congr (_ :: _).
  by case: eqP => // _; congr Rpower; rewrite /= Rmult_0_l Rplus_0_r.
set oat := objective_at _ _ _ _ _ _ _ _ _ _ _ _ _ _ _ _.
have V i : (i <= size gs)%N -> GridSpec.value oat grid i = Some (S754_infinity false).
  move=> Hi; have [tau Etau] : exists tau, List.nth_error grid i = Some tau.
    case E: (List.nth_error grid i) => [tau|]; first by exists tau.
    by move/List.nth_error_None: E => /ssrnat.leP; rewrite Eg /= leqNgt ltnS Hi.
  have t0 := logspace_gt0 (List.nth_error_In _ _ Etau).
  have [ps Eps [[Pc _] [S HS _] _]] := posterior_at t0.
  have Heps : exists eps, draws split normal key0 t key N eps.
    exists (fun j => match randn_like split normal (nth key0 (split key N) j) t with Ok e => e | Raise _ => t end) => j _.
    by have [e [-> _ _]] := randn_likeP Hsplit Hnormal (nth key0 (split key N) j) t.
  have [eps He] := Heps.
  rewrite /GridSpec.value Etau /oat /objective_at Ept.
  rewrite (@C52_one_hot_targets_refuted X Key split normal key0 model_fn ad_jvp ad_vjp t K pred J posterior mll key N
    Hsplit Hnormal N0 K0 (entry (Sigma tau)) S eps tau ps data D0 Eps Pc HS He) //.
  - by move=> d /Hd [[]].
  - by move=> d /Hd [].
have := @C31_all_failed R oat (Rpower (IZR 10) (odflt (IZR (-3)) (ck_log_prior_prec_min ck))) gs (odflt None (ck_patience ck)) None.
rewrite -Eg => /(_ V); by case: (grid_search _ _ _ _) => calls out /= ->.
Qed.
End Calibrated.
Print Assumptions C53_calibrated_regression.
Print Assumptions C53_one_hot_targets_refuted.

(** A concrete case: two parameters that are the two outputs, one training point, the default grid;
    values are rounded to 0 or 1 here. *)
Definition coarse (r : R) : binary_float 24 128 :=
  if r <= 0 then B754_zero false else @Bone 24 128 erefl erefl.
Lemma coarse_finite r : is_finite (coarse r) = true.
Proof. by rewrite /coarse; case: ifP. Qed.

Section Example.
Let out : arr R := Arr [:: 2%N] [:: 3%:R; 4%:R].
Let y : arr R := Arr [:: 2%N] [:: 5%:R; 4%:R].
Let model (_ : unit) (p : tree (arr R)) : res (arr R) := Ok out.
Let ad (_ : unit) (u : tree (arr R)) : res (tree (arr R)) := Ok u.
Let train : seq (unit * arr R) := [:: (tt, y)].

Lemma example_laplace_ok : laplace_ok model ad ad (Leaf out) 2 (fun _ => out) (fun _ => @ident [rcfType of R]) train
  "mse" None None (1%:R / 1%:R).
Proof.
split=> //; first by left.
by move=> d [<-|//]; split=> //; exact: is_jacobian_ident.
Qed.
Lemma example_batch : regression_batch (A := arr R) model ad ad (Leaf out) 2 (fun _ => out)
  (fun _ => @ident [rcfType of R]) (fun _ => [:: (tt, VArr y)]) out y [:: (tt, y)].
Proof.
split=> // d [<-|//]; split=> //; split; first by split=> //; exact: is_jacobian_ident.
by move=> k; exists k; [rewrite /get_size /= ltn_ord | rewrite /ident eqxx oner_eq0].
Qed.

Example C53_example (obj : string) : obj = "nll"%string \/ obj = "Chi_Squared"%string ->
  exists p, (calibration (A := arr R) (C := nat) (M := nat) (P := nat) (T := nat) (K := nat) (Q := nat) (fun a _ => Ok a)
    (objective_at (fun (k : unit) n => nseq n k) (ones_normal [rcfType of R]) tt model ad ad (Leaf out) tt 3
       (posterior model ad ad (Leaf out) 2 train "mse" None None) (fun _ _ => Raise Unmodelled)
       (fun _ => [:: (tt, VArr y)]) (fun r => B2SF (coarse r))) [::]
    (DTuple [:: out; y]) (EStr "none") (EStr "linear") None
    (ObjectiveArgs None (Some 0%N) None (Some 0%N) None) (EStr obj) (EStr "grid_search")
    (CalibrationKwargs None None None None [::])).2 = Ok (PriorPrec nat p).
Proof.
move=> Hobj.
have [|||||||||p -> _] := @C53_calibrated_regression unit unit (arr R) nat nat nat nat nat nat
  (fun (k : unit) n => nseq n k) (ones_normal [rcfType of R]) tt tt 3
  model ad ad (Leaf out) 2 (fun _ => out) (fun _ => @ident [rcfType of R]) train "mse" None None (1%:R / 1%:R)
  24 128 coarse (fun a _ => Ok a) (fun _ => [:: (tt, VArr y)]) [::] (fun _ _ => Raise Unmodelled)
  example_laplace_ok nseq_split_size (@ones_normal_size [rcfType of R]) isT
  obj "linear" "grid_search" (ObjectiveArgs None (Some 0%N) None (Some 0%N) None)
  (CalibrationKwargs None None None None [::]) out y [:: (tt, y)] => //.
- by case: Hobj => ->; [left|right].
- exact: example_batch.
- by move=> tau _; exact: coarse_finite.
by exists p.
Qed.

Example C53_one_hot_example :
  (calibration (A := arr R) (C := nat) (M := nat) (P := nat) (T := nat) (K := nat) (Q := nat) (fun a _ => Ok a)
    (objective_at (fun (k : unit) n => nseq n k) (ones_normal [rcfType of R]) tt model ad ad (Leaf out) tt 3
       (posterior model ad ad (Leaf out) 2 train "mse" None None) (fun _ _ => Raise Unmodelled)
       (fun _ => [:: (tt, VArr y)]) (fun r => B2SF (coarse r))) [::]
    (DTuple [:: out; y]) (EStr "mc_bridge") (EStr "linear") None
    (ObjectiveArgs None (Some 0%N) None (Some 0%N) None) (EStr "nll") (EStr "grid_search")
    (CalibrationKwargs None None None None [::])).2 = Ok (PriorPrec nat (Rpower (IZR 10) (IZR (-3)))).
Proof.
exact: (@C53_one_hot_targets_refuted unit unit (arr R) nat nat nat nat nat nat
  (fun (k : unit) n => nseq n k) (ones_normal [rcfType of R]) tt tt 3
  model ad ad (Leaf out) 2 (fun _ => out) (fun _ => @ident [rcfType of R]) train "mse" None None (1%:R / 1%:R)
  24 128 coarse (fun a _ => Ok a) (fun _ => [:: (tt, VArr y)]) [::] (fun _ _ => Raise Unmodelled)
  example_laplace_ok nseq_split_size (@ones_normal_size [rcfType of R]) isT
  "nll" "linear" "mc_bridge" "grid_search" (ObjectiveArgs None (Some 0%N) None (Some 0%N) None)
  (CalibrationKwargs None None None None [::]) out y [:: (tt, y)] isT erefl erefl erefl erefl ltac:(by []) ltac:(by [])
  ltac:(by []) example_batch).
Qed.
End Example.
