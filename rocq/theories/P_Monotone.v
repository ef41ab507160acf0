(** Property C50: how predictive uncertainty depends on prior, noise and data. *)
From Coq Require Import Reals String.
From mathcomp Require Import all_ssreflect all_algebra.
From Verif Require Import Base RealStruct PyTree TreeSpec Mv PyTreeProofs MvProofs
  TreeOpsProofs GgnSpec Ggn GgnProofs Posterior PosteriorSpec PosteriorProofs PosteriorTree
  EvalUtils Pushforward PushforwardSpec PushforwardProofs PipelineSpec TreeGgn Pipeline PipelineProofs.
From Verif Require Import P_Ggn P_Posterior P_Pushforward P_Pipeline.
Set Implicit Arguments.
Unset Strict Implicit.
Unset Printing Implicit Defensive.
Import GRing.Theory Num.Theory Order.TTheory.
Local Open Scope ring_scope.

Section Order.
Variable T : rcfType.

Lemma spd_psd n (A : 'M[T]_n) : spd A -> psd A.
Proof.
move=> [S P]; split=> // v; have [->|H] := eqVneq v 0; first by rewrite mulmx0 dotv0.
exact: ltW (P _ H).
Qed.
Lemma spd_invmx_sym n (A : 'M[T]_n) : spd A -> symmetric (invmx A).
Proof. by move=> [S _]; rewrite /symmetric trmx_inv S. Qed.

(** Inversion reverses the Loewner order of positive definite matrices. *)
Lemma loewner_inv n (A B : 'M[T]_n) : spd A -> spd B -> loewner_le A B -> loewner_le (invmx B) (invmx A).
Proof.
move=> HA HB [_ HBA]; have UA := spd_unit HA; have UB := spd_unit HB.
split; first by rewrite /symmetric linearB /= (spd_invmx_sym HA) (spd_invmx_sym HB).
move=> v; pose w := invmx B *m v; pose u := invmx A *m v.
have Bw : B *m w = v by rewrite /w mulKVmx.
have Au : A *m u = v by rewrite /u mulKVmx.
have [_ PA] := spd_psd HA; have := PA (u - w).
rewrite mulmxBr Au dotvB !dotvBl.
have -> : dotv u (A *m w) = dotv w v.
  by rewrite dotv_mul; have [-> _] := HA; rewrite Au dotvC.
have H := HBA w; rewrite mulmxBl dotvB Bw subr_ge0 in H.
rewrite mulmxBl dotvB -/u -/w subr_ge0 => H1.
have H2 : 0 <= dotv u v - dotv w v by apply: le_trans H1; rewrite subr_ge0.
by rewrite (dotvC v u) (dotvC v w).
Qed.

Lemma dotv_diag m n (J : 'M[T]_(m, n)) (S : 'M[T]_n) (i : 'I_m) :
  (J *m S *m J^T) i i = dotv (row i J)^T (S *m (row i J)^T).
Proof.
rewrite dotvE trmxK mulmxA tr_row -[RHS]/((row i J *m S *m col i J^T) ord0 ord0).
by rewrite -row_mul colE mulmxA -colE -row_mul !mxE.
Qed.

(** A smaller covariance gives smaller predictive variances. *)
Lemma loewner_diag m n (J : 'M[T]_(m, n)) (S1 S2 : 'M[T]_n) (i : 'I_m) : loewner_le S1 S2 ->
  (J *m S1 *m J^T) i i <= (J *m S2 *m J^T) i i.
Proof.
by move=> [_ H]; rewrite !dotv_diag -subr_ge0 -dotvB -mulmxBl; apply: H.
Qed.

Lemma prec_mono n (A B : 'M[T]_n) s1 s2 t1 t2 lsf : psd A -> loewner_le A B -> 0 <= s1 <= s2 -> t1 <= t2 -> 0 < lsf ->
  loewner_le (posterior_precision A s1 t1 lsf) (posterior_precision B s2 t2 lsf).
Proof.
move=> HA HAB /andP[H1 H2] H3 H4; rewrite /loewner_le /posterior_precision -scalerBr.
apply: psd_scale; first by rewrite invr_ge0 ltW.
have -> : s2 *: B + t2 *: 1%:M - (s1 *: A + t1 *: 1%:M) =
    (s2 *: (B - A) + (s2 - s1) *: A) + (t2 - t1) *: 1%:M.
  rewrite !scalerBl !scalerBr opprD addrACA.
  by congr (_ + _); rewrite addrA addrNK.
apply: psd_add.
  by apply: psd_add; apply: psd_scale => //; [apply: le_trans H2|rewrite subr_ge0].
apply: psd_scale; first by rewrite subr_ge0.
split=> [|v]; first by rewrite /symmetric trmx1.
by rewrite mul1mx; apply: sumr_ge0 => i _; rewrite -expr2 sqr_ge0.
Qed.
End Order.

Lemma ggn_matrix_mono (X : Type) K n s f1 f2 pred J (data extra : seq (X * arr R)) :
  List.In s ggn_losses -> 0 <= f1 <= f2 ->
  loewner_le (ggn_matrix K n s f1 pred J data) (ggn_matrix K n s f2 pred J (data ++ extra)).
Proof.
move=> Hs /andP[H1 H2]; rewrite /loewner_le /ggn_matrix big_cat /= scalerDr addrAC -scalerBl.
apply: psd_add; apply: psd_scale; rewrite ?subr_ge0 ?(le_trans H1 H2) //.
all: by apply: psd_sum => d; apply: psd_congr; apply: loss_hessian_psd.
Qed.

(** Where the variances of a report sit. *)
Lemma report_var n (out : arr R) J (S : 'M[R]_n) ops r : SVar \in ops ->
  lin_report n out J (entry S) ops r ->
  exists v, [/\ r_pred_var r = Some v, ashape v = ashape out, size (adata v) = prodn (ashape out) &
    forall i : 'I_(prodn (ashape out)), nth 0 (adata v) i =
      (of_entries (prodn (ashape out)) n J *m S *m (of_entries (prodn (ashape out)) n J)^T) i i].
Proof.
move=> Ho [_ _ _ E _]; move: E; rewrite Ho /= => E; eexists; split; [exact: E | by [] | by rewrite size_map size_iota |].
by move=> i /=; rewrite (nth_map 0%N) ?size_iota // nth_iota // add0n cov_entryE.
Qed.

Section Pair.
Variables (X Key : Type) (K : nat) (split : Key -> nat -> seq Key) (normal : Key -> seq nat -> seq R) (key0 : Key).
Variables (model_fn : X -> tree (arr R) -> res (arr R)) (ad_jvp ad_vjp : X -> tree (arr R) -> res (tree (arr R))).
Variables (t : tree (arr R)) (s : string) (pred : X -> arr R) (J : X -> nat -> nat -> R).
Variables (key : option Key) (kw : kwargs) (ops : seq lin_stat) (x : X).

(** The situation of C49 at the test point [x]: a named loss, a model with Jacobian [J], variances
    among the requested statistics. *)
Definition test_point : Prop :=
  [/\ (0 < get_size t)%N, List.In s ggn_losses, model_fn x t = Ok (pred x) &
      [/\ (0 < prodn (ashape (pred x)))%N, is_jacobian (J x) t (pred x) (ad_jvp x) (ad_vjp x),
          odflt 0%N (kw_num_samples kw) = 0%N, SSamples \notin ops & SVar \in ops] ]
  /\ ((size (ashape (pred x)) <= 1)%N \/ no_var_after_cov ops).
Definition data_ok (data : seq (X * arr R)) : Prop :=
  forall d, List.In d data -> sample_ok K model_fn ad_jvp ad_vjp t pred J d.

Definition run data nc nt s2 tau lsf : res (results [rcfType of R]) :=
  laplace_predictive K split normal key0 model_fn ad_jvp ad_vjp t data s nc nt s2 tau lsf key
    (@lin_setup [rcfType of R] X :: [seq stat_fn o | o <- ops]) kw x.

Definition reports (r : res (results [rcfType of R])) (v : arr R) : Prop :=
  exists2 r', r = Ok r' & r_pred_var r' = Some v.

Lemma runP data nc nt f s2 tau lsf : test_point -> data_ok data ->
  curv_scaling_factor nc nt (size data) = Ok f -> 0 <= odflt 1 s2 -> 0 < tau -> 0 < lsf ->
  exists v, [/\ reports (run data nc nt s2 tau lsf) v, ashape v = ashape (pred x),
    size (adata v) = prodn (ashape (pred x)) &
    forall i : 'I_(prodn (ashape (pred x))), nth 0 (adata v) i =
      (of_entries (prodn (ashape (pred x))) (get_size t) (J x) *m
       invmx (posterior_precision (ggn_matrix K (get_size t) s f pred J data) (odflt 1 s2) tau lsf) *m
       (of_entries (prodn (ashape (pred x))) (get_size t) (J x))^T) i i].
Proof.
move=> [[n0 Hs Mx [P0 HJ N0 Hsm Hv]] Ho] Hd Hf Hs2 Ht Hl.
have [r E H] := @C49_laplace_predictive X Key K split normal key0 model_fn ad_jvp ad_vjp t data s nc nt f pred J
  s2 tau lsf key kw ops x n0 Hs Hf Hd Hs2 Ht Hl Mx P0 HJ N0 Hsm Ho.
have [v [E1 E2 E3 E4]] := report_var Hv H; exists v; split=> //; by exists r.
Qed.

(** C50.  More data, a larger scaling factor, larger [sigma_squared] or larger prior precision never
    increase any predictive variance. *)
Theorem C50_uncertainty_monotone data extra nc1 nt1 f1 nc2 nt2 f2 s1 s2 tau1 tau2 lsf :
  test_point -> data_ok (data ++ extra) ->
  curv_scaling_factor nc1 nt1 (size data) = Ok f1 ->
  curv_scaling_factor nc2 nt2 (size (data ++ extra)) = Ok f2 -> f1 <= f2 ->
  0 <= odflt 1 s1 -> odflt 1 s1 <= odflt 1 s2 -> 0 < tau1 -> tau1 <= tau2 -> 0 < lsf ->
  exists v1 v2, [/\ reports (run data nc1 nt1 s1 tau1 lsf) v1, ashape v1 = ashape (pred x),
    reports (run (data ++ extra) nc2 nt2 s2 tau2 lsf) v2, ashape v2 = ashape (pred x) &
    forall i, nth 0 (adata v2) i <= nth 0 (adata v1) i].
Proof.
move=> TP Hd Hf1 Hf2 Hf Hs1 Hs Ht1 Ht Hl.
have Hs2 := le_trans Hs1 Hs; have Ht2 := lt_le_trans Ht1 Ht.
have Hd1 : data_ok data by move=> d Id; apply: Hd; apply/List.in_or_app; left.
have [v1 [R1 A1 S1 E1]] := runP TP Hd1 Hf1 Hs1 Ht1 Hl.
have [v2 [R2 A2 S2 E2]] := runP TP Hd Hf2 Hs2 Ht2 Hl.
exists v1, v2; split=> // i.
have [Hi|Hi] := ltnP i (prodn (ashape (pred x))); last by rewrite !nth_default ?S1 ?S2.
rewrite (E1 (Ordinal Hi)) (E2 (Ordinal Hi)); apply: loewner_diag.
have [[n0 HL _ _] _] := TP.
have P1 := ggn_matrix_psd K (get_size t) pred J data HL (factor_ge0 Hf1).
have P2 := ggn_matrix_psd K (get_size t) pred J (data ++ extra) HL (factor_ge0 Hf2).
apply: loewner_inv; [exact: spd_precision | exact: spd_precision |].
apply: prec_mono => //; last by rewrite Hs1.
by apply: ggn_matrix_mono => //; rewrite (factor_ge0 Hf1).
Qed.

(** Larger prior precision: smaller variances. *)
Theorem C50_prior_precision data nc nt f s2 tau1 tau2 lsf :
  test_point -> data_ok data -> curv_scaling_factor nc nt (size data) = Ok f -> 0 <= odflt 1 s2 ->
  0 < tau1 -> tau1 <= tau2 -> 0 < lsf ->
  exists v1 v2, [/\ reports (run data nc nt s2 tau1 lsf) v1, reports (run data nc nt s2 tau2 lsf) v2,
    ashape v1 = ashape (pred x) /\ ashape v2 = ashape (pred x) &
    forall i, nth 0 (adata v2) i <= nth 0 (adata v1) i].
Proof.
move=> TP Hd Hf Hs Ht1 Ht Hl; have Hd' : data_ok (data ++ [::]) by rewrite cats0.
have Hf' : curv_scaling_factor nc nt (size (data ++ [::])) = Ok f by rewrite cats0.
have [v1 [v2 [H1 H2 H3 H4 H5]]] := C50_uncertainty_monotone TP Hd' Hf Hf' (lexx _) Hs (lexx _) Ht1 Ht Hl.
by rewrite cats0 in H3; exists v1, v2.
Qed.

(** More data (default scaling): smaller variances. *)
Theorem C50_more_data data extra s2 tau lsf :
  test_point -> data_ok (data ++ extra) -> data <> [::] -> 0 <= odflt 1 s2 -> 0 < tau -> 0 < lsf ->
  exists v1 v2, [/\ reports (run data None None s2 tau lsf) v1,
    reports (run (data ++ extra) None None s2 tau lsf) v2,
    ashape v1 = ashape (pred x) /\ ashape v2 = ashape (pred x) &
    forall i, nth 0 (adata v2) i <= nth 0 (adata v1) i].
Proof.
move=> TP Hd H0 Hs Ht Hl.
have E (d : seq (X * arr R)) : d <> [::] -> curv_scaling_factor None None (size d) = Ok 1.
  by case: d => // a d _; rewrite /curv_scaling_factor /= divff // pnatr_eq0.
have H0' : data ++ extra <> [::] by case: (data) H0.
have [v1 [v2 [H1 H2 H3 H4 H5]]] := C50_uncertainty_monotone TP Hd (E _ H0) (E _ H0') (lexx _) Hs (lexx _) Ht (lexx _) Hl.
by exists v1, v2.
Qed.

(** The posterior never is more uncertain than the prior: [var_i <= lsf / tau * sum_p J_ip^2]. *)
Theorem C50_below_prior data nc nt f s2 tau lsf :
  test_point -> data_ok data -> curv_scaling_factor nc nt (size data) = Ok f -> 0 <= odflt 1 s2 ->
  0 < tau -> 0 < lsf ->
  exists v, [/\ reports (run data nc nt s2 tau lsf) v, size (adata v) = prodn (ashape (pred x)) &
    forall i, (i < prodn (ashape (pred x)))%N ->
    0 <= nth 0 (adata v) i <= lsf / tau * \sum_(0 <= p < get_size t) J x i p ^+ 2].
Proof.
move=> TP Hd Hf Hs Ht Hl; have [v [R1 A1 S1 E1]] := runP TP Hd Hf Hs Ht Hl.
exists v; split=> // i Hi; rewrite (E1 (Ordinal Hi)).
have [[n0 HL _ _] _] := TP.
have P1 := ggn_matrix_psd K (get_size t) pred J data HL (factor_ge0 Hf).
have Sp := spd_precision P1 Hs Ht Hl.
set P := posterior_precision _ _ _ _ in Sp *.
pose B : 'M[R]_(get_size t) := (tau / lsf)%:M.
have HB : spd B.
  split=> [|w Hw]; first by rewrite /symmetric tr_scalar_mx.
  by rewrite mul_scalar_mx dotvZ mulr_gt0 ?divr_gt0 ?sqr_norm_gt0.
have HBP : loewner_le B P.
  rewrite /loewner_le.
  have -> : P - B = (lsf^-1 * odflt 1 s2) *: ggn_matrix K (get_size t) s f pred J data.
    by rewrite /P /posterior_precision /B scalerDr !scalerA -[(tau / lsf)%:M]scalemx1 [lsf^-1 * tau]mulrC addrK.
  by apply: psd_scale => //; rewrite mulr_ge0 // invr_ge0 ltW.
apply/andP; split.
  rewrite dotv_diag; have := spd_unit Sp => U; rewrite -[X in dotv X _](mulKVmx U).
  by rewrite dotvC; have [_ Q] := spd_psd Sp; apply: Q.
apply: le_trans (loewner_diag _ _ (loewner_inv HB Sp HBP)) _.
have -> : invmx B = (lsf / tau)%:M.
  by rewrite /B invmx_scalar invf_div.
rewrite mul_mx_scalar -scalemxAl !mxE big_mkord le_eqVlt; apply/orP; left; apply/eqP.
congr (_ * _); apply: eq_bigr => p _; by rewrite !mxE expr2.
Qed.

(** Scaling of the loss: the variances are proportional to the loss scaling factor. *)
Theorem C50_loss_scaling data nc nt f s2 tau lsf :
  test_point -> data_ok data -> curv_scaling_factor nc nt (size data) = Ok f -> 0 <= odflt 1 s2 ->
  0 < tau -> 0 < lsf ->
  exists v1 v, [/\ reports (run data nc nt s2 tau 1) v1, reports (run data nc nt s2 tau lsf) v,
    ashape v1 = ashape (pred x) /\ ashape v = ashape (pred x) &
    forall i, nth 0 (adata v) i = lsf * nth 0 (adata v1) i].
Proof.
move=> TP Hd Hf Hs Ht Hl; have [v1 [R1 A1 S1 E1]] := runP TP Hd Hf Hs Ht ltr01.
have [v [R2 A2 S2 E2]] := runP TP Hd Hf Hs Ht Hl.
exists v1, v; split=> // i.
have [Hi|Hi] := ltnP i (prodn (ashape (pred x))); last by rewrite !nth_default ?S1 ?S2 ?mulr0.
rewrite (E1 (Ordinal Hi)) (E2 (Ordinal Hi)) /posterior_precision invr1 scale1r.
have [[n0 HL _ _] _] := TP.
have P1 := ggn_matrix_psd K (get_size t) pred J data HL (factor_ge0 Hf).
have := spd_unit (spd_precision P1 Hs Ht ltr01); rewrite /posterior_precision invr1 scale1r => U.
rewrite invmxZ ?invrK; last by rewrite unitmxZ // unitfE invr_eq0 gt_eqF.
by rewrite -scalemxAr -scalemxAl mxE.
Qed.
End Pair.
Print Assumptions C50_uncertainty_monotone.
Print Assumptions C50_prior_precision.
Print Assumptions C50_more_data.
Print Assumptions C50_below_prior.
Print Assumptions C50_loss_scaling.

(** Non-vacuity of C49 and C50: a model returning its two parameters, two observations, mean squared
    error, [tau = 1]; the variances are [1/5] with both observations ([sum of Hessians 4], prior 1) and
    [1/3] with one. *)
Definition ex_out : arr R := Arr [:: 2%N] [:: 3%:R; 4%:R].
Definition ex_run (data : seq (unit * arr R)) (tau : R) : res (results [rcfType of R]) :=
  @run unit unit 2 (fun k n => nseq n k) (fun _ sh => nseq (prodn sh) 0) tt (fun _ _ => Ok ex_out)
    (fun _ u => Ok u) (fun _ u => Ok u) (Leaf ex_out) "mse" None (kw0 None) [:: SVar] tt data None None None tau 1.
Definition ex_y (a b : R) : unit * arr R := (tt, Arr [:: 2%N] [:: a; b]).

Lemma ex_data_ok a b c d :
  data_ok 2 (fun _ _ => Ok ex_out) (fun (_ : unit) u => Ok u) (fun _ u => Ok u) (Leaf ex_out) (fun _ => ex_out)
    (fun _ => @ident [rcfType of R]) [:: ex_y a b; ex_y c d].
Proof. by move=> e [<-|[<-|[]]]; split=> //; apply: is_jacobian_ident. Qed.
Lemma ex_test_point :
  test_point (fun _ _ => Ok ex_out) (fun (_ : unit) u => Ok u) (fun _ u => Ok u) (Leaf ex_out) "mse" (fun _ => ex_out)
    (fun _ => @ident [rcfType of R]) (kw0 None) [:: SVar] tt.
Proof.
split; last by left.
split=> //; first by left.
by split=> //; apply: is_jacobian_ident.
Qed.

Lemma ident1 n : of_entries n n (@ident [rcfType of R]) = 1%:M.
Proof. by apply/matrixP => i j; rewrite !mxE /ident -val_eqE mulrb; case: eqP. Qed.

Example C50_example a b c d :
  exists v1 v2, [/\ reports (ex_run [:: ex_y a b] 1) v1, reports (ex_run [:: ex_y a b; ex_y c d] 1) v2,
    nth 0 (adata v1) 0 = 3%:R^-1 & nth 0 (adata v2) 0 = 5%:R^-1].
Proof.
have H1 : data_ok 2 (fun _ _ => Ok ex_out) (fun (_ : unit) u => Ok u) (fun _ u => Ok u) (Leaf ex_out) (fun _ => ex_out)
    (fun _ => @ident [rcfType of R]) [:: ex_y a b].
  by move=> e [<-|[]]; split=> //; apply: is_jacobian_ident.
have F1 : curv_scaling_factor None None 1 = Ok (1 : R) by rewrite /curv_scaling_factor divff // pnatr_eq0.
have F2 : curv_scaling_factor None None 2 = Ok (1 : R) by rewrite /curv_scaling_factor divff // pnatr_eq0.
have [v1 [R1 _ _ E1]] := @runP unit unit 2 (fun k n => nseq n k) (fun _ sh => nseq (prodn sh) 0) tt
  _ _ _ _ _ _ _ None _ _ _ _ _ _ _ None 1 1 ex_test_point H1 F1 ler01 ltr01 ltr01.
have [v2 [R2 _ _ E2]] := @runP unit unit 2 (fun k n => nseq n k) (fun _ sh => nseq (prodn sh) 0) tt
  _ _ _ _ _ _ _ None _ _ _ _ _ _ _ None 1 1 ex_test_point (@ex_data_ok a b c d) F2 ler01 ltr01 ltr01.
exists v1, v2; split=> //.
- rewrite (E1 (@Ordinal 2 0 isT)) /ggn_matrix /posterior_precision /= !big_cons !big_nil.
  rewrite /loss_hessian /= ident1 trmx1 !mul1mx !mulmx1 addr0 invr1 !scale1r -raddfD /= invmx_scalar mxE /=.
  by rewrite mulr1n -(natrD _ 2 1).
- rewrite (E2 (@Ordinal 2 0 isT)) /ggn_matrix /posterior_precision /= !big_cons !big_nil.
  rewrite /loss_hessian /= ident1 trmx1 !mul1mx !mulmx1 addr0 invr1 !scale1r -!raddfD /= invmx_scalar mxE /=.
  by rewrite mulr1n -natrD -(natrD _ 4 1).
Qed.
