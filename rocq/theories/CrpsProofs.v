(** The Gaussian CRPS: analysis over the real numbers (Coquelicot). *)
From Coq Require Import Reals Lra.
From Coquelicot Require Import Coquelicot.
From mathcomp Require Import ssreflect.
From Verif Require Import Normal.
Set Implicit Arguments.
Unset Strict Implicit.
Unset Printing Implicit Defensive.
Local Open Scope R_scope.

Lemma norm_pdfE x : norm_pdf x = exp (- (x * x / 2)) / sqrt (2 * PI).
Proof. by []. Qed.
Lemma s2pi : 0 < sqrt (2 * PI).
Proof. by apply: sqrt_lt_R0; have := PI_RGT_0; lra. Qed.
Lemma norm_pdf_pos x : 0 < norm_pdf x.
Proof.
rewrite norm_pdfE; apply: Rmult_lt_0_compat; first exact: exp_pos.
by apply: Rinv_0_lt_compat; apply: s2pi.
Qed.
Lemma norm_pdf_derive x : is_derive norm_pdf x (- x * norm_pdf x).
Proof.
have H := s2pi.
apply: (is_derive_ext (fun x => exp (- (x * x / 2)) / sqrt (2 * PI))); first by [].
rewrite norm_pdfE; auto_derive => //.
by rewrite /Rdiv; field; lra.
Qed.
Lemma norm_pdf_cont x : continuous norm_pdf x.
Proof. by apply: ex_derive_continuous; eexists; apply: norm_pdf_derive. Qed.
Lemma norm_pdf_int a b : ex_RInt norm_pdf a b.
Proof. by apply: ex_RInt_continuous => x _; apply: norm_pdf_cont. Qed.
Lemma norm_cdf_derive x : is_derive norm_cdf x (norm_pdf x).
Proof.
rewrite -[norm_pdf x](Rplus_0_l (norm_pdf x)).
apply: (is_derive_plus (fun _ => 1 / 2) (fun x => RInt norm_pdf 0 x)); first exact: is_derive_const.
apply: (is_derive_RInt _ _ 0); last exact: norm_pdf_cont.
apply: filter_forall => y; apply: RInt_correct; exact: norm_pdf_int.
Qed.
Lemma norm_pdf_even x : norm_pdf (- x) = norm_pdf x.
Proof. rewrite !norm_pdfE; congr (exp (- (_ / 2)) / _); ring. Qed.
Lemma norm_cdf_odd x : 2 * norm_cdf (- x) - 1 = - (2 * norm_cdf x - 1).
Proof.
have E : RInt norm_pdf 0 (- x) = - RInt norm_pdf 0 x.
  have H := is_RInt_comp_opp norm_pdf 0 x (RInt norm_pdf 0 (- x)).
  rewrite -(is_RInt_unique _ _ _ _ (H _)); last by rewrite Ropp_0; apply: RInt_correct; exact: norm_pdf_int.
  rewrite -[RHS]/(opp (RInt norm_pdf 0 x)) -(RInt_opp _ _ _ (norm_pdf_int _ _)); apply: RInt_ext => y _.
  by rewrite norm_pdf_even.
rewrite -[norm_cdf (- x)]/(1 / 2 + RInt norm_pdf 0 (- x)) -[norm_cdf x]/(1 / 2 + RInt norm_pdf 0 x) E.
lra.
Qed.
Lemma norm_cdf_ge x : 0 <= x -> 0 <= 2 * norm_cdf x - 1.
Proof.
move=> Hx; have : 0 <= RInt norm_pdf 0 x.
  by apply: RInt_ge_0 => // [|y _]; [exact: norm_pdf_int|apply: Rlt_le; apply: norm_pdf_pos].
rewrite -[norm_cdf x]/(1 / 2 + RInt norm_pdf 0 x); lra.
Qed.

(** The standardised score. *)
Definition crps_std (z : R) : R := 2 * norm_pdf z + z * (2 * norm_cdf z - 1) - 1 / sqrt PI.
Lemma crps_std_derive z : is_derive crps_std z (2 * norm_cdf z - 1).
Proof.
have D1 := norm_pdf_derive z; have D2 := norm_cdf_derive z.
have E1 : ex_derive norm_pdf z by eexists; exact: D1.
have E2 : ex_derive norm_cdf z by eexists; exact: D2.
rewrite /crps_std; auto_derive; first by [].
rewrite (is_derive_unique (fun x => norm_pdf x) z _ D1) (is_derive_unique (fun x => norm_cdf x) z _ D2).
ring.
Qed.
Lemma crps_std_even z : crps_std (- z) = crps_std z.
Proof.
rewrite /crps_std norm_pdf_even; have := norm_cdf_odd z.
set a := 2 * norm_cdf (- z) - 1 => ->; ring.
Qed.
Lemma crps_std_mono a b : 0 <= a <= b -> crps_std a <= crps_std b.
Proof.
move=> [H0 Hab]; case: Hab => [Hab|->]; last exact: Rle_refl.
have [c [Hc1 Hc2]] : exists c, a <= c <= b /\ crps_std b - crps_std a = (2 * norm_cdf c - 1) * (b - a).
  have := MVT_gen crps_std a b (fun c => 2 * norm_cdf c - 1); cbv zeta.
  rewrite Rmin_left ?Rmax_right; [|lra|lra]; case.
  - by move=> x _; apply: crps_std_derive.
  - move=> x _; apply: derivable_continuous_pt; eexists; apply/is_derive_Reals; exact: crps_std_derive.
  - by move=> c Hc; exists c.
have Hc : 0 <= 2 * norm_cdf c - 1 by apply: norm_cdf_ge; lra.
have : 0 <= (2 * norm_cdf c - 1) * (b - a) by apply: Rmult_le_pos => //; lra.
lra.
Qed.
Lemma crps_std_abs z : crps_std (Rabs z) = crps_std z.
Proof. by rewrite /Rabs; case: Rcase_abs => _ //; exact: crps_std_even. Qed.
Lemma crps_std0 : crps_std 0 = (sqrt 2 - 1) / sqrt PI.
Proof.
have Hp : 0 < sqrt PI by apply: sqrt_lt_R0; exact: PI_RGT_0.
have H2 : 0 < sqrt 2 by apply: sqrt_lt_R0; lra.
have E2 : sqrt 2 * sqrt 2 = 2 by apply: sqrt_sqrt; lra.
rewrite /crps_std norm_pdfE (Rmult_0_l (2 * norm_cdf 0 - 1)).
have -> : - (0 * 0 / 2) = 0 by field.
rewrite exp_0 sqrt_mult; [|lra|by apply: Rlt_le; exact: PI_RGT_0].
have -> : 2 * (1 / (sqrt 2 * sqrt PI)) = sqrt 2 / sqrt PI.
  by rewrite -{1}E2; field; lra.
field; lra.
Qed.
Lemma crps_std_lower z : (sqrt 2 - 1) / sqrt PI <= crps_std z.
Proof.
rewrite -crps_std0 -(crps_std_abs z); apply: crps_std_mono; split; [lra|exact: Rabs_pos].
Qed.
Lemma crps_termE m s y : crps_term m s y = s * crps_std ((y - m) / s).
Proof.
rewrite /crps_term /crps_std.
set z := (y - m) / s; ring.
Qed.

(** ** The Gaussian negative log likelihood *)

(** The density the docstring writes down. *)
Definition gauss_density (m s y : R) : R := 1 / sqrt (2 * PI * (s * s)) * exp (- ((y - m) * (y - m)) / (2 * (s * s))).
Lemma norm_logpdfE m s y : 0 < s -> norm_logpdf (m - y) s = ln (gauss_density m s y).
Proof.
move=> Hs; have Hp := PI_RGT_0; have Hss : 0 < s * s by apply: Rmult_lt_0_compat.
have H2 : 0 < 2 * PI * (s * s) by apply: Rmult_lt_0_compat; lra.
have H3 : 0 < sqrt (2 * PI * (s * s)) by apply: sqrt_lt_R0.
have E1 : 1 / sqrt (2 * PI * (s * s)) = / sqrt (2 * PI * (s * s)) by rewrite /Rdiv Rmult_1_l.
rewrite /norm_logpdf /gauss_density E1 (ln_mult (/ sqrt _)); [|exact: Rinv_0_lt_compat|exact: exp_pos].
rewrite ln_exp ln_Rinv //.
have <- : ln (2 * PI * (s * s)) / 2 = ln (sqrt (2 * PI * (s * s))).
  rewrite -{1}(sqrt_sqrt (2 * PI * (s * s))); [|exact: Rlt_le].
  by rewrite ln_mult //; field.
by field; lra.
Qed.
(** For a given error [r], the term is least at [s = |r|]. *)
Lemma norm_logpdf_best r s : r <> 0 -> 0 < s -> norm_logpdf r s <= norm_logpdf r (Rabs r).
Proof.
move=> Hr Hs; have Hp := PI_RGT_0.
have Ha : 0 < Rabs r by apply: Rabs_pos_lt.
have E : Rabs r * Rabs r = r * r by rewrite -Rabs_mult Rabs_pos_eq //; nra.
have Hrr : 0 < r * r by rewrite -E; apply: Rmult_lt_0_compat.
have Hss : 0 < s * s by apply: Rmult_lt_0_compat.
rewrite /norm_logpdf E.
rewrite !(ln_mult (2 * PI)); [|lra|lra|lra|lra].
have Hq : 0 < r * r / (s * s) by apply: Rmult_lt_0_compat => //; apply: Rinv_0_lt_compat.
have L : ln (r * r) - ln (s * s) = ln (r * r / (s * s)).
  rewrite /Rdiv (ln_mult (r * r) (/ (s * s))) //; [|by apply: Rinv_0_lt_compat]; rewrite ln_Rinv //; lra.
have := exp_ineq1_le (ln (r * r / (s * s))); rewrite exp_ln //.
have -> : r * r / (r * r) = 1 by field.
lra.
Qed.

Lemma gauss_precision tau t : 0 < tau ->
  ln (gauss_density 0 (/ sqrt tau) t) = - / 2 * tau * (t * t) + - / 2 * (ln (2 * PI) - ln tau).
Proof.
move=> Ht; have Hs : 0 < sqrt tau by apply: sqrt_lt_R0.
have Hp := PI_RGT_0.
rewrite -norm_logpdfE; last exact: Rinv_0_lt_compat.
have E : / sqrt tau * / sqrt tau = / tau.
  rewrite -Rinv_mult_distr; [|lra|lra].
  by rewrite sqrt_sqrt //; apply: Rlt_le.
rewrite /norm_logpdf E (ln_mult (2 * PI)); [|lra|exact: Rinv_0_lt_compat].
rewrite ln_Rinv //; field; lra.
Qed.
