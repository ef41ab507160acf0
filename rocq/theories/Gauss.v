(** Gaussian integrals over the real numbers (Coquelicot): the density integrates to one, moments, and
    the continuous ranked probability score as an integral. *)
From Coq Require Import Reals Lra.
From Coquelicot Require Import Coquelicot.
From mathcomp Require Import ssreflect.
From Verif Require Import Normal CrpsProofs.
Set Implicit Arguments.
Unset Strict Implicit.
Unset Printing Implicit Defensive.
Local Open Scope R_scope.

Lemma exp_mono x y : x <= y -> exp x <= exp y.
Proof. by case=> [/exp_increasing|->]; lra. Qed.

(** ** The Gaussian integral: [E^2 + 2 H] is constant. *)
Let ge (t : R) : R := exp (- (t * t / 2)).
Let E (x : R) : R := RInt ge 0 x.
Let hf (x t : R) : R := exp (- (x * x * (1 + t * t) / 2)) / (1 + t * t).
Let H (x : R) : R := RInt (hf x) 0 1.

Lemma one_sq t : 0 < 1 + t * t.
Proof. by have := Rle_0_sqr t; rewrite /Rsqr; lra. Qed.
Lemma ge_cont x : continuous ge x.
Proof. by apply: ex_derive_continuous; rewrite /ge; auto_derive. Qed.
Lemma ge_int a b : ex_RInt ge a b.
Proof. by apply: ex_RInt_continuous => x _; apply: ge_cont. Qed.
Lemma E_derive x : is_derive E x (ge x).
Proof.
apply: (is_derive_RInt _ _ 0); last exact: ge_cont.
apply: filter_forall => y; apply: RInt_correct; exact: ge_int.
Qed.
Lemma hf_int x a b : ex_RInt (hf x) a b.
Proof.
apply: ex_RInt_continuous => t _; apply: ex_derive_continuous; rewrite /hf; auto_derive.
by have := one_sq t; lra.
Qed.
Lemma hf_derive x t : is_derive (fun u => hf u t) x (- x * exp (- (x * x * (1 + t * t) / 2))).
Proof. have := one_sq t => Ht; rewrite /hf; auto_derive; first by []. rewrite -!/(Rdiv _ _); field; lra. Qed.
Lemma H_derive x : is_derive H x (- (ge x * E x)).
Proof.
have -> : - (ge x * E x) = RInt (fun t => Derive (fun u => hf u t) x) 0 1.
  have -> : RInt (fun t => Derive (fun u => hf u t) x) 0 1 = RInt (fun t => scal (- ge x) (scal x (ge (x * t + 0)))) 0 1.
    apply: RInt_ext => t _; rewrite (is_derive_unique _ _ _ (hf_derive x t)) /scal /= /mult /= /ge.
    have -> : - (x * x * (1 + t * t) / 2) = - (x * x / 2) + - ((x * t + 0) * (x * t + 0) / 2) by field.
    by rewrite exp_plus; ring.
  have Hc : is_RInt (fun t => scal x (ge (x * t + 0))) 0 1 (E x).
    apply: is_RInt_comp_lin; rewrite !Rmult_0_r !Rmult_1_r !Rplus_0_r.
    by apply: RInt_correct; apply: ge_int.
  by rewrite (is_RInt_unique _ _ _ _ (is_RInt_scal _ _ _ (- ge x) _ Hc)) /scal /= /mult /=; ring.
apply: is_derive_RInt_param.
- by apply: filter_forall => y t _; eexists; apply: hf_derive.
- move=> t _; apply: (continuity_2d_pt_ext (fun u v => - u * exp (- (u * u * (1 + v * v) / 2)))).
    by move=> u v; rewrite (is_derive_unique _ _ _ (hf_derive u v)).
  have C1 := continuity_2d_pt_id1 x t; have C2 := continuity_2d_pt_id2 x t.
  have CC c := continuity_2d_pt_const x t c.
  apply: continuity_2d_pt_mult; first exact: continuity_2d_pt_opp.
  apply: (@continuity_1d_2d_pt_comp exp (fun u v => - (u * u * (1 + v * v) / 2))).
    by apply: derivable_continuous_pt; apply: derivable_pt_exp.
  apply: continuity_2d_pt_opp; apply: continuity_2d_pt_mult; last exact: CC.
  apply: continuity_2d_pt_mult; first exact: continuity_2d_pt_mult.
  by apply: continuity_2d_pt_plus; [exact: CC|exact: continuity_2d_pt_mult].
- by apply: filter_forall => y; apply: hf_int.
Qed.

Lemma H0 : H 0 = PI / 4.
Proof.
rewrite -atan_1.
have HR : is_RInt (fun t => / (1 + t²)) 0 1 (minus (atan 1) (atan 0)).
  apply: is_RInt_derive => x _; first exact: is_derive_atan.
  apply: ex_derive_continuous; rewrite /Rsqr; auto_derive.
  by have := one_sq x; lra.
have -> : H 0 = RInt (fun t => / (1 + t²)) 0 1.
  apply: RInt_ext => t _; rewrite /hf.
  have -> : - (0 * 0 * (1 + t * t) / 2) = 0 by field.
  by rewrite exp_0 /Rsqr /Rdiv Rmult_1_l.
by rewrite (is_RInt_unique _ _ _ _ HR) atan_0 /minus /plus /opp /=; ring.
Qed.

Lemma EH x : E x * E x + 2 * H x = PI / 2.
Proof.
have D y : is_derive (fun y => E y * E y + 2 * H y) y 0.
  have D1 := E_derive y; have D2 := H_derive y.
  have E1 : ex_derive E y by eexists; exact: D1.
  have E2 : ex_derive H y by eexists; exact: D2.
  auto_derive; first by [].
  rewrite (is_derive_unique (fun x => E x) y _ D1) (is_derive_unique (fun x => H x) y _ D2); ring.
have -> : PI / 2 = E 0 * E 0 + 2 * H 0.
  by rewrite H0 /E RInt_point /zero /=; field.
have [c [_ Hc]] := MVT_gen (fun y => E y * E y + 2 * H y) 0 x (fun _ => 0)
  (fun y _ => D y) (fun y _ => proj2 (continuity_pt_filterlim _ y) (ex_derive_continuous _ _ (ex_intro _ _ (D y)))).
by lra.
Qed.

Lemma H_bound x : 0 <= H x <= PI / 4 * ge x.
Proof.
have pos t : 0 <= hf x t.
  by apply: Rmult_le_pos; [apply: Rlt_le; apply: exp_pos|apply: Rlt_le; apply: Rinv_0_lt_compat; apply: one_sq].
split; first by apply: RInt_ge_0 => [|| y _] //; [lra|apply: hf_int].
rewrite -H0 Rmult_comm.
have -> : ge x * H 0 = RInt (fun t => scal (ge x) (hf 0 t)) 0 1.
  by rewrite (RInt_scal _ _ _ (ge x)) //; apply: hf_int.
apply: RInt_le; [lra|exact: hf_int|by apply: ex_RInt_scal; apply: hf_int|move=> t _].
rewrite /hf /scal /= /mult /= /Rdiv -Rmult_assoc; apply: Rmult_le_compat_r.
  by apply: Rlt_le; apply: Rinv_0_lt_compat; apply: one_sq.
rewrite /ge -exp_plus; apply: exp_mono; have := Rle_0_sqr (x * t); rewrite /Rsqr; nra.
Qed.

(** ** The distribution function. *)
Lemma cdfE x : norm_cdf x = 1 / 2 + E x / sqrt (2 * PI).
Proof.
have -> : norm_cdf x = 1 / 2 + RInt norm_pdf 0 x by [].
congr (_ + _); rewrite /Rdiv Rmult_comm.
rewrite -[RHS]/(scal (/ sqrt (2 * PI)) (E x)) -(RInt_scal _ _ _ _ (ge_int 0 x)).
by apply: RInt_ext => t _; rewrite /norm_pdf /Rdiv Rmult_comm.
Qed.
Lemma cdf_prod x : norm_cdf x * (1 - norm_cdf x) = 1 / 4 - (E x * E x) / (2 * PI).
Proof.
have Hs := s2pi; have Hp := PI_RGT_0; have Es : sqrt (2 * PI) * sqrt (2 * PI) = 2 * PI by apply: sqrt_sqrt; lra.
rewrite cdfE; move: (sqrt _) Hs Es => s Hs <-; field; lra.
Qed.
Lemma cdf_tail x : norm_cdf x * (1 - norm_cdf x) <= ge x / 4.
Proof.
have Hs := s2pi; have Hp := PI_RGT_0; have Es : sqrt (2 * PI) * sqrt (2 * PI) = 2 * PI by apply: sqrt_sqrt; lra.
have -> : norm_cdf x * (1 - norm_cdf x) = 1 / 4 - (E x * E x) / (2 * PI).
  exact: cdf_prod.
have -> : E x * E x = PI / 2 - 2 * H x by have := EH x; lra.
have [_ Hb] := H_bound x.
have -> : 1 / 4 - (PI / 2 - 2 * H x) / (2 * PI) = H x / PI by field; lra.
apply: (Rmult_le_reg_r PI) => //.
have -> : H x / PI * PI = H x by field; lra.
lra.
Qed.
Lemma cdf_opp x : norm_cdf (- x) = 1 - norm_cdf x.
Proof. by have := norm_cdf_odd x; lra. Qed.
Lemma cdf_half x : 0 <= x -> 1 / 2 <= norm_cdf x <= 1.
Proof.
move=> Hx; have H1 := norm_cdf_ge Hx; split; first by lra.
have Hs := s2pi; have Hp := PI_RGT_0; have Es : sqrt (2 * PI) * sqrt (2 * PI) = 2 * PI by apply: sqrt_sqrt; lra.
have H2 : norm_cdf x * (1 - norm_cdf x) = H x / PI.
  have -> : norm_cdf x * (1 - norm_cdf x) = 1 / 4 - (E x * E x) / (2 * PI) by exact: cdf_prod.
  have -> : E x * E x = PI / 2 - 2 * H x by have := EH x; lra.
  by field; lra.
have [H3 _] := H_bound x.
have H4 : 0 <= norm_cdf x * (1 - norm_cdf x).
  by rewrite H2; apply: Rmult_le_pos => //; apply: Rlt_le; apply: Rinv_0_lt_compat.
nra.
Qed.
(** The upper tail: [1 - Phi x <= exp (- x^2 / 2) / 2]. *)
Lemma cdf_upper x : 0 <= x -> 0 <= 1 - norm_cdf x <= ge x / 2.
Proof.
move=> Hx; have [A B] := cdf_half Hx; have T := cdf_tail x; split; first by lra.
nra.
Qed.
Lemma cdf_bounds x : 0 <= norm_cdf x <= 1.
Proof.
case: (Rle_dec 0 x) => Hx; first by have := cdf_half Hx; lra.
have Hx' : 0 <= - x by lra.
by have := cdf_half Hx'; rewrite cdf_opp; lra.
Qed.

(** ** Limits. *)
Lemma ge_small x : ge x <= 2 / (2 + x * x).
Proof.
have := exp_ineq1_le (x * x / 2); rewrite /ge exp_Ropp => H1.
have H2 : 0 < (2 + x * x) / 2 by have := Rle_0_sqr x; rewrite /Rsqr; lra.
have -> : 2 / (2 + x * x) = / ((2 + x * x) / 2) by field; have := Rle_0_sqr x; rewrite /Rsqr; lra.
apply: Rinv_le_contravar => //; lra.
Qed.
Lemma filterlim_p_infty f (l : R) : (forall eps : posreal, exists M, forall x, M < x -> Rabs (f x - l) < eps) ->
  filterlim f (Rbar_locally p_infty) (locally l).
Proof. move=> Hf P [eps HP]; have [M HM] := Hf eps; exists M => x Hx; apply: HP; exact: HM. Qed.
Lemma filterlim_m_infty f (l : R) : filterlim (fun x => f (- x)) (Rbar_locally p_infty) (locally l) ->
  filterlim f (Rbar_locally m_infty) (locally l).
Proof.
move=> Hf P HP; have [M HM] := Hf P HP; exists (- M) => x Hx; rewrite -[x]Ropp_involutive; apply: HM; lra.
Qed.
(** Anything bounded by [c / x] tends to zero. *)
Lemma lim_le_inv f c : (forall x, 1 <= x -> Rabs (f x) <= c / x) -> filterlim f (Rbar_locally p_infty) (locally 0).
Proof.
move=> Hf; apply: filterlim_p_infty => eps; exists (Rmax 1 (Rabs c / eps)) => x Hx.
have H1 : 1 < x by apply: Rle_lt_trans Hx; apply: Rmax_l.
have H2 : Rabs c / eps < x by apply: Rle_lt_trans Hx; apply: Rmax_r.
rewrite Rminus_0_r; apply: Rle_lt_trans (Hf x _) _; first by lra.
have He := cond_pos eps.
apply: (Rmult_lt_reg_r x); first by lra.
have -> : c / x * x = c by field; lra.
have H3 : Rabs c < x * eps by apply: (Rmult_lt_reg_r (/ eps)); [exact: Rinv_0_lt_compat|rewrite Rmult_assoc Rinv_r; lra].
by have := Rle_abs c; lra.
Qed.
Lemma pdf_lim : filterlim norm_pdf (Rbar_locally p_infty) (locally 0).
Proof.
apply: (@lim_le_inv _ (2 / sqrt (2 * PI))) => x Hx; have Hs := s2pi.
rewrite Rabs_pos_eq; last by apply: Rlt_le; apply: norm_pdf_pos.
have -> : 2 / sqrt (2 * PI) / x = (2 / x) / sqrt (2 * PI) by field; lra.
apply: Rmult_le_compat_r; first by apply: Rlt_le; apply: Rinv_0_lt_compat.
apply: Rle_trans (ge_small x) _; apply: Rmult_le_compat_l; first by lra.
by apply: Rinv_le_contravar; nra.
Qed.
Lemma xpdf_lim : filterlim (fun x => x * norm_pdf x) (Rbar_locally p_infty) (locally 0).
Proof.
apply: (@lim_le_inv _ (2 / sqrt (2 * PI))) => x Hx; have Hs := s2pi.
rewrite Rabs_pos_eq; last by apply: Rmult_le_pos; [lra|apply: Rlt_le; apply: norm_pdf_pos].
have -> : 2 / sqrt (2 * PI) / x = x * (2 / (x * x)) / sqrt (2 * PI) by field; lra.
rewrite norm_pdfE /Rdiv -Rmult_assoc.
apply: Rmult_le_compat_r; first by apply: Rlt_le; apply: Rinv_0_lt_compat.
apply: Rmult_le_compat_l; first by lra.
apply: Rle_trans (ge_small x) _; apply: Rmult_le_compat_l; first by lra.
by apply: Rinv_le_contravar; nra.
Qed.
Lemma tail_lim : filterlim (fun x => norm_cdf (- x)) (Rbar_locally p_infty) (locally 0).
Proof.
apply: (@lim_le_inv _ 1) => x Hx; rewrite cdf_opp; have [A B] : 0 <= 1 - norm_cdf x <= ge x / 2 by apply: cdf_upper; lra.
rewrite Rabs_pos_eq //; apply: Rle_trans B _; have G := ge_small x.
have : 2 / (2 + x * x) <= 2 / x by apply: Rmult_le_compat_l; [lra|apply: Rinv_le_contravar; nra].
rewrite /Rdiv; lra.
Qed.
Lemma xtail_lim : filterlim (fun x => x * norm_cdf (- x)) (Rbar_locally p_infty) (locally 0).
Proof.
apply: (@lim_le_inv _ 1) => x Hx; rewrite cdf_opp; have [A B] : 0 <= 1 - norm_cdf x <= ge x / 2 by apply: cdf_upper; lra.
rewrite Rabs_pos_eq; last by apply: Rmult_le_pos; lra.
have G := ge_small x.
have H1 : 2 / (2 + x * x) <= 2 / (x * x) by apply: Rmult_le_compat_l; [lra|apply: Rinv_le_contravar; nra].
have H2 : 1 - norm_cdf x <= / (x * x) by rewrite /Rdiv in H1 G B; lra.
have -> : 1 / x = x * / (x * x) by field; lra.
by apply: Rmult_le_compat_l; lra.
Qed.
Lemma cdf_lim : filterlim norm_cdf (Rbar_locally p_infty) (locally 1).
Proof.
apply: filterlim_p_infty => eps; have [M HM] := tail_lim (locally_ball 0 eps).
exists M => x /HM; rewrite /ball /= /AbsRing_ball /abs /minus /plus /opp /= cdf_opp => Hx.
rewrite -Rabs_Ropp; have -> : - (norm_cdf x - 1) = 1 - norm_cdf x + - 0 by lra.
exact: Hx.
Qed.

(** ** Integrals over half-lines and the line. *)
Lemma FTC_gen (F f : R -> R) Fa Fb {FFa : Filter Fa} {FFb : Filter Fb} (la lb : R) :
  (forall x, is_derive F x (f x)) -> (forall x, continuous f x) ->
  filterlim F Fa (locally la) -> filterlim F Fb (locally lb) -> is_RInt_gen f Fa Fb (lb - la).
Proof.
move=> D C La Lb.
have L : filterlim (fun ab : R * R => F (snd ab) - F (fst ab)) (filter_prod Fa Fb) (locally (lb - la)).
  have L1 : filterlim (fun ab : R * R => - F (fst ab)) (filter_prod Fa Fb) (locally (- la)).
    apply: (filterlim_comp _ _ _ (fun ab : R * R => F (fst ab)) Ropp _ (locally la) (locally (- la))); last exact: (filterlim_opp la).
    apply: filterlim_comp La; exact: filterlim_fst.
  have L2 : filterlim (fun ab : R * R => F (snd ab)) (filter_prod Fa Fb) (locally lb).
    apply: filterlim_comp Lb; exact: filterlim_snd.
  have L3 := filterlim_comp_2 _ _ Rplus L2 L1 (filterlim_plus lb (- la)).
  exact: (L3 _).
move=> P HP; rewrite /filtermapi.
have FFp : Filter (filter_prod Fa Fb) by apply: filter_prod_filter.
refine (@filter_imp _ _ FFp _ _ _ (L P HP)); case=> a b /= HPab.
exists (F b - F a); split=> //.
exact: (is_RInt_derive F f a b (fun x _ => D x) (fun x _ => C x)).
Qed.

Notation minf := (Rbar_locally m_infty).
Notation pinf := (Rbar_locally p_infty).

Lemma lim_at (F : R -> R) x : continuous F x -> filterlim F (at_point x) (locally (F x)).
Proof. by move=> C P /C HP; apply: (locally_singleton _ _ HP). Qed.
Lemma is_derive_cont (F : R -> R) x l : is_derive F x l -> continuous F x.
Proof. by move=> D; apply: ex_derive_continuous; exists l. Qed.
Lemma cdf_lim_m : filterlim norm_cdf minf (locally 0).
Proof. exact: filterlim_m_infty tail_lim. Qed.

(** [Phi] is the integral of the density from minus infinity, and the density integrates to one. *)
Lemma cdf_integral x : is_RInt_gen norm_pdf minf (at_point x) (norm_cdf x).
Proof.
rewrite -[norm_cdf x]Rminus_0_r; apply: (@FTC_gen norm_cdf).
- exact: norm_cdf_derive.
- exact: norm_pdf_cont.
- exact: cdf_lim_m.
- by apply: lim_at; apply: is_derive_cont; apply: norm_cdf_derive.
Qed.
Lemma pdf_integral : is_RInt_gen norm_pdf minf pinf 1.
Proof.
rewrite -[1]Rminus_0_r; apply: (@FTC_gen norm_cdf).
- exact: norm_cdf_derive.
- exact: norm_pdf_cont.
- exact: cdf_lim_m.
- exact: cdf_lim.
Qed.
(** First and second moments. *)
Lemma pdf_mean : is_RInt_gen (fun x => x * norm_pdf x) minf pinf 0.
Proof.
rewrite -[0](Rminus_diag_eq (-0) (-0)) //; apply: (@FTC_gen (fun x => - norm_pdf x)).
- move=> x; have D := norm_pdf_derive x.
  have := is_derive_opp _ _ _ D; rewrite /opp /=.
  by rewrite -[- (- x * norm_pdf x)]/(- ((- x) * norm_pdf x)) Ropp_mult_distr_l Ropp_involutive.
- move=> x; apply: (is_derive_cont (l := norm_pdf x + x * (- x * norm_pdf x))).
  have D := norm_pdf_derive x.
  have Ex : ex_derive norm_pdf x by eexists; exact: D.
  auto_derive; first by [].
  by rewrite (is_derive_unique (fun x => norm_pdf x) x _ D); ring.
- apply: filterlim_m_infty.
  have L := filterlim_comp _ _ _ _ _ _ _ _ pdf_lim (filterlim_opp 0).
  apply: filterlim_ext L => y; by rewrite norm_pdf_even.
- exact: (filterlim_comp _ _ _ _ _ _ _ _ pdf_lim (filterlim_opp 0)).
Qed.
Lemma pdf_second : is_RInt_gen (fun x => x * x * norm_pdf x) minf pinf 1.
Proof.
have Dx x : is_derive (fun x => norm_cdf x - x * norm_pdf x) x (x * x * norm_pdf x).
  have D1 := norm_pdf_derive x; have D2 := norm_cdf_derive x.
  have E1 : ex_derive norm_pdf x by eexists; exact: D1.
  have E2 : ex_derive norm_cdf x by eexists; exact: D2.
  auto_derive; first by [].
  by rewrite (is_derive_unique (fun x => norm_pdf x) x _ D1) (is_derive_unique (fun x => norm_cdf x) x _ D2); ring.
have -> : 1 = (1 + - 0) - (0 + - - 0) by ring.
apply: (@FTC_gen (fun x => norm_cdf x - x * norm_pdf x)) => //.
- move=> x; apply: (is_derive_cont (l := 2 * x * norm_pdf x + x * x * (- x * norm_pdf x))).
  have D := norm_pdf_derive x.
  have Ex : ex_derive norm_pdf x by eexists; exact: D.
  auto_derive; first by [].
  by rewrite (is_derive_unique (fun x => norm_pdf x) x _ D); ring.
- apply: filterlim_m_infty.
  have L := filterlim_comp _ _ _ _ _ _ _ _ (filterlim_comp _ _ _ _ _ _ _ _ xpdf_lim (filterlim_opp 0)) (filterlim_opp (- 0)).
  have L' := filterlim_comp_2 _ _ Rplus tail_lim L (filterlim_plus 0 (- - 0)).
  apply: filterlim_ext (L' _) => y; rewrite norm_pdf_even /opp /=; ring.
- have L := filterlim_comp _ _ _ _ _ _ _ _ xpdf_lim (filterlim_opp 0).
  have L' := filterlim_comp_2 _ _ Rplus cdf_lim L (filterlim_plus 1 (- 0)).
  by apply: filterlim_ext (L' _) => y; rewrite /opp /=; ring.
Qed.

(** ** Location and scale. *)
Lemma is_RInt_gen_le (f : R -> R) Fa Fb Ga Gb (l : R) : filter_le Ga Fa -> filter_le Gb Fb ->
  is_RInt_gen f Fa Fb l -> is_RInt_gen f Ga Gb l.
Proof.
move=> Ha Hb Hf P /Hf [Q S HQ HS HP]; exists Q S => //; [exact: Ha|exact: Hb].
Qed.
Lemma gen_comp_lin (f : R -> R) Fa Fb (u v l : R) :
  is_RInt_gen f (filtermap (fun a => u * a + v) Fa) (filtermap (fun b => u * b + v) Fb) l ->
  is_RInt_gen (fun y => scal u (f (u * y + v))) Fa Fb l.
Proof.
move=> Hf P /Hf [Q0 S HQ HS HP]; exists (fun a => Q0 (u * a + v)) (fun b => S (u * b + v)) => // a b Qa Sb.
have [y [Hy Py]] := HP _ _ Qa Sb; exists y; split=> //; exact: is_RInt_comp_lin.
Qed.
Lemma affine_int (f : R -> R) m s l : 0 < s -> is_RInt_gen f minf pinf l ->
  is_RInt_gen (fun x => / s * f ((x - m) / s)) minf pinf l.
Proof.
move=> Hs Hf.
have Hi : 0 < / s by apply: Rinv_0_lt_compat.
apply: (is_RInt_gen_ext (fun x => scal (/ s) (f (/ s * x + - m / s)))).
  apply: filter_forall => ab x _; rewrite /scal /= /mult /=; congr (_ * f _); field; lra.
apply: gen_comp_lin; apply: is_RInt_gen_le Hf => P [M HM].
- exists (s * M + m) => x Hx; apply: HM.
  have -> : / s * x + - m / s = (x - m) / s by field; lra.
  apply: (Rmult_lt_reg_r s) => //.
  have -> : (x - m) / s * s = x - m by field; lra.
  lra.
- exists (s * M + m) => x Hx; apply: HM.
  have -> : / s * x + - m / s = (x - m) / s by field; lra.
  apply: (Rmult_lt_reg_r s) => //.
  have -> : (x - m) / s * s = x - m by field; lra.
  lra.
Qed.
Lemma affine_int_at (f : R -> R) m s y l : 0 < s -> is_RInt_gen f minf (at_point ((y - m) / s)) l ->
  is_RInt_gen (fun x => / s * f ((x - m) / s)) minf (at_point y) l.
Proof.
move=> Hs Hf.
have Hi : 0 < / s by apply: Rinv_0_lt_compat.
apply: (is_RInt_gen_ext (fun x => scal (/ s) (f (/ s * x + - m / s)))).
  apply: filter_forall => ab x _; rewrite /scal /= /mult /=; congr (_ * f _); field; lra.
apply: gen_comp_lin; apply: is_RInt_gen_le Hf => P.
- move=> [M HM]; exists (s * M + m) => x Hx; apply: HM.
  have -> : / s * x + - m / s = (x - m) / s by field; lra.
  apply: (Rmult_lt_reg_r s) => //.
  have -> : (x - m) / s * s = x - m by field; lra.
  lra.
- rewrite /at_point /filtermap; have -> : / s * y + - m / s = (y - m) / s by field; lra.
  by [].
Qed.
Lemma gauss_densityE m s y : 0 < s -> gauss_density m s y = / s * norm_pdf ((y - m) / s).
Proof.
move=> Hs; rewrite /gauss_density norm_pdfE.
have H2 : 0 <= 2 * PI by have := PI_RGT_0; lra.
have Hp := s2pi.
have Hq : 0 <= s * s by nra.
rewrite sqrt_mult // (sqrt_square s); last by lra.
have -> : - ((y - m) * (y - m)) / (2 * (s * s)) = - ((y - m) / s * ((y - m) / s) / 2) by field; lra.
by field; lra.
Qed.

Section Gaussian.
Variables (m s : R).
Hypothesis Hs : 0 < s.
Lemma density_integral : is_RInt_gen (gauss_density m s) minf pinf 1.
Proof.
apply: (is_RInt_gen_ext _ _ _ _ (affine_int m Hs pdf_integral)).
by apply: filter_forall => ab x _; rewrite gauss_densityE.
Qed.
Lemma density_cdf y : is_RInt_gen (gauss_density m s) minf (at_point y) (norm_cdf ((y - m) / s)).
Proof.
apply: (is_RInt_gen_ext (fun x => / s * norm_pdf ((x - m) / s))); last by apply: affine_int_at => //; exact: cdf_integral.
by apply: filter_forall => ab x _; rewrite gauss_densityE.
Qed.
(** The expectation of a quadratic polynomial in the error. *)
Lemma density_quadratic a b c : is_RInt_gen (fun y => gauss_density m s y * (a + b * (y - m) + c * ((y - m) * (y - m)))) minf pinf
  (a + c * (s * s)).
Proof.
have FM : Filter minf by apply: filter_filter.
have FP : Filter pinf by apply: filter_filter.
have H1 := @is_RInt_gen_scal _ _ _ FM FP _ a _ (affine_int m Hs pdf_integral).
have H2 := @is_RInt_gen_scal _ _ _ FM FP _ (b * s) _ (affine_int m Hs pdf_mean).
have H3 := @is_RInt_gen_scal _ _ _ FM FP _ (c * (s * s)) _ (affine_int m Hs pdf_second).
have H4 := @is_RInt_gen_plus _ _ _ FM FP _ _ _ _ (@is_RInt_gen_plus _ _ _ FM FP _ _ _ _ H1 H2) H3.
have E4 : plus (plus (scal a 1) (scal (b * s) 0)) (scal (c * (s * s)) 1) = a + c * (s * s).
  by rewrite /plus /scal /= /mult /=; ring.
rewrite E4 in H4; apply: (is_RInt_gen_ext _ _ _ _ H4).
apply: filter_forall => ab y _; rewrite gauss_densityE // /plus /scal /= /mult /=; field; lra.
Qed.
End Gaussian.

(** ** The continuous ranked probability score of the standard Gaussian. *)
Let Q (z : R) : R := z * (norm_cdf z * norm_cdf z) + 2 * norm_pdf z * norm_cdf z - norm_cdf (sqrt 2 * z) / sqrt PI.
Lemma Q_derive z : is_derive Q z (norm_cdf z * norm_cdf z).
Proof.
have D1 := norm_pdf_derive z; have D2 := norm_cdf_derive z; have D3 := norm_cdf_derive (sqrt 2 * z).
have E1 : ex_derive norm_pdf z by eexists; exact: D1.
have E2 : ex_derive norm_cdf z by eexists; exact: D2.
have E3 : ex_derive norm_cdf (sqrt 2 * z) by eexists; exact: D3.
rewrite /Q; auto_derive; first by [].
rewrite (is_derive_unique (fun x => norm_pdf x) z _ D1) (is_derive_unique (fun x => norm_cdf x) z _ D2)
  (is_derive_unique (fun x => norm_cdf x) _ _ D3).
have Hp := PI_RGT_0; have S := s2pi.
have Sp : 0 < sqrt PI by apply: sqrt_lt_R0.
have S2 : 0 < sqrt 2 by apply: sqrt_lt_R0; lra.
have Epdf : norm_pdf (sqrt 2 * z) = sqrt 2 * sqrt PI * (norm_pdf z * norm_pdf z).
  rewrite !norm_pdfE.
  have -> : sqrt 2 * z * (sqrt 2 * z) / 2 = z * z / 2 + z * z / 2.
    have := sqrt_sqrt 2; move: (sqrt 2) => r Hr; have {}Hr : r * r = 2 by apply: Hr; lra.
    have -> : r * z * (r * z) = r * r * (z * z) by ring.
    by rewrite Hr; field.
  rewrite Ropp_plus_distr exp_plus; have E0 : sqrt (2 * PI) = sqrt 2 * sqrt PI by apply: sqrt_mult; lra.
  by rewrite E0; field; lra.
rewrite Epdf; have S22 : sqrt 2 * sqrt 2 = 2 by apply: sqrt_sqrt; lra.
have -> : sqrt 2 * 1 * (sqrt 2 * sqrt PI * (norm_pdf z * norm_pdf z)) * / sqrt PI = (sqrt 2 * sqrt 2) * (norm_pdf z * norm_pdf z).
  by field; lra.
by rewrite S22; ring.
Qed.
Lemma tail_bound x : 1 <= x -> 0 <= 1 - norm_cdf x <= / (x * x).
Proof.
move=> Hx; have [A B] : 0 <= 1 - norm_cdf x <= ge x / 2 by apply: cdf_upper; lra.
have G := ge_small x; split=> //.
have H1 : 2 / (2 + x * x) <= 2 / (x * x) by apply: Rmult_le_compat_l; [lra|apply: Rinv_le_contravar; nra].
by rewrite /Rdiv in H1 G B; lra.
Qed.
Lemma pdf_bound x : 1 <= x -> 0 <= norm_pdf x <= 2 / sqrt (2 * PI) / x.
Proof.
move=> Hx; have Hs := s2pi; split; first by apply: Rlt_le; apply: norm_pdf_pos.
have -> : 2 / sqrt (2 * PI) / x = (2 / x) / sqrt (2 * PI) by field; lra.
apply: Rmult_le_compat_r; first by apply: Rlt_le; apply: Rinv_0_lt_compat.
apply: Rle_trans (ge_small x) _; apply: Rmult_le_compat_l; first by lra.
by apply: Rinv_le_contravar; nra.
Qed.
Lemma Q_lim : filterlim (fun x => Q (- x)) pinf (locally 0).
Proof.
have Hp := PI_RGT_0; have Sp : 0 < sqrt PI by apply: sqrt_lt_R0.
have S1 : 1 <= sqrt 2 by rewrite -sqrt_1; apply: sqrt_le_1; lra.
apply: (@lim_le_inv _ (1 + 2 * (2 / sqrt (2 * PI)) + / sqrt PI)) => x Hx.
have [A1 A2] := tail_bound Hx; have [B1 B2] := pdf_bound Hx.
have Hx2 : 1 <= sqrt 2 * x by nra.
have [C1 C2] := tail_bound Hx2.
have Hi : 0 < / x by apply: Rinv_0_lt_compat; lra.
have X2 : x * / (x * x) = / x by field; lra.
have X3 : / (x * x) <= / x by apply: Rinv_le_contravar; nra.
have X4 : / (sqrt 2 * x * (sqrt 2 * x)) <= / x by apply: Rinv_le_contravar; nra.
have A3 : 1 - norm_cdf x <= 1 by have := cdf_bounds x; lra.
rewrite /Q norm_pdf_even cdf_opp.
have -> : norm_cdf (sqrt 2 * - x) = 1 - norm_cdf (sqrt 2 * x) by rewrite -cdf_opp; congr norm_cdf; ring.
have T1 : 0 <= x * ((1 - norm_cdf x) * (1 - norm_cdf x)) <= / x.
  rewrite -X2; split; first by apply: Rmult_le_pos; nra.
  apply: Rmult_le_compat_l; nra.
have T2 : 0 <= 2 * norm_pdf x * (1 - norm_cdf x) <= 2 * (2 / sqrt (2 * PI) / x).
  have := Rmult_le_pos _ _ B1 A1; split; first by lra.
  have : norm_pdf x * (1 - norm_cdf x) <= norm_pdf x * 1 by apply: Rmult_le_compat_l.
  lra.
have T3 : 0 <= (1 - norm_cdf (sqrt 2 * x)) / sqrt PI <= / sqrt PI * / x.
  have Hj : 0 < / sqrt PI by apply: Rinv_0_lt_compat.
  rewrite /Rdiv; nra.
have -> : (1 + 2 * (2 / sqrt (2 * PI)) + / sqrt PI) / x = / x + 2 * (2 / sqrt (2 * PI) / x) + / sqrt PI * / x.
  by have Hs2 := s2pi; field; lra.
apply: Rabs_le; lra.
Qed.
Lemma crps_left y : is_RInt_gen (fun x => norm_cdf x * norm_cdf x) minf (at_point y) (Q y).
Proof.
rewrite -[Q y]Rminus_0_r; apply: (@FTC_gen Q).
- exact: Q_derive.
- move=> x; have D := norm_cdf_derive x; have Ex : ex_derive norm_cdf x by eexists; exact: D.
  by apply: ex_derive_continuous; auto_derive.
- exact: filterlim_m_infty Q_lim.
- by apply: lim_at; apply: is_derive_cont; apply: Q_derive.
Qed.
Lemma crps_right y : is_RInt_gen (fun x => (norm_cdf x - 1) * (norm_cdf x - 1)) (at_point y) pinf (Q (- y)).
Proof.
have E0 (a : R) : a = (- 0) - (- a) by lra.
rewrite (E0 (Q (- y))).
have DQ x : is_derive (fun x => - Q (- x)) x ((norm_cdf x - 1) * (norm_cdf x - 1)).
  have D := Q_derive (- x); have Ex : ex_derive Q (- x) by eexists; exact: D.
  auto_derive; first by [].
  by rewrite (is_derive_unique (fun x => Q x) _ _ D) cdf_opp; ring.
apply: (@FTC_gen (fun x => - Q (- x))) => //.
- move=> x; have D := norm_cdf_derive x; have Ex : ex_derive norm_cdf x by eexists; exact: D.
  by apply: ex_derive_continuous; auto_derive.
- by apply: (lim_at (F := fun x => - Q (- x))); apply: is_derive_cont; apply: DQ.
- exact: (filterlim_comp _ _ _ _ _ _ _ _ Q_lim (filterlim_opp 0)).
Qed.
(** The step at the observation. *)
Definition step (y x : R) : R := match Rle_dec y x with left _ => 1 | right _ => 0 end.
Lemma crps_std_integral y :
  is_RInt_gen (fun x => (norm_cdf x - step y x) * (norm_cdf x - step y x)) minf pinf (crps_std y).
Proof.
have -> : crps_std y = plus (Q y) (Q (- y)).
  rewrite /crps_std /plus /= /Q norm_pdf_even.
  have -> : norm_cdf (sqrt 2 * - y) = 1 - norm_cdf (sqrt 2 * y) by rewrite -cdf_opp; congr norm_cdf; ring.
  rewrite cdf_opp; field; have := PI_RGT_0 => Hp; have := sqrt_lt_R0 _ Hp; lra.
apply: (is_RInt_gen_Chasles _ y).
- apply: (is_RInt_gen_ext (fun x => norm_cdf x * norm_cdf x)); last exact: crps_left.
  exists (fun a => a < y) (fun b => b = y) => //; first by exists y.
  move=> a b Ha -> x [_] /=; rewrite Rmax_right; last by lra.
  by move=> Hx; rewrite /step; case: Rle_dec => ?; [lra|rewrite Rminus_0_r].
- apply: (is_RInt_gen_ext (fun x => (norm_cdf x - 1) * (norm_cdf x - 1))); last exact: crps_right.
  exists (fun a => a = y) (fun b => y < b) => //; first by exists y.
  move=> a b -> Hb x [] /=; rewrite Rmin_left; last by lra.
  by move=> Hx _; rewrite /step; case: Rle_dec => ?; [|lra].
Qed.
Lemma crps_integral m s y : 0 < s ->
  is_RInt_gen (fun x => (norm_cdf ((x - m) / s) - step y x) ^ 2) minf pinf (crps_term m s y).
Proof.
move=> Hs; have FM : Filter minf by apply: filter_filter.
have FP : Filter pinf by apply: filter_filter.
have H1 := @is_RInt_gen_scal _ _ _ FM FP _ s _ (affine_int m Hs (@crps_std_integral ((y - m) / s))).
rewrite crps_termE; apply: (is_RInt_gen_ext _ _ _ _ H1).
apply: filter_forall => ab x _; rewrite /scal /= /mult /=.
have -> : step ((y - m) / s) ((x - m) / s) = step y x.
  rewrite /step; have Hi : 0 < / s by apply: Rinv_0_lt_compat.
  case: Rle_dec => A; case: Rle_dec => B //; exfalso.
    by apply: B; have := Rmult_le_reg_r _ _ _ Hi A; lra.
  by apply: A; apply: Rmult_le_compat_r; lra.
by field; lra.
Qed.

(** ** Absolute error. *)
Lemma partial_mean z : 0 <= norm_pdf z - z * (1 - norm_cdf z).
Proof.
have mono x : z <= x -> norm_pdf x - x * (1 - norm_cdf x) <= norm_pdf z - z * (1 - norm_cdf z).
  move=> Hx.
  have D y : is_derive (fun y => norm_pdf y - y * (1 - norm_cdf y)) y (- (1 - norm_cdf y)).
    have D1 := norm_pdf_derive y; have D2 := norm_cdf_derive y.
    have E1 : ex_derive norm_pdf y by eexists; exact: D1.
    have E2 : ex_derive norm_cdf y by eexists; exact: D2.
    auto_derive; first by [].
    by rewrite (is_derive_unique (fun x => norm_pdf x) y _ D1) (is_derive_unique (fun x => norm_cdf x) y _ D2); ring.
  have [c [_ Hc]] := MVT_gen (fun y => norm_pdf y - y * (1 - norm_cdf y)) z x (fun y => - (1 - norm_cdf y))
    (fun y _ => D y) (fun y _ => proj2 (continuity_pt_filterlim _ y) (ex_derive_continuous _ _ (ex_intro _ _ (D y)))).
  have B := cdf_bounds c; nra.
have low x : 1 <= x -> - / x <= norm_pdf x - x * (1 - norm_cdf x).
  move=> Hx; have [A B] := tail_bound Hx; have P := norm_pdf_pos x.
  have X2 : x * / (x * x) = / x by field; lra.
  have : x * (1 - norm_cdf x) <= / x by rewrite -X2; apply: Rmult_le_compat_l; lra.
  lra.
case: (Rle_lt_dec 0 (norm_pdf z - z * (1 - norm_cdf z))) => // Hn; exfalso.
set h := norm_pdf z - z * (1 - norm_cdf z) in mono Hn *.
have Hh : 0 < / (- h) by apply: Rinv_0_lt_compat; lra.
pose x := Rmax (Rmax 1 z) (/ (- h) + 1).
have X1 : 1 <= x by apply: Rle_trans (Rmax_l _ _); apply: Rmax_l.
have X2 : z <= x by apply: Rle_trans (Rmax_l _ _); apply: Rmax_r.
have X3 : / (- h) + 1 <= x by apply: Rmax_r.
have L1 := low x X1; have L2 := mono x X2.
have : / x < - h.
  rewrite -(Rinv_inv (- h)); apply: Rinv_lt_contravar; last by lra.
  by apply: Rmult_lt_0_compat; lra.
lra.
Qed.
Lemma crps_std_bounds z : Rabs z - 1 / sqrt PI <= crps_std z <= Rabs z + (sqrt 2 - 1) / sqrt PI.
Proof.
rewrite -(crps_std_abs z); move: (Rabs_pos z); move: (Rabs z) => {}z Hz.
have P0 := partial_mean z.
split; first by rewrite /crps_std; have := cdf_bounds z; lra.
have D y : is_derive (fun y => crps_std y - y) y (2 * norm_cdf y - 1 - 1).
  have D1 := crps_std_derive y; have E1 : ex_derive crps_std y by eexists; exact: D1.
  auto_derive; first by [].
  by rewrite (is_derive_unique (fun x => crps_std x) y _ D1); ring.
have [c [_ Hc]] := MVT_gen (fun y => crps_std y - y) 0 z (fun y => 2 * norm_cdf y - 1 - 1)
    (fun y _ => D y) (fun y _ => proj2 (continuity_pt_filterlim _ y) (ex_derive_continuous _ _ (ex_intro _ _ (D y)))).
have B := cdf_bounds c; rewrite -crps_std0; nra.
Qed.
Lemma crps_abs_error m s y : 0 < s ->
  Rabs (y - m) - s * (1 / sqrt PI) <= crps_term m s y <= Rabs (y - m) + s * ((sqrt 2 - 1) / sqrt PI).
Proof.
move=> Hs; rewrite crps_termE; have [A B] := crps_std_bounds ((y - m) / s).
have E1 : s * Rabs ((y - m) / s) = Rabs (y - m).
  rewrite -{1}(Rabs_pos_eq s); last by lra.
  by rewrite -Rabs_mult; congr Rabs; field; lra.
have A' := Rmult_le_compat_l s _ _ (Rlt_le _ _ Hs) A; have B' := Rmult_le_compat_l s _ _ (Rlt_le _ _ Hs) B.
lra.
Qed.

(** ** The expected negative log density. *)
Definition nll_mean (m0 s0 m s : R) : R := (ln (2 * PI * (s * s)) + (s0 * s0 + (m0 - m) * (m0 - m)) / (s * s)) / 2.
Lemma nll_expectation m0 s0 m s : 0 < s0 -> 0 < s ->
  is_RInt_gen (fun y => gauss_density m0 s0 y * - norm_logpdf (m - y) s) minf pinf (nll_mean m0 s0 m s).
Proof.
move=> Hs0 Hs.
have D := @density_quadratic m0 s0 Hs0 ((ln (2 * PI * (s * s)) + (m0 - m) * (m0 - m) / (s * s)) / 2) ((m0 - m) / (s * s)) (/ (2 * (s * s))).
have -> : nll_mean m0 s0 m s = (ln (2 * PI * (s * s)) + (m0 - m) * (m0 - m) / (s * s)) / 2 + / (2 * (s * s)) * (s0 * s0).
  by rewrite /nll_mean; field; lra.
apply: (is_RInt_gen_ext _ _ _ _ D); apply: filter_forall => ab y _.
congr (_ * _); rewrite /norm_logpdf; field; lra.
Qed.
Lemma ln_le_sub1 r : 0 < r -> ln r <= r - 1 /\ (ln r = r - 1 -> r = 1).
Proof.
move=> Hr; case: (Req_dec (ln r) 0) => [E0|N0].
  have -> : r = 1 by rewrite -(exp_ln r) // E0 exp_0.
  by rewrite ln_1; split=> //; lra.
have := exp_ineq1 (ln r) N0; rewrite exp_ln // => H1; split; lra.
Qed.
Lemma nll_mean_best m0 s0 m s : 0 < s0 -> 0 < s ->
  nll_mean m0 s0 m0 s0 <= nll_mean m0 s0 m s /\ (nll_mean m0 s0 m s = nll_mean m0 s0 m0 s0 -> m = m0 /\ s = s0).
Proof.
move=> H0 Hs; pose r := s0 * s0 / (s * s).
have Hp := PI_RGT_0; have P0 : 0 < s0 * s0 by nra.
have P1 : 0 < s * s by nra.
have Hr : 0 < r by apply: Rmult_lt_0_compat => //; apply: Rinv_0_lt_compat.
have [A B] := ln_le_sub1 Hr.
have El : ln (2 * PI * (s0 * s0)) = ln (2 * PI * (s * s)) + ln r.
  rewrite -ln_mult //; last by nra.
  by congr ln; rewrite /r; field; lra.
have E1 : nll_mean m0 s0 m s - nll_mean m0 s0 m0 s0 = (r - 1 - ln r) / 2 + (m0 - m) * (m0 - m) / (2 * (s * s)).
  rewrite /nll_mean El /r; field; lra.
have Hq : 0 <= (m0 - m) * (m0 - m) / (2 * (s * s)).
  apply: Rmult_le_pos; first by have := Rle_0_sqr (m0 - m); rewrite /Rsqr.
  by apply: Rlt_le; apply: Rinv_0_lt_compat; lra.
split; first by lra.
move=> Ee; have Er : r = 1 by apply: B; lra.
split.
  have : (m0 - m) * (m0 - m) / (2 * (s * s)) = 0 by lra.
  move=> /Rmult_integral [|Hz]; first by nra.
  by have := Rinv_0_lt_compat (2 * (s * s)); lra.
have : s0 * s0 = s * s by rewrite -[s * s]Rmult_1_l -Er /r; field; lra.
nra.
Qed.
(** The expected squared standardised error. *)
Lemma chi_expectation m0 s0 m s : 0 < s0 -> 0 < s ->
  is_RInt_gen (fun y => gauss_density m0 s0 y * ((m - y) * (m - y) / (s * s))) minf pinf
    ((s0 * s0 + (m0 - m) * (m0 - m)) / (s * s)).
Proof.
move=> Hs0 Hs.
have D := @density_quadratic m0 s0 Hs0 ((m0 - m) * (m0 - m) / (s * s)) (2 * (m0 - m) / (s * s)) (/ (s * s)).
have -> : (s0 * s0 + (m0 - m) * (m0 - m)) / (s * s) = (m0 - m) * (m0 - m) / (s * s) + / (s * s) * (s0 * s0) by field; lra.
apply: (is_RInt_gen_ext _ _ _ _ D); apply: filter_forall => ab y _.
congr (_ * _); field; lra.
Qed.
