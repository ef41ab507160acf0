(** Coq's real numbers as a mathcomp real closed field, so that the matrix theorems stated
    over [rcfType] can be used together with [exp] and [ln].  Uses only the axioms of the
    standard library (Reals, ClassicalEpsilon, FunctionalExtensionality). *)
From Coq Require Import Reals Lra ClassicalEpsilon FunctionalExtensionality.
From mathcomp Require Import all_ssreflect all_algebra.
Set Implicit Arguments.
Unset Strict Implicit.
Unset Printing Implicit Defensive.
Import GRing.Theory Num.Theory Order.TTheory.

Definition eqr (r1 r2 : R) : bool := if Req_EM_T r1 r2 is left _ then true else false.
Lemma eqrP : Equality.axiom eqr.
Proof. by move=> r1 r2; rewrite /eqr; case: Req_EM_T => H; constructor. Qed.
Canonical R_eqMixin := EqMixin eqrP.
Canonical R_eqType := Eval hnf in EqType R R_eqMixin.

Definition pickR (P : pred R) (n : nat) :=
  let x := epsilon (inhabits R0) (fun x => P x) in if P x then Some x else None.
Fact pickR_some P n x : pickR P n = Some x -> P x.
Proof. by rewrite /pickR; case: ifP => // H [<-]. Qed.
Fact pickR_ex (P : pred R) : (exists x : R, P x) -> exists n, pickR P n.
Proof. by move=> H; exists 0; rewrite /pickR (epsilon_spec (inhabits R0) (fun x => P x) H). Qed.
Fact pickR_ext (P Q : pred R) : P =1 Q -> pickR P =1 pickR Q.
Proof. by move=> H n; have -> : P = Q by apply: functional_extensionality. Qed.
Definition R_choiceMixin : choiceMixin R := Choice.Mixin pickR_some pickR_ex pickR_ext.
Canonical R_choiceType := Eval hnf in ChoiceType R R_choiceMixin.

Fact RplusA : associative Rplus. Proof. by move=> x y z; rewrite Rplus_assoc. Qed.
Definition R_zmodMixin := ZmodMixin RplusA Rplus_comm Rplus_0_l Rplus_opp_l.
Canonical R_zmodType := Eval hnf in ZmodType R R_zmodMixin.

Fact RmultA : associative Rmult. Proof. by move=> x y z; rewrite Rmult_assoc. Qed.
Fact RmultDl : left_distributive Rmult Rplus. Proof. by move=> x y z; rewrite Rmult_plus_distr_r. Qed.
Fact R1_neq0 : R1 != R0. Proof. by apply/eqP/R1_neq_R0. Qed.
Definition R_ringMixin := ComRingMixin RmultA Rmult_comm Rmult_1_l RmultDl R1_neq0.
Canonical R_ringType := Eval hnf in RingType R R_ringMixin.
Canonical R_comRingType := Eval hnf in ComRingType R Rmult_comm.

Definition Rinvx (r : R) : R := if r != R0 then Rinv r else R0.
Fact Rmulvx : forall r : R, r != R0 -> Rmult (Rinvx r) r = R1.
Proof. by move=> r H; rewrite /Rinvx H; apply: Rinv_l; apply/eqP. Qed.
Fact Rinvx0 : Rinvx R0 = R0. Proof. by rewrite /Rinvx eqxx. Qed.
Definition R_unitMixin := FieldUnitMixin Rmulvx Rinvx0.
Canonical R_unitRingType := Eval hnf in UnitRingType R R_unitMixin.
Canonical R_comUnitRingType := Eval hnf in [comUnitRingType of R].
Fact R_field_axiom : GRing.Field.mixin_of R_unitRingType. Proof. exact. Qed.
Canonical R_idomainType := Eval hnf in IdomainType R (FieldIdomainMixin R_field_axiom).
Canonical R_fieldType := FieldType R R_field_axiom.

Definition Rleb (r1 r2 : R) : bool := if Rle_dec r1 r2 is left _ then true else false.
Definition Rltb (r1 r2 : R) : bool := if Rlt_dec r1 r2 is left _ then true else false.
Lemma RlebP r1 r2 : reflect (Rle r1 r2) (Rleb r1 r2).
Proof. by rewrite /Rleb; case: Rle_dec => H; constructor. Qed.
Lemma RltbP r1 r2 : reflect (Rlt r1 r2) (Rltb r1 r2).
Proof. by rewrite /Rltb; case: Rlt_dec => H; constructor. Qed.

Fact R_le0D x y : Rleb R0 x -> Rleb R0 y -> Rleb R0 (Rplus x y).
Proof. by move=> /RlebP H1 /RlebP H2; apply/RlebP; lra. Qed.
Fact R_le0M x y : Rleb R0 x -> Rleb R0 y -> Rleb R0 (Rmult x y).
Proof. by move=> /RlebP H1 /RlebP H2; apply/RlebP; apply: Rmult_le_pos. Qed.
Fact R_le0_anti x : Rleb R0 x -> Rleb x R0 -> x = R0.
Proof. by move=> /RlebP H1 /RlebP H2; lra. Qed.
Fact R_sub_ge0 x y : Rleb R0 (Rplus y (Ropp x)) = Rleb x y.
Proof. by apply/RlebP/RlebP; lra. Qed.
Fact R_le0_total x : Rleb R0 x || Rleb x R0.
Proof. by case: (Rle_dec R0 x) => H; apply/orP; [left|right]; apply/RlebP; lra. Qed.
Fact R_leb_total : total Rleb.
Proof. by move=> x y; case: (Rle_dec x y) => H; apply/orP; [left|right]; apply/RlebP; lra. Qed.
Fact R_ge0_norm x : Rleb R0 x -> Rabs x = x.
Proof. by move=> /RlebP H; apply: Rabs_pos_eq. Qed.
Fact R_lt_def x y : Rltb x y = (y != x) && Rleb x y.
Proof.
apply/RltbP/andP => [H|[/eqP H1 /RlebP H2]]; last by lra.
by split; [apply/eqP; lra|apply/RlebP; lra].
Qed.
Definition R_LeMixin : realLeMixin R_idomainType :=
  RealLeMixin R_le0D R_le0M R_le0_anti R_sub_ge0 R_le0_total Rabs_Ropp R_ge0_norm R_lt_def.
Canonical R_porderType := POrderType ring_display R R_LeMixin.
Canonical R_latticeType := LatticeType R R_LeMixin.
Canonical R_distrLatticeType := DistrLatticeType R R_LeMixin.
Canonical R_orderType := OrderType R R_leb_total.
Canonical R_numDomainType := NumDomainType R R_LeMixin.
Canonical R_normedZmodType := NormedZmodType R R R_LeMixin.
Canonical R_numFieldType := [numFieldType of R].
Canonical R_realDomainType := [realDomainType of R].
Canonical R_realFieldType := [realFieldType of R].

(** Translation of the operations. *)
Section Translate.
Local Open Scope ring_scope.
Lemma RplusE (x y : R) : Rplus x y = x + y. Proof. by []. Qed.
Lemma RminusE (x y : R) : Rminus x y = x - y. Proof. by []. Qed.
Lemma RoppE (x : R) : Ropp x = - x. Proof. by []. Qed.
Lemma RmultE (x y : R) : Rmult x y = x * y. Proof. by []. Qed.
Lemma R0E : R0 = 0 :> R. Proof. by []. Qed.
Lemma R1E : R1 = 1 :> R. Proof. by []. Qed.
Lemma RinvE (x : R) : x != 0 -> Rinv x = x^-1.
Proof. by move=> H; rewrite [RHS]/(Rinvx x) /Rinvx H. Qed.
Lemma RdivE (x y : R) : y != 0 -> Rdiv x y = x / y.
Proof. by move=> H; rewrite /Rdiv RinvE. Qed.
Lemma RleP (x y : R) : reflect (Rle x y) (x <= y). Proof. exact: RlebP. Qed.
Lemma RltP (x y : R) : reflect (Rlt x y) (x < y). Proof. exact: RltbP. Qed.
Lemma INRE (n : nat) : INR n = n%:R.
Proof. by elim: n => // n IH; rewrite S_INR IH mulrSr. Qed.
Lemma RabsE (x : R) : Rabs x = `|x|. Proof. by []. Qed.
Lemma RpowE (x : R) n : pow x n = x ^+ n.
Proof. by elim: n => //= n IH; rewrite exprS -IH. Qed.

Lemma continuity_horner (p : {poly R}) : continuity (fun x => p.[x]).
Proof.
elim/poly_ind: p => [|p c IH].
  have -> : (fun x : R => (0 : {poly R}).[x]) = (fct_cte R0).
    by apply: functional_extensionality => x; rewrite horner0.
  exact: continuity_const.
have -> : (fun x => (p * 'X + c%:P).[x]) =
    plus_fct (mult_fct (fun x => p.[x]) id) (fct_cte c).
  by apply: functional_extensionality => x; rewrite hornerD hornerMX hornerC.
apply: continuity_plus; last exact: continuity_const.
apply: continuity_mult => //.
exact: derivable_continuous derivable_id.
Qed.

Lemma R_real_closed : Num.real_closed_axiom R_numDomainType.
Proof.
move=> p a b /RleP Hab /andP [/RleP Ha /RleP Hb].
have H : Rle (Rmult p.[a] p.[b]) R0.
  by rewrite -[X in Rle _ X](Rmult_0_r p.[a]); apply: Rmult_le_compat_neg_l.
have [z [[Hz1 Hz2] Hz]] := IVT_cor _ _ _ (continuity_horner p) Hab H.
exists z; last by apply/rootP.
by apply/andP; split; apply/RleP.
Qed.
Canonical R_rcfType := RcfType R R_real_closed.
End Translate.

(** Arguments of the real functions are written with mathcomp operations. *)
Bind Scope ring_scope with R.
Global Arguments exp _%ring_scope.
Global Arguments ln _%ring_scope.
Global Arguments Rabs _%ring_scope.
