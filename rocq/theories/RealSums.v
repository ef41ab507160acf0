(** Real sums, derivatives of sums, sigmoid and softmax. *)
From Coq Require Import Reals Lra.
From Coquelicot Require Import Coquelicot.
From mathcomp Require Import all_ssreflect all_algebra.
From Verif Require Import Base RealStruct Ggn GgnSpec.
Set Implicit Arguments.
Unset Strict Implicit.
Unset Printing Implicit Defensive.
Import GRing.Theory Num.Theory Order.TTheory.
Local Open Scope ring_scope.

(** Turn mathcomp operations on [R] back into those of the standard library. *)
Ltac toR := rewrite -?RplusE -?RminusE -?RmultE -?RoppE -?R0E -?R1E.
(** ... also numerals and quotients by them *)
Ltac numR := rewrite -?RdivE ?pnatr_eq0 // -?RinvE ?pnatr_eq0 // -?INRE; toR; cbn [INR].

(** derivatives of real functions, in mathcomp notation *)
Lemma der_ext (f g : R -> R) (x d : R) : f =1 g -> is_derive f x d -> is_derive g x d.
Proof. by move=> H; apply: is_derive_ext. Qed.
Lemma der_eq (f : R -> R) (x d e : R) : d = e -> is_derive f x d -> is_derive f x e.
Proof. by move=> ->. Qed.
Lemma der_const (c x : R) : is_derive (fun _ : R => c) x (0 : R).
Proof. exact: is_derive_const. Qed.
Lemma der_id (x : R) : is_derive (fun t : R => t) x (1 : R).
Proof. exact: is_derive_id. Qed.
Lemma der_add (f g : R -> R) (x d e : R) : is_derive f x d -> is_derive g x e ->
  is_derive (fun t => f t + g t) x (d + e).
Proof. exact: is_derive_plus. Qed.
Lemma der_opp (f : R -> R) (x d : R) : is_derive f x d -> is_derive (fun t => - f t) x (- d).
Proof. exact: is_derive_opp. Qed.
Lemma der_sub (f g : R -> R) (x d e : R) : is_derive f x d -> is_derive g x e ->
  is_derive (fun t => f t - g t) x (d - e).
Proof. by move=> H1 H2; apply: der_add => //; apply: der_opp. Qed.
Lemma der_mul (f g : R -> R) (x d e : R) : is_derive f x d -> is_derive g x e ->
  is_derive (fun t => f t * g t) x (d * g x + f x * e).
Proof. by move=> H1 H2; apply: is_derive_mult => // a b; apply: Rmult_comm. Qed.
Lemma der_comp (f g : R -> R) (x d e : R) : is_derive f (g x) d -> is_derive g x e ->
  is_derive (fun t => f (g t)) x (d * e).
Proof. by move=> H1 H2; rewrite mulrC; apply: (is_derive_comp f g x d e). Qed.
Lemma der_inv (f : R -> R) (x d : R) : f x != 0 -> is_derive f x d ->
  is_derive (fun t => (f t)^-1) x (- d / (f x) ^+ 2).
Proof.
move=> H0 H.
have H1 : is_derive (fun t => Rinv (f t)) x (Rdiv (Ropp d) (pow (f x) 2)).
  by apply: is_derive_inv => //; apply/eqP.
rewrite -[_ / _]RdivE ?expf_neq0 // -RpowE.
apply: is_derive_ext_loc H1.
have Hc : continuous f x := (ex_derive_continuous f x (ex_intro _ d H)).
have [eps He] : locally (f x) (fun y => y <> 0).
  exists (mkposreal (Rabs (f x)) (Rabs_pos_lt _ (elimN eqP H0))) => y /= Hy E.
  move: Hy; rewrite E /ball /= /AbsRing_ball /= /abs /= /minus /plus /opp /=.
  rewrite -[X in Rplus X _]/R0 Rplus_0_l Rabs_Ropp; exact: Rlt_irrefl.
apply: (@filter_imp _ (locally x) _ (fun t => f t <> 0)) => [y Hy|].
  by rewrite RinvE //; apply/eqP.
exact: (Hc _ (ex_intro _ eps He)).
Qed.
Lemma der_exp (x : R) : is_derive exp x (exp x).
Proof. exact: is_derive_exp. Qed.
Lemma der_ln (x : R) : 0 < x -> is_derive ln x x^-1.
Proof.
move=> H; have H' : x != 0 by rewrite gt_eqF.
by rewrite -(RinvE H'); apply: is_derive_ln; apply/RltP.
Qed.

Lemma is_derive_sum (I : Type) (r : seq I) (f : I -> R -> R) (d : I -> R) (x : R) :
  (forall i, is_derive (f i) x (d i)) ->
  is_derive (fun t => \sum_(i <- r) f i t) x (\sum_(i <- r) d i).
Proof.
move=> H; elim: r => [|i r IH].
  rewrite big_nil; apply: (@der_ext (fun _ => 0)); first by move=> t; rewrite big_nil.
  exact: der_const.
rewrite big_cons; apply: (@der_ext (fun t => f i t + \sum_(j <- r) f j t)).
  by move=> t; rewrite big_cons.
exact: der_add.
Qed.

Lemma exp_gt0 (x : R) : 0 < exp x.
Proof. by apply/RltP; apply: exp_pos. Qed.

Lemma sum_exp_gt0 n (z : 'cV[R]_n.+1) : 0 < \sum_j exp (z j ord0).
Proof.
rewrite big_ord_recl; apply: ltr_paddr; last exact: exp_gt0.
by apply: sumr_ge0 => i _; apply/ltW/exp_gt0.
Qed.

Lemma softmax_gt0 n (z : 'cV[R]_n.+1) i : 0 < softmax z i ord0.
Proof. by rewrite mxE divr_gt0 ?exp_gt0 ?sum_exp_gt0. Qed.

Lemma softmax_sum n (z : 'cV[R]_n.+1) : \sum_i softmax z i ord0 = 1.
Proof.
transitivity ((\sum_i exp (z i ord0)) / (\sum_j exp (z j ord0))); last first.
  by rewrite divff // gt_eqF // sum_exp_gt0.
by rewrite mulr_suml; apply: eq_bigr => i _; rewrite mxE.
Qed.

Lemma expD (x y : R) : exp (x + y) = exp x * exp y.
Proof. by rewrite -RplusE exp_plus. Qed.

(** the shift by the maximum in jax.nn.softmax is invisible *)
Lemma softmax_shift n (z : 'cV[R]_n.+1) (c : R) :
  softmax (z - const_mx c) = softmax z.
Proof.
apply/matrixP => i j; rewrite !mxE.
have E k : exp ((z - const_mx c) k ord0) = exp (z k ord0) * exp (- c).
  by rewrite !mxE expD.
under eq_bigr do rewrite E.
rewrite -mulr_suml expD invfM mulrACA divff ?mulr1 //.
by rewrite gt_eqF // exp_gt0.
Qed.

Lemma softmax_le1 n (z : 'cV[R]_n.+1) i : softmax z i ord0 <= 1.
Proof.
rewrite -(softmax_sum z) (bigD1 i) //= ler_addl; apply: sumr_ge0 => j _.
exact/ltW/softmax_gt0.
Qed.

Lemma sigmoid_gt0 x : 0 < sigmoid x.
Proof. by rewrite /sigmoid div1r invr_gt0 addr_gt0 ?ltr01 ?exp_gt0. Qed.
Lemma sigmoid_lt1 x : sigmoid x < 1.
Proof.
rewrite /sigmoid ltr_pdivr_mulr ?mul1r ?ltr_addl ?exp_gt0 //.
by rewrite addr_gt0 ?ltr01 ?exp_gt0.
Qed.
Lemma sigmoidN x : sigmoid (- x) = 1 - sigmoid x.
Proof.
have H1 : 1 + exp (- x) != 0 by rewrite gt_eqF // addr_gt0 ?ltr01 ?exp_gt0.
have H2 : 1 + exp x != 0 by rewrite gt_eqF // addr_gt0 ?ltr01 ?exp_gt0.
rewrite /sigmoid opprK.
apply/eqP; rewrite eq_sym subr_eq addrC -subr_eq; apply/eqP.
have E : exp x * exp (- x) = 1.
  by rewrite -expD addrN -[exp 0]/(exp R0) exp_0.
apply: (mulIf H1); apply: (mulIf H2).
rewrite mulrBl !mul1r mulVf // mulrBl.
rewrite mulrAC mulVf // mul1r.
by move: E; rewrite -!RmultE -!RplusE -!RoppE -?R1E => E; nra.
Qed.
