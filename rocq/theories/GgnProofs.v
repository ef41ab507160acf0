(** Proofs about the GGN operator and the loss Hessians. *)
From Coq Require Import Reals Lra String.
From Coquelicot Require Import Coquelicot.
From mathcomp Require Import all_ssreflect all_algebra.
From Verif Require Import Base RealStruct Ggn GgnSpec RealSums.
Set Implicit Arguments.
Unset Strict Implicit.
Unset Printing Implicit Defensive.
Import GRing.Theory Num.Theory Order.TTheory.
Local Open Scope ring_scope.

Section Dot.
Variable T : comRingType.
Lemma dotvE n (u v : 'cV[T]_n) : dotv u v = (u^T *m v) ord0 ord0.
Proof. by rewrite mxE; apply: eq_bigr => i _; rewrite mxE. Qed.
Lemma dotvC n (u v : 'cV[T]_n) : dotv u v = dotv v u.
Proof. by apply: eq_bigr => i _; rewrite mulrC. Qed.
Lemma dotvD n (u v w : 'cV[T]_n) : dotv u (v + w) = dotv u v + dotv u w.
Proof. by rewrite -big_split; apply: eq_bigr => i _; rewrite mxE mulrDr. Qed.
Lemma dotvZ n (u v : 'cV[T]_n) a : dotv u (a *: v) = a * dotv u v.
Proof. by rewrite /dotv mulr_sumr; apply: eq_bigr => i _; rewrite mxE mulrCA. Qed.
Lemma dotvB n (u v w : 'cV[T]_n) : dotv u (v - w) = dotv u v - dotv u w.
Proof. by rewrite -scaleN1r dotvD dotvZ mulN1r. Qed.
Lemma dotv0 n (u : 'cV[T]_n) : dotv u 0 = 0.
Proof. by rewrite /dotv big1 // => i _; rewrite mxE mulr0. Qed.
Lemma dotvDl n (u v w : 'cV[T]_n) : dotv (v + w) u = dotv v u + dotv w u.
Proof. by rewrite ![dotv _ u]dotvC dotvD. Qed.
Lemma dotvZl n (u v : 'cV[T]_n) a : dotv (a *: v) u = a * dotv v u.
Proof. by rewrite ![dotv _ u]dotvC dotvZ. Qed.
Lemma dotvBl n (u v w : 'cV[T]_n) : dotv (v - w) u = dotv v u - dotv w u.
Proof. by rewrite ![dotv _ u]dotvC dotvB. Qed.
Lemma dotv_sum n (I : Type) (r : seq I) (F : I -> 'cV[T]_n) u :
  dotv u (\sum_(i <- r) F i) = \sum_(i <- r) dotv u (F i).
Proof.
elim: r => [|i r IH]; first by rewrite !big_nil dotv0.
by rewrite !big_cons dotvD IH.
Qed.
Lemma dotv_tr m n (A : 'M[T]_(m, n)) (u : 'cV[T]_n) (w : 'cV[T]_m) :
  dotv u (A^T *m w) = dotv (A *m u) w.
Proof. by rewrite !dotvE trmx_mul mulmxA. Qed.
Lemma dotv_mul m n (A : 'M[T]_(m, n)) (u : 'cV[T]_m) (w : 'cV[T]_n) :
  dotv u (A *m w) = dotv (A^T *m u) w.
Proof. by rewrite !dotvE trmx_mul trmxK mulmxA. Qed.
Lemma dotv_delta n (u : 'cV[T]_n) i : dotv u (delta_mx i ord0) = u i ord0.
Proof.
rewrite /dotv (bigD1 i) //= !mxE !eqxx mulr1 big1 ?addr0 // => j /negbTE H.
by rewrite mxE H mulr0.
Qed.
Lemma dotv_inj n (u v : 'cV[T]_n) : (forall w, dotv u w = dotv v w) -> u = v.
Proof.
by move=> H; apply/colP => i; rewrite -[LHS]dotv_delta -[RHS]dotv_delta H.
Qed.
End Dot.

(** [is_hvp] determines the vector. *)
Lemma is_hvp_uniq n (f : 'cV[R]_n -> R) p v h h' :
  is_hvp f p v h -> is_hvp f p v h' -> h = h'.
Proof.
move=> [g [Hg Hh]] [g' [Hg' Hh']]; apply: dotv_inj => u.
have E q : g q = g' q.
  apply: dotv_inj => w; have := Hg q w; have := Hg' q w.
  by move=> /is_derive_unique <- /is_derive_unique <-.
have := Hh u; have := Hh' u.
have -> : (fun t : R => dotv (g' (p + t *: v)) u) = (fun t : R => dotv (g (p + t *: v)) u).
  by apply: FunctionalExtensionality.functional_extensionality => t; rewrite E.
by move=> /is_derive_unique <- /is_derive_unique <-.
Qed.

Section Ggn.
Variables (X : Type) (P K : nat).
Variables (model : X -> 'cV[R]_P -> 'cV[R]_K) (jac : X -> 'cV[R]_P -> 'M[R]_(K, P)).

Lemma ggn_mvE params hess factor vec (data : seq (X * 'cV[R]_K)) :
  ggn_mv model jac params hess factor vec data =
  factor *: \sum_(d <- data)
     (jac d.1 params)^T *m hess (jac d.1 params *m vec) (model d.1 params) d.2.
Proof.
rewrite /ggn_mv foldrE big_map; congr (_ *: _).
elim: data => [|d data IH] /=; first by rewrite !big_nil.
by rewrite !big_cons IH.
Qed.

Variables (params : 'cV[R]_P) (hess : 'cV[R]_K -> 'cV[R]_K -> 'cV[R]_K -> 'cV[R]_K) (factor : R).
Variable (data : seq (X * 'cV[R]_K)).
Notation g := (fun v => ggn_mv model jac params hess factor v data).

Lemma ggn_linear : (forall z y, linear_op (fun jv => hess jv z y)) -> linear_op g.
Proof.
move=> H a u v; rewrite !ggn_mvE scalerA mulrC -scalerA -scalerDr; congr (_ *: _).
rewrite scaler_sumr -big_split; apply: eq_bigr => d _.
by rewrite mulmxDr -scalemxAr H mulmxDr -scalemxAr.
Qed.

Lemma ggn_symmetric : (forall z y, symmetric_op (fun jv => hess jv z y)) -> symmetric_op g.
Proof.
move=> H u v; rewrite !ggn_mvE dotvZ dotvZl; congr (_ * _).
rewrite dotv_sum dotvC dotv_sum; apply: eq_bigr => d _.
by rewrite dotv_tr H dotv_tr dotvC.
Qed.

Lemma ggn_psd : 0 <= factor -> (forall z y, psd_op (fun jv => hess jv z y)) -> psd_op g.
Proof.
move=> Hf H v; rewrite ggn_mvE dotvZ; apply: mulr_ge0 => //.
rewrite dotv_sum; apply: sumr_ge0 => d _.
by rewrite dotv_tr; apply: H.
Qed.
End Ggn.

Lemma ggn_cat (X : Type) P K (model : X -> 'cV[R]_P -> 'cV[R]_K) jac params hess factor vec d1 d2 :
  ggn_mv model jac params hess factor vec (d1 ++ d2) =
  ggn_mv model jac params hess factor vec d1 + ggn_mv model jac params hess factor vec d2.
Proof. by rewrite !ggn_mvE big_cat scalerDr. Qed.

Lemma ggn_flatten (X : Type) P K (model : X -> 'cV[R]_P -> 'cV[R]_K) jac params hess factor vec bs :
  ggn_mv model jac params hess factor vec (flatten bs) =
  \sum_(b <- bs) ggn_mv model jac params hess factor vec b.
Proof.
elim: bs => [|b bs IH] /=; first by rewrite big_nil ggn_mvE big_nil scaler0.
by rewrite big_cons ggn_cat IH.
Qed.

(** ** the built-in losses *)
Section Builtin.
Variable K : nat.
Implicit Types (z y jv : 'cV[R]_K).

Lemma bce_linear z : linear_op (fun jv => bce_hessian_mv jv z).
Proof. by move=> a u v; apply/colP => i; rewrite !mxE mulrDr mulrCA. Qed.
Lemma bce_symmetric z : symmetric_op (fun jv => bce_hessian_mv jv z).
Proof. by move=> u v; apply: eq_bigr => i _; rewrite !mxE mulrCA mulrA. Qed.
Lemma bce_psd z : psd_op (fun jv => bce_hessian_mv jv z).
Proof.
move=> v; apply: sumr_ge0 => i _; rewrite mxE mulrCA -expr2.
apply: mulr_ge0; last exact: sqr_ge0.
apply: mulr_ge0; first exact/ltW/sigmoid_gt0.
by rewrite subr_ge0; apply/ltW/sigmoid_lt1.
Qed.

Lemma ce_entry jv z i : ce_hessian_mv jv z i ord0 =
  softmax z i ord0 * (jv i ord0 - dotv (softmax z) jv).
Proof. by rewrite /ce_hessian_mv -dotvE !mxE mulrBr. Qed.

Lemma ce_linear z : linear_op (fun jv => ce_hessian_mv jv z).
Proof.
move=> a u v; apply/colP => i.
rewrite ce_entry [RHS]mxE [in RHS]mxE !ce_entry dotvD dotvZ.
rewrite [(_ *: u + v) i ord0]mxE [(_ *: u) i ord0]mxE opprD addrACA -mulrBr mulrDr mulrCA.
by rewrite -mulrDr -mulrDr.
Qed.
Lemma ce_dot z u v : dotv u (ce_hessian_mv v z) =
  (\sum_i softmax z i ord0 * (u i ord0 * v i ord0)) - dotv (softmax z) u * dotv (softmax z) v.
Proof.
rewrite /dotv mulr_suml -sumrB; apply: eq_bigr => i _.
rewrite ce_entry -/(dotv _ v) mulrBr mulrBr -!mulrA; congr (_ - _); first by rewrite mulrCA.
by rewrite mulrCA.
Qed.
Lemma ce_symmetric z : symmetric_op (fun jv => ce_hessian_mv jv z).
Proof.
move=> u v; rewrite [RHS]dotvC !ce_dot [dotv _ u * _]mulrC; congr (_ - _).
by apply: eq_bigr => i _; rewrite [u i _ * _]mulrC.
Qed.
End Builtin.

Lemma jensen n (p x : 'I_n -> R) : (forall i, 0 <= p i) -> \sum_i p i = 1 ->
  (\sum_i p i * x i) ^+ 2 <= \sum_i p i * (x i) ^+ 2.
Proof.
move=> Hp H1; set m := \sum_i p i * x i.
have : 0 <= \sum_i p i * (x i - m) ^+ 2.
  by apply: sumr_ge0 => i _; apply: mulr_ge0 => //; apply: sqr_ge0.
have -> : \sum_i p i * (x i - m) ^+ 2 = \sum_i p i * x i ^+ 2 - m ^+ 2; last by rewrite subr_ge0.
transitivity (\sum_i (p i * x i ^+ 2 - m * (p i * x i) *+ 2 + p i * m ^+ 2)).
  apply: eq_bigr => i _; rewrite sqrrB mulrDr mulrBr; congr (_ - _ + _).
  by rewrite mulrnAr [x i * m]mulrC mulrCA.
rewrite big_split sumrB /= -mulr_suml H1 mul1r sumrMnl -mulr_sumr -/m -expr2 mulr2n opprD.
by rewrite !addrA subrK.
Qed.

Lemma ce_psd K z : psd_op (fun jv : 'cV[R]_K => ce_hessian_mv jv z).
Proof.
move=> v; rewrite ce_dot.
case: K z v => [|K] z v; first by rewrite /dotv !big_ord0 mul0r subr0.
rewrite subr_ge0 -expr2.
by apply: jensen; [move=> i; apply/ltW/softmax_gt0|apply: softmax_sum].
Qed.

(** constant vectors are in the kernel *)
Lemma ce_const K z (c : R) : ce_hessian_mv (const_mx c : 'cV[R]_K.+1) z = 0.
Proof.
have E : dotv (softmax z) (const_mx c) = c.
  rewrite /dotv -[RHS]mul1r -(softmax_sum z) mulr_suml.
  by apply: eq_bigr => i _; rewrite [const_mx c i ord0]mxE.
by apply/colP => i; rewrite ce_entry E [const_mx c i ord0]mxE subrr mulr0 mxE.
Qed.

Lemma builtin_good K s h : create_loss_hessian_mv (@LossStr K s) = Ok h ->
  forall z y, [/\ linear_op (fun jv => h jv z y), symmetric_op (fun jv => h jv z y)
                & psd_op (fun jv => h jv z y)].
Proof.
move=> H z y; move: H; rewrite /=.
case: (_ =? _)%string; first by case=> <-; split; [exact: bce_linear|exact: bce_symmetric|exact: bce_psd].
case: (_ =? _)%string; first by case=> <-; split; [exact: ce_linear|exact: ce_symmetric|exact: ce_psd].
case: (_ =? _)%string.
  case=> <-; split.
  - by move=> a u v; rewrite /mse_hessian_mv scalerDr !scalerA mulrC.
  - by move=> u v; rewrite /mse_hessian_mv dotvZ dotvZl.
  - move=> v; rewrite /mse_hessian_mv dotvZ; apply: mulr_ge0; first exact: ler0n.
    by apply: sumr_ge0 => i _; rewrite -expr2 sqr_ge0.
case: (_ =? _)%string => // -[<-]; split=> //.
by move=> v; apply: sumr_ge0 => i _; rewrite -expr2 sqr_ge0.
Qed.
