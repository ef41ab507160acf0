(** The loss Hessians of ggn.py are second derivatives of the losses. *)
From Coq Require Import Reals Lra String.
From Coquelicot Require Import Coquelicot.
From mathcomp Require Import all_ssreflect all_algebra.
From Verif Require Import Base RealStruct Ggn GgnSpec RealSums GgnProofs.
Set Implicit Arguments.
Unset Strict Implicit.
Unset Printing Implicit Defensive.
Import GRing.Theory Num.Theory Order.TTheory.
Local Open Scope ring_scope.

(** A function along a line. *)
Lemma line_entry n (q u : 'cV[R]_n) (t : R) i : (q + t *: u) i ord0 = q i ord0 + t * u i ord0.
Proof. by rewrite !mxE. Qed.

Lemma der_line (a b x : R) : is_derive (fun t : R => a + t * b) x b.
Proof.
apply: (@der_eq _ _ (0 + (1 * b + x * 0))); first by rewrite mul1r mulr0 add0r addr0.
by apply: der_add; [exact: der_const|apply: der_mul; [exact: der_id|exact: der_const]].
Qed.

Lemma der_at_line (f : R -> R) (a b d : R) : is_derive f a d ->
  is_derive (fun t : R => f (a + t * b)) 0 (d * b).
Proof.
move=> H; apply: (@der_comp f (fun t => a + t * b)); last exact: der_line.
by rewrite mul0r addr0.
Qed.

(** Sums of functions of one coordinate each (separable losses). *)
Section Separable.
Variables (n : nat) (l l' l'' : 'I_n -> R -> R).
Hypothesis D1 : forall i x, is_derive (l i) x (l' i x).
Hypothesis D2 : forall i x, is_derive (l' i) x (l'' i x).

Lemma separable_gradient :
  is_gradient (fun z : 'cV[R]_n => \sum_i l i (z i ord0)) (fun z => \col_i l' i (z i ord0)).
Proof.
move=> q u.
apply: (@der_ext (fun t : R => \sum_i l i (q i ord0 + t * u i ord0))).
  by move=> t; apply: eq_bigr => i _; rewrite line_entry.
apply: (@der_eq _ _ (\sum_i l' i (q i ord0) * u i ord0)).
  by apply: eq_bigr => i _; rewrite mxE.
by apply: is_derive_sum => i; apply: der_at_line.
Qed.

Lemma separable_hvp p v :
  is_hvp (fun z : 'cV[R]_n => \sum_i l i (z i ord0)) p v
    (\col_i (l'' i (p i ord0) * v i ord0)).
Proof.
eexists; split; first exact: separable_gradient.
move=> u.
apply: (@der_ext (fun t : R => \sum_i l' i (p i ord0 + t * v i ord0) * u i ord0)).
  by move=> t; apply: eq_bigr => i _; rewrite [(\col__ _) i ord0]mxE line_entry.
apply: (@der_eq _ _ (\sum_i (l'' i (p i ord0) * v i ord0 * u i ord0
      + l' i (p i ord0 + 0 * v i ord0) * 0))).
  by apply: eq_bigr => i _; rewrite mxE mulr0 addr0.
apply: is_derive_sum => i.
apply: (@der_mul (fun t => l' i (p i ord0 + t * v i ord0)) (fun _ => u i ord0)).
  exact: der_at_line.
exact: der_const.
Qed.
End Separable.

(** ** mean squared error *)
Section Mse.
Variables (n : nat) (y : 'cV[R]_n).
Lemma mse_gradient :
  is_gradient (fun z => \sum_i ((z - y) i ord0) ^+ 2) (fun z => 2%:R *: (z - y)).
Proof.
move=> q u.
have D : is_gradient (fun z => \sum_i (z i ord0 - y i ord0) ^+ 2)
                     (fun z => \col_i (2%:R * (z i ord0 - y i ord0))).
  apply: (@separable_gradient n (fun i x => (x - y i ord0) ^+ 2) (fun i x => 2%:R * (x - y i ord0))) => i x.
   apply: (@der_ext (fun t => (t - y i ord0) * (t - y i ord0))); first by move=> t; rewrite expr2.
  apply: (@der_eq _ _ ((1 - 0) * (x - y i ord0) + (x - y i ord0) * (1 - 0))).
    by rewrite subr0 mul1r mulr1 mulr_natl mulr2n.
  by apply: der_mul; apply: der_sub; (exact: der_id || exact: der_const).
apply: (@der_ext (fun t : R => \sum_i ((q + t *: u) i ord0 - y i ord0) ^+ 2)).
  by move=> t; apply: eq_bigr => i _; rewrite [in RHS]mxE [(- y) i ord0]mxE.
by apply: der_eq (D q u); congr (dotv _ u); apply/colP => i; rewrite !mxE.
Qed.
Lemma mse_line p v u :
  is_derive (fun t : R => dotv (2%:R *: ((p + t *: v) - y)) u) 0 (dotv (mse_hessian_mv v) u).
Proof.
apply: (@der_ext (fun t : R => dotv (2%:R *: (p - y)) u + t * dotv (2%:R *: v) u)).
  move=> t; rewrite -dotvZl -dotvDl scalerA mulrC -scalerA -scalerDr; congr (dotv (_ *: _) u).
  by rewrite -!addrA [- y + _]addrC.
exact: der_line.
Qed.
End Mse.
Lemma mse_hvp n (y p v : 'cV[R]_n) :
  is_hvp (fun z => \sum_i ((z - y) i ord0) ^+ 2) p v (mse_hessian_mv v).
Proof.
have [||g [Hg Hh]] := @separable_hvp n (fun i x => (x - y i ord0) ^+ 2)
   (fun i x => 2%:R * (x - y i ord0)) (fun _ _ => 2%:R) _ _ p v.
- move=> i x; apply: (@der_ext (fun t => (t - y i ord0) * (t - y i ord0))); first by move=> t; rewrite expr2.
  apply: (@der_eq _ _ ((1 - 0) * (x - y i ord0) + (x - y i ord0) * (1 - 0))).
    by rewrite subr0 mul1r mulr1 mulr_natl mulr2n.
  by apply: der_mul; apply: der_sub; (exact: der_id || exact: der_const).
- move=> i x; apply: (@der_eq _ _ (0 * (x - y i ord0) + 2%:R * (1 - 0))).
    by rewrite mul0r subr0 mulr1 add0r.
  by apply: der_mul; [exact: der_const|apply: der_sub; [exact: der_id|exact: der_const]].
exists g; split.
- move=> q u; apply: der_ext (Hg q u) => t.
  by apply: eq_bigr => i _; rewrite !mxE.
- move=> u; apply: der_eq (Hh u); congr (dotv _ u).
  by apply/colP => i; rewrite !mxE.
Qed.

(** ** binary cross entropy *)
Lemma sigmoid_der x : is_derive sigmoid x (sigmoid x * (1 - sigmoid x)).
Proof.
have H0 : 1 + exp (- x) != 0 by rewrite gt_eqF // addr_gt0 ?ltr01 ?exp_gt0.
apply: (@der_ext (fun t => (1 + exp (- t))^-1)); first by move=> t; rewrite /sigmoid div1r.
apply: (@der_eq _ _ (- (0 + exp (- x) * - 1) / (1 + exp (- x)) ^+ 2)).
  rewrite add0r mulrN1 opprK /sigmoid.
  have -> : 1 - 1 / (1 + exp (- x)) = exp (- x) / (1 + exp (- x)).
    by rewrite -{1}(divff H0) -mulrBl addrC addKr.
  by rewrite mulf_div mul1r -expr2.
apply: der_inv => //; apply: der_add; first exact: der_const.
apply: (@der_comp exp (fun t => - t)); first exact: der_exp.
by apply: der_opp; exact: der_id.
Qed.

Lemma log_sigmoid_der x : is_derive log_sigmoid x (1 - sigmoid x).
Proof.
apply: (@der_eq _ _ ((sigmoid x)^-1 * (sigmoid x * (1 - sigmoid x)))).
  by rewrite mulrA mulVf ?mul1r // gt_eqF // sigmoid_gt0.
apply: (@der_comp ln sigmoid); first exact/der_ln/sigmoid_gt0.
exact: sigmoid_der.
Qed.

Lemma bce_der (y x : R) : is_derive (fun z => log_sigmoid_cross_entropy z y) x (sigmoid x - y).
Proof.
apply: (@der_eq _ _ ((0 * log_sigmoid x + (- y) * (1 - sigmoid x)) -
   (0 * log_sigmoid (- x) + (1 - y) * ((1 - sigmoid (- x)) * - 1)))).
  rewrite !mul0r !add0r sigmoidN; toR; ring.
apply: der_sub.
  by apply: der_mul; [exact: der_const|exact: log_sigmoid_der].
apply: der_mul; first exact: der_const.
apply: (@der_comp log_sigmoid (fun t => - t)); first exact: log_sigmoid_der.
by apply: der_opp; exact: der_id.
Qed.

Lemma bce_hvp n (y p v : 'cV[R]_n) :
  is_hvp (fun z => \sum_i log_sigmoid_cross_entropy (z i ord0) (y i ord0)) p v
    (bce_hessian_mv v p).
Proof.
apply: (@separable_hvp n (fun i x => log_sigmoid_cross_entropy x (y i ord0))
   (fun i x => sigmoid x - y i ord0) (fun _ x => sigmoid x * (1 - sigmoid x))).
- by move=> i x; apply: bce_der.
- move=> i x; apply: (@der_eq _ _ (sigmoid x * (1 - sigmoid x) - 0)); first by rewrite subr0.
  by apply: der_sub; [exact: sigmoid_der|exact: der_const].
Qed.

(** ** softmax cross entropy: - sum_k y_k log softmax(z)_k *)
Definition softmax_ce (n : nat) (y z : 'cV[R]_n) : R :=
  - \sum_k y k ord0 * ln (softmax z k ord0).

Section CE.
Variable n : nat.
Implicit Types (y z p q u v : 'cV[R]_n.+1).
Notation S z := (\sum_j exp (z j ord0)).

Lemma lnM (a b : R) : 0 < a -> 0 < b -> ln (a / b) = ln a - ln b.
Proof.
move=> Ha Hb; rewrite -RinvE ?gt_eqF // -RmultE ln_mult.
- by rewrite ln_Rinv //; apply/RltP.
- exact/RltP.
- by apply: Rinv_0_lt_compat; apply/RltP.
Qed.

Lemma ln_softmax z k : ln (softmax z k ord0) = z k ord0 - ln (S z).
Proof. by rewrite mxE lnM ?exp_gt0 ?sum_exp_gt0 // ln_exp. Qed.

Lemma S_der q u (x : R) :
  is_derive (fun t : R => S (q + t *: u)) x (\sum_j exp ((q + x *: u) j ord0) * u j ord0).
Proof.
apply: is_derive_sum => j.
apply: (@der_ext (fun t : R => exp (q j ord0 + t * u j ord0))).
  by move=> t; rewrite line_entry.
rewrite line_entry; apply: (@der_comp exp (fun t => q j ord0 + t * u j ord0)).
  exact: der_exp.
exact: der_line.
Qed.

Lemma S_der0 q u : is_derive (fun t : R => S (q + t *: u)) 0 (S q * dotv (softmax q) u).
Proof.
apply: der_eq (S_der q u 0); rewrite scale0r addr0 /dotv mulr_sumr.
apply: eq_bigr => j _; rewrite mxE mulrA mulrCA divff ?mulr1 //.
by rewrite gt_eqF // sum_exp_gt0.
Qed.

Lemma ce_gradient y : \sum_k y k ord0 = 1 ->
  is_gradient (softmax_ce y) (fun z => softmax z - y).
Proof.
move=> Hy q u.
apply: (@der_ext (fun t : R => - \sum_k y k ord0 * ((q k ord0 + t * u k ord0) - ln (S (q + t *: u))))).
  by move=> t; congr (- _); apply: eq_bigr => k _; rewrite ln_softmax line_entry.
apply: (@der_eq _ _ (- \sum_k (0 * ((q k ord0 + 0 * u k ord0) - ln (S (q + 0 *: u)))
    + y k ord0 * (u k ord0 - (S q)^-1 * (S q * dotv (softmax q) u))))).
  have HS : S q != 0 by rewrite gt_eqF // sum_exp_gt0.
  rewrite mulrA mulVf // mul1r dotvBl.
  transitivity (- (\sum_k (y k ord0 * u k ord0 - y k ord0 * dotv (softmax q) u))).
    by congr (- _); apply: eq_bigr => k _; rewrite mul0r add0r mulrBr.
  by rewrite sumrB -mulr_suml Hy mul1r opprB.
apply: der_opp; apply: is_derive_sum => k.
apply: der_mul; first exact: der_const.
apply: der_sub; first exact: der_line.
apply: (@der_comp ln (fun t => S (q + t *: u))); last exact: S_der0.
by rewrite scale0r addr0; apply/der_ln/sum_exp_gt0.
Qed.

Lemma softmax_der p v i :
  is_derive (fun t : R => softmax (p + t *: v) i ord0) 0 (ce_hessian_mv v p i ord0).
Proof.
have HS : S p != 0 by rewrite gt_eqF // sum_exp_gt0.
apply: (@der_ext (fun t : R => exp (p i ord0 + t * v i ord0) * (S (p + t *: v))^-1)).
  by move=> t; rewrite mxE line_entry.
apply: (@der_eq _ _ ((exp (p i ord0) * v i ord0) * (S (p + 0 *: v))^-1 +
   exp (p i ord0 + 0 * v i ord0) * (- (S p * dotv (softmax p) v) / (S (p + 0 *: v)) ^+ 2))).
  rewrite scale0r addr0 mul0r addr0 ce_entry [softmax p i ord0]mxE mulrBr mulrAC; congr (_ + _).
  rewrite mulNr mulrN; congr (- _).
  by rewrite expr2 invfM mulrACA divff // mul1r [dotv _ _ * _]mulrC mulrA.
apply: (@der_mul (fun t => exp (p i ord0 + t * v i ord0)) (fun t => (S (p + t *: v))^-1)).
  exact/der_at_line/der_exp.
apply: (@der_inv (fun t => S (p + t *: v))); first by rewrite scale0r addr0.
exact: S_der0.
Qed.

Lemma ce_hvp y p v : \sum_k y k ord0 = 1 -> is_hvp (softmax_ce y) p v (ce_hessian_mv v p).
Proof.
move=> Hy; eexists; split; first exact: ce_gradient.
move=> u; apply: (@der_ext (fun t : R => \sum_i (softmax (p + t *: v) i ord0 - y i ord0) * u i ord0)).
  by move=> t; apply: eq_bigr => i _; rewrite -[in RHS]/(fun_of_matrix _ _ _) [in RHS]mxE [(- y) i ord0]mxE.
apply: (@der_eq _ _ (\sum_i ((ce_hessian_mv v p i ord0 - 0) * u i ord0
      + (softmax (p + 0 *: v) i ord0 - y i ord0) * 0))).
  by apply: eq_bigr => i _; rewrite subr0 mulr0 addr0.
apply: is_derive_sum => i.
apply: (@der_mul (fun t => softmax (p + t *: v) i ord0 - y i ord0) (fun _ => u i ord0)).
  by apply: der_sub; [exact: softmax_der|exact: der_const].
exact: der_const.
Qed.
End CE.

(** ** sums of functions *)
Lemma is_hvp_sum n (I : Type) (r : seq I) (f : I -> 'cV[R]_n -> R) p v (h : I -> 'cV[R]_n)
    (g : I -> 'cV[R]_n -> 'cV[R]_n) :
  (forall i, is_gradient (f i) (g i)) ->
  (forall i u, is_derive (fun t : R => dotv (g i (p + t *: v)) u) 0 (dotv (h i) u)) ->
  is_hvp (fun q => \sum_(i <- r) f i q) p v (\sum_(i <- r) h i).
Proof.
move=> Hg Hh; exists (fun q => \sum_(i <- r) g i q); split.
- move=> q u; apply: (@der_eq _ _ (\sum_(i <- r) dotv (g i q) u)).
    by rewrite dotvC dotv_sum; apply: eq_bigr => i _; rewrite dotvC.
  by apply: is_derive_sum => i; apply: Hg.
- move=> u; apply: (@der_ext (fun t : R => \sum_(i <- r) dotv (g i (p + t *: v)) u)).
    by move=> t; rewrite dotvC dotv_sum; apply: eq_bigr => i _; rewrite dotvC.
  apply: (@der_eq _ _ (\sum_(i <- r) dotv (h i) u)).
    by rewrite dotvC dotv_sum; apply: eq_bigr => i _; rewrite dotvC.
  by apply: is_derive_sum => i; apply: Hh.
Qed.

(** ** Hessian of a loss composed with an affine model *)
Section Affine.
Variables (P K : nat) (A : 'M[R]_(K, P)) (b : 'cV[R]_K).
Variables (l : 'cV[R]_K -> R) (gl : 'cV[R]_K -> 'cV[R]_K).
Hypothesis Hgl : is_gradient l gl.

Lemma affine_gradient : is_gradient (fun p => l (A *m p + b)) (fun p => A^T *m gl (A *m p + b)).
Proof.
move=> q u; apply: (@der_ext (fun t : R => l ((A *m q + b) + t *: (A *m u)))).
  by move=> t; congr l; rewrite mulmxDr -scalemxAr -!addrA [b + _]addrC.
by apply: der_eq (Hgl _ _); rewrite dotvC -dotv_tr dotvC.
Qed.

Lemma affine_hvp p v h :
  (forall u, is_derive (fun t : R => dotv (gl ((A *m p + b) + t *: (A *m v))) u) 0 (dotv h u)) ->
  forall u, is_derive (fun t : R => dotv (A^T *m gl (A *m (p + t *: v) + b)) u) 0
              (dotv (A^T *m h) u).
Proof.
move=> H u; apply: (@der_ext (fun t : R => dotv (gl ((A *m p + b) + t *: (A *m v))) (A *m u))).
  move=> t; rewrite [RHS]dotvC dotv_tr dotvC; congr (dotv (gl _) _).
  by rewrite mulmxDr -scalemxAr -!addrA [b + _]addrC.
by rewrite dotvC dotv_tr dotvC; apply: H.
Qed.
End Affine.
