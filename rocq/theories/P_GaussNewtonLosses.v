(** Property C18, continued: Hessian and GGN of models that are not affine, for every loss. *)
From Coq Require Import Reals String.
From Coquelicot Require Import Coquelicot.
From mathcomp Require Import all_ssreflect all_algebra.
From Verif Require Import Base RealStruct Ggn GgnSpec RealSums GgnProofs LossProofs.
From Verif Require Import P_Ggn.
From Verif Require Import P_GaussNewton.
Set Implicit Arguments.
Unset Strict Implicit.
Unset Printing Implicit Defensive.
Import GRing.Theory Num.Theory Order.TTheory.
Local Open Scope ring_scope.

(** First and second order chain rule: along every curve [c] with velocity [dc] at 0, [l] changes at
    the rate [<g, dc>] and [g] with velocity [h dc]. *)
Definition velocity (K : nat) (c : R -> 'cV[R]_K) (dc : 'cV[R]_K) : Prop :=
  forall k, is_derive (fun t : R => c t k ord0) 0 (dc k ord0).
Definition chain_rules (K : nat) (l : 'cV[R]_K -> R) (g : 'cV[R]_K -> 'cV[R]_K) (h : 'cV[R]_K -> 'cV[R]_K -> 'cV[R]_K) : Prop :=
  forall c dc, velocity c dc ->
    is_derive (fun t : R => l (c t)) 0 (dotv (g (c 0)) dc) /\ velocity (fun t => g (c t)) (h dc (c 0)).

Lemma dotv_trl (m n : nat) (A : 'M[R]_(m, n)) a (w : 'cV[R]_n) : dotv (A^T *m a) w = dotv a (A *m w).
Proof. by rewrite dotvC dotv_mul trmxK dotvC. Qed.

Lemma model_velocity (P K : nat) (m : 'cV[R]_P -> 'cV[R]_K) (jac : 'cV[R]_P -> 'M[R]_(K, P)) q u :
  (forall k, is_gradient (fun q => m q k ord0) (fun q => (row k (jac q))^T)) ->
  velocity (fun t => m (q + t *: u)) (jac q *m u).
Proof. by move=> G k; rewrite -dotv_row; apply: G. Qed.

Lemma sample_hvp (P K : nat) (m : 'cV[R]_P -> 'cV[R]_K) (jac : 'cV[R]_P -> 'M[R]_(K, P)) (C : 'I_K -> 'M[R]_P)
    l g h (p v : 'cV[R]_P) :
  (forall k, is_gradient (fun q => m q k ord0) (fun q => (row k (jac q))^T)) ->
  (forall k u w, is_derive (fun t : R => dotv (row k (jac (p + t *: w)))^T u) 0 (dotv (C k *m w) u)) ->
  chain_rules l g h ->
  is_hvp (fun q => l (m q)) p v ((jac p)^T *m h (jac p *m v) (m p) + \sum_k g (m p) k ord0 *: (C k *m v)).
Proof.
move=> G H L; exists (fun q => (jac q)^T *m g (m q)).
have Z (q u : 'cV[R]_P) : q + (0 : R) *: u = q by rewrite scale0r addr0.
split=> [q u|u].
  by have [+ _] := L _ _ (model_velocity q u G); rewrite Z dotv_trl.
have [_ V] := L _ _ (model_velocity p v G).
apply: (@der_ext (fun t : R => \sum_k g (m (p + t *: v)) k ord0 * dotv (row k (jac (p + t *: v)))^T u)).
  by move=> t; rewrite dotv_trl; apply: eq_bigr => k _; rewrite dotv_row.
apply: der_eq (is_derive_sum _ (fun k => der_mul (V k) (H k u v))).
rewrite !Z dotvDl dotv_trl [dotv (\sum_k _) u]dotvC (big_morph (dotv u) (dotvD u) (dotv0 u)) big_split /=.
congr (_ + _); apply: eq_bigr => k _; first by rewrite dotv_row.
by rewrite dotvZ dotvC.
Qed.

(** C18.  The Hessian operator of a summed loss is the GGN operator plus the curvature of the outputs,
    weighted with the gradient of the loss. *)
Theorem C18_gauss_newton_any_loss :
  forall (X : Type) (P K : nat) (model : X -> 'cV[R]_P -> 'cV[R]_K) (jac : X -> 'cV[R]_P -> 'M[R]_(K, P)) C
    (hvp_oracle : ('cV[R]_P -> R) -> 'cV[R]_P -> 'cV[R]_P -> 'cV[R]_P)
    (loss : loss_arg K) h (l : 'cV[R]_K -> 'cV[R]_K -> R) (g : 'cV[R]_K -> 'cV[R]_K -> 'cV[R]_K)
    (total : seq 'cV[R]_K -> seq 'cV[R]_K -> R)
    (params : 'cV[R]_P) (data : seq (X * 'cV[R]_K)) nc nt f ggn hess,
  correct_autodiff hvp_oracle -> smooth_model model jac C params ->
  create_loss_hessian_mv loss = Ok h ->
  (forall d, List.In d data -> chain_rules (fun z => l z d.2) (fun z => g z d.2) (fun w z => h w z d.2)) ->
  (forall ds : seq ('cV[R]_K * 'cV[R]_K), total (map fst ds) (map snd ds) = \sum_(d <- ds) l d.1 d.2) ->
  curv_scaling_factor nc nt (size data) = Ok f ->
  create_ggn_mv model jac params data loss nc nt None = Ok ggn ->
  create_hessian_mv model hvp_oracle params data (CLossCallable total) nc nt = Ok hess ->
  forall v, hess v = Ok (ggn v + f *: (\sum_(d <- data) \sum_k g (model d.1 params) d.2 k ord0 *: (C d.1 k *m v))).
Proof.
move=> X P K model jac C orc loss h l g total params data nc nt f ggn hess Horc HC Hh Hl Ht Hf.
rewrite /create_ggn_mv /create_hessian_mv /create_ggn_mv_without_data Hf Hh.
rewrite (_ : match loss with LossMissing => _ | _ => _ end = Ok (fun vec => ggn_mv model
  jac params h f vec data)); last by case: (loss) Hh.
move=> /= [<-] [<-] v; congr Ok; rewrite ggn_mvE -scalerDr; congr (_ *: _).
apply: Horc; apply: (@is_hvp_ext _ (fun q => \sum_(d <- data) l (model d.1 q) d.2)).
  by move=> q; have := Ht [seq (model d.1 q, d.2) | d <- data]; rewrite -!map_comp big_map.
rewrite -big_split; apply: is_hvp_In => d /Hl H /=.
apply: (sample_hvp v _ _ H) => [k|k u w]; have [G E] := HC d.1 k; [exact: G | exact: E].
Qed.
Print Assumptions C18_gauss_newton_any_loss.

(** The named losses obey the chain rules, with the gradients known from statistics. *)
Lemma der_curve (K : nat) (c : R -> 'cV[R]_K) dc k (f : R -> R) d : velocity c dc -> is_derive f (c 0 k ord0) d ->
  is_derive (fun t => f (c t k ord0)) 0 (d * dc k ord0).
Proof. by move=> H Hf; apply: der_comp (H k). Qed.

Theorem C18_chain_rule_mse : forall (K : nat) h, create_loss_hessian_mv (@LossStr K "mse"%string) = Ok h ->
  forall y : 'cV[R]_K, chain_rules (fun z => \sum_i ((z - y) i ord0) ^+ 2) (fun z => 2%:R *: (z - y)) (fun w z => h w z y).
Proof.
move=> K h [<-] y c dc H; split=> [|k].
  apply: (@der_ext (fun t => \sum_i (c t i ord0 - y i ord0) * (c t i ord0 - y i ord0))).
    by move=> t; apply: eq_bigr => i _; rewrite !mxE expr2.
  have D i := der_sub (H i) (der_const (y i ord0) 0).
  apply: der_eq (is_derive_sum _ (fun i => der_mul (D i) (D i))).
  by apply: eq_bigr => i _; rewrite !mxE subr0 [X in X + _]mulrC -mulr2n -mulr_natl mulrA.
apply: (@der_ext (fun t => 2%:R * (c t k ord0 - y k ord0))); first by move=> t; rewrite !mxE.
apply: der_eq (der_mul (der_const 2%:R 0) (der_sub (H k) (der_const (y k ord0) 0))).
by rewrite mul0r add0r subr0 mxE.
Qed.
Print Assumptions C18_chain_rule_mse.

Theorem C18_chain_rule_binary_cross_entropy :
  forall (K : nat) h, create_loss_hessian_mv (@LossStr K "binary_cross_entropy"%string) = Ok h ->
  forall y : 'cV[R]_K, chain_rules
    (fun z => \sum_i (- y i ord0 * ln (1 / (1 + exp (- z i ord0))) - (1 - y i ord0) * ln (1 / (1 + exp (z i ord0)))))
    (fun z => \col_i (logistic (z i ord0) - y i ord0)) (fun w z => h w z y).
Proof.
move=> K h [<-] y c dc H; split=> [|k].
  apply: (@der_ext (fun t => \sum_i log_sigmoid_cross_entropy (c t i ord0) (y i ord0))).
    by move=> t; apply: eq_bigr => i _; rewrite /log_sigmoid_cross_entropy /log_sigmoid /sigmoid opprK.
  apply: der_eq (is_derive_sum _ (fun i => der_curve H (bce_der (y i ord0) _))).
  by apply: eq_bigr => i _; rewrite !mxE.
apply: (@der_ext (fun t => sigmoid (c t k ord0) - y k ord0)); first by move=> t; rewrite !mxE.
by apply: der_eq (der_sub (der_curve H (sigmoid_der _)) (der_const (y k ord0) 0)); rewrite subr0 mxE.
Qed.
Print Assumptions C18_chain_rule_binary_cross_entropy.

Theorem C18_chain_rule_cross_entropy :
  forall (K : nat) h, create_loss_hessian_mv (@LossStr K.+1 "cross_entropy"%string) = Ok h ->
  forall y : 'cV[R]_K.+1, \sum_k y k ord0 = 1 -> chain_rules
    (fun z => - \sum_k y k ord0 * ln (exp (z k ord0) / \sum_j exp (z j ord0)))
    (fun z => class_probs z - y) (fun w z => h w z y).
Proof.
move=> K h [<-] y Hy c dc H.
have HS : \sum_j exp (c 0 j ord0) != 0 by rewrite gt_eqF // sum_exp_gt0.
have DS : is_derive (fun t => \sum_j exp (c t j ord0)) 0 ((\sum_j exp (c 0 j ord0)) * dotv (softmax (c 0)) dc).
  apply: der_eq (is_derive_sum _ (fun j => der_curve H (der_exp _))).
  rewrite /dotv mulr_sumr; apply: eq_bigr => j _; by rewrite mxE mulrA mulrCA divff // mulr1.
split=> [|k].
  apply: (@der_ext (fun t => - \sum_k y k ord0 * (c t k ord0 - ln (\sum_j exp (c t j ord0))))).
    move=> t; congr (- _); apply: eq_bigr => k _; by rewrite -ln_softmax mxE.
  have DL : is_derive (fun t => ln (\sum_j exp (c t j ord0))) 0 (dotv (softmax (c 0)) dc).
    apply: der_eq (der_comp (der_ln (sum_exp_gt0 (c 0))) DS); by rewrite mulrA mulVf // mul1r.
  apply: der_eq (der_opp (is_derive_sum _ (fun k => der_mul (der_const (y k ord0) 0) (der_sub (H k) DL)))).
  rewrite -/(softmax (c 0)) dotvBl; transitivity (- (\sum_k (y k ord0 * dc k ord0 - y k ord0 * dotv (softmax (c 0)) dc))).
    by congr (- _); apply: eq_bigr => k _; rewrite mul0r add0r mulrBr.
  by rewrite sumrB -mulr_suml Hy mul1r opprB.
apply: (@der_ext (fun t => exp (c t k ord0) * (\sum_j exp (c t j ord0))^-1 - y k ord0)); first by move=> t; rewrite !mxE.
apply: der_eq (der_sub (der_mul (der_curve H (der_exp _)) (der_inv HS DS)) (der_const (y k ord0) 0)).
rewrite subr0 ce_entry [softmax (c 0) k ord0]mxE mulrBr mulrAC; congr (_ + _).
rewrite mulNr mulrN; congr (- _).
by rewrite expr2 invfM mulrACA divff // mul1r [dotv _ _ * _]mulrC mulrA.
Qed.
Print Assumptions C18_chain_rule_cross_entropy.

(** Non-vacuity: the model [q^2], binary cross-entropy, target 1: the residual at 1 is [logistic 1 - 1]. *)
Example C18_gauss_newton_example :
  let bce := fun z y : 'cV[R]_1 => \sum_i (- y i ord0 * ln (1 / (1 + exp (- z i ord0))) -
     (1 - y i ord0) * ln (1 / (1 + exp (z i ord0)))) in
  let data := [:: (tt, const_mx 1 : 'cV[R]_1)] in
  exists hvp_oracle ggn hess, [/\
    create_ggn_mv square_model square_jac (const_mx 1) data (LossStr "binary_cross_entropy"%string) None None None = Ok ggn,
    create_hessian_mv square_model hvp_oracle (const_mx 1) data
      (CLossCallable (fun zs ys => \sum_(d <- zip zs ys) bce d.1 d.2)) None None = Ok hess &
    forall v, hess v = Ok (ggn v + (2%:R * (logistic 1 - 1)) *: v)].
Proof.
move=> bce data; have [orc Horc] := C18_nonvacuous 1.
have [h Eh] : exists h, create_loss_hessian_mv (@LossStr 1 "binary_cross_entropy"%string) = Ok h by eexists.
have F1 : curv_scaling_factor None None 1 = Ok (1 : R) by rewrite /curv_scaling_factor divff // pnatr_eq0.
have [ggn Eg] : exists ggn, create_ggn_mv square_model square_jac (const_mx 1) data
  (LossStr "binary_cross_entropy"%string) None None None = Ok ggn by eexists.
pose total (zs ys : seq 'cV[R]_1) := \sum_(d <- zip zs ys) bce d.1 d.2.
have [hess Ehe] : exists hess, create_hessian_mv square_model orc (const_mx 1) data (CLossCallable total)
  None None = Ok hess by eexists.
exists orc, ggn, hess; split=> // v.
rewrite (@C18_gauss_newton_any_loss unit 1 1 square_model square_jac (fun _ _ => 2%:R%:M) orc
  (LossStr "binary_cross_entropy"%string) h bce (fun z y => \col_i (logistic (z i ord0) - y i ord0))
  total (const_mx 1) data None None 1 ggn hess Horc (square_smooth _) Eh _ _ F1 Eg Ehe).
- by rewrite big_seq1 big_ord1 scale1r mul_scalar_mx scalerA !mxE expr1n mulrC.
- by move=> d _; apply: C18_chain_rule_binary_cross_entropy.
- by rewrite /total; elim=> [|[a b] r IH] /=; [rewrite !big_nil | rewrite !big_cons IH].
Qed.
