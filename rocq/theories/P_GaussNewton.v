(** Property C18, continued: GGN and Hessian for every loss and for models that are not affine. *)
From Coq Require Import Reals String.
From Coquelicot Require Import Coquelicot.
From mathcomp Require Import all_ssreflect all_algebra.
From Verif Require Import Base RealStruct Ggn GgnSpec RealSums GgnProofs LossProofs.
From Verif Require Import P_Ggn.
Set Implicit Arguments.
Unset Strict Implicit.
Unset Printing Implicit Defensive.
Import GRing.Theory Num.Theory Order.TTheory.
Local Open Scope ring_scope.

Section Sums.
Variables (P : nat).
Lemma is_hvp_0 (p v : 'cV[R]_P) : is_hvp (fun _ => 0) p v 0.
Proof.
have D0 (u : 'cV[R]_P) : dotv 0 u = 0 by rewrite dotvC dotv0.
by exists (fun=> 0); split=> [q u|u]; rewrite D0; exact: der_const.
Qed.
Lemma is_hvp_add (f g : 'cV[R]_P -> R) p v h k : is_hvp f p v h -> is_hvp g p v k ->
  is_hvp (fun q => f q + g q) p v (h + k).
Proof.
move=> [df [F1 F2]] [dg [G1 G2]]; exists (fun q => df q + dg q); split=> [q u|u].
  by rewrite dotvDl; apply: der_add.
rewrite dotvDl; apply: (@der_ext (fun t => dotv (df (p + t *: v)) u + dotv (dg (p + t *: v)) u)).
  by move=> t; rewrite dotvDl.
exact: der_add.
Qed.
Lemma is_hvp_ext (f g : 'cV[R]_P -> R) p v h : f =1 g -> is_hvp f p v h -> is_hvp g p v h.
Proof.
move=> E [df [F1 F2]]; exists df; split=> // q u; apply: der_ext (F1 q u) => t; exact: E.
Qed.
Lemma is_hvp_In (D : Type) (r : seq D) (f : D -> 'cV[R]_P -> R) p v (h : D -> 'cV[R]_P) :
  (forall d, List.In d r -> is_hvp (f d) p v (h d)) ->
  is_hvp (fun q => \sum_(d <- r) f d q) p v (\sum_(d <- r) h d).
Proof.
elim: r => [|d r IH] H.
  by rewrite big_nil; apply: is_hvp_ext (is_hvp_0 p v) => q; rewrite big_nil.
rewrite big_cons; apply: (@is_hvp_ext (fun q => f d q + \sum_(e <- r) f e q)); first by move=> q; rewrite big_cons.
by apply: is_hvp_add; [apply: H; left | apply: IH => e He; apply: H; right].
Qed.
Lemma is_hvp_comp_affine K (l : 'cV[R]_K -> R) (A : 'M[R]_(K, P)) b p v h :
  is_hvp l (A *m p + b) (A *m v) h -> is_hvp (fun q => l (A *m q + b)) p v (A^T *m h).
Proof.
move=> [g [G1 G2]]; exists (fun q => A^T *m g (A *m q + b)).
have L q (w : 'cV[R]_P) (t : R) : A *m (q + t *: w) + b = A *m q + b + t *: (A *m w).
  by rewrite mulmxDr -scalemxAr addrAC.
have T (a : 'cV[R]_K) (w : 'cV[R]_P) : dotv (A^T *m a) w = dotv a (A *m w).
  by rewrite dotvC dotv_mul trmxK dotvC.
split=> [q u|u]; rewrite T.
  by apply: der_ext (G1 (A *m q + b) (A *m u)) => t; rewrite L.
by apply: der_ext (G2 (A *m u)) => t; rewrite T L.
Qed.
End Sums.

(** C18.  For a model affine in its parameters and a loss whose Hessian in the prediction the GGN
    multiplies with (C17: mean squared error, both cross-entropies, callables), the GGN operator is the
    Hessian operator of the summed loss. *)
Theorem C18_affine_any_loss :
  forall (X : Type) (P K : nat) (A : X -> 'M[R]_(K, P)) (b : X -> 'cV[R]_K)
    (hvp_oracle : ('cV[R]_P -> R) -> 'cV[R]_P -> 'cV[R]_P -> 'cV[R]_P)
    (loss : loss_arg K) h (l : 'cV[R]_K -> 'cV[R]_K -> R) (total : seq 'cV[R]_K -> seq 'cV[R]_K -> R)
    (params : 'cV[R]_P) (data : seq (X * 'cV[R]_K)) nc nt ggn hess,
  correct_autodiff hvp_oracle ->
  create_loss_hessian_mv loss = Ok h ->
  (forall d, List.In d data -> forall z w, is_hvp (fun z' => l z' d.2) z w (h w z d.2)) ->
  (forall ds : seq ('cV[R]_K * 'cV[R]_K), total (map fst ds) (map snd ds) = \sum_(d <- ds) l d.1 d.2) ->
  create_ggn_mv (fun x p => A x *m p + b x) (fun x _ => A x) params data loss nc nt None = Ok ggn ->
  create_hessian_mv (fun x p => A x *m p + b x) hvp_oracle params data (CLossCallable total) nc nt = Ok hess ->
  forall v, hess v = Ok (ggn v).
Proof.
move=> X P K A b orc loss h l total params data nc nt ggn hess Horc Hh Hl Ht.
rewrite /create_ggn_mv /create_hessian_mv /create_ggn_mv_without_data.
case Ef: (curv_scaling_factor nc nt (size data)) => [f|e]; last by case: (loss) Hh.
rewrite Hh (_ : match loss with LossMissing => _ | _ => _ end = Ok (fun vec => ggn_mv (fun x p => A x *m p + b x)
  (fun x _ => A x) params h f vec data)); last by case: (loss) Hh.
move=> /= [<-] [<-] v; congr Ok; rewrite ggn_mvE; congr (_ *: _).
apply: Horc; apply: (@is_hvp_ext _ (fun q => \sum_(d <- data) l (A d.1 *m q + b d.1) d.2)).
  by move=> q; have := Ht [seq (A d.1 *m q + b d.1, d.2) | d <- data]; rewrite -!map_comp big_map.
apply: is_hvp_In => d /Hl H; exact: (is_hvp_comp_affine (H _ _)).
Qed.
Print Assumptions C18_affine_any_loss.

(** [C] are the Hessian matrices of the outputs at [p]: the derivatives along [v] of their gradients, the
    rows of the Jacobian. *)
Definition smooth_model (X : Type) (P K : nat) (model : X -> 'cV[R]_P -> 'cV[R]_K) (jac : X -> 'cV[R]_P -> 'M[R]_(K, P))
    (C : X -> 'I_K -> 'M[R]_P) (p : 'cV[R]_P) : Prop :=
  forall x k, is_gradient (fun q => model x q k ord0) (fun q => (row k (jac x q))^T) /\
    forall u v, is_derive (fun t : R => dotv (row k (jac x (p + t *: v)))^T u) 0 (dotv (C x k *m v) u).

Lemma dotv_row (m n : nat) (A : 'M[R]_(m, n)) k (v : 'cV[R]_n) : dotv (row k A)^T v = (A *m v) k ord0.
Proof. by rewrite dotvE trmxK -row_mul mxE. Qed.

Lemma residual_hvp (P K : nat) (m : 'cV[R]_P -> 'cV[R]_K) (jac : 'cV[R]_P -> 'M[R]_(K, P)) (C : 'I_K -> 'M[R]_P)
    (y : 'cV[R]_K) (p v : 'cV[R]_P) k :
  is_gradient (fun q => m q k ord0) (fun q => (row k (jac q))^T) ->
  (forall u w, is_derive (fun t : R => dotv (row k (jac (p + t *: w)))^T u) 0 (dotv (C k *m w) u)) ->
  is_hvp (fun q => ((m q - y) k ord0) ^+ 2) p v
    ((2%:R * (jac p *m v) k ord0) *: (row k (jac p))^T + (2%:R * (m p - y) k ord0) *: (C k *m v)).
Proof.
move=> G H; exists (fun q => (2%:R * (m q - y) k ord0) *: (row k (jac q))^T).
have D q u : is_derive (fun t : R => (m (q + t *: u) - y) k ord0) 0 (dotv (row k (jac q))^T u).
  apply: (@der_ext (fun t : R => m (q + t *: u) k ord0 - y k ord0)); first by move=> t; rewrite !mxE.
  by apply: der_eq (der_sub (G q u) (der_const _ _)); rewrite subr0.
have Z (q u : 'cV[R]_P) : q + (0 : R) *: u = q by rewrite scale0r addr0.
split=> [q u|u].
  apply: (@der_ext (fun t : R => (m (q + t *: u) - y) k ord0 * (m (q + t *: u) - y) k ord0)).
    by move=> t; rewrite expr2.
  apply: der_eq (der_mul (D q u) (D q u)); rewrite Z dotvZl.
  by rewrite [X in X + _]mulrC -mulr2n -mulr_natl mulrA.
apply: (@der_ext (fun t : R => 2%:R * ((m (p + t *: v) - y) k ord0 * dotv (row k (jac (p + t *: v)))^T u))).
  by move=> t; rewrite dotvZl mulrA.
apply: der_eq (der_mul (der_const 2%:R 0) (der_mul (D p v) (H u v))).
rewrite !Z mul0r add0r dotvDl !dotvZl dotv_row -!mulrA -mulrDr; congr (_ * _).
Qed.

Lemma residuals_hvp (X : Type) (P K : nat) (model : X -> 'cV[R]_P -> 'cV[R]_K) (jac : X -> 'cV[R]_P -> 'M[R]_(K, P)) C
    (data : seq (X * 'cV[R]_K)) p v : smooth_model model jac C p ->
  is_hvp (fun q => foldr +%R 0 [seq \sum_i ((model d.1 q - d.2) i ord0) ^+ 2 | d <- data]) p v
    (\sum_(d <- data) (jac d.1 p)^T *m mse_hessian_mv (jac d.1 p *m v) +
     \sum_(d <- data) \sum_k (2%:R * (model d.1 p - d.2) k ord0) *: (C d.1 k *m v)).
Proof.
move=> H; apply: (@is_hvp_ext _ (fun q => \sum_(d <- data) \sum_i ((model d.1 q - d.2) i ord0) ^+ 2)).
  by move=> q; rewrite foldrE big_map.
rewrite -big_split; apply: is_hvp_In => d _ /=.
have -> : (jac d.1 p)^T *m mse_hessian_mv (jac d.1 p *m v) =
    \sum_k (2%:R * (jac d.1 p *m v) k ord0) *: (row k (jac d.1 p))^T.
  apply/matrixP => i j; rewrite !mxE summxE; apply: eq_bigr => k _; by rewrite !mxE ord1 mulrC.
rewrite -big_split /=; apply: is_hvp_In => k _.
by have [G E] := H d.1 k; apply: residual_hvp.
Qed.

(** C18.  For an arbitrary smooth model and "mse", the Hessian operator is the GGN operator plus the
    curvature of the outputs weighted with the residuals. *)
Theorem C18_gauss_newton :
  forall (X : Type) (P K : nat) (model : X -> 'cV[R]_P -> 'cV[R]_K) (jac : X -> 'cV[R]_P -> 'M[R]_(K, P)) C
    (hvp_oracle : ('cV[R]_P -> R) -> 'cV[R]_P -> 'cV[R]_P -> 'cV[R]_P)
    (params : 'cV[R]_P) (data : seq (X * 'cV[R]_K)) nc nt f ggn hess,
  correct_autodiff hvp_oracle -> smooth_model model jac C params ->
  curv_scaling_factor nc nt (size data) = Ok f ->
  create_ggn_mv model jac params data (LossStr "mse"%string) nc nt None = Ok ggn ->
  create_hessian_mv model hvp_oracle params data (CLossStr K "mse"%string) nc nt = Ok hess ->
  forall v, hess v = Ok (ggn v + (2%:R * f) *: (\sum_(d <- data) \sum_k
                                    (model d.1 params - d.2) k ord0 *: (C d.1 k *m v))).
Proof.
move=> X P K model jac C orc params data nc nt f ggn hess Horc HC Hf.
rewrite /create_ggn_mv /create_hessian_mv Hf /= => -[<-] [<-] v; congr Ok.
rewrite (Horc _ _ _ _ (residuals_hvp data v HC)) ggn_mvE scalerDr; congr (_ + _).
rewrite mulrC -scalerA; congr (_ *: _); rewrite scaler_sumr; apply: eq_bigr => d _.
by rewrite scaler_sumr; apply: eq_bigr => k _; rewrite scalerA.
Qed.
Print Assumptions C18_gauss_newton.

(** C18.  At parameters that interpolate the data the two operators agree, affine model or not. *)
Theorem C18_interpolation :
  forall (X : Type) (P K : nat) (model : X -> 'cV[R]_P -> 'cV[R]_K) (jac : X -> 'cV[R]_P -> 'M[R]_(K, P)) C
    (hvp_oracle : ('cV[R]_P -> R) -> 'cV[R]_P -> 'cV[R]_P -> 'cV[R]_P)
    (params : 'cV[R]_P) (data : seq (X * 'cV[R]_K)) nc nt ggn hess,
  correct_autodiff hvp_oracle -> smooth_model model jac C params ->
  (forall d, List.In d data -> model d.1 params = d.2) ->
  create_ggn_mv model jac params data (LossStr "mse"%string) nc nt None = Ok ggn ->
  create_hessian_mv model hvp_oracle params data (CLossStr K "mse"%string) nc nt = Ok hess ->
  forall v, hess v = Ok (ggn v).
Proof.
move=> X P K model jac C orc params data nc nt ggn hess Horc HC H0 Eg Eh v.
have [f Hf] : exists f, curv_scaling_factor nc nt (size data) = Ok f.
  by move: Eg; rewrite /create_ggn_mv; case: (curv_scaling_factor _ _ _) => // f _; exists f.
rewrite (C18_gauss_newton Horc HC Hf Eg Eh); congr Ok.
rewrite [X in _ *: X](_ : _ = 0) ?scaler0 ?addr0 //.
elim: data H0 {Eg Eh Hf} => [|d r IH] H0; first by rewrite big_nil.
rewrite big_cons IH ?addr0 => [|e He]; last by apply: H0; right.
by apply: big1 => k _; rewrite H0 ?subrr ?mxE ?scale0r //; left.
Qed.
Print Assumptions C18_interpolation.

(** The model [q |-> q^2] with one parameter. *)
Definition square_model (_ : unit) (q : 'cV[R]_1) : 'cV[R]_1 := const_mx (q ord0 ord0 ^+ 2).
Definition square_jac (_ : unit) (q : 'cV[R]_1) : 'M[R]_1 := const_mx (2%:R * q ord0 ord0).
Lemma square_smooth p : smooth_model square_model square_jac (fun _ _ => 2%:R%:M) p.
Proof.
move=> x k; have D1 (a b : R) : is_derive (fun t : R => a + t * b) 0 b.
  apply: der_eq (der_add (der_const a 0) (der_mul (der_id 0) (der_const b 0))).
  by rewrite add0r mul1r mul0r addr0.
have DV (u w : 'cV[R]_1) : dotv u w = u ord0 ord0 * w ord0 ord0 by rewrite /dotv big_ord1.
split=> [q u|u v].
  apply: (@der_ext (fun t => (q ord0 ord0 + t * u ord0 ord0) * (q ord0 ord0 + t * u ord0 ord0))).
    by move=> t; rewrite !mxE expr2.
  apply: der_eq (der_mul (D1 _ _) (D1 _ _)).
  by rewrite DV !mxE mul0r addr0 [X in X + _]mulrC -mulr2n -mulr_natl mulrA.
apply: (@der_ext (fun t => 2%:R * u ord0 ord0 * (p ord0 ord0 + t * v ord0 ord0))).
  by move=> t; rewrite DV !mxE mulrAC.
apply: der_eq (der_mul (der_const _ 0) (D1 _ _)).
by rewrite mul0r add0r DV mul_scalar_mx mxE mulrAC.
Qed.

(** C18.  Refuted: that the Hessian operator is positive semi-definite, like the GGN operator, for a
    model that is not affine and does not interpolate: [q^2] at 1 with target 4. *)
Theorem C18_hessian_psd_refuted :
  exists (hvp_oracle : ('cV[R]_1 -> R) -> 'cV[R]_1 -> 'cV[R]_1 -> 'cV[R]_1) ggn hess,
    [/\ correct_autodiff hvp_oracle,
        create_ggn_mv square_model square_jac (const_mx 1) [:: (tt, const_mx 4%:R)] (LossStr "mse"%string)
          None None None = Ok ggn,
        create_hessian_mv square_model hvp_oracle (const_mx 1) [:: (tt, const_mx 4%:R)] (CLossStr 1 "mse"%string)
          None None = Ok hess &
        forall v, ggn v = 8%:R *: v /\ hess v = Ok (- (4%:R *: v))].
Proof.
have [orc Horc] := C18_nonvacuous 1.
have [ggn Eg] : exists ggn, create_ggn_mv square_model square_jac (const_mx 1) [:: (tt, const_mx 4%:R)]
  (LossStr "mse"%string) None None None = Ok ggn by eexists.
have [hess Eh] : exists hess, create_hessian_mv square_model orc (const_mx 1) [:: (tt, const_mx 4%:R)]
  (CLossStr 1 "mse"%string) None None = Ok hess by eexists.
exists orc, ggn, hess; split=> // v.
have F1 : curv_scaling_factor None None 1 = Ok (1 : R) by rewrite /curv_scaling_factor divff // pnatr_eq0.
have G : ggn v = 8%:R *: v.
  move: Eg; rewrite /create_ggn_mv F1 /= => -[<-]; rewrite ggn_mvE scale1r big_seq1 /=.
  apply/matrixP => i j; rewrite !ord1 !mxE !big_ord1 !mxE big_ord1 !mxE !mulr1 !mulrA -!natrM //.
rewrite (@C18_gauss_newton unit 1 1 square_model square_jac (fun _ _ => 2%:R%:M) orc (const_mx 1) [:: (tt, const_mx 4%:R)]
  None None 1 ggn hess Horc (square_smooth _) F1 Eg Eh); split=> //; congr Ok.
rewrite G !big_seq1 big_ord1 mulr1 !mul_scalar_mx !scalerA -scalerDl -scaleNr; congr (_ *: _).
rewrite !mxE expr1n.
have -> : (1 - 4%:R : R) = - 3%:R by rewrite -[4%N]/((1 + 3)%N) natrD opprD addrA subrr add0r.
rewrite -mulrA mulNr mulrN -!natrM /= -[8%N]/((12 - 4)%N) natrB // addrAC subrr add0r //.
Qed.
Print Assumptions C18_hessian_psd_refuted.

(** Non-vacuity of C18_interpolation: the same model with target 1; of C18_affine_any_loss: two classes,
    cross-entropy, one-hot target. *)
Example C18_interpolation_example :
  exists hvp_oracle hess, [/\ correct_autodiff hvp_oracle,
    create_hessian_mv square_model hvp_oracle (const_mx 1) [:: (tt, const_mx 1)] (CLossStr 1 "mse"%string)
          None None = Ok hess & forall d, List.In d [:: (tt, const_mx 1)] -> square_model d.1 (const_mx 1) = d.2].
Proof.
have [orc Horc] := C18_nonvacuous 1.
exists orc; eexists; split=> // d [<-|[]] /=; rewrite /square_model; by apply/matrixP => i j; rewrite !mxE expr1n.
Qed.
Definition ce (z y : 'cV[R]_2) : R := - \sum_k y k ord0 * ln (exp (z k ord0) / \sum_j exp (z j ord0)).
Example C18_cross_entropy_example :
  let data := [:: (tt, delta_mx ord0 ord0 : 'cV[R]_2)] in
  exists hvp_oracle ggn hess, [/\
    create_ggn_mv (fun (_ : unit) p => 1%:M *m p + 0) (fun _ _ => 1%:M) 0 data (LossStr "cross_entropy"%string) None None None = Ok ggn,
    create_hessian_mv (fun (_ : unit) p => 1%:M *m p + 0) hvp_oracle 0 data
      (CLossCallable (fun zs ys => \sum_(d <- zip zs ys) ce d.1 d.2)) None None = Ok hess &
    forall v, hess v = Ok (ggn v)].
Proof.
move=> data; have [orc Horc] := C18_nonvacuous 2.
have [h Eh] : exists h, create_loss_hessian_mv (@LossStr 2 "cross_entropy"%string) = Ok h by eexists.
exists orc; eexists; eexists; split; [reflexivity | reflexivity |].
apply: (@C18_affine_any_loss unit 2 2 (fun _ => 1%:M) (fun _ => 0) orc _ h ce
  (fun zs ys => \sum_(d <- zip zs ys) ce d.1 d.2) 0 data None None _ _ Horc Eh).
- move=> d [<-|[]] z w /=; apply: (C17_cross_entropy Eh).
  by rewrite !big_ord_recl big_ord0 !mxE /= !addr0.
- by elim=> [|[a b] r IH] /=; [rewrite !big_nil | rewrite !big_cons IH].
- by [].
- by [].
Qed.
