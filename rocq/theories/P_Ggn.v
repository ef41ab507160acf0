(** Properties C15-C19: GGN and Hessian operators. *)
From Coq Require Import Reals String ClassicalEpsilon.
From Coquelicot Require Import Coquelicot.
From mathcomp Require Import all_ssreflect all_algebra.
From Verif Require Import Base RealStruct Ggn GgnSpec RealSums GgnProofs LossProofs.
Set Implicit Arguments.
Unset Strict Implicit.
Unset Printing Implicit Defensive.
Import GRing.Theory Num.Theory Order.TTheory.
Local Open Scope ring_scope.

(** The loss names of [LossFn] (enums.py) supported by the GGN. *)
Definition ggn_losses : seq string :=
  [:: "mse"; "cross_entropy"; "binary_cross_entropy"; "none"]%string.

(** Specification of the Hessian (in the prediction) of each named loss. *)
Definition loss_hessian (K : nat) (s : string) (z : 'cV[R]_K) : 'M[R]_K :=
  if String.eqb s "mse" then 2%:R%:M
  else if String.eqb s "cross_entropy" then diag_mx (class_probs z)^T - class_probs z *m (class_probs z)^T
  else if String.eqb s "binary_cross_entropy" then
    \matrix_(i, j) (if i == j then logistic (z i ord0) * (1 - logistic (z i ord0)) else 0)
  else 1%:M.

Lemma loss_hessianE K s : List.In s ggn_losses ->
  exists h, create_loss_hessian_mv (@LossStr K s) = Ok h /\
    forall jv z y, h jv z y = loss_hessian s z *m jv.
Proof.
move=> /= [<-|[<-|[<-|[<-|[]]]]]; eexists; (split; first by []) => jv z y; rewrite /loss_hessian /=.
- by rewrite mul_scalar_mx.
- rewrite mulmxBl; apply/colP => i.
  rewrite ce_entry mulrBr [RHS]mxE mul_diag_mx [X in _ = _ + X]mxE.
  rewrite -mulmxA [X in _ = _ - X]mxE big_ord1 -dotvE; congr (_ - _).
  by rewrite [RHS]mxE [(class_probs z)^T _ _]mxE.
- apply/colP => i; rewrite !mxE (bigD1 i) //= mxE eqxx big1 ?addr0 // => j /negbTE Hj.
  by rewrite mxE eq_sym Hj mul0r.
- by rewrite mul1mx.
Qed.

(** C15.  For every data set, model (with Jacobians [jac]), parameters and each supported
    loss name, the operator is [factor * sum_n J_n^T H_n J_n] and therefore linear,
    symmetric and positive semi-definite. *)
Theorem C15_ggn_formula :
  forall (X : Type) (P K : nat) (model : X -> 'cV[R]_P -> 'cV[R]_K)
    (jac : X -> 'cV[R]_P -> 'M[R]_(K, P)) (params : 'cV[R]_P) (s : string) (factor : R),
  List.In s ggn_losses ->
  exists mv, create_ggn_mv_without_data model jac params (LossStr s) factor None = Ok mv /\
    forall v data, mv v data =
      factor *: \sum_(d <- data) ((jac d.1 params)^T *m
        loss_hessian s (model d.1 params) *m jac d.1 params) *m v.
Proof.
move=> X P K model jac params s factor Hs; rewrite /create_ggn_mv_without_data.
have [h [-> Hh]] := loss_hessianE K Hs; eexists; split; first by [].
move=> v data; rewrite ggn_mvE; congr (_ *: _); apply: eq_bigr => d _.
by rewrite Hh !mulmxA.
Qed.
Print Assumptions C15_ggn_formula.

Theorem C15_ggn_without_data_linear_symmetric_psd :
  forall (X : Type) (P K : nat) (model : X -> 'cV[R]_P -> 'cV[R]_K)
    (jac : X -> 'cV[R]_P -> 'M[R]_(K, P)) (params : 'cV[R]_P) (s : string) (factor : R) mv,
  create_ggn_mv_without_data model jac params (LossStr s) factor None = Ok mv ->
  forall data,
  [/\ linear_op (fun v => mv v data), symmetric_op (fun v => mv v data)
    & 0 <= factor -> psd_op (fun v => mv v data)].
Proof.
move=> X P K model jac params s factor mv; rewrite /create_ggn_mv_without_data.
case E: (create_loss_hessian_mv _) => [h|//] [<-] data.
have H z y := builtin_good E z y.
split; [apply: ggn_linear|apply: ggn_symmetric|move=> Hf; apply: ggn_psd => //];
  by move=> z y; case: (H z y).
Qed.
Print Assumptions C15_ggn_without_data_linear_symmetric_psd.

(** ... with data; the scaling factor of natural sample counts is never negative. *)
Theorem C15_ggn_linear_symmetric_psd :
  forall (X : Type) (P K : nat) (model : X -> 'cV[R]_P -> 'cV[R]_K)
    (jac : X -> 'cV[R]_P -> 'M[R]_(K, P)) (params : 'cV[R]_P) data (s : string) nc nt mv,
  create_ggn_mv model jac params data (LossStr s) nc nt None = Ok mv ->
  [/\ linear_op mv, symmetric_op mv & psd_op mv].
Proof.
move=> X P K model jac params data s nc nt mv; rewrite /create_ggn_mv.
case Ef: (curv_scaling_factor _ _ _) => [f|//] /=.
case E: (create_ggn_mv_without_data _ _ _ _ _ _) => [g|//] [<-].
have [H1 H2 H3] := C15_ggn_without_data_linear_symmetric_psd E data; split=> //; apply: H3.
move: Ef; rewrite /curv_scaling_factor.
case: (match nc with Some _ => _ | None => _ end) => [//|n] [<-].
by apply: divr_ge0; apply: ler0n.
Qed.
Print Assumptions C15_ggn_linear_symmetric_psd.

(** A user-supplied loss Hessian: what it guarantees carries over to the GGN. *)
Theorem C15_ggn_custom_hessian :
  forall (X : Type) (P K : nat) (model : X -> 'cV[R]_P -> 'cV[R]_K)
    (jac : X -> 'cV[R]_P -> 'M[R]_(K, P)) (params : 'cV[R]_P) data nc nt
    (hess : 'cV[R]_K -> 'cV[R]_K -> 'cV[R]_K -> 'cV[R]_K) mv,
  create_ggn_mv model jac params data LossMissing nc nt (Some hess) = Ok mv ->
  [/\ (forall z y, linear_op (fun jv => hess jv z y)) -> linear_op mv,
      (forall z y, symmetric_op (fun jv => hess jv z y)) -> symmetric_op mv
    & (forall z y, psd_op (fun jv => hess jv z y)) -> psd_op mv].
Proof.
move=> X P K model jac params data nc nt hess mv; rewrite /create_ggn_mv.
case Ef: (curv_scaling_factor _ _ _) => [f|//] /= [<-].
split=> H; [exact: ggn_linear|exact: ggn_symmetric|apply: ggn_psd => //].
move: Ef; rewrite /curv_scaling_factor.
case: (match nc with Some _ => _ | None => _ end) => [//|n] [<-].
by apply: divr_ge0; apply: ler0n.
Qed.
Print Assumptions C15_ggn_custom_hessian.

(** Non-vacuity: one sample, two outputs, cross entropy at equal logits; the operator is not
    zero. *)
Example C15_nonvacuous : exists mv : 'cV[R]_2 -> 'cV[R]_2,
  create_ggn_mv (fun (_ : unit) p => p) (fun _ _ => 1%:M) 0 [:: (tt, 0)]
    (LossStr "cross_entropy"%string) None None None = Ok mv /\
  mv (delta_mx ord0 ord0) ord0 ord0 = 1 / 4%:R.
Proof.
eexists; split; first by [].
rewrite /= ggn_mvE big_seq1 divr1 scale1r trmx1 !mul1mx ce_entry.
have S i : softmax (0 : 'cV[R]_2) i ord0 = 1 / 2%:R.
  by rewrite mxE !big_ord_recl big_ord0 !mxE exp_0 addr0.
by rewrite dotv_delta S mxE /=; numR; field.
Qed.

(** C16.  The factor is [num_total / num_curv]; both default to the batch size. *)
Theorem C16_ggn_scaling :
  forall (X : Type) (P K : nat) (model : X -> 'cV[R]_P -> 'cV[R]_K)
    (jac : X -> 'cV[R]_P -> 'M[R]_(K, P)) (params : 'cV[R]_P) data (s : string)
    (num_curv num_total : nat),
  List.In s ggn_losses -> (0 < num_curv)%N ->
  exists mv, create_ggn_mv model jac params data (LossStr s) (Some num_curv) (Some num_total) None
      = Ok mv /\
    forall v, mv v = (num_total%:R / num_curv%:R) *:
      \sum_(d <- data) ((jac d.1 params)^T *m
        loss_hessian s (model d.1 params) *m jac d.1 params) *m v.
Proof.
move=> X P K model jac params data s [//|nc] nt Hs _.
have [mv [E H]] := C15_ggn_formula model jac params (nt%:R / nc.+1%:R) Hs.
by rewrite /create_ggn_mv /= E /=; eexists; split; first by [].
Qed.
Print Assumptions C16_ggn_scaling.

Theorem C16_ggn_default_counts :
  forall (X : Type) (P K : nat) (model : X -> 'cV[R]_P -> 'cV[R]_K)
    (jac : X -> 'cV[R]_P -> 'M[R]_(K, P)) (params : 'cV[R]_P) data (s : string),
  List.In s ggn_losses ->
  (data <> [::] -> exists mv, create_ggn_mv model jac params data (LossStr s) None None None = Ok mv
    /\ forall v, mv v = \sum_(d <- data) ((jac d.1 params)^T *m
        loss_hessian s (model d.1 params) *m jac d.1 params) *m v) /\
  (forall num_total, create_ggn_mv model jac params [::] (LossStr s) None num_total None
     = Raise ZeroDivisionError).
Proof.
move=> X P K model jac params data s Hs; split; last by move=> nt; case: s Hs.
move=> H0; have [mv [E H]] := C15_ggn_formula model jac params 1 Hs.
rewrite /create_ggn_mv /curv_scaling_factor; case: data H0 => [//|d data] _.
rewrite /= divff ?pnatr_eq0 // E /=; eexists; split; first by [].
by move=> v; rewrite /= H scale1r.
Qed.
Print Assumptions C16_ggn_default_counts.

(** Only one of the counts given: num_total_samples defaults to num_curv_samples (no scaling), and
    num_curv_samples to the number of data. *)
Theorem C16_ggn_one_count :
  forall (X : Type) (P K : nat) (model : X -> 'cV[R]_P -> 'cV[R]_K)
    (jac : X -> 'cV[R]_P -> 'M[R]_(K, P)) (params : 'cV[R]_P) data (s : string) (n : nat),
  List.In s ggn_losses ->
  let G v := \sum_(d <- data) ((jac d.1 params)^T *m
        loss_hessian s (model d.1 params) *m jac d.1 params) *m v in
  ((0 < n)%N -> exists mv, create_ggn_mv model jac params data (LossStr s) (Some n) None None = Ok mv
    /\ forall v, mv v = G v) /\
  (data <> [::] -> exists mv, create_ggn_mv model jac params data (LossStr s) None (Some n) None = Ok mv
    /\ forall v, mv v = (n%:R / (size data)%:R) *: G v).
Proof.
move=> X P K model jac params data s n Hs G; split=> H0.
  have [mv [E H]] := C15_ggn_formula model jac params 1 Hs.
  rewrite /create_ggn_mv /curv_scaling_factor; case: n H0 => [//|n] _.
  rewrite /= divff ?pnatr_eq0 // E /=; eexists; split; first by [].
  by move=> v; rewrite /= H scale1r.
have [mv [E H]] := C15_ggn_formula model jac params (n%:R / (size data)%:R) Hs.
rewrite /create_ggn_mv /curv_scaling_factor; case: (data) H0 E H @G => [//|d l] _ E H G.
rewrite /= in E *; rewrite E /=; eexists; split; first by [].
by move=> v; rewrite /= H.
Qed.
Print Assumptions C16_ggn_one_count.

(** Splitting the data: with the same total factor the operators of the parts add up to the
    operator of the whole, for every split. *)
Theorem C16_ggn_split :
  forall (X : Type) (P K : nat) (model : X -> 'cV[R]_P -> 'cV[R]_K)
    (jac : X -> 'cV[R]_P -> 'M[R]_(K, P)) (params : 'cV[R]_P) (loss : loss_arg K) (factor : R)
    loss_hess mv,
  create_ggn_mv_without_data model jac params loss factor loss_hess = Ok mv ->
  forall (parts : seq (seq (X * 'cV[R]_K))) v,
  mv v (flatten parts) = \sum_(b <- parts) mv v b.
Proof.
move=> X P K model jac params loss factor lh mv; rewrite /create_ggn_mv_without_data.
case: (match lh with Some _ => _ | None => _ end) => [h|//] [<-] parts v.
exact: ggn_flatten.
Qed.
Print Assumptions C16_ggn_split.

(** Each batch created with its own counts: [num_curv] = the number of samples of the whole
    set in all of them. *)
Theorem C16_ggn_batches :
  forall (X : Type) (P K : nat) (model : X -> 'cV[R]_P -> 'cV[R]_K)
    (jac : X -> 'cV[R]_P -> 'M[R]_(K, P)) (params : 'cV[R]_P) (s : string) num_curv num_total
    (parts : seq (seq (X * 'cV[R]_K))) whole,
  create_ggn_mv model jac params (flatten parts) (LossStr s) (Some num_curv) (Some num_total) None
    = Ok whole ->
  exists mvs, mapM (fun b => create_ggn_mv model jac params b (LossStr s) (Some num_curv)
                               (Some num_total) None) parts = Ok mvs /\
    forall v, whole v = \sum_(mv <- mvs) mv v.
Proof.
move=> X P K model jac params s nc nt parts whole.
rewrite /create_ggn_mv; case: nc => [//|nc] /=.
rewrite /create_ggn_mv_without_data; case: (create_loss_hessian_mv _) => [h|//] [<-] /=.
exists [seq (fun v => ggn_mv model jac params h (nt%:R / nc.+1%:R) v b) | b <- parts]; split.
  by elim: parts => [//|b parts IH] /=; rewrite IH.
by move=> v; rewrite ggn_flatten big_map.
Qed.
Print Assumptions C16_ggn_batches.

(** [laplace] uses the inverse factor [num_curv / num_total]. *)
Theorem C16_laplace_factor :
  forall (X : Type) (P K : nat) (model : X -> 'cV[R]_P -> 'cV[R]_K)
    (jac : X -> 'cV[R]_P -> 'M[R]_(K, P)) (params : 'cV[R]_P) data (s : string)
    (num_curv num_total : nat),
  List.In s ggn_losses -> (0 < num_total)%N ->
  exists mv, laplace_ggn_mv model jac params data (LossStr s) num_curv num_total = Ok mv /\
    forall v, mv v = (num_curv%:R / num_total%:R) *:
      \sum_(d <- data) ((jac d.1 params)^T *m
        loss_hessian s (model d.1 params) *m jac d.1 params) *m v.
Proof.
move=> X P K model jac params data s nc [//|nt] Hs _.
have [mv [E H]] := C15_ggn_formula model jac params (nc%:R / nt.+1%:R) Hs.
by rewrite /laplace_ggn_mv /GGN /= E /=; eexists; split; first by [].
Qed.
Print Assumptions C16_laplace_factor.

(** Hence the claim "[laplace] scales the curvature like [create_ggn_mv] for the same sample
    counts" is false. *)
Theorem C16_laplace_scales_like_create_ggn_mv_refuted :
  ~ (forall (X : Type) (P K : nat) (model : X -> 'cV[R]_P -> 'cV[R]_K)
       (jac : X -> 'cV[R]_P -> 'M[R]_(K, P)) (params : 'cV[R]_P) data (s : string)
       (num_curv num_total : nat) mv mv',
     (0 < num_curv)%N -> (0 < num_total)%N ->
     create_ggn_mv model jac params data (LossStr s) (Some num_curv) (Some num_total) None = Ok mv ->
     laplace_ggn_mv model jac params data (LossStr s) num_curv num_total = Ok mv' ->
     forall v, mv' v = mv v).
Proof.
move=> H.
have := H unit 1%N 1%N (fun _ p => p) (fun _ _ => 1%:M) 0 [:: (tt, 0)] "none"%string 1%N 2%N
   _ _ isT isT erefl erefl 1%:M.
rewrite !ggn_mvE big_seq1 trmx1 !mul1mx => /matrixP /(_ ord0 ord0).
rewrite !mxE /= mulr1n !mulr1 divr1 div1r => /(congr1 (fun x : R => x * 2%:R)).
rewrite mulVf ?pnatr_eq0 // -natrM => /eqP.
by rewrite -[1]/(1%:R) eqr_nat.
Qed.
Print Assumptions C16_laplace_scales_like_create_ggn_mv_refuted.

(** C17.  The loss Hessian operators are the second derivatives of the losses. *)
Theorem C17_mse :
  forall (K : nat) h, create_loss_hessian_mv (@LossStr K "mse"%string) = Ok h ->
  forall (y p v : 'cV[R]_K),
  is_hvp (fun z => \sum_i ((z - y) i ord0) ^+ 2) p v (h v p y).
Proof. by move=> K h [<-] y p v; apply: mse_hvp. Qed.
Print Assumptions C17_mse.

Theorem C17_binary_cross_entropy :
  forall (K : nat) h, create_loss_hessian_mv (@LossStr K "binary_cross_entropy"%string) = Ok h ->
  forall (y p v : 'cV[R]_K),
  is_hvp (fun z => \sum_i (- y i ord0 * ln (1 / (1 + exp (- z i ord0)))
                           - (1 - y i ord0) * ln (1 / (1 + exp (z i ord0))))) p v (h v p y).
Proof.
move=> K h [<-] y p v; have [g [Hg Hh]] := bce_hvp y p v; exists g; split=> // q u.
apply: der_ext (Hg q u) => t; apply: eq_bigr => i _.
by rewrite /log_sigmoid_cross_entropy /log_sigmoid /sigmoid opprK.
Qed.
Print Assumptions C17_binary_cross_entropy.

(** Targets are probability vectors (one-hot vectors among them). *)
Theorem C17_cross_entropy :
  forall (K : nat) h, create_loss_hessian_mv (@LossStr K.+1 "cross_entropy"%string) = Ok h ->
  forall (y p v : 'cV[R]_K.+1), \sum_k y k ord0 = 1 ->
  is_hvp (fun z => - \sum_k y k ord0 * ln (exp (z k ord0) / \sum_j exp (z j ord0))) p v (h v p y).
Proof.
move=> K h [<-] y p v Hy; have [g [Hg Hh]] := ce_hvp p v Hy; exists g; split=> // q u.
apply: der_ext (Hg q u) => t; congr (- _); apply: eq_bigr => k _.
by rewrite [softmax _ k ord0]mxE.
Qed.
Print Assumptions C17_cross_entropy.

(** A loss given as a function of prediction and target: if [H y z] is its Hessian in the prediction
    at [z] (this is what the automatic differentiation supplies), the operator multiplies with the
    Hessian at the prediction, for the target. *)
Theorem C17_custom_loss :
  forall (K : nat) (loss : 'cV[R]_K -> 'cV[R]_K -> R) (H : 'cV[R]_K -> 'cV[R]_K -> 'M[R]_K) h,
  (forall y z v, is_hvp (fun q => loss q y) z v (H y z *m v)) ->
  create_loss_hessian_mv (LossCallable H) = Ok h ->
  forall (y p v : 'cV[R]_K), is_hvp (fun z => loss z y) p v (h v p y).
Proof. by move=> K loss H h HH [<-] y p v; apply: HH. Qed.
Print Assumptions C17_custom_loss.

(** The Hessian-vector product is unique, so these statements determine the operators. *)
Theorem C17_hvp_unique :
  forall (K : nat) (f : 'cV[R]_K -> R) p v h h', is_hvp f p v h -> is_hvp f p v h' -> h = h'.
Proof. exact: is_hvp_uniq. Qed.
Print Assumptions C17_hvp_unique.

Theorem C17_symmetric_psd :
  forall (K : nat) s h, create_loss_hessian_mv (@LossStr K s) = Ok h ->
  forall z y, [/\ linear_op (fun jv => h jv z y), symmetric_op (fun jv => h jv z y),
                  psd_op (fun jv => h jv z y) & forall y' jv, h jv z y' = h jv z y].
Proof.
move=> K s h E z y; have [H1 H2 H3] := builtin_good E z y; split=> // y' jv.
by move: E => /=; do 4!case: (_ =? _)%string => //; case=> <-.
Qed.
Print Assumptions C17_symmetric_psd.

Theorem C17_cross_entropy_kernel :
  forall (K : nat) h, create_loss_hessian_mv (@LossStr K.+1 "cross_entropy"%string) = Ok h ->
  forall z y (v : 'cV[R]_K.+1),
  (forall c, h (const_mx c) z y = 0) /\ \sum_i h v z y i ord0 = 0.
Proof.
move=> K h [<-] z y v; split; first by move=> c; apply: ce_const.
transitivity (dotv (const_mx 1) (ce_hessian_mv v z)).
  by apply: eq_bigr => i _; rewrite [const_mx 1 i ord0]mxE mul1r.
by rewrite ce_symmetric ce_const dotvC dotv0.
Qed.
Print Assumptions C17_cross_entropy_kernel.

Example C17_nonvacuous : exists y : 'cV[R]_3, \sum_k y k ord0 = 1 /\
  exists h, create_loss_hessian_mv (@LossStr 3 "cross_entropy"%string) = Ok h.
Proof.
exists (delta_mx ord0 ord0); split; last by eexists.
by rewrite !big_ord_recl big_ord0 !mxE /= !addr0.
Qed.

(** C18.  For a model affine in its parameters ([model x p = A x * p + b x], so the Jacobian
    is [A x]) and the "mse" loss, the GGN operator and the Hessian operator agree, provided
    the automatic differentiation behind the Hessian returns Hessian-vector products. *)
Definition correct_autodiff (P : nat) (hvp_oracle : ('cV[R]_P -> R) -> 'cV[R]_P -> 'cV[R]_P -> 'cV[R]_P) :=
  forall f p v h, is_hvp f p v h -> hvp_oracle f p v = h.

Lemma affine_mse_hvp (X : Type) P K (A : X -> 'M[R]_(K, P)) (b : X -> 'cV[R]_K)
    (data : seq (X * 'cV[R]_K)) p v :
  is_hvp (fun q => foldr +%R 0
            [seq \sum_i ((A d.1 *m q + b d.1 - d.2) i ord0) ^+ 2 | d <- data]) p v
    (\sum_(d <- data) (A d.1)^T *m mse_hessian_mv (A d.1 *m v)).
Proof.
have [|d u|g [Hg Hh]] := @is_hvp_sum P (X * 'cV[R]_K) data
  (fun d q => \sum_i ((A d.1 *m q + b d.1 - d.2) i ord0) ^+ 2) p v
  (fun d => (A d.1)^T *m mse_hessian_mv (A d.1 *m v))
  (fun d q => (A d.1)^T *m (2%:R *: ((A d.1 *m q + b d.1) - d.2))).
- by move=> d; apply: (affine_gradient (A d.1) (b d.1) (mse_gradient d.2)).
- apply: (@affine_hvp _ _ (A d.1) (b d.1) (fun z => 2%:R *: (z - d.2))) => w.
  exact: mse_line.
exists g; split=> // q u; apply: der_ext (Hg q u) => t.
by rewrite foldrE big_map.
Qed.

Theorem C18_ggn_is_hessian :
  forall (X : Type) (P K : nat) (A : X -> 'M[R]_(K, P)) (b : X -> 'cV[R]_K)
    (hvp_oracle : ('cV[R]_P -> R) -> 'cV[R]_P -> 'cV[R]_P -> 'cV[R]_P)
    (params : 'cV[R]_P) (data : seq (X * 'cV[R]_K)) nc nt ggn hess,
  correct_autodiff hvp_oracle ->
  create_ggn_mv (fun x p => A x *m p + b x) (fun x _ => A x) params data (LossStr "mse"%string)
    nc nt None = Ok ggn ->
  create_hessian_mv (fun x p => A x *m p + b x) hvp_oracle params data (CLossStr K "mse"%string)
    nc nt = Ok hess ->
  forall v, hess v = Ok (ggn v).
Proof.
move=> X P K A b orc params data nc nt ggn hess Horc.
rewrite /create_ggn_mv /create_hessian_mv.
case: (curv_scaling_factor nc nt (size data)) => [f|//] /= [<-] [<-] v.
congr Ok; rewrite ggn_mvE; congr (_ *: _).
exact/Horc/affine_mse_hvp.
Qed.
Print Assumptions C18_ggn_is_hessian.

(** The Hessian in question is that of the summed squared error. *)
Theorem C18_ggn_is_second_derivative :
  forall (X : Type) (P K : nat) (A : X -> 'M[R]_(K, P)) (b : X -> 'cV[R]_K)
    (params : 'cV[R]_P) (data : seq (X * 'cV[R]_K)) ggn,
  create_ggn_mv (fun x p => A x *m p + b x) (fun x _ => A x) params data (LossStr "mse"%string)
    None None None = Ok ggn ->
  forall v, is_hvp (fun q => \sum_(d <- data) \sum_i ((A d.1 *m q + b d.1 - d.2) i ord0) ^+ 2)
                   params v (ggn v).
Proof.
move=> X P K A b params data ggn; rewrite /create_ggn_mv /curv_scaling_factor.
case: (size data) => [//|n] /=; rewrite divff ?pnatr_eq0 // => -[<-] v.
rewrite ggn_mvE scale1r.
have [g [Hg Hh]] := affine_mse_hvp A b data params v; exists g; split=> // q u.
by apply: der_ext (Hg q u) => t; rewrite foldrE big_map.
Qed.
Print Assumptions C18_ggn_is_second_derivative.

(** Correct automatic differentiation exists as a function. *)
Example C18_nonvacuous (P : nat) : exists orc, @correct_autodiff P orc.
Proof.
exists (fun f p v => match excluded_middle_informative (exists h, is_hvp f p v h) with
                     | left H => proj1_sig (constructive_indefinite_description _ H)
                     | right _ => 0 end).
move=> f p v h Hh; case: excluded_middle_informative => [H|[]]; last by exists h.
by case: (constructive_indefinite_description _ _) => h' Hh' /=; apply: is_hvp_uniq Hh.
Qed.

(** C19.  [create_ggn_mv] wants exactly one of [loss_fn], [loss_hessian_mv]: both or none is
    a ValueError; otherwise the only further errors are an unknown loss name and zero samples. *)
Theorem C19_exactly_one_loss :
  forall (X : Type) (P K : nat) (model : X -> 'cV[R]_P -> 'cV[R]_K) jac params data nc nt
    (loss : loss_arg K) hess,
  (loss <> LossMissing <-> hess <> None) ->
  create_ggn_mv model jac params data loss nc nt hess = Raise ValueError.
Proof.
move=> X P K model jac params data nc nt [|s|f] [h|] [H1 H2] //=.
- by case: H2.
- by case: H1.
- by case: H1.
Qed.
Print Assumptions C19_exactly_one_loss.

Theorem C19_one_loss_accepted :
  forall (X : Type) (P K : nat) (model : X -> 'cV[R]_P -> 'cV[R]_K) jac params data nc nt
    (loss : loss_arg K) hess,
  ((exists s, loss = LossStr s /\ List.In s ggn_losses /\ hess = None) \/
   (exists f, loss = LossCallable f /\ hess = None) \/ (loss = LossMissing /\ hess <> None)) ->
  (if nc is Some n then n else size data) <> 0%N ->
  exists mv, create_ggn_mv model jac params data loss nc nt hess = Ok mv.
Proof.
move=> X P K model jac params data nc nt loss hess H Hn.
have [r Hr] : exists r, curv_scaling_factor nc nt (size data) = Ok r.
  by rewrite /curv_scaling_factor; case: (match nc with Some _ => _ | None => _ end) Hn => [//|n] _; eexists.
case: H => [[s [-> [Hs ->]]]|[[f [-> ->]]|[-> {}]]].
- rewrite /create_ggn_mv Hr /= /create_ggn_mv_without_data.
  by have [h [-> _]] := loss_hessianE K Hs; eexists.
- by rewrite /create_ggn_mv Hr /=; eexists.
- by case: hess => [h|//] _; rewrite /create_ggn_mv Hr /=; eexists.
Qed.
Print Assumptions C19_one_loss_accepted.

(** [create_loss_hessian_mv] rejects None and every other string. *)
Theorem C19_loss_names :
  forall (K : nat) (s : string),
  create_loss_hessian_mv (@LossMissing K) = Raise ValueError /\
  ((exists h, create_loss_hessian_mv (@LossStr K s) = Ok h) <-> List.In s ggn_losses) /\
  (~ List.In s ggn_losses -> create_loss_hessian_mv (@LossStr K s) = Raise ValueError).
Proof.
move=> K s; split; first by [].
rewrite /create_loss_hessian_mv; split; first split.
- case: String.eqb_spec => [->|_]; first by move=> _; right; right; left.
  case: String.eqb_spec => [->|_]; first by move=> _; right; left.
  case: String.eqb_spec => [->|_]; first by move=> _; left.
  case: String.eqb_spec => [->|_]; first by move=> _; right; right; right; left.
  by case.
- by move=> /= [<-|[<-|[<-|[<-|[]]]]]; eexists.
- case: String.eqb_spec => [->|_]; first by case; right; right; left.
  case: String.eqb_spec => [->|_]; first by case; right; left.
  case: String.eqb_spec => [->|_]; first by case; left.
  by case: String.eqb_spec => [->|_] //; case; right; right; right; left.
Qed.
Print Assumptions C19_loss_names.

(** Without data the check is absent: an explicit loss Hessian silently wins. *)
Theorem C19_without_data_prefers_hessian :
  forall (X : Type) (P K : nat) (model : X -> 'cV[R]_P -> 'cV[R]_K) jac params factor
    (loss loss' : loss_arg K) h,
  create_ggn_mv_without_data model jac params loss factor (Some h) =
  create_ggn_mv_without_data model jac params loss' factor (Some h).
Proof. by []. Qed.
Print Assumptions C19_without_data_prefers_hessian.

(** The Hessian route accepts only "mse" and "cross_entropy" by name ... *)
Theorem C19_hessian_loss_names :
  forall (X : Type) (P K : nat) (model : X -> 'cV[R]_P -> 'cV[R]_K) orc params data nc nt s,
  (if nc is Some n then n else size data) <> 0%N ->
  ((s = "mse" \/ s = "cross_entropy")%string ->
     exists mv, create_hessian_mv model orc params data (CLossStr K s) nc nt = Ok mv) /\
  (~ (s = "mse" \/ s = "cross_entropy")%string ->
     create_hessian_mv model orc params data (CLossStr K s) nc nt = Raise ValueError).
Proof.
move=> X P K model orc params data nc nt s Hn; rewrite /create_hessian_mv.
have [r ->] : exists r, curv_scaling_factor nc nt (size data) = Ok r.
  by rewrite /curv_scaling_factor; case: (match nc with Some _ => _ | None => _ end) Hn => [//|n] _; eexists.
rewrite /= /create_hessian_mv_without_data /=; split.
  by case=> ->; eexists.
case: String.eqb_spec => [->|_]; first by case; left.
by case: String.eqb_spec => [->|_] //; case; right.
Qed.
Print Assumptions C19_hessian_loss_names.

(** ... so the claim that every [LossFn] member is supported there (as documented) is false, *)
Theorem C19_hessian_supports_all_losses_refuted :
  ~ (forall (X : Type) (P K : nat) (model : X -> 'cV[R]_P -> 'cV[R]_K) orc params data s,
     List.In s ggn_losses -> data <> [::] ->
     exists mv, create_hessian_mv model orc params data (CLossStr K s) None None = Ok mv).
Proof.
move=> H.
have [||mv] := H unit 1%N 1%N (fun _ p => p) (fun _ p _ => p) 0 [:: (tt, 0)] "none"%string.
- by right; right; right; left.
- by [].
by [].
Qed.
Print Assumptions C19_hessian_supports_all_losses_refuted.

(** ... and the "cross_entropy" operator, although accepted, fails on every vector: the
    combined loss is not a scalar. *)
Theorem C19_hessian_cross_entropy_unusable :
  forall (X : Type) (P K : nat) (model : X -> 'cV[R]_P -> 'cV[R]_K) orc params data nc nt mv,
  create_hessian_mv model orc params data (CLossStr K "cross_entropy"%string) nc nt = Ok mv ->
  forall v, mv v = Raise TypeError.
Proof.
move=> X P K model orc params data nc nt mv; rewrite /create_hessian_mv.
by case: (curv_scaling_factor _ _ _) => [r|//] /= [<-] v.
Qed.
Print Assumptions C19_hessian_cross_entropy_unusable.

Example C19_nonvacuous :
  (exists mv, create_ggn_mv (fun (_ : unit) (p : 'cV[R]_2) => p) (fun _ _ => 1%:M) 0 [:: (tt, 0)]
     LossMissing None None (Some (fun jv _ _ => jv)) = Ok mv) /\
  (exists mv, create_hessian_mv (fun (_ : unit) (p : 'cV[R]_2) => p) (fun _ p _ => p) 0
     [:: (tt, 0)] (CLossStr 2 "cross_entropy"%string) None None = Ok mv).
Proof. by split; eexists. Qed.
