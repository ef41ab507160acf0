(** Property C57: models that take a whole batch ([vmap_over_data=False]). *)
From Coq Require Import Reals String.
From Coquelicot Require Import Coquelicot.
From mathcomp Require Import all_ssreflect all_algebra.
From Verif Require Import Base RealStruct Ggn GgnSpec RealSums GgnProofs LossProofs Posterior Likelihood Batched.
Set Implicit Arguments.
Unset Strict Implicit.
Unset Printing Implicit Defensive.
Import GRing.Theory Num.Theory Order.TTheory.
Local Open Scope ring_scope.

(** Specification.  A batched model treats the samples independently: row [i] of its output is the
    single-sample model on sample [i]. *)
Definition rowwise (X XB : Type) (P K N : nat) (model : X -> 'cV[R]_P -> 'cV[R]_K)
    (modelB : XB -> 'cV[R]_P -> 'M[R]_(N, K)) (xb : XB) (xs : 'I_N -> X) : Prop :=
  forall p i j, modelB xb p i j = model (xs i) p j ord0.
(** Two calls agree: both raise the same exception, or both return and the values are related. *)
Definition agree (A B : Type) (rel : A -> B -> Prop) (a : res A) (b : res B) : Prop :=
  match a, b with Ok x, Ok y => rel x y | Raise e, Raise e' => e = e' | _, _ => False end.
(** The samples of a batch. *)
Definition samples_of (X : Type) (K N : nat) (xs : 'I_N -> X) (Y : 'M[R]_(N, K)) : seq (X * 'cV[R]_K) :=
  [seq (xs i, (row i Y)^T) | i <- enum 'I_N].
(** [D] is the derivative of [f] at [p] along [v]. *)
Definition is_jvp (P a b : nat) (f : 'cV[R]_P -> 'M[R]_(a, b)) (p v : 'cV[R]_P) (D : 'M[R]_(a, b)) : Prop :=
  forall i j, is_derive (fun t : R => f (p + t *: v) i j) 0 (D i j).
(** Inner product of arrays, and adjoint maps. *)
Definition frob (a b : nat) (A B : 'M[R]_(a, b)) : R := \sum_i \sum_j A i j * B i j.
Definition is_transpose (P a b : nat) (f : 'cV[R]_P -> 'M[R]_(a, b)) (g : 'M[R]_(a, b) -> 'cV[R]_P) : Prop :=
  forall v H, frob (f v) H = dotv v (g H).

Section Batch.
Variables (X XB : Type) (P K N : nat).
Variables (model : X -> 'cV[R]_P -> 'cV[R]_K) (jac : X -> 'cV[R]_P -> 'M[R]_(K, P)).
Variable modelB : XB -> 'cV[R]_P -> 'M[R]_(N, K).
Variables (jvpB : XB -> 'cV[R]_P -> 'cV[R]_P -> 'M[R]_(N, K)) (vjpB : XB -> 'cV[R]_P -> 'M[R]_(N, K) -> 'cV[R]_P).
Variables (xb : XB) (xs : 'I_N -> X) (params : 'cV[R]_P) (Y : 'M[R]_(N, K)).
Hypothesis Hrow : rowwise model modelB xb xs.
Hypothesis Hjac : forall i v, is_jvp (model (xs i)) params v (jac (xs i) params *m v).
Hypothesis HjvpB : forall v, is_jvp (modelB xb) params v (jvpB xb params v).
Hypothesis HvjpB : is_transpose (jvpB xb params) (vjpB xb params).

Lemma jvpB_rows v i : (row i (jvpB xb params v))^T = jac (xs i) params *m v.
Proof.
apply/colP => j; rewrite [LHS]mxE [LHS]mxE; have := HjvpB v i j; have := Hjac i v j ord0.
have -> : (fun t : R => model (xs i) (params + t *: v) j ord0) = (fun t : R => modelB xb (params + t *: v) i j).
  by apply: FunctionalExtensionality.functional_extensionality => t; rewrite Hrow.
by move=> /is_derive_unique <- /is_derive_unique <-.
Qed.

Lemma modelB_rows p i : (row i (modelB xb p))^T = model (xs i) p.
Proof. by apply/colP => j; rewrite !mxE Hrow. Qed.

Lemma vjpB_sum H : vjpB xb params H = \sum_i (jac (xs i) params)^T *m (row i H)^T.
Proof.
apply: dotv_inj => w; rewrite dotvC -HvjpB /frob [RHS]dotvC dotv_sum; apply: eq_bigr => i _.
rewrite dotv_tr -jvpB_rows /dotv; apply: eq_bigr => j _; by rewrite !mxE.
Qed.

Lemma ggn_batch hess factor v : ggn_mv model jac params hess factor v (samples_of xs Y) =
  factor *: vjpB xb params (\matrix_(i, j) hess (row i (jvpB xb params v))^T (row i (modelB xb params))^T (row i Y)^T j ord0).
Proof.
rewrite ggn_mvE vjpB_sum big_map big_enum; congr (_ *: _); apply: eq_bigr => i _ /=.
congr (_ *m _); apply/colP => j; rewrite !mxE.
by rewrite jvpB_rows modelB_rows.
Qed.
End Batch.

(** The losses that work on a whole batch. *)
Definition batch_losses : seq string := [:: "mse"; "binary_cross_entropy"; "none"]%string.

(** C57.  For "mse", "binary_cross_entropy" and "none" the operator built with [vmap_over_data=False]
    from a model of whole batches equals the one built with [vmap_over_data=True] from the
    corresponding model of single samples, for every vector, batch and scaling. *)
Theorem C57_batched_ggn :
  forall (X XB : Type) (P K N : nat) (model : X -> 'cV[R]_P -> 'cV[R]_K) (jac : X -> 'cV[R]_P -> 'M[R]_(K, P))
    (modelB : XB -> 'cV[R]_P -> 'M[R]_(N, K)) jvpB vjpB xb xs params (Y : 'M[R]_(N, K)) s num_curv num_total,
  rowwise model modelB xb xs ->
  (forall i v, is_jvp (model (xs i)) params v (jac (xs i) params *m v)) ->
  (forall v, is_jvp (modelB xb) params v (jvpB xb params v)) ->
  is_transpose (jvpB xb params) (vjpB xb params) ->
  List.In s batch_losses ->
  agree (fun mv mvB => forall v, mvB v = Ok (mv v))
    (create_ggn_mv model jac params (samples_of xs Y) (LossStr s) num_curv num_total None)
    (create_ggn_mvB modelB jvpB vjpB params (xb, Y) (BLossStr s) num_curv num_total).
Proof.
move=> X XB P K N model jac modelB jvpB vjpB xb xs params Y s nc nt Hrow Hjac HjvpB HvjpB Hs.
rewrite /create_ggn_mv /create_ggn_mvB.
have -> : size (samples_of xs Y) = N by rewrite size_map size_enum_ord.
case: (curv_scaling_factor nc nt N) => [factor|e] //=.
move: Hs => /= [<-|[<-|[<-|[]]]] /= v; rewrite /ggn_mvB /= (ggn_batch Y Hrow Hjac HjvpB HvjpB); congr (Ok (_ *: vjpB _ _ _));
  by apply/matrixP => i j; rewrite !mxE ?modelB_rows ?mxE.
Qed.
Print Assumptions C57_batched_ggn.

(** A loss given as a function of all predictions and targets, equal to [c] times the sum of a
    single-sample loss ([c = 1], or [c = 1/N] for a mean): the operator is [c] times the one obtained
    with [vmap_over_data=True] from the single-sample loss. *)
Section Custom.
Variables (K N : nat).
(** Row [i] of an array as a linear map of its flattened entries. *)
Let rowmap (i : 'I_N) : 'M[R]_(K, N * K) := \matrix_(j, l) (l == mxvec_index i j)%:R.

Lemma rowmapE i (q : 'cV[R]_(N * K)) : rowmap i *m q = (row i (vec_mx q^T))^T.
Proof.
apply/colP => j; rewrite mxE (bigD1 (mxvec_index i j)) //= big1 => [|l /negbTE Hl].
  by rewrite !mxE eqxx mul1r addr0.
by rewrite mxE Hl mul0r.
Qed.
Lemma rowmap_trE i (h : 'cV[R]_K) i' j : ((rowmap i)^T *m h) (mxvec_index i' j) ord0 = (i' == i)%:R * h j ord0.
Proof.
have inj (a c : 'I_N) (b d : 'I_K) : (mxvec_index a b == mxvec_index c d) = (a == c) && (b == d).
  apply/eqP/andP => [E|[/eqP -> /eqP ->]] //.
  by move/cast_ord_inj/enum_rank_inj: E => [-> ->].
rewrite mxE (bigD1 j) //= big1 => [|l /negbTE Hl]; rewrite !mxE inj.
  by rewrite eqxx andbT addr0.
by rewrite [j == l]eq_sym Hl andbF mul0r.
Qed.

Lemma scaled_gradient n (f : 'cV[R]_n -> R) g c : is_gradient f g ->
  is_gradient (fun q => c * f q) (fun q => c *: g q).
Proof. by move=> H q u; rewrite dotvZl; apply: is_derive_scal; apply: H. Qed.

Lemma sum_loss_hvp (l : 'I_N -> 'cV[R]_K -> R) (H : 'I_N -> 'cV[R]_K -> 'M[R]_K) (c : R) (Z V Hv : 'M[R]_(N, K)) :
  (forall i z v, is_hvp (l i) z v (H i z *m v)) ->
  is_hvp (fun q => c * \sum_i l i (row i (vec_mx q^T))^T) (mxvec Z)^T (mxvec V)^T (mxvec Hv)^T ->
  Hv = \matrix_(i, j) (c *: (H i (row i Z)^T *m (row i V)^T)) j ord0.
Proof.
move=> Hl Hs.
pose h i := (rowmap i)^T *m (c *: (H i (row i Z)^T *m (row i V)^T)).
have g_ i : {g : 'cV[R]_K -> 'cV[R]_K | is_gradient (l i) g /\
    forall u, is_derive (fun t : R => dotv (g ((row i Z)^T + t *: (row i V)^T)) u) 0 (dotv (H i (row i Z)^T *m (row i V)^T) u)}.
  by apply: ClassicalEpsilon.constructive_indefinite_description; apply: Hl.
pose g i := sval (g_ i).
have Hg i : is_gradient (l i) (g i) by have [] := svalP (g_ i).
have Hh i : forall u, is_derive (fun t : R => dotv (g i ((row i Z)^T + t *: (row i V)^T)) u) 0 (dotv (H i (row i Z)^T *m (row i V)^T) u).
  by have [] := svalP (g_ i).
have Hsum : is_hvp (fun q => \sum_i c * l i (rowmap i *m q + 0)) (mxvec Z)^T (mxvec V)^T (\sum_i h i).
  apply: (@is_hvp_sum _ _ _ _ _ _ _ (fun i q => (rowmap i)^T *m (c *: g i (rowmap i *m q + 0)))).
    by move=> i; exact: (affine_gradient (rowmap i) 0 (scaled_gradient c (Hg i))).
  move=> i; apply: (@affine_hvp _ _ (rowmap i) 0 (fun q => c *: g i q)) => u.
  rewrite dotvZl.
  apply: (@der_ext (fun t : R => c * dotv (g i ((row i Z)^T + t *: (row i V)^T)) u)).
    by move=> t; rewrite addr0 !rowmapE !trmxK !mxvecK dotvZl.
  apply: is_derive_scal; exact: Hh.
have E : (mxvec Hv)^T = \sum_i h i.
  apply: is_hvp_uniq Hs _.
  suff -> : (fun q : 'cV[R]_(N * K) => c * \sum_i l i (row i (vec_mx q^T))^T) =
            (fun q => \sum_i c * l i (rowmap i *m q + 0)) by [].
  apply: FunctionalExtensionality.functional_extensionality => q; rewrite mulr_sumr.
  by apply: eq_bigr => i _; rewrite addr0 rowmapE.
apply/matrixP => i j; rewrite -[LHS]mxvecE.
have -> : mxvec Hv 0 (mxvec_index i j) = (mxvec Hv)^T (mxvec_index i j) ord0 by rewrite [RHS]mxE.
rewrite E summxE (bigD1 i) //= big1 => [|i' /negbTE Hi]; rewrite rowmap_trE.
  by rewrite eqxx mul1r addr0 [RHS]mxE.
by rewrite eq_sym Hi mul0r.
Qed.
End Custom.

Theorem C57_batched_custom_loss :
  forall (X XB : Type) (P K N : nat) (model : X -> 'cV[R]_P -> 'cV[R]_K) (jac : X -> 'cV[R]_P -> 'M[R]_(K, P))
    (modelB : XB -> 'cV[R]_P -> 'M[R]_(N, K)) jvpB vjpB xb xs params (Y : 'M[R]_(N, K)) factor
    (loss : 'cV[R]_K -> 'cV[R]_K -> R) (H : 'cV[R]_K -> 'cV[R]_K -> 'M[R]_K)
    (lossB : 'M[R]_(N, K) -> 'M[R]_(N, K) -> R) (hvpB : 'M[R]_(N, K) -> 'M[R]_(N, K) -> 'M[R]_(N, K) -> 'M[R]_(N, K)) (c : R),
  rowwise model modelB xb xs ->
  (forall i v, is_jvp (model (xs i)) params v (jac (xs i) params *m v)) ->
  (forall v, is_jvp (modelB xb) params v (jvpB xb params v)) ->
  is_transpose (jvpB xb params) (vjpB xb params) ->
  (forall y z v, is_hvp (fun q => loss q y) z v (H y z *m v)) ->
  (forall y z v, is_hvp (fun q => lossB (vec_mx q^T) y) (mxvec z)^T (mxvec v)^T (mxvec (hvpB y z v))^T) ->
  (forall z y, lossB z y = c * \sum_i loss (row i z)^T (row i y)^T) ->
  exists mv mvB,
    [/\ create_ggn_mv_without_data model jac params (LossCallable H) factor None = Ok mv,
        create_ggn_mv_without_dataB modelB jvpB vjpB params (BLossCallable hvpB) factor = Ok mvB
      & forall v, mvB v (xb, Y) = Ok (c *: mv v (samples_of xs Y))].
Proof.
move=> X XB P K N model jac modelB jvpB vjpB xb xs params Y factor loss H lossB hvpB c Hrow Hjac HjvpB HvjpB HH HB EB.
eexists; eexists; split; [by []|by []|] => v.
rewrite /ggn_mvB /= (ggn_batch Y Hrow Hjac HjvpB HvjpB) scalerA mulrC -scalerA; congr (Ok (_ *: _)).
have E : hvpB Y (modelB xb params) (jvpB xb params v) = \matrix_(i, j)
    (c *: (H (row i Y)^T (row i (modelB xb params))^T *m (row i (jvpB xb params v))^T)) j ord0.
  apply: (@sum_loss_hvp _ _ (fun i z => loss z (row i Y)^T) (fun i z => H (row i Y)^T z)).
    by move=> i z w; apply: HH.
  suff <- : (fun q : 'cV[R]_(N * K) => lossB (vec_mx q^T) Y) =
      (fun q => c * \sum_i loss (row i (vec_mx q^T))^T (row i Y)^T) by apply: HB.
  by apply: FunctionalExtensionality.functional_extensionality => q; rewrite EB.
rewrite E !(vjpB_sum Hrow Hjac HjvpB HvjpB) scaler_sumr; apply: eq_bigr => i _.
rewrite scalemxAr; congr (_ *m _); apply/colP => j.
by rewrite [LHS]mxE [LHS]mxE [LHS]mxE [LHS]mxE [RHS]mxE [X in _ = _ * X]mxE [X in _ = _ * X]mxE [X in _ = _ * X]mxE.
Qed.
Print Assumptions C57_batched_custom_loss.

(** "cross_entropy" does not work on a whole batch: with two or more classes every application of the
    operator is a TypeError. *)
Theorem C57_batched_cross_entropy_refuted :
  forall (XB : Type) (P K N : nat) (modelB : XB -> 'cV[R]_P -> 'M[R]_(N, K)) jvpB vjpB params factor,
  (2 <= K)%N -> (1 <= N)%N ->
  exists mvB, create_ggn_mv_without_dataB modelB jvpB vjpB params (BLossStr "cross_entropy"%string) factor = Ok mvB /\
    forall v data, mvB v data = Raise TypeError.
Proof.
move=> XB P K N modelB jvpB vjpB params factor HK HN; eexists; split; first by [].
move=> v data; rewrite /ggn_mvB /= /ce_hessian_mvB.
have -> : ((N * K)%N == N) = false by apply/negbTE; rewrite neq_ltn (ltn_Pmulr HK HN) orbT.
by [].
Qed.
Print Assumptions C57_batched_cross_entropy_refuted.

(** With one class the operator of a batch is not the (zero) curvature of the single samples, nor
    positive semi-definite: it subtracts the sum over the batch. *)
Lemma softmax1 (z : 'cV[R]_1) : softmax z = const_mx 1.
Proof.
apply/colP => i; rewrite !mxE big_ord1 (ord1 i) divff //; apply/eqP => E.
by have := exp_pos (z ord0 ord0); rewrite E => /RltP; rewrite ltxx.
Qed.

Theorem C57_batched_one_class_refuted :
  exists (modelB : unit -> 'cV[R]_2 -> 'M[R]_(2, 1)) jvpB vjpB (params : 'cV[R]_2) mvB v g,
  [/\ forall u, is_jvp (modelB tt) params u (jvpB tt params u), is_transpose (jvpB tt params) (vjpB tt params),
      create_ggn_mv_without_dataB modelB jvpB vjpB params (BLossStr "cross_entropy"%string) 1 = Ok mvB,
      mvB v (tt, 0) = Ok g & dotv v g < 0].
Proof.
exists (fun _ p => p), (fun _ _ v => v), (fun _ _ h => h), 0; eexists.
exists (const_mx 1); eexists; split.
- move=> u i j; rewrite (ord1 j); apply: (@der_ext (fun t : R => 0 + t * u i ord0)).
    by move=> t; rewrite [RHS]mxE [X in _ = X + _]mxE [X in _ = _ + X]mxE.
  exact: der_line.
- by move=> u H; rewrite /frob /dotv; apply: eq_bigr => i _; rewrite big_ord1.
- by [].
- by rewrite /ggn_mvB /=.
have prob i : softmax_rows (0 : 'M[R]_(2, 1)) i ord0 = 1 by rewrite mxE softmax1 mxE.
rewrite scale1r /dotv !big_ord_recl big_ord0 addr0.
have fl (l : 'I_2) : flat_at (softmax_rows (0 : 'M[R]_(2, 1))) l = 1.
  rewrite /flat_at divn1 modn1; case: insubP => [i _ _|]; last by rewrite ltn_ord.
  by case: insubP => [j _ _|//]; rewrite (ord1 j) prob.
have E i : ((\matrix_(i, j) (softmax_rows (0 : 'M[R]_(2, 1)) i j * (const_mx 1 : 'M[R]_(2, 1)) i j) -
   \matrix_(i, j) (softmax_rows (0 : 'M[R]_(2, 1)) i j *
      (\sum_(l < 2) flat_at (softmax_rows (0 : 'M[R]_(2, 1))) l * (const_mx 1 : 'M[R]_(2, 1)) l j))) : 'M[R]_(2, 1)) i ord0 = -1.
  rewrite [LHS]mxE [X in X + _]mxE [X in _ + X]mxE [X in _ - X]mxE !prob !mul1r [X in X - _]mxE.
  rewrite (eq_bigr (fun _ => 1)); last by move=> l _; rewrite fl mul1r mxE.
  by rewrite sumr_const card_ord opprD addrA subrr add0r.
rewrite !E !mxE !mul1r -opprD oppr_lt0 -mulr2n ltr0n //.
Qed.
Print Assumptions C57_batched_one_class_refuted.

(** The loss (and so the Hessian operator and every marginal likelihood computed from it) of a batched
    model is that of the single-sample model, for every kind of loss. *)
Theorem C57_batched_loss :
  forall (X XB : Type) (P K N : nat) (model : X -> 'cV[R]_P -> 'cV[R]_K)
    (modelB : XB -> 'cV[R]_P -> 'M[R]_(N, K)) xb (xs : 'I_N -> X) (Y : 'M[R]_(N, K)) loss oracle params num_curv num_total,
  rowwise model modelB xb xs ->
  agree (fun f fB => forall p, fB (xb, Y) p = f (samples_of xs Y) p)
    (concatenate_model_and_loss_fn model loss) (concatenate_model_and_loss_fnB modelB loss) /\
  agree (fun h hB => forall v, hB v = h v)
    (create_hessian_mv model oracle params (samples_of xs Y) loss num_curv num_total)
    (create_hessian_mvB modelB oracle params (xb, Y) loss num_curv num_total).
Proof.
move=> X XB P K N model modelB xb xs Y loss oracle params nc nt Hrow.
have Hc : agree (fun f fB => forall p, fB (xb, Y) p = f (samples_of xs Y) p)
    (concatenate_model_and_loss_fn model loss) (concatenate_model_and_loss_fnB modelB loss).
  case: loss => [s|f] /=.
    case: (String.eqb _ _) => [p|].
      congr (Scalar K _); rewrite foldrE big_map big_map big_enum; apply: eq_bigr => i _; apply: eq_bigr => j _ /=.
      by rewrite !mxE Hrow.
    case: (String.eqb _ _) => // p; congr PerEntry; rewrite /rows_list /samples_of -map_comp; apply: eq_map => i /=.
    by apply/colP => j; rewrite !mxE Hrow.
  move=> p; congr (Scalar K (f _ _)); rewrite /rows_list /samples_of -map_comp; apply: eq_map => i //=.
  exact: modelB_rows Hrow _ _.
split; first by exact Hc.
rewrite /create_hessian_mv /create_hessian_mvB /create_hessian_mv_without_data.
have -> : size (samples_of xs Y) = N by rewrite size_map size_enum_ord.
case: (curv_scaling_factor nc nt N) => [factor|e] //=.
case: (concatenate_model_and_loss_fn _ _) Hc => [f|e]; case: (concatenate_model_and_loss_fnB _ _) => [fB|e'] //= Hc v.
by have -> : fB (xb, Y) = f (samples_of xs Y) by apply: FunctionalExtensionality.functional_extensionality.
Qed.
Print Assumptions C57_batched_loss.

(** The marginal log-likelihood of a batched model with the default [vmap_over_data=False] is that of
    the single-sample model with [vmap_over_data=True], for every curvature type. *)
Theorem C57_batched_marginal_likelihood :
  forall (X XB : Type) (P K N : nat) (model : X -> 'cV[R]_P -> 'cV[R]_K)
    (modelB : XB -> 'cV[R]_P -> 'M[R]_(N, K)) xb (xs : 'I_N -> X) (Y : 'M[R]_(N, K)) loss params
    (curv : curv_estimate P) pa lsf,
  rowwise model modelB xb xs ->
  marginal_log_likelihoodB modelB curv pa (xb, Y) params loss lsf =
  marginal_log_likelihood model curv pa (samples_of xs Y) params loss lsf.
Proof.
move=> X XB P K N model modelB xb xs Y loss params curv pa lsf Hrow.
have [Hc _] := C57_batched_loss Y loss (fun _ _ v => v) params None None Hrow.
rewrite /marginal_log_likelihoodB /marginal_log_likelihood /marginal_log_likelihood_with.
case: (concatenate_model_and_loss_fn _ _) Hc => [f|e]; case: (concatenate_model_and_loss_fnB _ _) => [fB|e'] //=.
  move=> Hc; have J : joint_log_likelihood fB pa params (xb, Y) = joint_log_likelihood f pa params (samples_of xs Y).
    by rewrite /joint_log_likelihood Hc.
  case: curv => [c|c|r c].
  - case: full_curvature_to_precision => //= prec.
    by rewrite /full_marginal_log_likelihood /marginal_from J.
  - case: diagonal_curvature_to_precision => //= prec.
    by rewrite /diagonal_marginal_log_likelihood /marginal_from J.
  - case: low_rank_curvature_to_precision => //= prec.
    by rewrite /low_rank_marginal_log_likelihood /marginal_from J.
by move=> ->.
Qed.
Print Assumptions C57_batched_marginal_likelihood.

(** The hypotheses are met by every linear model, given by one design matrix per sample. *)
Example C57_hypotheses_met :
  forall (P K N : nat) (xs : 'I_N -> 'M[R]_(K, P)) (params : 'cV[R]_P),
  let model (A : 'M[R]_(K, P)) (p : 'cV[R]_P) : 'cV[R]_K := A *m p in
  let modelB (b : 'I_N -> 'M[R]_(K, P)) (p : 'cV[R]_P) : 'M[R]_(N, K) := \matrix_(i, j) (b i *m p) j ord0 in
  let vjpB (b : 'I_N -> 'M[R]_(K, P)) (H : 'M[R]_(N, K)) : 'cV[R]_P := \sum_i (b i)^T *m (row i H)^T in
  [/\ rowwise model modelB xs xs,
      forall i v, is_jvp (model (xs i)) params v (xs i *m v),
      forall v, is_jvp (modelB xs) params v (modelB xs v)
    & is_transpose (modelB xs) (vjpB xs)].
Proof.
move=> P K N xs params model modelB vjpB.
have line (A : 'M[R]_(K, P)) v j : is_derive (fun t : R => (A *m (params + t *: v)) j ord0) 0 ((A *m v) j ord0).
  apply: (@der_ext (fun t : R => (A *m params) j ord0 + t * (A *m v) j ord0)); last exact: der_line.
  by move=> t; rewrite mulmxDr -scalemxAr [RHS]mxE [X in _ = _ + X]mxE.
split.
- by move=> p i j; rewrite mxE.
- by move=> i v j l; rewrite (ord1 l); apply: line.
- move=> v i j; rewrite [X in is_derive _ _ X]mxE.
  apply: (@der_ext (fun t : R => (xs i *m (params + t *: v)) j ord0)); last exact: line.
  by move=> t; rewrite [RHS]mxE.
- move=> v H; rewrite /vjpB dotv_sum /frob; apply: eq_bigr => i _.
  by rewrite dotv_tr /dotv; apply: eq_bigr => j _; rewrite !mxE.
Qed.
