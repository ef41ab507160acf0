(** Property C16, continued: Hessian operators of parts of a data set. *)
From Coq Require Import Reals String.
From Coquelicot Require Import Coquelicot.
From mathcomp Require Import all_ssreflect all_algebra.
From Verif Require Import Base RealStruct Ggn GgnSpec RealSums GgnProofs LossProofs.
From Verif Require Import P_Ggn P_Minibatch P_GaussNewton P_GaussNewtonLosses.
Set Implicit Arguments.
Unset Strict Implicit.
Unset Printing Implicit Defensive.
Import GRing.Theory Num.Theory Order.TTheory.
Local Open Scope ring_scope.

Section Batches.
Variables (X : Type) (P K : nat) (model : X -> 'cV[R]_P -> 'cV[R]_K) (jac : X -> 'cV[R]_P -> 'M[R]_(K, P)).
Variables (C : X -> 'I_K -> 'M[R]_P) (params : 'cV[R]_P).
Variable hvp_oracle : ('cV[R]_P -> R) -> 'cV[R]_P -> 'cV[R]_P -> 'cV[R]_P.
Hypothesis Horc : correct_autodiff hvp_oracle.
Hypothesis HC : smooth_model model jac C params.
Variables (loss : loss_arg K) (h : 'cV[R]_K -> 'cV[R]_K -> 'cV[R]_K -> 'cV[R]_K).
Variables (l : 'cV[R]_K -> 'cV[R]_K -> R) (g : 'cV[R]_K -> 'cV[R]_K -> 'cV[R]_K).
Variables (total : seq 'cV[R]_K -> seq 'cV[R]_K -> R).
Hypothesis Ht : forall ds : seq ('cV[R]_K * 'cV[R]_K), total (map fst ds) (map snd ds) = \sum_(d <- ds) l d.1 d.2.
Notation smooth_loss data := (forall d : X * 'cV[R]_K, List.In d data -> chain_rules (fun z => l z d.2) (fun z => g z d.2) (fun w z => h w z d.2)).
Notation hessian d nc nt := (create_hessian_mv model hvp_oracle params d (CLossCallable total) nc nt).

(** One sample's share. *)
Let share (v : 'cV[R]_P) (d : X * 'cV[R]_K) : 'cV[R]_P :=
  (jac d.1 params)^T *m h (jac d.1 params *m v) (model d.1 params) d.2 +
  \sum_k g (model d.1 params) d.2 k ord0 *: (C d.1 k *m v).

Lemma hessian_sum data nc nt f : smooth_loss data -> curv_scaling_factor nc nt (size data) = Ok f ->
  exists hess, hessian data nc nt = Ok hess /\ forall v, hess v = Ok (f *: (\sum_(d <- data) share v d)).
Proof.
move=> Hl Hf; rewrite /create_hessian_mv Hf /=; eexists; split; first reflexivity.
move=> v /=; congr (Ok (_ *: _)); apply: Horc; apply: (@is_hvp_ext _ (fun q => \sum_(d <- data) l (model d.1 q) d.2)).
  by move=> q; have := Ht [seq (model d.1 q, d.2) | d <- data]; rewrite -!map_comp big_map.
apply: is_hvp_In => d /Hl H /=.
apply: (sample_hvp v _ _ H) => [k|k u w]; have [G E] := HC d.1 k; [exact: G | exact: E].
Qed.

(** With the same sample counts, the Hessian operators of the parts of a data set add up to the
    Hessian operator of the data set. *)
Theorem C16_hessian_split (batches : seq (seq (X * 'cV[R]_K))) nc nt : (0 < nc)%N -> smooth_loss (flatten batches) ->
  exists whole parts, [/\ hessian (flatten batches) (Some nc) (Some nt) = Ok whole,
    mapM (fun b => hessian b (Some nc) (Some nt)) batches = Ok parts &
    forall v, exists ws w, [/\ mapM (fun hb => hb v) parts = Ok ws, whole v = Ok w & w = \sum_(w' <- ws) w'] ].
Proof.
move=> nc0 Hl.
have Hf n : curv_scaling_factor (Some nc) (Some nt) n = Ok (nt%:R / nc%:R : R).
  by rewrite /curv_scaling_factor; case: (nc) nc0.
have [whole [Ew Vw]] := hessian_sum Hl (Hf _); exists whole.
suff [parts Ep Vp] : exists2 parts, mapM (fun b => hessian b (Some nc) (Some nt)) batches = Ok parts &
    forall v, mapM (fun hb => hb v) parts = Ok [seq (nt%:R / nc%:R) *: (\sum_(d <- b) share v d) | b <- batches].
  exists parts; split=> // v; do 2!eexists; split; [exact: Vp | exact: Vw |].
  by rewrite big_map big_flatten scaler_sumr.
elim: batches Hl {Ew Vw whole} => [|b bs IH] Hl; first by exists [::].
have [|hb [Eb Vb]] := @hessian_sum b _ _ _ _ (Hf _).
  by move=> d Hd; apply: Hl; apply/List.in_or_app; left.
have [|ps Ep Vp] := IH; first by move=> d Hd; apply: Hl; apply/List.in_or_app; right.
by exists (hb :: ps); [rewrite /= Eb /= Ep | move=> v; rewrite /= Vb /= Vp].
Qed.

(** Mini-batches of [b] different samples, all equally likely, with [num_total_samples] the size of the
    data set: the average of the Hessian operators is that of the whole data set. *)
Theorem C16_hessian_minibatch n b (data : n.-tuple (X * 'cV[R]_K)) : (0 < b <= n)%N -> smooth_loss data ->
  exists whole (mvs : {set 'I_n} -> 'cV[R]_P -> 'cV[R]_P),
    [/\ hessian data None None = Ok whole,
        forall A : {set 'I_n}, #|A| = b -> exists2 hA, hessian (batch data A) None (Some n) = Ok hA & forall v, hA v = Ok (mvs A v) &
        forall v, whole v = Ok ('C(n, b)%:R^-1 *: (\sum_(A : {set 'I_n} | #|A| == b) mvs A v))].
Proof.
move=> Hb Hl; have [b0 bn] := andP Hb; have n0 := leq_trans b0 bn.
have nn : n%:R != 0 :> R by rewrite pnatr_eq0 -lt0n.
have C0 : 'C(n, b)%:R != 0 :> R by rewrite pnatr_eq0 -lt0n bin_gt0.
have F1 : curv_scaling_factor None None (size data) = Ok (1 : R).
  rewrite size_tuple /curv_scaling_factor; case: (n) nn => [|n' nn]; [by rewrite eqxx | by rewrite divff].
have [whole [Ew Vw]] := hessian_sum Hl F1; exists whole.
exists (fun A v => (n%:R / b%:R) *: (\sum_(d <- batch data A) share v d)); split=> // [A HA|v].
  have F2 : curv_scaling_factor None (Some n) (size (batch data A)) = Ok (n%:R / b%:R : R).
    by rewrite /curv_scaling_factor size_map -cardE HA; case: (b) b0.
  have [|hA [EA VA]] := @hessian_sum (batch data A) _ _ _ _ F2; last by exists hA.
  move=> d Hin; apply: Hl; move: Hin; rewrite /batch; elim: (enum A) => //= i r IH [<-|/IH //].
  have := ltn_ord i; rewrite -[X in (_ < X)%N](size_tuple data) (tnth_nth (tnth data i)).
  by elim: (tval data) (val i) => //= y l' IH' [|m] Hm; [left | right; apply: IH'].
rewrite Vw scale1r -scaler_sumr (@subset_sums [lmodType R of 'cV[R]_P]) // scalerA mulVf // scale1r //.
Qed.
End Batches.
Print Assumptions C16_hessian_split.
Print Assumptions C16_hessian_minibatch.

(** Non-vacuity: the model [q^2], mean squared error, one of two samples. *)
Example C16_hessian_example :
  let data := [tuple (tt, const_mx 1 : 'cV[R]_1); (tt, const_mx 4%:R)] in
  let total := fun zs ys : seq 'cV[R]_1 => \sum_(d <- zip zs ys) \sum_i ((d.1 - d.2) i ord0) ^+ 2 in
  exists hvp_oracle whole (mvs : {set 'I_2} -> 'cV[R]_1 -> 'cV[R]_1),
    create_hessian_mv square_model hvp_oracle (const_mx 1) data (CLossCallable total) None None = Ok whole /\
    forall v, whole v = Ok ('C(2, 1)%:R^-1 *: (\sum_(A : {set 'I_2} | #|A| == 1%N) mvs A v)).
Proof.
move=> data total; have [orc Horc] := C18_nonvacuous 1.
have [h Eh] : exists h, create_loss_hessian_mv (@LossStr 1 "mse"%string) = Ok h by eexists.
have Ht (ds : seq ('cV[R]_1 * 'cV[R]_1)) : total (map fst ds) (map snd ds) = \sum_(d <- ds) \sum_i ((d.1 - d.2) i ord0) ^+ 2.
  by rewrite /total; elim: ds => [|[a b] r IH] /=; [rewrite !big_nil | rewrite !big_cons IH].
have [|whole [mvs [E1 _ E2]]] := @C16_hessian_minibatch unit 1 1 square_model square_jac (fun _ _ => 2%:R%:M) (const_mx 1) orc
  Horc (square_smooth _) h (fun z y => \sum_i ((z - y) i ord0) ^+ 2) (fun z y => 2%:R *: (z - y)) total Ht 2 1 data isT.
  by move=> d _; apply: C18_chain_rule_mse.
by exists orc, whole, mvs.
Qed.
