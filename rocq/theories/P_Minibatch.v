(** Property C16, continued: GGN operators of random mini-batches. *)
From Coq Require Import Reals String.
From mathcomp Require Import all_ssreflect all_algebra.
From Verif Require Import Base RealStruct Ggn GgnSpec RealSums GgnProofs P_Ggn.
Set Implicit Arguments.
Unset Strict Implicit.
Unset Printing Implicit Defensive.
Import GRing.Theory Num.Theory Order.TTheory.
Local Open Scope ring_scope.

(** Counting: subsets of a given size with a given element, and lists with a given entry. *)
Lemma draws_with n b (i : 'I_n.+1) :
  #|[set A : {set 'I_n.+1} | (#|A| == b.+1) && (i \in A)]| = 'C(n, b).
Proof.
have H := card_draws [finType of 'I_n.+1] b.+1; rewrite card_ord in H.
have S (A : {set 'I_n.+1}) : (A \subset [set~ i]) = (i \notin A) by rewrite subsets_disjoint setCK disjoint_sym disjoints1.
have E : [set A : {set 'I_n.+1} | #|A| == b.+1] =
    [set A : {set 'I_n.+1} | (#|A| == b.+1) && (i \in A)] :|: [set A : {set 'I_n.+1} | A \subset [set~ i] & #|A| == b.+1].
  by apply/setP => A; rewrite !inE S; case: (#|A| == b.+1); case: (i \in A).
move: H; rewrite E cardsU cards_draws cardsC1 card_ord /=.
rewrite (_ : _ :&: _ = set0) ?cards0 ?subn0 ?binS ?[('C(n, b.+1) + _)%N]addnC; first by move/addIn.
by apply/setP => A; rewrite !inE S; case: (i \in A); rewrite ?andbF.
Qed.
Lemma lists_with n b (j : 'I_b.+1) (i : 'I_n) :
  #|[set f : {ffun 'I_b.+1 -> 'I_n} | f j == i]| = (n ^ b)%N.
Proof.
have -> : #|[set f : {ffun 'I_b.+1 -> 'I_n} | f j == i]| = #|family (fun k => if k == j then pred1 i else predT)|.
  apply: eq_card => f; rewrite inE; apply/eqP/familyP => [H k|/(_ j)]; last by rewrite eqxx => /eqP.
  by case: eqP => [->|_]; rewrite inE ?H.
rewrite card_family foldrE big_image /= (bigD1 j) //= eqxx card1 mul1n.
rewrite (eq_bigr (fun=> n)) => [|k /negbTE ->]; last by rewrite cardT size_enum_ord.
by rewrite prod_nat_const cardC1 card_ord.
Qed.

(** The samples with the indices in a set, in order. *)
Definition batch (T : Type) n (data : n.-tuple T) (A : {set 'I_n}) : seq T := [seq tnth data i | i <- enum A].
Lemma subset_sums (V : lmodType R) (T : Type) n b (data : n.-tuple T) (F : T -> V) : (0 < b <= n)%N ->
  (n%:R / b%:R) *: (\sum_(A : {set 'I_n} | #|A| == b) \sum_(d <- batch data A) F d) =
  'C(n, b)%:R *: \sum_(d <- data) F d.
Proof.
case: n b data => [|n'] [|b'] //= data Hb.
under eq_bigr => A HA do rewrite /batch big_map big_enum.
rewrite big_tuple (exchange_big_dep predT) //= !scaler_sumr; apply: eq_bigr => i _.
rewrite sumr_const (_ : #|_| = 'C(n', b')); last first.
  by rewrite -(draws_with b' i); apply: eq_card => A; rewrite !inE.
rewrite -scaler_nat scalerA; congr (_ *: _).
have b0 : b'.+1%:R != 0 :> R by rewrite pnatr_eq0.
have := mul_bin_diag n'.+1 b'; move/(congr1 (fun k : nat => k%:R : R)); rewrite [_.-1]/= !natrM => Em.
by rewrite mulrAC Em mulrC mulKf.
Qed.

Section Minibatch.
Variables (X : Type) (P K : nat) (model : X -> 'cV[R]_P -> 'cV[R]_K) (jac : X -> 'cV[R]_P -> 'M[R]_(K, P)).
Variables (params : 'cV[R]_P) (loss : loss_arg K) (loss_hess : option ('cV[R]_K -> 'cV[R]_K -> 'cV[R]_K -> 'cV[R]_K)).
Variables (n b : nat) (data : n.-tuple (X * 'cV[R]_K)).
(** The samples with listed indices. *)
Definition listed (f : {ffun 'I_b -> 'I_n}) := [seq tnth data (f j) | j <- enum 'I_b].
Notation ggn d := (create_ggn_mv model jac params d loss None (Some n) loss_hess).

Lemma ggn_created d whole : ggn d = Ok whole ->
  exists hh, (forall d', (0 < size d')%N -> ggn d' = Ok (fun v => ggn_mv model jac params hh (n%:R / (size d')%:R) v d')) /\
    whole = (fun v => ggn_mv model jac params hh (n%:R / (size d)%:R) v d).
Proof.
rewrite /create_ggn_mv /create_ggn_mv_without_data /curv_scaling_factor.
move: (@create_loss_hessian_mv K) => L.
case: loss => [|s|H]; case: loss_hess => [hh|] //=; case: d => //= d0 d.
- by case=> <-; exists hh; split=> // -[|d1 d'].
- by case: (L _) => //= hh [<-]; exists hh; split=> // -[|d1 d'].
- by case: (L _) => //= hh [<-]; exists hh; split=> // -[|d1 d'].
Qed.

Lemma subset_ops hh v : (0 < b <= n)%N ->
  \sum_(A : {set 'I_n} | #|A| == b) ggn_mv model jac params hh (n%:R / b%:R) v (batch data A) =
  'C(n, b)%:R *: ggn_mv model jac params hh 1 v data.
Proof.
move=> Hb; rewrite ggn_mvE scale1r -subset_sums // scaler_sumr.
by apply: eq_bigr => A _; rewrite ggn_mvE.
Qed.

(** A mini-batch of [b] different samples, all equally likely, with [num_total_samples] the size of
    the data set: the average of the operators is that of the whole data set. *)
Theorem C16_minibatch_without_replacement whole : (0 < b <= n)%N -> ggn data = Ok whole ->
  exists mvs : {set 'I_n} -> 'cV[R]_P -> 'cV[R]_P,
    (forall A : {set 'I_n}, #|A| = b -> ggn (batch data A) = Ok (mvs A)) /\
    forall v, 'C(n, b)%:R^-1 *: (\sum_(A : {set 'I_n} | #|A| == b) mvs A v) = whole v.
Proof.
move=> Hb /ggn_created [hh [H ->]].
exists (fun (A : {set 'I_n}) v => ggn_mv model jac params hh (n%:R / #|A|%:R) v (batch data A)); split=> [A HA|v].
  by rewrite H size_map -cardE ?HA //; case/andP: Hb.
have C0 : 'C(n, b)%:R != 0 :> R by rewrite pnatr_eq0 -lt0n bin_gt0; case/andP: Hb.
have n0 : n%:R != 0 :> R by rewrite pnatr_eq0 -lt0n; case/andP: Hb; exact: leq_trans.
rewrite size_tuple divff // (eq_bigr (fun A => ggn_mv model jac params hh (n%:R / b%:R) v (batch data A))); last first.
  by move=> A /eqP ->.
by rewrite subset_ops // scalerA mulVf // scale1r.
Qed.

(** A mini-batch of [b] samples drawn independently (repetitions allowed). *)
Theorem C16_minibatch_with_replacement whole : (0 < b)%N -> ggn data = Ok whole ->
  exists mvs : {ffun 'I_b -> 'I_n} -> 'cV[R]_P -> 'cV[R]_P,
    (forall f, ggn (listed f) = Ok (mvs f)) /\
    forall v, (n ^ b)%:R^-1 *: (\sum_f mvs f v) = whole v.
Proof.
move=> Hb E; have n0 : (0 < n)%N.
  rewrite lt0n; apply/eqP => n0; have D0 : tval data = [::] by apply: size0nil; rewrite size_tuple.
  by move: E; rewrite D0 /create_ggn_mv /curv_scaling_factor /=; case: loss => [|s|H]; case: loss_hess.
move: E => /ggn_created [hh [H ->]].
exists (fun f v => ggn_mv model jac params hh (n%:R / b%:R) v (listed f)); split=> [f|v].
  by rewrite H size_map size_enum_ord.
rewrite /listed; case: n b data n0 Hb {H} => [|n'] [|b'] //= data' _ _.
rewrite size_tuple divff ?pnatr_eq0 // ggn_mvE scale1r big_tuple.
under eq_bigr => f _ do rewrite ggn_mvE big_map big_enum /=.
rewrite -scaler_sumr scalerA exchange_big /=.
under eq_bigr => j _.
  rewrite (partition_big (fun f : {ffun 'I_b'.+1 -> 'I_n'.+1} => f j) predT) //=.
  under eq_bigr => i _.
    rewrite (eq_bigr (fun=> (jac (tnth data' i).1 params)^T *m hh (jac (tnth data' i).1 params *m v)
      (model (tnth data' i).1 params) (tnth data' i).2)) => [|f /eqP -> //].
    rewrite sumr_const (_ : #|_| = (n'.+1 ^ b')%N); last first.
      by rewrite -(lists_with j i); apply: eq_card => f; rewrite !inE.
    over.
  over.
rewrite sumr_const card_ord -sumrMnl scaler_sumr; apply: eq_bigr => i _.
rewrite -mulrnA -scaler_nat scalerA (_ : _ * _ = 1) ?scale1r // expnS !natrM.
have F1 : n'.+1%:R != 0 :> R by rewrite pnatr_eq0.
have F2 : b'.+1%:R != 0 :> R by rewrite pnatr_eq0.
have F3 : (n'.+1 ^ b')%:R != 0 :> R by rewrite pnatr_eq0 expn_eq0.
move: F1 F2 F3; move: (n'.+1%:R : R) (b'.+1%:R : R) ((n'.+1 ^ b')%:R : R) => x y z F1 F2 F3. 
by rewrite -mulrA [x / y * _]mulrACA mulVf // mulr1 mulVf // mulf_neq0.
Qed.

(** [laplace], given the batch size and the size of the data set, scales by the inverse factor: its
    average is too small by the square of the sampled fraction. *)
Theorem C16_laplace_minibatch whole : (0 < b <= n)%N -> laplace_ggn_mv model jac params data loss n n = Ok whole ->
  exists mvs : {set 'I_n} -> 'cV[R]_P -> 'cV[R]_P,
    (forall A : {set 'I_n}, #|A| = b -> laplace_ggn_mv model jac params (batch data A) loss b n = Ok (mvs A)) /\
    forall v, 'C(n, b)%:R^-1 *: (\sum_(A : {set 'I_n} | #|A| == b) mvs A v) = (b%:R / n%:R) ^+ 2 *: whole v.
Proof.
move=> Hb; have n0 : (0 < n)%N by case/andP: Hb => [b0]; exact: leq_trans.
have nn : n%:R != 0 :> R by rewrite pnatr_eq0 -lt0n.
have bn : b%:R != 0 :> R by rewrite pnatr_eq0 -lt0n; case/andP: Hb.
rewrite /laplace_ggn_mv /laplace_factor /GGN /create_ggn_mv_without_data.
have -> f : (match n with 0%N => Raise ZeroDivisionError | _.+1 => Ok f end) = Ok f :> res R by case: (n) n0.
have -> f : (match n with 0%N => Raise ZeroDivisionError | _.+1 => Ok f end) = Ok f :> res R by case: (n) n0.
case EL: (create_loss_hessian_mv loss) => [hh|//] /= [<-].
exists (fun (A : {set 'I_n}) v => ggn_mv model jac params hh (b%:R / n%:R) v (batch data A)); split=> [//|v].
rewrite divff // (eq_bigr (fun A => (b%:R / n%:R) ^+ 2 *: ggn_mv model jac params hh (n%:R / b%:R) v (batch data A))).
  have C0 : 'C(n, b)%:R != 0 :> R by rewrite pnatr_eq0 -lt0n bin_gt0; case/andP: Hb.
  by rewrite -scaler_sumr subset_ops // scalerA scalerA mulrAC mulVf // mul1r.
move=> A _; rewrite !ggn_mvE scalerA; congr (_ *: _).
by rewrite expr2 -mulrA [b%:R / n%:R * (n%:R / b%:R)]mulrA divfK // divff // mulr1.
Qed.
End Minibatch.
Print Assumptions C16_minibatch_without_replacement.
Print Assumptions C16_minibatch_with_replacement.
Print Assumptions C16_laplace_minibatch.

(** Non-vacuity: two of three samples of a model with one parameter; the average over the three pairs. *)
Example C16_minibatch_example :
  let data := [tuple (tt, const_mx 1 : 'cV[R]_1); (tt, 0); (tt, 0)] in
  exists whole, create_ggn_mv (fun (_ : unit) (p : 'cV[R]_1) => p) (fun _ _ => 1%:M) 0 data (LossStr "mse"%string)
    None (Some 3%N) None = Ok whole /\ (0 < 2 <= 3)%N.
Proof. by eexists; split. Qed.
