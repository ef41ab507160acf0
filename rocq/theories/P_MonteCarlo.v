(** C60: samples and ensembles as random variables: first and second moments over the random key. *)
From Coq Require Import Reals String.
From mathcomp Require Import all_ssreflect all_algebra.
From Verif Require Import Base PyTree TreeSpec PyTreeProofs BasisProofs StackProofs Mv MvProofs TreeOpsProofs.
From Verif Require Import EvalUtils Pushforward PushforwardSpec PushforwardProofs P_Pushforward.
From Verif Require Import RealStruct GgnSpec Ggn Posterior PosteriorSpec PosteriorTree PipelineSpec TreeGgn Pipeline PipelineProofs GgnProofs P_Ggn P_Posterior P_Pipeline.
Set Implicit Arguments.
Unset Strict Implicit.
Unset Printing Implicit Defensive.
Import Order.TTheory GRing.Theory Num.Theory.
Local Open Scope ring_scope.

(** ** Specification *)

Section Spec.
Variables (R : rcfType) (Key : Type) (E : (Key -> R) -> R).

(** An expectation over the keys: linear, and 1 on the constant 1. *)
Definition expectation : Prop :=
  [/\ forall f g, (forall k, f k = g k) -> E f = E g,
      forall c f g, E (fun k => c * f k + g k) = c * E f + E g & E (fun _ => 1) = 1].

(** The standard normal numbers that sample [i] of [N] is made of, as functions of the key. *)
Definition draw split normal (key0 : Key) (N : nat) (t : tree (arr R)) (i p : nat) (key : Key) : R :=
  if randn_like split normal (nth key0 (split key N) i) t is Ok u then nth 0 (entries u) p else 0.

(** They have mean 0, variance 1, and are uncorrelated, within a sample and between samples. *)
Definition standard_draws split normal key0 (N : nat) (t : tree (arr R)) : Prop :=
  let z := draw split normal key0 N t in
  (forall i p, (i < N)%N -> (p < get_size t)%N -> E (z i p) = 0) /\
  (forall i i' p q, (i < N)%N -> (i' < N)%N -> (p < get_size t)%N -> (q < get_size t)%N ->
     E (fun k => z i p k * z i' q k) = ((i == i') && (p == q))%:R).
End Spec.

Lemma mul_dev (R : comRingType) (u a v b : R) : (u - a) * (v - b) = u * v - a * v - b * u + a * b.
Proof. by rewrite mulrBl !mulrBr opprB [u * b]mulrC [a * b - a * v]addrC addrA; congr (_ + _); rewrite addrAC. Qed.

(** ** Moments of affine functions of the draws *)
Section Moments.
Variables (R : rcfType) (Key : Type) (E : (Key -> R) -> R).
Hypothesis HE : expectation E.

Lemma Eext f g : (forall k, f k = g k) -> E f = E g.
Proof. by case: HE => H _ _; apply: H. Qed.
Lemma Econst c : E (fun _ => c) = c.
Proof.
have [H1 H2 H3] := HE; have E0 : E (fun _ => 0) = 0.
  transitivity (-1 * E (fun _ => 0) + E (fun _ => 0)); last by rewrite mulN1r addNr.
  by rewrite -H2; apply: H1 => k; rewrite mulr0 add0r.
transitivity (c * E (fun _ => 1) + E (fun _ => 0)); last by rewrite H3 E0 mulr1 addr0.
by rewrite -H2; apply: H1 => k; rewrite mulr1 addr0.
Qed.
Lemma Eadd f g : E (fun k => f k + g k) = E f + E g.
Proof. by have [H1 H2 _] := HE; rewrite -[E f]mul1r -H2; apply: H1 => k; rewrite mul1r. Qed.
Lemma Escale c f : E (fun k => c * f k) = c * E f.
Proof.
have [H1 H2 _] := HE; rewrite -[RHS]addr0 -[X in _ = _ + X](Econst 0) -H2; apply: H1 => k; by rewrite addr0.
Qed.
Lemma Esum (I : eqType) (r : seq I) (F : I -> Key -> R) :
  E (fun k => \sum_(i <- r) F i k) = \sum_(i <- r) E (F i).
Proof.
elim: r => [|i r IH].
  by rewrite big_nil -[RHS](Econst 0); apply: Eext => k; rewrite big_nil.
by rewrite big_cons -IH -Eadd; apply: Eext => k; rewrite big_cons.
Qed.

(** [N] samples, [n] draws each. *)
Variables (N n : nat) (z : nat -> nat -> Key -> R).
Hypothesis Z1 : forall i p, (i < N)%N -> (p < n)%N -> E (z i p) = 0.
Hypothesis Z2 : forall i i' p q, (i < N)%N -> (i' < N)%N -> (p < n)%N -> (q < n)%N ->
  E (fun k => z i p k * z i' q k) = ((i == i') && (p == q))%:R.

Definition lin (w : nat -> R) (i : nat) (k : Key) : R := \sum_(0 <= q < n) w q * z i q k.
Lemma lin_mean w i : (i < N)%N -> E (lin w i) = 0.
Proof.
move=> Hi; rewrite /lin Esum big_nat big1 // => q /andP [_ Hq].
by rewrite Escale Z1 // mulr0.
Qed.
Lemma lin_cov v w i i' : (i < N)%N -> (i' < N)%N ->
  E (fun k => lin v i k * lin w i' k) = if i == i' then \sum_(0 <= q < n) v q * w q else 0.
Proof.
move=> Hi Hi'.
transitivity (\sum_(0 <= p < n) \sum_(0 <= q < n) v p * w q * ((i == i') && (p == q))%:R).
  transitivity (E (fun k => \sum_(0 <= p < n) \sum_(0 <= q < n) v p * w q * (z i p k * z i' q k))).
    apply: Eext => k; rewrite /lin big_distrl /=; apply: eq_bigr => p _; rewrite big_distrr /=; apply: eq_bigr => q _.
    by rewrite mulrACA.
  rewrite Esum; apply: eq_big_nat => p /andP [_ Hp]; rewrite Esum; apply: eq_big_nat => q /andP [_ Hq].
  by rewrite Escale Z2.
case: eqP => /= _; last by rewrite big1 // => p _; rewrite big1 // => q _; rewrite mulr0.
apply: eq_big_nat => p /andP [_ Hp]; rewrite (bigD1_seq p) ?mem_index_iota ?iota_uniq //= eqxx mulr1 big1 ?addr0 //.
by move=> q Hq; rewrite eq_sym (negPf Hq) mulr0.
Qed.

(** Averages and co-deviations of [N] samples [m j + w_j . z_i]. *)
Section Ensemble.
Variables (m : nat -> R) (W : nat -> nat -> R).
Let C j l := \sum_(0 <= q < n) W j q * W l q.
Let P (k : Key) i j := m j + lin (W j) i k.
Hypothesis N0 : (0 < N)%N.

Lemma N0R : N%:R != 0 :> R.
Proof. by rewrite pnatr_eq0 -lt0n. Qed.
Lemma avgE k j : avg N (P k) j = m j + (\sum_(0 <= i < N) lin (W j) i k) / N%:R.
Proof.
rewrite /avg /P big_split /= mulrDl; congr (_ + _).
by rewrite sumr_const_nat subn0 -[m j *+ N]mulr_natr mulfK // N0R.
Qed.
Lemma avg_mean j : E (fun k => avg N (P k) j) = m j.
Proof.
rewrite (Eext (avgE ^~ j)) Eadd Econst (Eext (fun k => mulrC _ _)) Escale Esum.
by rewrite big_nat big1 ?mulr0 ?addr0 // => i /andP [_ Hi]; rewrite lin_mean.
Qed.
Lemma avg_cov j l : E (fun k => (avg N (P k) j - m j) * (avg N (P k) l - m l)) = C j l / N%:R.
Proof.
transitivity (E (fun k => (N%:R^-1 * N%:R^-1) * \sum_(0 <= i < N) \sum_(0 <= i' < N) lin (W j) i k * lin (W l) i' k)).
  apply: Eext => k; rewrite !avgE ![m _ + _]addrC !addrK.
  rewrite mulrACA [RHS]mulrC; congr (_ * _); rewrite big_distrl /=; apply: eq_bigr => i _; by rewrite big_distrr.
rewrite Escale Esum -mulrA mulrC; congr (_ * _).
rewrite (eq_big_nat _ _ (F2 := fun _ => C j l)).
  by rewrite sumr_const_nat subn0 -[C j l *+ N]mulr_natl mulKf // N0R.
move=> i /andP [_ Hi]; rewrite Esum (eq_big_nat _ _ (F2 := fun i' => if i == i' then C j l else 0)).
  rewrite (bigD1_seq i) ?mem_index_iota ?iota_uniq //= eqxx big1 ?addr0 //.
  by move=> q Hq; rewrite eq_sym (negPf Hq).
by move=> i' /andP [_ Hi']; rewrite lin_cov.
Qed.
Lemma codevE k j l : codev N (P k) j l =
  \sum_(0 <= i < N) lin (W j) i k * lin (W l) i k - N%:R * ((avg N (P k) j - m j) * (avg N (P k) l - m l)).
Proof.
set a := avg N (P k) j - m j; set b := avg N (P k) l - m l.
have Ea : \sum_(0 <= i < N) lin (W j) i k = N%:R * a by rewrite /a avgE [m _ + _]addrC addrK mulrC divfK // N0R.
have Eb : \sum_(0 <= i < N) lin (W l) i k = N%:R * b by rewrite /b avgE [m _ + _]addrC addrK mulrC divfK // N0R.
transitivity (\sum_(0 <= i < N) (lin (W j) i k * lin (W l) i k - a * lin (W l) i k - b * lin (W j) i k + a * b)).
  apply: eq_bigr => i _; rewrite /P.
  have -> : m j + lin (W j) i k - avg N (P k) j = lin (W j) i k - a by rewrite /a opprB [RHS]addrCA addrA.
  have -> : m l + lin (W l) i k - avg N (P k) l = lin (W l) i k - b by rewrite /b opprB [RHS]addrCA addrA.
  exact: mul_dev.
rewrite !big_split /= sumr_const_nat subn0 !sumrN -!big_distrr /= Ea Eb.
rewrite -[a * b *+ N]mulr_natl mulrCA [b * (N%:R * a)]mulrCA [b * a]mulrC -addrA addNr addr0; by [].
Qed.
Lemma codev_mean j l : E (fun k => codev N (P k) j l) = (N.-1)%:R * C j l.
Proof.
rewrite (Eext (fun k => codevE k j l)).
rewrite (Eext (g := fun k => - N%:R * ((avg N (P k) j - m j) * (avg N (P k) l - m l)) +
   \sum_(0 <= i < N) lin (W j) i k * lin (W l) i k)); last by move=> k; rewrite mulNr addrC.
rewrite Eadd Escale avg_cov Esum (eq_big_nat _ _ (F2 := fun _ => C j l)); last first.
  by move=> i /andP [_ Hi]; rewrite lin_cov // eqxx.
rewrite sumr_const_nat subn0 -[C j l *+ N]mulr_natl mulrCA mulNr mulfV ?N0R // mulrN1 addrC.
by rewrite -{1}(prednK N0) -addn1 natrD mulrDl mul1r addrK.
Qed.
End Ensemble.
End Moments.

(** ** C60 *)

(** The linearised samples, over the random key: at every input their mean is the prediction of the
    trained model; the covariance of sample [i] at [x1] with sample [i'] at [x2] is the posterior
    kernel [J(x1) Sigma J(x2)^T] if [i = i'] (the same draw of weights at both inputs) and 0 if not
    (uncorrelated samples). *)
Theorem C60_linear_samples :
  forall (R : rcfType) (X Key : Type) split normal key0 (model_fn : X -> tree (arr R) -> res (arr R))
    ad_jvp ad_vjp (mean : tree (arr R)) ps kw (ops : seq lin_stat) (E : (Key -> R) -> R)
    (out : X -> arr R) (J : X -> nat -> nat -> R) (Sg S : nat -> nat -> R) (N : nat)
    (samples : X -> Key -> arr R) (x1 x2 : X),
  (forall k n, size (split k n) = n) -> (forall k s, size (normal k s) = prodn s) ->
  kw_num_samples kw = Some N -> (0 < N)%N ->
  acts_as Sg mean mean (ps_cov_mv ps) -> acts_as S mean mean (ps_scale_mv ps) -> is_sqrt_of (get_size mean) S Sg ->
  expectation E -> standard_draws E split normal key0 N mean ->
  (forall x, x = x1 \/ x = x2 ->
     [/\ wf_arr (out x), model_fn x mean = Ok (out x), (0 < prodn (ashape (out x)))%N,
         is_jacobian (J x) mean (out x) (ad_jvp x) (ad_vjp x) &
         (size (ashape (out x)) <= 1)%N \/ no_var_after_cov ops]) ->
  (* [samples x key] are the samples that the pushforward with this key reports at [x] *)
  (forall x key, x = x1 \/ x = x2 -> exists predict r,
     [/\ set_lin_pushforward split normal key0 model_fn ad_jvp ad_vjp mean ps (Some key)
           (@lin_setup R X :: [seq stat_fn o | o <- ops]) kw = Ok predict,
         predict x = Ok r & r_samples r = Some (samples x key)]) ->
  let sample x i j key := nth 0 (adata (samples x key)) (i * prodn (ashape (out x)) + j) in
  forall i i' j l, (i < N)%N -> (i' < N)%N -> (j < prodn (ashape (out x1)))%N -> (l < prodn (ashape (out x2)))%N ->
  E (sample x1 i j) = nth 0 (adata (out x1)) j /\
  E (fun key => (sample x1 i j key - nth 0 (adata (out x1)) j) * (sample x2 i' l key - nth 0 (adata (out x2)) l)) =
    (if i == i' then cov_entry (get_size mean) (J x1) Sg (J x2) j l else 0).
Proof.
move=> R X Key split normal key0 model_fn ad_jvp ad_vjp mean ps kw ops E out J Sg S N samples x1 x2
  Hsp Hno HN N0 HS Hsc Hsq HE [Z1 Z2] Hx Hsm sample i i' j l Hi Hi' Hj Hl.
pose n := get_size mean; pose z := draw split normal key0 N mean.
pose W x j q := \sum_(0 <= p < n) J x j p * S p q.
have Es x : x = x1 \/ x = x2 -> forall i j key, (i < N)%N -> (j < prodn (ashape (out x)))%N ->
    sample x i j key = nth 0 (adata (out x)) j + lin n z (W x j) i key.
  move=> Ex i0 j0 key Hi0 Hj0; have [Wo M P0 HJ Ho] := Hx x Ex.
  have [predict [r [E1 E2 E3]]] := Hsm x key Ex.
  have [predict' [r' [eps [F1 F2 _ F4 F5]]]] := @C40_lin_samples R X Key split normal key0 model_fn ad_jvp ad_vjp
    mean ps (Some key) kw ops x (out x) (J x) Sg S N Hsp Hno HN N0 Wo M P0 HJ HS Hsc Ho.
  move: F1; rewrite E1 => -[E4]; move: F2; rewrite -E4 E2 => -[E5]; rewrite -E5 E3 in F5.
  case: ifP F5 => // _ [a [<-] [_ _ H]]; rewrite /sample H //; congr (_ + _).
  rewrite /lin (eq_bigr (fun p => \sum_(0 <= q < n) J x j0 p * S p q * nth 0 (entries (eps i0)) q)); last first.
    by move=> p _; rewrite big_distrr /=; apply: eq_bigr => q _; rewrite mulrA.
  rewrite exchange_big /=; apply: eq_bigr => q _; rewrite /z /draw /W F4 //.
  by rewrite big_distrl.
have L1 : x1 = x1 \/ x1 = x2 by left. have L2 : x2 = x1 \/ x2 = x2 by right.
split.
  rewrite (Eext HE (fun key => Es x1 L1 i j key Hi Hj)) Eadd // Econst // (lin_mean HE Z1) // addr0; by [].
rewrite (Eext HE (g := fun key => lin n z (W x1 j) i key * lin n z (W x2 l) i' key)); last first.
  by move=> key; rewrite Es // Es // ![nth 0 _ _ + _]addrC !addrK.
rewrite (lin_cov HE Z2) //; case: eqP => // _.
by have := @cov_entry_sqrt R n (fun t => if t == 0%N then J x1 j else J x2 l) Sg S 0 1 Hsq; rewrite /cov_entry => ->.
Qed.
Print Assumptions C60_linear_samples.

(** The nonlinear ensemble, for a model affine in its parameters: the average of the members is an
    unbiased estimate of the prediction, with covariance [C / N] around it ([C = A Sigma A^T], what the
    linearised pushforward reports); the reported covariance is an unbiased estimate of [C]; the
    reported variance is one only when it is requested after the covariance, otherwise it is too small
    by the factor [(N - 1) / N]. *)
Theorem C60_affine_ensemble :
  forall (R : rcfType) (X Key : Type) split normal (key0 : Key) (model_fn : X -> tree (arr R) -> res (arr R))
    ad_jvp ad_vjp (mean : tree (arr R)) ps kw num_samples (ops : seq ens_stat) (E : (Key -> R) -> R)
    (x : X) (f : tree (arr R) -> arr R) (s : seq nat) (A : nat -> nat -> R) (b : nat -> R) (Sg S : nat -> nat -> R)
    (r : Key -> results R),
  let N := odflt 100%N num_samples in
  let n := get_size mean in
  (forall k n, size (split k n) = n) -> (forall k s, size (normal k s) = prodn s) ->
  (0 < N)%N -> (ECov \in ops -> (1 < N)%N) -> wf_tree mean ->
  (forall w, wf_tree w -> same_layout mean w ->
     [/\ model_fn x w = Ok (f w), ashape (f w) = s, wf_arr (f w) &
         forall j, (j < prodn s)%N -> nth 0 (adata (f w)) j = b j + \sum_(0 <= p < n) A j p * nth 0 (entries w) p]) ->
  acts_as S mean mean (ps_scale_mv ps) -> is_sqrt_of n S Sg ->
  expectation E -> standard_draws E split normal key0 N mean ->
  (forall key, exists2 predict, set_nonlin_pushforward split normal key0 model_fn ad_jvp ad_vjp mean ps key num_samples
       (nonlin_setup model_fn :: [seq @ens_fn R X o | o <- ops]) kw = Ok predict & predict x = Ok (r key)) ->
  let C := cov_entry n A Sg A in
  let m j := nth 0 (adata (f mean)) j in
  [/\ forall mu, (forall key, r_pred_mean (r key) = Some (mu key)) ->
        forall j l, (j < prodn s)%N -> (l < prodn s)%N ->
        E (fun key => nth 0 (adata (mu key)) j) = m j /\
        E (fun key => (nth 0 (adata (mu key)) j - m j) * (nth 0 (adata (mu key)) l - m l)) = C j l / N%:R,
      forall c, (forall key, r_pred_cov (r key) = Some (c key)) ->
        forall j l, (j < prodn s)%N -> (l < prodn s)%N ->
        E (fun key => nth 0 (adata (c key)) (j * prodn s + l)) = C j l &
      forall v, (forall key, r_pred_var (r key) = Some (v key)) ->
        forall j, (j < prodn s)%N ->
        (var_divisor N ops = Some N.-1 -> (1 < N)%N -> E (fun key => nth 0 (adata (v key)) j) = C j j) /\
        (var_divisor N ops = Some N -> E (fun key => nth 0 (adata (v key)) j) = (N.-1)%:R / N%:R * C j j)].
Proof.
move=> R X Key split normal key0 model_fn ad_jvp ad_vjp mean ps kw num_samples ops E x f s A b Sg S r N n
  Hsp Hno N0 N1 Wm HM Hsc Hsq HE [Z1 Z2] Hr C m.
pose z := draw split normal key0 N mean.
pose W j q := \sum_(0 <= p < n) A j p * S p q.
pose P key i j := m j + lin n z (W j) i key.
have EC j l : \sum_(0 <= q < n) W j q * W l q = C j l by rewrite /C (cov_entry_sqrt _ _ _ Hsq).
have Hrep (key : Key) : exists pred, ens_report N s pred ops (r key) /\
    forall i j, (i < N)%N -> (j < prodn s)%N -> nth 0 (adata (pred i)) j = P key i j.
  have HM' w : wf_tree w -> same_layout mean w -> [/\ model_fn x w = Ok (f w), ashape (f w) = s & wf_arr (f w)].
    by move=> W1 S1; have [] := HM w W1 S1.
  have [predict E1 E2] := Hr key.
  have [predict' [r' [pred [F1 F2 _ F4 F5]]]] := @C41_ensemble_statistics R X Key split normal key0 key model_fn ad_jvp ad_vjp
    mean ps kw num_samples ops x f s S Hsp Hno N0 N1 Wm HM' Hsc.
  move: F1; rewrite E1 => -[E3]; move: F2; rewrite -E3 E2 => -[E4]; rewrite -E4 in F5.
  exists pred; split=> // i j Hi Hj; have [eps [w [G1 G2 G3 G4 ->]]] := F4 i Hi.
  have [_ _ _ ->] := HM w G3 G2 => //; rewrite /P /m; have [_ _ _ ->] := HM mean Wm (same_layout_refl _) => //.
  rewrite -addrA; congr (_ + _).
  transitivity (\sum_(0 <= p < n) (A j p * nth 0 (entries mean) p + A j p * \sum_(0 <= q < n) S p q * nth 0 (entries eps) q)).
    by apply: eq_big_nat => p /andP [_ Hp]; rewrite G4 // mulrDr.
  rewrite big_split /=; congr (_ + _); rewrite /lin.
  transitivity (\sum_(0 <= p < n) \sum_(0 <= q < n) A j p * S p q * nth 0 (entries eps) q).
    by apply: eq_bigr => p _; rewrite big_distrr /=; apply: eq_bigr => q _; rewrite mulrA.
  rewrite exchange_big /=; apply: eq_bigr => q _; by rewrite /z /draw /W G1 // big_distrl.
have Eavg (key : Key) pred j : (forall i j, (i < N)%N -> (j < prodn s)%N -> nth 0 (adata (pred i)) j = P key i j) -> (j < prodn s)%N ->
    avg N (fun i j => nth 0 (adata (pred i : arr R)) j) j = avg N (P key) j.
  by move=> Hp Hj; rewrite /avg; congr (_ / _); apply: eq_big_nat => i /andP [_ Hi]; apply: Hp.
have Ecod (key : Key) pred j l : (forall i j, (i < N)%N -> (j < prodn s)%N -> nth 0 (adata (pred i)) j = P key i j) ->
    (j < prodn s)%N -> (l < prodn s)%N ->
    codev N (fun i j => nth 0 (adata (pred i : arr R)) j) j l = codev N (P key) j l.
  by move=> Hp Hj Hl; rewrite /codev; apply: eq_big_nat => i /andP [_ Hi]; rewrite !(Eavg key) // !Hp.
split.
- move=> mu Hmu j l Hj Hl.
  have Em (key : Key) j' : (j' < prodn s)%N -> nth 0 (adata (mu key)) j' = avg N (P key) j'.
    move=> Hj'; have [pred [[H1 _ _ _ _] H2]] := Hrep key; move: H1; rewrite Hmu; case: ifP => // _ [->] /=.
    by rewrite (nth_map 0%N) ?size_iota // nth_iota // (Eavg key).
  split.
    by rewrite (Eext HE (fun key : Key => Em key j Hj)) (avg_mean HE Z1).
  by rewrite (Eext HE (g := fun key => (avg N (P key) j - m j) * (avg N (P key) l - m l))) => [|key]; rewrite ?Em // (avg_cov HE Z2) // EC.
- move=> c Hc j l Hj Hl.
  have Hin (key : Key) : ECov \in ops.
    have [pred [[_ H1 _ _ _] _]] := Hrep key; move: H1; rewrite Hc; by case: ifP.
  have Em (key : Key) : nth 0 (adata (c key)) (j * prodn s + l) = (N.-1)%:R^-1 * codev N (P key) j l.
    have [pred [[_ H1 _ _ _] H2]] := Hrep key; move: H1; rewrite Hc (Hin key) => -[->] /=.
    have Hjl : (j * prodn s + l < prodn s * prodn s)%N.
      by apply: (@leq_trans (j * prodn s + prodn s)); rewrite ?ltn_add2l // addnC -mulSn leq_mul2r Hj orbT.
    rewrite (nth_map 0%N) ?size_iota // nth_iota // add0n.
    by rewrite divnMDl ?(leq_ltn_trans _ Hl) // divn_small // addn0 modnMDl modn_small // (Ecod key) // mulrC.
  rewrite (Eext HE Em) (Escale HE) (codev_mean HE Z2) // mulKf ?EC // pnatr_eq0 -lt0n -subn1 subn_gt0.
  exact: N1 (Hin key0).
- move=> v Hv j Hj.
  have Em (key : Key) d : var_divisor N ops = Some d -> nth 0 (adata (v key)) j = d%:R^-1 * codev N (P key) j j.
    move=> Hd; have [pred [[_ _ H1 _ _] H2]] := Hrep key; move: H1; rewrite Hv Hd => -[->] /=.
    by rewrite (nth_map 0%N) ?size_iota // nth_iota // (Ecod key) // mulrC.
  split=> Hd => [N2|]; rewrite (Eext HE (fun key : Key => Em key _ Hd)) (Escale HE) (codev_mean HE Z2) // ?EC.
    by rewrite mulKf ?EC // pnatr_eq0 -lt0n -subn1 subn_gt0.
  by rewrite mulrA [_^-1 * _]mulrC.
Qed.
Print Assumptions C60_affine_ensemble.

(** End to end, for the full approximation: the samples have the mean and the covariance that the
    same call reports, and between two inputs the covariance of the posterior. *)
Theorem C60_laplace_samples :
  forall (X Key : Type) (K : nat) split normal key0 model_fn ad_jvp ad_vjp (t : tree (arr R))
    (data : seq (X * arr R)) (s : string) nc nt f pred J s2 tau lsf kw ops N (E : (Key -> R) -> R)
    (samples : X -> Key -> arr R) (x1 x2 : X),
  let n := get_size t in
  let prec := posterior_precision (ggn_matrix K n s f pred J data) (odflt 1 s2) tau lsf in
  (forall k m, size (split k m) = m) -> (forall k sh, size (normal k sh) = prodn sh) ->
  (0 < n)%N -> List.In s ggn_losses -> curv_scaling_factor nc nt (size data) = Ok f ->
  (forall d, List.In d data -> sample_ok K model_fn ad_jvp ad_vjp t pred J d) ->
  0 <= odflt 1 s2 -> 0 < tau -> 0 < lsf ->
  kw_num_samples kw = Some N -> (0 < N)%N ->
  @expectation [rcfType of R] Key E -> @standard_draws [rcfType of R] Key E split normal key0 N t ->
  (forall x, x = x1 \/ x = x2 ->
     [/\ wf_arr (pred x), model_fn x t = Ok (pred x), (0 < prodn (ashape (pred x)))%N,
         is_jacobian (J x) t (pred x) (ad_jvp x) (ad_vjp x) &
         (size (ashape (pred x)) <= 1)%N \/ no_var_after_cov ops]) ->
  (forall x key, x = x1 \/ x = x2 -> exists2 r,
     laplace_predictive K split normal key0 model_fn ad_jvp ad_vjp t data s nc nt s2 tau lsf (Some key)
       (@lin_setup [rcfType of R] X :: [seq stat_fn o | o <- ops]) kw x = Ok r & r_samples r = Some (samples x key)) ->
  let sample x i j key := nth 0 (adata (samples x key)) (i * prodn (ashape (pred x)) + j) in
  forall i i' (j : 'I_(prodn (ashape (pred x1)))) (l : 'I_(prodn (ashape (pred x2)))), (i < N)%N -> (i' < N)%N ->
  E (sample x1 i j) = nth 0 (adata (pred x1)) j /\
  E (fun key => (sample x1 i j key - nth 0 (adata (pred x1)) j) * (sample x2 i' l key - nth 0 (adata (pred x2)) l)) =
    (if i == i' then (of_entries _ n (J x1) *m invmx prec *m (of_entries _ n (J x2))^T) j l else 0).
Proof.
move=> X Key K split normal key0 model_fn ad_jvp ad_vjp t data s nc nt f pred J s2 tau lsf kw ops N E samples x1 x2 n prec
  Hsp Hno n0 Hs Hf Hd Hs2 Ht Hl HN N0 HE HZ Hx Hsm sample i i' j l Hi Hi'.
have [ps [L [E1 E3 E4 E5 _]]] := @C49_laplace_posterior X K model_fn ad_jvp ad_vjp t data s nc nt f pred J s2 tau lsf
  n0 Hs Hf Hd Hs2 Ht Hl.
have Hsq : is_sqrt_of n (entry L) (entry (invmx prec)).
  move=> a b Ha Hb; rewrite -E5.
  rewrite -[a]/(nat_of_ord (Ordinal Ha)) -[b]/(nat_of_ord (Ordinal Hb)) entryE mxE big_mkord.
  by apply: eq_bigr => k _; rewrite mxE !entryE.
have [|H1 H2] := @C60_linear_samples [rcfType of R] X Key split normal key0 model_fn ad_jvp ad_vjp t ps kw ops E
  pred J (entry (invmx prec)) (entry L) N samples x1 x2 Hsp Hno HN N0 (acts_mx_as E3) (acts_mx_as E4) Hsq HE HZ Hx
  _ i i' j l Hi Hi' (ltn_ord j) (ltn_ord l).
  move=> x key Ex; have [r] := Hsm x key Ex; rewrite /laplace_predictive E1; cbn [bind].
  by case E0: (set_lin_pushforward _ _ _ _ _ _ _ _ _ _ _) => [predict|//]; cbn [bind] => Er Es; exists predict, r.
split; first exact: H1.
rewrite [LHS]H2; case: ifP => // _.
rewrite /cov_entry big_mkord.
transitivity (\sum_(p < n) \sum_(q < n) J x1 j p * invmx prec p q * J x2 l q).
  by apply: eq_bigr => p _; rewrite big_mkord; apply: eq_bigr => q _; rewrite entryE.
rewrite exchange_big mxE; apply: eq_bigr => q _; rewrite !mxE big_distrl.
by apply: eq_bigr => p _; rewrite !mxE.
Qed.
Print Assumptions C60_laplace_samples.

(** Hypotheses met: two samples of one parameter, keys that are pairs of fair coins. *)
Definition coin_split (k : bool * bool) (m : nat) : seq (bool * bool) :=
  mkseq (fun i => if i == 0%N then (k.1, k.1) else (k.2, k.2)) m.
Definition coin_normal (R : rcfType) (k : bool * bool) (s : seq nat) : seq R :=
  nseq (prodn s) (if k.1 then 1 else -1).
Definition coin_mean (R : rcfType) (f : bool * bool -> R) : R :=
  (f (true, true) + f (true, false) + f (false, true) + f (false, false)) / 4%:R.
Lemma sum4 (V : zmodType) (a b c d e f g h : V) :
  (a + e) + (b + f) + (c + g) + (d + h) = a + b + c + d + (e + f + g + h).
Proof. by rewrite (addrACA a) (addrACA (a + b)) (addrACA (a + b + c)). Qed.
Example C60_hypotheses_met (R : rcfType) :
  let t := Leaf (Arr [:: 1%N] [:: 3%:R : R]) in
  [/\ expectation (@coin_mean R), standard_draws (@coin_mean R) coin_split (@coin_normal R) (true, true) 2 t,
      forall k n, size (coin_split k n) = n & forall k s, size (coin_normal R k s) = prodn s].
Proof.
have H4 : 4%:R != 0 :> R by rewrite pnatr_eq0.
have E4 : 1 + 1 + 1 + 1 = 4%:R :> R by rewrite -[4%N]/((1 + 1) + (1 + 1))%N !natrD !addrA.
move=> t; split.
- split=> [f g H|c f g|]; rewrite /coin_mean ?H //.
    by rewrite [c * (_ / _)]mulrA -mulrDl !mulrDr sum4.
  by rewrite E4 divff.
- split.
    move=> i p; case: p => // Hi _; case: i Hi => [|[|//]] _; rewrite /coin_mean /draw /=.
      by rewrite addrK subrr mul0r.
    by rewrite subrr add0r subrr mul0r.
  move=> i i' [|//] [|//] Hi Hi' _ _; case: i Hi => [|[|//]] _; case: i' Hi' => [|[|//]] _;
    rewrite /coin_mean /draw /= ?mulrNN ?mulrN1 ?mulN1r ?opprK ?mulr1.
  + by rewrite E4 divff.
  + by rewrite subrr add0r addNr mul0r.
  + by rewrite subrr add0r addNr mul0r.
  + by rewrite E4 divff.
- by move=> k n; rewrite size_mkseq.
- by move=> k s; rewrite size_nseq.
Qed.
