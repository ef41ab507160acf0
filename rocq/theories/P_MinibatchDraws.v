(** Property C50, continued: uncertainty from mini-batches drawn with repetitions. *)
From Coq Require Import Reals String.
From mathcomp Require Import all_ssreflect all_algebra.
From Verif Require Import Base RealStruct PyTree TreeSpec Mv PyTreeProofs TreeOpsProofs GgnSpec Ggn GgnProofs Posterior PosteriorSpec PosteriorProofs
  Pushforward PushforwardSpec PushforwardProofs PipelineSpec TreeGgn Pipeline PipelineProofs PipelineApprox.
From Verif Require Import P_Ggn P_Posterior P_Pushforward P_Pipeline P_Monotone P_PipelineApprox.
From Verif Require Import P_Minibatch P_MinibatchVar P_MinibatchDiag.
Set Implicit Arguments.
Unset Strict Implicit.
Unset Printing Implicit Defensive.
Import GRing.Theory Num.Theory Order.TTheory.
Local Open Scope ring_scope.

(** The samples with listed indices, in the order of the list. *)
Definition draws (T : Type) n b (data : n.-tuple T) (f : {ffun 'I_b -> 'I_n}) : seq T :=
  [seq tnth data (f j) | j <- enum 'I_b].
Lemma draw_sums (V : lmodType R) (T : Type) n b (data : n.-tuple T) (F : T -> V) : (0 < n)%N -> (0 < b)%N ->
  (n%:R / b%:R) *: (\sum_(f : {ffun 'I_b -> 'I_n}) \sum_(d <- draws data f) F d) =
  (n ^ b)%:R *: \sum_(d <- data) F d.
Proof.
case: n b data => [|n'] [|b'] //= data _ _; rewrite big_tuple.
under eq_bigr => f _ do rewrite /draws big_map big_enum /=.
rewrite exchange_big /=.
under eq_bigr => j _.
  rewrite (partition_big (fun f : {ffun 'I_b'.+1 -> 'I_n'.+1} => f j) predT) //=.
  under eq_bigr => i _.
    rewrite (eq_bigr (fun=> F (tnth data i))) => [|f /eqP -> //].
    rewrite sumr_const (_ : #|_| = (n'.+1 ^ b')%N); last first.
      by rewrite -(lists_with j i); apply: eq_card => f; rewrite !inE.
    over.
  over.
rewrite sumr_const card_ord -sumrMnl !scaler_sumr; apply: eq_bigr => i _.
rewrite -mulrnA -scaler_nat scalerA; congr (_ *: _).
have F2 : b'.+1%:R != 0 :> R by rewrite pnatr_eq0.
by rewrite natrM [(n'.+1 ^ b')%:R * _]mulrC mulrA divfK // expnS natrM.
Qed.

Section Draws.
Variables (X Key : Type) (K : nat) (split : Key -> nat -> seq Key) (normal : Key -> seq nat -> seq R) (key0 : Key).
Variables (model_fn : X -> tree (arr R) -> res (arr R)) (ad_jvp ad_vjp : X -> tree (arr R) -> res (tree (arr R))).
Variables (t : tree (arr R)) (s : string) (pred : X -> arr R) (J : X -> nat -> nat -> R).
Variables (key : option Key) (kw : kwargs) (ops : seq lin_stat) (x : X).
Notation point := (test_point model_fn ad_jvp ad_vjp t s pred J kw ops x).
Notation OK := (data_ok K model_fn ad_jvp ad_vjp t pred J).
Notation run := (@P_Monotone.run X Key K split normal key0 model_fn ad_jvp ad_vjp t s key kw ops x).
(** One run of the diagonal route. *)
Notation drun data nc nt s2 tau lsf := (linearised_predictive split normal key0 model_fn ad_jvp ad_vjp t
  (laplace_posterior_diagonal K model_fn ad_jvp ad_vjp t data s nc nt s2 lsf tau) key
  (@lin_setup RR X :: [seq stat_fn o | o <- ops]) kw x).

Variables (n b : nat) (data : n.-tuple (X * arr R)).
Hypotheses (Hd : OK data) (n0 : (0 < n)%N) (b0 : (0 < b)%N).

Lemma draws_ok (f : {ffun 'I_b -> 'I_n}) : OK (draws data f).
Proof.
move=> d Hin; apply: Hd; move: Hin; rewrite /draws; elim: (enum 'I_b) => //= j l IH [<-|/IH //].
have := ltn_ord (f j); rewrite -[X in (_ < X)%N](size_tuple data) (tnth_nth (tnth data (f j))).
by elim: (tval data) (val (f j)) => //= y l' IH' [|m] Hm; [left | right; apply: IH'].
Qed.
Lemma draws_factor (f : {ffun 'I_b -> 'I_n}) :
  curv_scaling_factor None (Some n) (size (draws data f)) = Ok (n%:R / b%:R : R).
Proof. by rewrite /curv_scaling_factor size_map size_enum_ord; case: (b) b0. Qed.
Lemma draws_whole : curv_scaling_factor None None (size data) = Ok (1 : R).
Proof.
by rewrite size_tuple /curv_scaling_factor; case: (n) n0 => // m _; rewrite divff // pnatr_eq0.
Qed.
Lemma draws_count : (n ^ b)%:R^-1 *+ #|[pred f : {ffun 'I_b -> 'I_n} | true]| = 1 :> R.
Proof.
have N0 : (n ^ b)%:R != 0 :> R by rewrite pnatr_eq0 -lt0n expn_gt0 n0.
rewrite (_ : #|_| = (n ^ b)%N); first by rewrite -[LHS]mulr_natr mulVf.
have := card_ffun [finType of 'I_b] [finType of 'I_n]; rewrite !card_ord => <-.
by apply: eq_card => f; rewrite !inE.
Qed.
Lemma draws_average : ggn_matrix K (get_size t) s 1 pred J data =
  (n ^ b)%:R^-1 *: (\sum_(f : {ffun 'I_b -> 'I_n} | true) ggn_matrix K (get_size t) s (n%:R / b%:R) pred J (draws data f)).
Proof.
have N0 : (n ^ b)%:R != 0 :> R by rewrite pnatr_eq0 -lt0n expn_gt0 n0.
rewrite /ggn_matrix scale1r -scaler_sumr.
by rewrite (@draw_sums [lmodType R of 'M[R]_(get_size t)]) // scalerA mulVf // scale1r.
Qed.

(** C50.  Mini-batches of [b] samples drawn one by one, repetitions allowed, all lists equally likely:
    on average no predictive variance is smaller than that of the whole data set. *)
Theorem C50_minibatch_draws s2 tau lsf :
  point -> 0 <= odflt 1 s2 -> 0 < tau -> 0 < lsf ->
  exists (v : arr R) (vs : {ffun 'I_b -> 'I_n} -> arr R),
    [/\ reports (run data None None s2 tau lsf) v, ashape v = ashape (pred x),
     forall f, reports (run (draws data f) None (Some n) s2 tau lsf) (vs f) /\ ashape (vs f) = ashape (pred x) &
     forall j, nth 0 (adata v) j <= (n ^ b)%:R^-1 * \sum_f nth 0 (adata (vs f)) j].
Proof.
move=> HT Hs Ht Hl; have W0 : 0 <= (n ^ b)%:R^-1 :> R by rewrite invr_ge0 ler0n.
have [v [vs [H1 H2 H3 H4]]] := @average_var _ _ _ split normal key0 _ _ _ _ _ _ _ key _ _ _ _ (fun _ : {ffun 'I_b -> 'I_n} => true) _ (draws data)
  (fun=> None) (fun=> Some n) _ data None None 1 s2 tau lsf HT Hd (fun f _ => @draws_ok f) draws_whole
  (fun f _ => draws_factor f) Hs Ht Hl W0 draws_count draws_average.
by exists v, vs; split=> // f; apply: H3.
Qed.

(** C50.  The same for the diagonal approximation. *)
Theorem C50_diagonal_minibatch_draws s2 tau lsf :
  point -> 0 <= odflt 1 s2 -> 0 < tau -> 0 < lsf ->
  exists (v : arr R) (vs : {ffun 'I_b -> 'I_n} -> arr R),
    [/\ reports (drun data None None s2 tau lsf) v, size (adata v) = prodn (ashape (pred x)),
     forall f, reports (drun (draws data f) None (Some n) s2 tau lsf) (vs f) /\
       size (adata (vs f)) = prodn (ashape (pred x)) &
     forall j, nth 0 (adata v) j <= (n ^ b)%:R^-1 * \sum_f nth 0 (adata (vs f)) j].
Proof.
move=> HT Hs Ht Hl; have W0 : 0 <= (n ^ b)%:R^-1 :> R by rewrite invr_ge0 ler0n.
have [v [vs [H1 H2 H3 H4]]] := @diag_average _ _ _ split normal key0 _ _ _ _ _ _ _ key _ _ _ _ (fun _ : {ffun 'I_b -> 'I_n} => true) _ (draws data)
  (fun=> None) (fun=> Some n) _ data None None 1 s2 tau lsf HT Hd (fun f _ => @draws_ok f) draws_whole
  (fun f _ => draws_factor f) Hs Ht Hl W0 draws_count draws_average.
by exists v, vs; split=> // f; apply: H3.
Qed.
End Draws.
Print Assumptions C50_minibatch_draws.
Print Assumptions C50_diagonal_minibatch_draws.

(** Non-vacuity: three draws from the two observations of C50's example. *)
Example C50_minibatch_draws_example a b c d :
  exists (v : arr R) (vs : {ffun 'I_3 -> 'I_2} -> arr R),
    [/\ reports (ex_run [:: ex_y a b; ex_y c d] 1) v, ashape v = [:: 2%N] &
     forall j, nth 0 (adata v) j <= (2 ^ 3)%:R^-1 * \sum_f nth 0 (adata (vs f)) j].
Proof.
have [v [vs [H1 H2 _ H4]]] := @C50_minibatch_draws unit unit 2 (fun k n => nseq n k) (fun _ sh => nseq (prodn sh) 0) tt
  _ _ _ _ _ _ _ None _ _ _ 2 3 [tuple ex_y a b; ex_y c d] (@ex_data_ok a b c d) isT isT None 1 1 ex_test_point ler01 ltr01 ltr01.
by exists v, vs.
Qed.
