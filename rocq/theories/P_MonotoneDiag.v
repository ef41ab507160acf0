(** Property C50, continued: monotone uncertainty with the diagonal approximation. *)
From Coq Require Import Reals Lra String.
From mathcomp Require Import all_ssreflect all_algebra.
From Verif Require Import Base RealStruct PyTree TreeSpec Mv PyTreeProofs TreeOpsProofs GgnSpec Ggn GgnProofs Posterior PosteriorSpec PosteriorProofs
  Pushforward PushforwardSpec PushforwardProofs PipelineSpec Pipeline PipelineProofs PipelineApprox.
From Verif Require Import P_Ggn P_Posterior P_Pushforward P_Pipeline P_Monotone P_PipelineApprox OrderProofs.
Set Implicit Arguments.
Unset Strict Implicit.
Unset Printing Implicit Defensive.
Import GRing.Theory Num.Theory Order.TTheory.
Local Open Scope ring_scope.
Notation RR := [rcfType of R].

Section Diagonal.
Variables (X Key : Type) (K : nat) (split : Key -> nat -> seq Key) (normal : Key -> seq nat -> seq R) (key0 : Key).
Variables (model_fn : X -> tree (arr R) -> res (arr R)) (ad_jvp ad_vjp : X -> tree (arr R) -> res (tree (arr R))).
Variables (t : tree (arr R)) (s : string) (pred : X -> arr R) (J : X -> nat -> nat -> R).
Variables (key : option Key) (kw : kwargs) (ops : seq lin_stat) (x : X).
Notation point := (test_point model_fn ad_jvp ad_vjp t s pred J kw ops x).
Notation data_ok := (data_ok K model_fn ad_jvp ad_vjp t pred J).
Let n := get_size t.
(** One run of the diagonal route. *)
Let run data nc nt s2 tau lsf := linearised_predictive split normal key0 model_fn ad_jvp ad_vjp t
  (laplace_posterior_diagonal K model_fn ad_jvp ad_vjp t data s nc nt s2 lsf tau) key
  (@lin_setup RR X :: [seq stat_fn o | o <- ops]) kw x.

(** Adding data, increasing the scaling factor, [sigma_squared] or the prior precision increases no
    variance. *)
Theorem C50_diagonal_monotone data extra nc1 nt1 f1 nc2 nt2 f2 s1 s2 tau1 tau2 lsf :
  point -> data_ok (data ++ extra) ->
  curv_scaling_factor nc1 nt1 (size data) = Ok f1 ->
  curv_scaling_factor nc2 nt2 (size (data ++ extra)) = Ok f2 -> f1 <= f2 ->
  0 <= odflt 1 s1 -> odflt 1 s1 <= odflt 1 s2 -> 0 < tau1 -> tau1 <= tau2 -> 0 < lsf ->
  exists v1 v2, [/\ reports (run data nc1 nt1 s1 tau1 lsf) v1,
    reports (run (data ++ extra) nc2 nt2 s2 tau2 lsf) v2,
    size (adata v1) = prodn (ashape (pred x)) /\ size (adata v2) = prodn (ashape (pred x)) &
    forall i, nth 0 (adata v2) i <= nth 0 (adata v1) i].
Proof.
move=> TP Hd Hf1 Hf2 Hf Hs1 Hs Ht1 Ht Hl.
have Hs2 := le_trans Hs1 Hs; have Ht2 := lt_le_trans Ht1 Ht.
have Hd1 : data_ok data by move=> d Id; apply: Hd; apply/List.in_or_app; left.
have [r1 [v1 [R1 _ [V1 S1] E1]]] := C54_diagonal_predictive split normal key0 key TP Hd1 Hf1 Hs1 Ht1 Hl.
have [r2 [v2 [R2 _ [V2 S2] E2]]] := C54_diagonal_predictive split normal key0 key TP Hd Hf2 Hs2 Ht2 Hl.
have [[n0 HL _ _] _] := TP.
have P1 := ggn_matrix_psd K (get_size t) pred J data HL (factor_ge0 Hf1).
have LE : loewner_le (ggn_matrix K (get_size t) s f1 pred J data) (ggn_matrix K (get_size t) s f2 pred J (data ++ extra)).
  by apply: ggn_matrix_mono => //; rewrite (factor_ge0 Hf1).
have Dg (p : 'I_(get_size t)) : 0 <= ggn_matrix K (get_size t) s f1 pred J data p p <=
    ggn_matrix K (get_size t) s f2 pred J (data ++ extra) p p.
  have D := loewner_diag 1%:M p LE; rewrite !mul1mx !trmx1 !mulmx1 in D.
  by rewrite D andbT; apply: psd_diag P1.
move: E1 E2 Dg; move: (ggn_matrix _ _ _ _ _ _ data) (ggn_matrix _ _ _ _ _ _ (data ++ extra)) => G1 G2 E1 E2 Dg.
exists v1, v2; split=> //; [by exists r1 | by exists r2 | move=> i].
have [Hi|Hi] := ltnP i (prodn (ashape (pred x))); last by rewrite !nth_default ?S1 ?S2.
have [-> _] := E1 (Ordinal Hi); have [-> _] := E2 (Ordinal Hi).
apply: ler_sum => p _; rewrite ler_wpmul2l ?sqr_ge0 //; have /andP[g0 g12] := Dg p.
have H1 : 0 < odflt 1 s1 * G1 p p + tau1 by rewrite ltr_paddl // mulr_ge0.
have H12 : odflt 1 s1 * G1 p p + tau1 <= odflt 1 s2 * G2 p p + tau2.
  by apply: ler_add => //; apply: ler_pmul.
by rewrite ler_pmul2l // lef_pinv ?posrE // (lt_le_trans H1).
Qed.

(** Larger prior precision; more data with the default scaling. *)
Theorem C50_diagonal_more_data data extra s2 tau1 tau2 lsf :
  point -> data_ok (data ++ extra) -> data <> [::] -> 0 <= odflt 1 s2 -> 0 < tau1 -> tau1 <= tau2 -> 0 < lsf ->
  exists v1 v2, [/\ reports (run data None None s2 tau1 lsf) v1,
    reports (run (data ++ extra) None None s2 tau2 lsf) v2,
    size (adata v1) = prodn (ashape (pred x)) /\ size (adata v2) = prodn (ashape (pred x)) &
    forall i, nth 0 (adata v2) i <= nth 0 (adata v1) i].
Proof.
move=> TP Hd H0 Hs Ht1 Ht Hl.
have E (d : seq (X * arr R)) : d <> [::] -> curv_scaling_factor None None (size d) = Ok 1.
  by case: d => // a d _; rewrite /curv_scaling_factor /= divff // pnatr_eq0.
have H0' : data ++ extra <> [::] by case: (data) H0.
exact: C50_diagonal_monotone TP Hd (E _ H0) (E _ H0') (lexx _) Hs (lexx _) Ht1 Ht Hl.
Qed.

(** Variances are proportional to the loss scaling factor. *)
Theorem C50_diagonal_loss_scaling data nc nt f s2 tau lsf :
  point -> data_ok data -> curv_scaling_factor nc nt (size data) = Ok f -> 0 <= odflt 1 s2 -> 0 < tau -> 0 < lsf ->
  exists v1 v, [/\ reports (run data nc nt s2 tau 1) v1, reports (run data nc nt s2 tau lsf) v,
    size (adata v1) = prodn (ashape (pred x)) /\ size (adata v) = prodn (ashape (pred x)) &
    forall i, nth 0 (adata v) i = lsf * nth 0 (adata v1) i].
Proof.
move=> TP Hd Hf Hs Ht Hl.
have [r1 [v1 [R1 _ [V1 S1] E1]]] := C54_diagonal_predictive split normal key0 key TP Hd Hf Hs Ht ltr01.
have [r [v [R2 _ [V2 S2] E2]]] := C54_diagonal_predictive split normal key0 key TP Hd Hf Hs Ht Hl.
move: E1 E2; move: (ggn_matrix _ _ _ _ _ _ data) => G E1 E2.
exists v1, v; split=> //; [by exists r1 | by exists r | move=> i].
have [Hi|Hi] := ltnP i (prodn (ashape (pred x))); last by rewrite !nth_default ?S1 ?S2 ?mulr0.
have [-> _] := E1 (Ordinal Hi); have [-> _] := E2 (Ordinal Hi).
rewrite mulr_sumr; apply: eq_bigr => p _; by rewrite div1r mulrCA.
Qed.
End Diagonal.
Print Assumptions C50_diagonal_monotone.
Print Assumptions C50_diagonal_more_data.
Print Assumptions C50_diagonal_loss_scaling.

(** Two data points on two parameters, the identity as network: the hypotheses hold. *)
Example C50_diagonal_example a b c d : exists v1 v2,
  let rn D tau := linearised_predictive (fun k n => nseq n k) (fun _ sh => nseq (prodn sh) 0) tt
      (fun _ _ => Ok ex_out) (fun (_ : unit) u => Ok u) (fun _ u => Ok u) (Leaf ex_out)
      (laplace_posterior_diagonal 2 (fun _ _ => Ok ex_out) (fun (_ : unit) u => Ok u) (fun _ u => Ok u) (Leaf ex_out)
        D "mse"%string None None None 1 tau) None (@lin_setup RR unit :: [seq stat_fn o | o <- [:: SVar]]) (kw0 None) tt in
  [/\ reports (rn [:: ex_y a b] 1) v1, reports (rn [:: ex_y a b; ex_y c d] 3%:R) v2 &
    forall i, nth 0 (adata v2) i <= nth 0 (adata v1) i].
Proof.
have H3 : 1 <= 3%:R :> R by rewrite ler1n.
have [v1 [v2 [R1 R2 _ H]]] := @C50_diagonal_more_data unit unit 2 (fun k n => nseq n k) (fun _ sh => nseq (prodn sh) 0) tt
  _ _ _ _ _ _ _ None _ _ _ [:: ex_y a b] [:: ex_y c d] None 1 3%:R 1 ex_test_point (@ex_data_ok a b c d) ltac:(by []) ler01 ltr01 H3 ltr01.
by exists v1, v2.
Qed.
