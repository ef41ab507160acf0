(** Property C50, continued: uncertainty from mini-batches with the diagonal approximation. *)
From Coq Require Import Reals String.
From mathcomp Require Import all_ssreflect all_algebra.
From Verif Require Import Base RealStruct PyTree TreeSpec Mv PyTreeProofs TreeOpsProofs GgnSpec Ggn GgnProofs Posterior PosteriorSpec PosteriorProofs
  Pushforward PushforwardSpec PushforwardProofs PipelineSpec Pipeline PipelineProofs PipelineApprox.
From Verif Require Import P_Ggn P_Posterior P_Pushforward P_Pipeline P_Monotone P_PipelineApprox OrderProofs.
From Verif Require Import P_Minibatch.
Set Implicit Arguments.
Unset Strict Implicit.
Unset Printing Implicit Defensive.
Import GRing.Theory Num.Theory Order.TTheory.
Local Open Scope ring_scope.
Notation RR := [rcfType of R].

(** The inverse of an average is at most the average of the inverses. *)
Lemma inv_average (T : realFieldType) (I : finType) (P : pred I) (w : T) (a : I -> T) :
  0 <= w -> w *+ #|P| = 1 -> (forall i, P i -> 0 < a i) ->
  0 < w * (\sum_(i | P i) a i) /\ (w * (\sum_(i | P i) a i))^-1 <= w * \sum_(i | P i) (a i)^-1.
Proof.
move=> w0 w1 Ha; set b := w * _.
have w_gt0 : 0 < w.
  by rewrite lt0r w0 andbT; apply/eqP => wz; move: w1; rewrite wz mul0rn => /eqP; rewrite eq_sym oner_eq0.
have [i Pi] : exists i, P i.
  by apply/existsP; apply: contraT => /existsPn H; move: w1; rewrite eq_card0 => [/eqP|j]; [by rewrite mulr0n eq_sym oner_eq0 | exact: negbTE (H j)].
have b0 : 0 < b.
  rewrite /b mulr_gt0 // (bigD1 i) //= ltr_paddr ?Ha // sumr_ge0 // => j /andP [Pj _]; exact: ltW (Ha j Pj).
split=> //; set y := b^-1.
have -> : y = w * \sum_(i | P i) (y *+ 2 - a i * y ^+ 2).
  rewrite big_split /= sumrN -mulr_suml sumr_const mulrBr mulrA -/b [w * (_ *+ #|P|)]mulrnAr -mulrnAl w1 mul1r.
  by rewrite expr2 [b * (y * y)]mulrA /y mulfV ?gt_eqF // mul1r mulr2n addrK.
rewrite ler_wpmul2l //; apply: ler_sum => j Pj; have a0 := Ha j Pj; have an : a j != 0 by rewrite gt_eqF.
rewrite -subr_ge0 (_ : _ - _ = a j * ((a j)^-1 - y) ^+ 2); first by rewrite mulr_ge0 ?sqr_ge0 // ltW.
rewrite sqrrB mulrDr mulrBr [(a j)^-1 ^+ 2]expr2 [a j * ((a j)^-1 * (a j)^-1)]mulrA mulfV // mul1r mulrnAr [a j * ((a j)^-1 * y)]mulrA mulfV // mul1r.
by rewrite opprD opprK addrA.
Qed.

Section Diagonal.
Variables (X Key : Type) (K : nat) (split : Key -> nat -> seq Key) (normal : Key -> seq nat -> seq R) (key0 : Key).
Variables (model_fn : X -> tree (arr R) -> res (arr R)) (ad_jvp ad_vjp : X -> tree (arr R) -> res (tree (arr R))).
Variables (t : tree (arr R)) (s : string) (pred : X -> arr R) (J : X -> nat -> nat -> R).
Variables (key : option Key) (kw : kwargs) (ops : seq lin_stat) (x : X).
Notation point := (test_point model_fn ad_jvp ad_vjp t s pred J kw ops x).
Notation OK := (data_ok K model_fn ad_jvp ad_vjp t pred J).
(** One run of the diagonal route. *)
Let run data nc nt s2 tau lsf := linearised_predictive split normal key0 model_fn ad_jvp ad_vjp t
  (laplace_posterior_diagonal K model_fn ad_jvp ad_vjp t data s nc nt s2 lsf tau) key
  (@lin_setup RR X :: [seq stat_fn o | o <- ops]) kw x.

(** Several runs whose GGN diagonals average to that of one run. *)
Lemma diag_average (I : finType) (P : I -> bool) w (ds : I -> seq (X * arr R)) ncs nts fs data nc nt f s2 tau lsf :
  point -> OK data -> (forall i, P i -> OK (ds i)) ->
  curv_scaling_factor nc nt (size data) = Ok f ->
  (forall i, P i -> curv_scaling_factor (ncs i) (nts i) (size (ds i)) = Ok (fs i)) ->
  0 <= odflt 1 s2 -> 0 < tau -> 0 < lsf -> 0 <= w -> w *+ #|[pred i | P i]| = 1 ->
  ggn_matrix K (get_size t) s f pred J data = w *: (\sum_(i | P i) ggn_matrix K (get_size t) s (fs i) pred J (ds i)) ->
  exists (v : arr R) (vs : I -> arr R),
    [/\ reports (run data nc nt s2 tau lsf) v, size (adata v) = prodn (ashape (pred x)),
     forall i, P i -> reports (run (ds i) (ncs i) (nts i) s2 tau lsf) (vs i) /\
       size (adata (vs i)) = prodn (ashape (pred x)) &
     forall j, nth 0 (adata v) j <= w * \sum_(i | P i) nth 0 (adata (vs i)) j].
Proof.
move=> HT Hd Hds Hf Hfs Hs Ht Hl w0 w1 E.
have [r [v [R1 _ [V1 S1] E1]]] := C54_diagonal_predictive split normal key0 key HT Hd Hf Hs Ht Hl.
pose Q i u := P i ->
    [/\ reports (run (ds i) (ncs i) (nts i) s2 tau lsf) u, size (adata u) = prodn (ashape (pred x)) &
    forall j : 'I_(prodn (ashape (pred x))), nth 0 (adata u) j =
      \sum_(p < get_size t) J x j p ^+ 2 *
        (lsf / (odflt 1 s2 * ggn_matrix K (get_size t) s (fs i) pred J (ds i) p p + tau))].
have HQ i : exists u, Q i u.
  case Pi: (P i); last by exists v; rewrite /Q Pi.
  have [ri [u [Ri _ [Vi Si] Ei]]] := C54_diagonal_predictive split normal key0 key HT (Hds i Pi) (Hfs i Pi) Hs Ht Hl.
  by exists u; split=> // [|j]; [exists ri | case: (Ei j)].
have [vs H] : exists vs : I -> arr R, forall i, Q i (vs i) by exact: (fin_all_exists HQ).
exists v, vs; split=> // [|i /H []|j] //; first by exists r.
have [Hj|Hj] := ltnP j (prodn (ashape (pred x))); last first.
  by rewrite nth_default ?S1 // big1 ?mulr0 // => i /H [_ S _]; rewrite nth_default ?S.
have [-> _] := E1 (Ordinal Hj).
under [X in _ <= _ * X]eq_bigr => i Pi do [have [_ _ Ei] := H i Pi; rewrite (Ei (Ordinal Hj))].
rewrite exchange_big /= mulr_sumr; apply: ler_sum => p _.
have [[n0 HL _ _] _] := HT.
pose a i := odflt 1 s2 * ggn_matrix K (get_size t) s (fs i) pred J (ds i) p p + tau.
have A0 i : P i -> 0 < a i.
  by move=> Pi; rewrite ltr_paddl // mulr_ge0 //; apply: psd_diag; apply: ggn_matrix_psd => //; exact: factor_ge0 (Hfs i Pi).
have -> : w * (\sum_(i | P i) J x j p ^+ 2 * (lsf / a i)) = J x j p ^+ 2 * (lsf * (w * \sum_(i | P i) (a i)^-1)).
  by rewrite !mulr_sumr; apply: eq_bigr => i _; rewrite [LHS]mulrCA; congr (_ * _); rewrite mulrCA.
rewrite ler_wpmul2l ?sqr_ge0 // ler_pmul2l // E.
rewrite (_ : _ + tau = w * \sum_(i | P i) a i); last first.
  rewrite /a big_split /= -mulr_sumr mulrDr sumr_const [w * (_ *+ _)]mulrnAr -mulrnAl w1 mul1r mulrCA.
  by rewrite mxE summxE.
by have [] := inv_average w0 w1 A0.
Qed.

(** C50.  [C50_minibatch_subsets] for the diagonal approximation. *)
Theorem C50_diagonal_minibatch_subsets n b (data : n.-tuple (X * arr R)) s2 tau lsf :
  point -> OK data -> (0 < b <= n)%N -> 0 <= odflt 1 s2 -> 0 < tau -> 0 < lsf ->
  exists (v : arr R) (vs : {set 'I_n} -> arr R),
    [/\ reports (run data None None s2 tau lsf) v, size (adata v) = prodn (ashape (pred x)),
     forall A : {set 'I_n}, #|A| = b ->
       reports (run (batch data A) None (Some n) s2 tau lsf) (vs A) /\
       size (adata (vs A)) = prodn (ashape (pred x)) &
     forall j, nth 0 (adata v) j <= 'C(n, b)%:R^-1 * \sum_(A : {set 'I_n} | #|A| == b) nth 0 (adata (vs A)) j].
Proof.
move=> HT Hd Hb Hs Ht Hl; have [b0 bn] := andP Hb; have n0 := leq_trans b0 bn.
have nn : n%:R != 0 :> R by rewrite pnatr_eq0 -lt0n.
have C0 : 'C(n, b)%:R != 0 :> R by rewrite pnatr_eq0 -lt0n bin_gt0.
have Ed : OK data -> forall A : {set 'I_n}, OK (batch data A).
  move=> _ A d Hin; apply: Hd; move: Hin; rewrite /batch; elim: (enum A) => //= i l IH [<-|/IH //].
  have := ltn_ord i; rewrite -[X in (_ < X)%N](size_tuple data) (tnth_nth (tnth data i)).
  by elim: (tval data) (val i) => //= y l' IH' [|m] Hm; [left | right; apply: IH'].
have F1 : curv_scaling_factor None None (size data) = Ok (1 : R).
  rewrite size_tuple /curv_scaling_factor; case: (n) nn => [|n' nn]; [by rewrite eqxx | by rewrite divff].
have F2 (A : {set 'I_n}) : #|A| == b -> curv_scaling_factor None (Some n) (size (batch data A)) = Ok (n%:R / b%:R : R).
  by move=> /eqP HA; rewrite /curv_scaling_factor size_map -cardE HA; case: (b) b0.
have W0 : 0 <= 'C(n, b)%:R^-1 :> R by rewrite invr_ge0 ler0n.
have W1 : 'C(n, b)%:R^-1 *+ #|[pred A : {set 'I_n} | #|A| == b]| = 1 :> R.
  have H := card_draws [finType of 'I_n] b; rewrite card_ord in H.
  rewrite (_ : #|_| = 'C(n, b)); first by rewrite -[LHS]mulr_natr mulVf.
  by rewrite -H; apply: eq_card => A; rewrite !inE.
have E : ggn_matrix K (get_size t) s 1 pred J data =
    'C(n, b)%:R^-1 *: (\sum_(A : {set 'I_n} | #|A| == b) ggn_matrix K (get_size t) s (n%:R / b%:R) pred J (batch data A)).
  rewrite /ggn_matrix scale1r -scaler_sumr.
  by rewrite (@subset_sums [lmodType R of 'M[R]_(get_size t)]) // scalerA mulVf // scale1r.
have [v [vs [H1 H2 H3 H4]]] := @diag_average _ (fun A : {set 'I_n} => #|A| == b) _ (batch data)
  (fun=> None) (fun=> Some n) _ data None None 1 s2 tau lsf HT Hd (fun A _ => Ed Hd A) F1 F2 Hs Ht Hl W0 W1 E.
exists v, vs; split=> // A /eqP HA; exact: H3 HA.
Qed.

(** C50.  [C50_minibatch_epoch] for the diagonal approximation. *)
Theorem C50_diagonal_minibatch_epoch m b (batches : m.-tuple (seq (X * arr R))) s2 tau lsf :
  point -> OK (flatten batches) -> (0 < m)%N -> (0 < b)%N -> (forall i, size (tnth batches i) = b) ->
  0 <= odflt 1 s2 -> 0 < tau -> 0 < lsf ->
  exists (v : arr R) (vs : 'I_m -> arr R),
    [/\ reports (run (flatten batches) None None s2 tau lsf) v, size (adata v) = prodn (ashape (pred x)),
     forall i, reports (run (tnth batches i) None (Some (size (flatten batches))) s2 tau lsf) (vs i) /\
       size (adata (vs i)) = prodn (ashape (pred x)) &
     forall j, nth 0 (adata v) j <= m%:R^-1 * \sum_i nth 0 (adata (vs i)) j].
Proof.
move=> HT Hd Hm Hb Hsz Hs Ht Hl.
have mn : m%:R != 0 :> R by rewrite pnatr_eq0 -lt0n.
have bn : b%:R != 0 :> R by rewrite pnatr_eq0 -lt0n.
have Ed i : true -> OK (tnth batches i).
  move=> _ d Hin; apply: Hd; have := ltn_ord i; rewrite -[X in (_ < X)%N](size_tuple batches).
  move: Hin; rewrite (tnth_nth [::]); elim: (tval batches) (val i) => //= y l IH [|k] Hin Hk.
    by apply/List.in_or_app; left.
  by apply/List.in_or_app; right; apply: IH Hin Hk.
have Sz : size (flatten batches) = (m * b)%N.
  rewrite size_flatten /shape sumnE big_map big_tuple (eq_bigr (fun=> b)) => [|i _]; last exact: Hsz.
  by rewrite sum_nat_const card_ord.
have F1 : curv_scaling_factor None None (size (flatten batches)) = Ok (1 : R).
  rewrite Sz /curv_scaling_factor; case: (m * b)%N (muln_gt0 m b) => [|k _]; first by rewrite Hm Hb.
  by rewrite divff // pnatr_eq0.
have F2 (i : 'I_m) : true -> curv_scaling_factor None (Some (size (flatten batches))) (size (tnth batches i)) = Ok (m%:R : R).
  by move=> _; rewrite Hsz Sz /curv_scaling_factor; case: (b) Hb bn => // b' _ bn; rewrite natrM mulfK.
have W0 : 0 <= m%:R^-1 :> R by rewrite invr_ge0 ler0n.
have W1 : m%:R^-1 *+ #|[pred i : 'I_m | true]| = 1 :> R by rewrite -[LHS]mulr_natr cardT size_enum_ord mulVf.
have E : ggn_matrix K (get_size t) s 1 pred J (flatten batches) =
    m%:R^-1 *: (\sum_(i : 'I_m | true) ggn_matrix K (get_size t) s m%:R pred J (tnth batches i)).
  by rewrite /ggn_matrix scale1r -scaler_sumr scalerA mulVf // scale1r big_flatten big_tuple.
have [v [vs [H1 H2 H3 H4]]] := @diag_average _ (fun _ : 'I_m => true) _ (tnth batches)
  (fun=> None) (fun=> Some (size (flatten batches))) _ (flatten batches) None None 1 s2 tau lsf HT Hd Ed F1 F2 Hs Ht Hl W0 W1 E.
by exists v, vs; split=> // i; apply: H3.
Qed.
End Diagonal.
Print Assumptions C50_diagonal_minibatch_subsets.
Print Assumptions C50_diagonal_minibatch_epoch.

(** Non-vacuity: the two observations of C50's example, one at a time. *)
Example C50_diagonal_minibatch_example a b c d :
  let rn D nt := linearised_predictive (fun k n => nseq n k) (fun _ sh => nseq (prodn sh) 0) tt
      (fun _ _ => Ok ex_out) (fun (_ : unit) u => Ok u) (fun _ u => Ok u) (Leaf ex_out)
      (laplace_posterior_diagonal 2 (fun _ _ => Ok ex_out) (fun (_ : unit) u => Ok u) (fun _ u => Ok u) (Leaf ex_out)
        D "mse"%string None nt None 1 1) None (@lin_setup RR unit :: [seq stat_fn o | o <- [:: SVar]]) (kw0 None) tt in
  exists (v : arr R) (vs : {set 'I_2} -> arr R),
    [/\ reports (rn [:: ex_y a b; ex_y c d] None) v,
     forall A : {set 'I_2}, #|A| = 1%N -> reports (rn (batch [tuple ex_y a b; ex_y c d] A) (Some 2%N)) (vs A) &
     forall j, nth 0 (adata v) j <= 'C(2, 1)%:R^-1 * \sum_(A : {set 'I_2} | #|A| == 1%N) nth 0 (adata (vs A)) j].
Proof.
have [v [vs [H1 H2 H3 H4]]] := @C50_diagonal_minibatch_subsets unit unit 2 (fun k n => nseq n k) (fun _ sh => nseq (prodn sh) 0) tt
  _ _ _ _ _ _ _ None _ _ _ 2 1 [tuple ex_y a b; ex_y c d] None 1 1 ex_test_point (@ex_data_ok a b c d) isT ler01 ltr01 ltr01.
by exists v, vs; split=> // A /H3 [].
Qed.
