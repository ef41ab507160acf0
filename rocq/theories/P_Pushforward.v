(** Properties C39-C42: linearised and ensemble pushforwards, posterior GP kernel. *)
From Coq Require Import String.
From mathcomp Require Import all_ssreflect all_algebra.
From Verif Require Import Base PyTree TreeSpec PyTreeProofs BasisProofs StackProofs Mv MvProofs TreeOpsProofs.
From Verif Require Import EvalUtils Pushforward PushforwardSpec PushforwardProofs.
Set Implicit Arguments.
Unset Strict Implicit.
Unset Printing Implicit Defensive.
Import Order.TTheory GRing.Theory Num.Theory.
Local Open Scope ring_scope.

(** What a linearised pushforward must report for the requested statistics [ops]: the MAP prediction
    as mean, [J Sg J^T] as covariance (axes reversed as [to_dense] does), its diagonal in the shape of
    the prediction as variance, the entrywise root as standard deviation; nothing that was not asked
    for (the variance is a by-product of the standard deviation). *)
Definition lin_report (R : rcfType) (n : nat) (out : arr R) (J Sg : nat -> nat -> R) (ops : seq lin_stat)
    (r : results R) : Prop :=
  let s := ashape out in
  let C := cov_entry n J Sg J in
  let var := Arr s [seq C i i | i <- iota 0 (prodn s)] in
  [/\ r_map r = out,
      r_pred_mean r = if ops is [::] then None else Some out,
      (if SCov \in ops then
         exists c, [/\ r_pred_cov r = Some c, ashape c = rev (prodn s :: s) &
           forall i idx, (i < prodn s)%N -> valid_idx s idx -> aget c (rcons (rev idx) i) = C (ravel_idx s idx) i]
       else r_pred_cov r = None),
      r_pred_var r = (if (SVar \in ops) || (SStd \in ops) then Some var else None) &
      r_pred_std r = (if SStd \in ops then Some (Arr s [seq Num.sqrt (C i i) | i <- iota 0 (prodn s)]) else None)].

(** Requests that work for predictions with several axes: no variance after a covariance. *)
Definition no_var_after_cov (ops : seq lin_stat) : Prop :=
  forall l1 l2, ops = l1 ++ SCov :: l2 -> SVar \notin l2 /\ SStd \notin l2.

Lemma inv_report (R : rcfType) X (model_fn : X -> _ -> res (arr R)) jv vj t x out J Sg ps smp ops r aux :
  inv model_fn jv vj t x out J Sg ps smp ops r aux -> lin_report (nentries t) out J Sg ops r.
Proof.
move=> I; split; [exact: (i_map I) | exact: (i_mean I) | | exact: (i_var I) | ].
- have := i_cov I; case: ifP => // _ [c Ec [H1 H2]]; by exists c.
- rewrite (i_std I); case: ifP => // _; congr (Some (Arr _ _)).
  by rewrite /= /mkseq -map_comp.
Qed.

Lemma order_cases (ops l1 l2 : seq lin_stat) o : ops = l1 ++ o :: l2 -> no_var_after_cov ops ->
  (o == SVar) || (o == SStd) -> SCov \notin l1.
Proof.
move=> -> H Ho; apply/negP => /path.splitPr Hs; case: Hs H => a b H.
have [] := H a (b ++ o :: l2); first by rewrite -catA.
by rewrite !mem_cat !inE !negb_or [SVar == o]eq_sym [SStd == o]eq_sym => /and3P [_ /negPf Ea _] /and3P [_ /negPf Eb _];
   move: Ho; rewrite Ea Eb.
Qed.

(** C39.  Every selection and order of statistics after [lin_setup] yields the report. *)
Theorem C39_lin_statistics :
  forall (R : rcfType) (X Key : Type) split normal key0 (model_fn : X -> tree (arr R) -> res (arr R))
    ad_jvp ad_vjp (mean : tree (arr R)) ps (key : option Key) kw (ops : seq lin_stat)
    (x : X) (out : arr R) (J Sg : nat -> nat -> R),
  odflt 0%N (kw_num_samples kw) = 0%N -> SSamples \notin ops ->
  model_fn x mean = Ok out -> (0 < prodn (ashape out))%N ->
  is_jacobian J mean out (ad_jvp x) (ad_vjp x) -> acts_as Sg mean mean (ps_cov_mv ps) ->
  (size (ashape out) <= 1)%N \/ no_var_after_cov ops ->
  exists predict r,
    [/\ set_lin_pushforward split normal key0 model_fn ad_jvp ad_vjp mean ps key
          (@lin_setup R X :: [seq stat_fn o | o <- ops]) kw = Ok predict,
        predict x = Ok r & lin_report (get_size mean) out J Sg ops r].
Proof.
move=> R X Key split normal key0 model_fn ad_jvp ad_vjp mean ps key kw ops x out J Sg N0 Hsm M n0 HJ HS Ho.
rewrite /set_lin_pushforward N0 /=; eexists.
set ds := DistState _ _ _ _ _.
have [aux' [E I]] := @inv_setup R X model_fn ad_jvp ad_vjp mean x out J Sg ps ds kw out (results0 out) (aux0 R)
   erefl erefl erefl erefl.
have [|r' [aux2 [E2 I2]]] := inv_run M HJ HS n0 (ds := ds) (kw := kw) (ops := ops) I.
  move=> l1 o l2 El.
  case: o El => //= El.
  + by case: Ho => Ho; [left | right; apply: (order_cases El Ho)].
  + by case: Ho => Ho; [left | right; apply: (order_cases El Ho)].
  + by move: Hsm; rewrite El mem_cat inE eqxx !orbT.
exists r'; split=> //; last by have := inv_report I2; rewrite get_sizeE.
rewrite /set_prob_predictive M /= (finalize_cons _ E) -map_comp; exact: E2.
Qed.
Print Assumptions C39_lin_statistics.

(** The reported variances are non-negative when the posterior covariance is positive semidefinite,
    so that squaring the reported standard deviation gives the reported variance; the reported
    covariance is symmetric and positive semidefinite. *)
Theorem C39_report_consistent :
  forall (R : rcfType) (n m : nat) (J Sg : nat -> nat -> R),
  sym_entries n Sg -> psd_entries n Sg ->
  let C := cov_entry n J Sg J in
  [/\ sym_entries m C, psd_entries m C & forall i, (i < m)%N -> 0 <= C i i /\ Num.sqrt (C i i) ^+ 2 = C i i].
Proof.
move=> R n m J Sg H1 H2 C; have P := cov_entry_psd m J H2; split=> //.
  by move=> i j _ _; rewrite /C cov_entry_sym.
by move=> i Hi; have := psd_diag P Hi => P0; rewrite sqr_sqrtr.
Qed.
Print Assumptions C39_report_consistent.

(** ... but asking for a variance after a covariance fails for predictions with two or more axes. *)
Theorem C39_several_axes_refuted :
  forall (R : rcfType) (X Key : Type) split normal key0 (model_fn : X -> tree (arr R) -> res (arr R))
    ad_jvp ad_vjp (mean : tree (arr R)) ps (key : option Key) kw l1 l2 l3
    (x : X) (out : arr R) (J Sg : nat -> nat -> R),
  let ops := l1 ++ SCov :: l2 ++ SVar :: l3 in
  odflt 0%N (kw_num_samples kw) = 0%N -> SSamples \notin ops ->
  model_fn x mean = Ok out -> (0 < prodn (ashape out))%N ->
  is_jacobian J mean out (ad_jvp x) (ad_vjp x) -> acts_as Sg mean mean (ps_cov_mv ps) ->
  (2 <= size (ashape out))%N ->
  exists predict,
    set_lin_pushforward split normal key0 model_fn ad_jvp ad_vjp mean ps key
      (@lin_setup R X :: [seq stat_fn o | o <- ops]) kw = Ok predict /\ predict x = Raise ValueError.
Proof.
move=> R X Key split normal key0 model_fn ad_jvp ad_vjp mean ps key kw l1 l2 l3 x out J Sg ops N0 Hsm M n0 HJ HS H2.
rewrite /set_lin_pushforward N0 /=; eexists; split; first by [].
set ds := DistState _ _ _ _ _.
have [aux' [E I]] := @inv_setup R X model_fn ad_jvp ad_vjp mean x out J Sg ps ds kw out (results0 out) (aux0 R)
   erefl erefl erefl erefl.
rewrite /set_prob_predictive M /= (finalize_cons _ E) -map_comp.
apply: (var_after_cov_fails M HJ HS n0 I) => //; last exact: var_after_covP.
by move=> Hs; rewrite Hs in Hsm.
Qed.
Print Assumptions C39_several_axes_refuted.

(** Without [lin_setup] every statistic but the mean is a KeyError. *)
Theorem C39_setup_required :
  forall (R : rcfType) (X : Type) (model_fn : X -> tree (arr R) -> res (arr R)) (mean : tree (arr R)) ds kw
    (o : lin_stat) (ops : seq lin_stat) (x : X) (out : arr R),
  o <> SMean -> model_fn x mean = Ok out ->
  set_prob_predictive model_fn mean ds [seq stat_fn o' | o' <- o :: ops] kw x = Raise KeyError.
Proof.
move=> R X model_fn mean ds kw o ops x out Ho M; rewrite /set_prob_predictive M /=.
by apply: finalize_raise; case: o Ho.
Qed.
Print Assumptions C39_setup_required.

(** Non-vacuity: the identity model on a PyTree leaf of any shape, with identity covariance. *)
Definition ident (R : rcfType) (i j : nat) : R := if i == j then 1 else 0.
Lemma acts_as_ident (R : rcfType) (t : tree (arr R)) : acts_as (@ident R) t t (fun u => Ok u).
Proof.
move=> u W S; exists u; split=> //; rewrite /matvec.
apply: (@eq_from_nth _ 0); first by rewrite size_mkseq size_entries // (nentries_same S).
rewrite size_entries // -(nentries_same S) => i Hi; rewrite nth_mkseq //.
rewrite (eq_bigr (fun j => if j == i then nth 0 (entries u) i else 0)); first by rewrite sum_delta.
by move=> j _; rewrite /ident eq_sym; case: eqP => [->|_]; rewrite ?mul1r ?mul0r.
Qed.
Lemma is_jacobian_ident (R : rcfType) (out : arr R) :
  is_jacobian (@ident R) (Leaf out) out (fun u => Ok u) (fun u => Ok u).
Proof.
split; first exact: acts_as_ident.
move=> u W S; have [w [E1 E2 E3 E4]] := @acts_as_ident _ _ _ W S.
exists w; split=> //; rewrite E4; apply: eq_map => i; apply: eq_bigr => j _.
by rewrite /ident eq_sym.
Qed.
Lemma ident_psd (R : rcfType) n : sym_entries n (@ident R) /\ psd_entries n (@ident R).
Proof.
split; first by move=> i j _ _; rewrite /ident eq_sym.
move=> v; apply: sumr_ge0 => i _.
case Hi: (i < n)%N; last first.
  rewrite big_nat; apply: sumr_ge0 => j Hj; rewrite /ident; case: eqP => [E|_]; last by rewrite mulr0 mul0r.
  by move: Hj; rewrite -E Hi.
rewrite (eq_bigr (fun j => if j == i then v i * v i else 0)); first by rewrite sum_delta // -expr2 sqr_ge0.
by move=> j _; rewrite /ident eq_sym; case: eqP => [->|_]; rewrite ?mulr1 // mulr0 mul0r.
Qed.
Definition kw0 (n : option nat) : kwargs := Kwargs n None None None None None.
Example C39_example (R : rcfType) :
  let out := Arr [:: 2%N] [:: 3%:R; 4%:R : R] in
  let ps := PosteriorState (fun u => Ok u) (fun u : tree (arr R) => Ok u) in
  exists predict r,
    [/\ set_lin_pushforward (fun (k : unit) n => nseq n k) (fun _ s => nseq (prodn s) 0) tt
          (fun (_ : unit) p => Ok out) (fun _ u => Ok u) (fun _ u => Ok u) (Leaf out) ps None
          (@lin_setup R unit :: [seq stat_fn o | o <- [:: SCov; SStd; SMean; SVar]]) (kw0 None) = Ok predict,
        predict tt = Ok r & lin_report 2 out (@ident R) (@ident R) [:: SCov; SStd; SMean; SVar] r].
Proof.
have H := @C39_lin_statistics R unit unit (fun k n => nseq n k) (fun _ s => nseq (prodn s) 0) tt
  (fun _ p => Ok (Arr [:: 2%N] [:: 3%:R; 4%:R : R])) (fun _ u => Ok u) (fun _ u => Ok u)
  (Leaf (Arr [:: 2%N] [:: 3%:R; 4%:R : R])) (PosteriorState (fun u => Ok u) (fun u => Ok u)) None (kw0 None)
  [:: SCov; SStd; SMean; SVar] tt _ (@ident R) (@ident R) erefl isT erefl isT (@is_jacobian_ident R _)
  (@acts_as_ident R _) (or_introl isT).
exact: H.
Qed.

(** C40.  Samples.  [eps i] is the standard-normal draw for the [i]-th key; the sample is the MAP
    prediction plus [J S eps i], whatever the batch sizes and whether or not draws are precomputed,
    and in any position of the list of requested statistics. *)
Definition sample_report (R : rcfType) (n N : nat) (out : arr R) (J S : nat -> nat -> R)
    (eps : nat -> tree (arr R)) (a : arr R) : Prop :=
  [/\ ashape a = N :: ashape out, wf_arr a &
      forall i j, (i < N)%N -> (j < prodn (ashape out))%N ->
      nth 0 (adata a) (i * prodn (ashape out) + j) =
      nth 0 (adata out) j +
      \sum_(0 <= p < n) J j p * \sum_(0 <= q < n) S p q * nth 0 (entries (eps i)) q].

Section LinDs.
Variables (R : rcfType) (X Key : Type) (split : Key -> nat -> seq Key) (normal : Key -> seq nat -> seq R) (key0 : Key).
Variables (model_fn : X -> tree (arr R) -> res (arr R)) (ad_jvp ad_vjp : X -> tree (arr R) -> res (tree (arr R))).
Variables (mean : tree (arr R)) (ps : posterior_state R) (key : option Key) (kw : kwargs).
Variables (x : X) (out : arr R) (J Sg S : nat -> nat -> R) (N : nat).
Hypotheses (split_size : forall k n, size (split k n) = n) (normal_size : forall k s, size (normal k s) = prodn s).
Hypotheses (N0 : (0 < N)%N) (Wo : wf_arr out) (M : model_fn x mean = Ok out).
Hypotheses (n0 : (0 < prodn (ashape out))%N) (HJ : is_jacobian J mean out (ad_jvp x) (ad_vjp x)).
Hypotheses (HS : acts_as Sg mean mean (ps_cov_mv ps)) (Hsc : acts_as S mean mean (ps_scale_mv ps)).

Lemma lin_ds : exists g eps smp, let ds := DistState ps N (Some ad_jvp) (Some (pf_vjp model_fn ad_vjp mean)) (Some g) in
  [/\ get_dist_state split normal key0 model_fn ad_jvp ad_vjp mean ps true N key kw = Ok ds,
      (forall i, (i < N)%N -> randn_like split normal (nth key0 (split (odflt key0 key) N) i) mean = Ok (eps i)),
      sample_report (get_size mean) N out J S eps smp,
      ok_next ad_jvp x out ds kw smp [::] SSamples &
      exists aux', lin_setup ds x kw (results0 out) (aux0 R) = Ok (results0 out, aux') /\
         inv model_fn ad_jvp ad_vjp mean x out J Sg ps smp [::] (results0 out) aux'].
Proof.
have [g [eps [Eg Hg]]] : exists g eps, set_get_weight_sample split normal key0 key (zeros_like mean) (ps_scale_mv ps) N kw = Ok g /\
    forall i, (i < N)%N -> exists w,
      [/\ randn_like split normal (nth key0 (split (odflt key0 key) N) i) mean = Ok (eps i), same_layout mean (eps i), wf_tree (eps i)
        & [/\ g i = Ok w, same_layout mean w, wf_tree w &
           entries w = [seq p.1 + p.2 | p <- zip (entries (zeros_like mean)) (matvec S (nentries mean) (nentries mean) (entries (eps i)))]]].
  apply: weight_samples => //.
  - rewrite /wf_tree /zeros_like leaves_tmap; elim: (leaves mean) => //= a l ->.
    by rewrite /wf_arr /= size_nseq eqxx.
  - by split; rewrite /zeros_like ?treedef_tmap // leaves_tmap -map_comp.
pose n := nentries mean.
pose ws i := matvec S n n (entries (eps i)).
have Hg' i : (i < N)%N -> exists w, [/\ g i = Ok w, same_layout mean w, wf_tree w & entries w = ws i].
  move=> Hi; have [w [_ _ _ [E1 E2 E3 E4]]] := Hg i Hi; exists w; split=> //.
  have Ez : entries (zeros_like mean) = nseq n 0.
    rewrite /entries /zeros_like leaves_tmap -map_comp /n /nentries.
    by elim: (leaves mean) => //= a l ->; rewrite nseqD.
  rewrite E4 Ez; apply: (@eq_from_nth _ 0); first by rewrite size_map size_zip size_nseq size_mkseq minnn.
  rewrite size_map size_zip size_nseq size_mkseq minnn => k Hk.
  by rewrite nth_zip_add ?size_nseq ?size_mkseq // nth_nseq Hk add0r.
have [smp [El Ss Ws Hs]] := lin_loopP (kw_batch kw) N0 Hg' Wo HJ.1.
exists g, eps, smp; split=> //.
- by rewrite /get_dist_state N0 Eg.
- by move=> i Hi; have [w []] := Hg i Hi.
- split=> // i j Hi Hj; rewrite Hs // get_sizeE; congr (_ + _); apply: eq_big_nat => p /andP [_ Hp].
  by rewrite /ws nth_mkseq.
- exact: inv_setup.
Qed.

Lemma lin_order_ok ds smp (ops : seq lin_stat) :
  (size (ashape out) <= 1)%N \/ no_var_after_cov ops ->
  (SSamples \in ops -> ok_next ad_jvp x out ds kw smp [::] SSamples) ->
  forall l1 o l2, ops = l1 ++ o :: l2 -> ok_next ad_jvp x out ds kw smp ([::] ++ l1) o.
Proof.
move=> Ho Hs l1 o l2 Eo; case: o Eo => //= Eo.
+ by case: Ho => Ho; [left | right; apply: (order_cases Eo Ho)].
+ by case: Ho => Ho; [left | right; apply: (order_cases Eo Ho)].
+ by apply: Hs; rewrite Eo mem_cat inE eqxx orbT.
Qed.
End LinDs.

Theorem C40_lin_samples :
  forall (R : rcfType) (X Key : Type) split normal key0 (model_fn : X -> tree (arr R) -> res (arr R))
    ad_jvp ad_vjp (mean : tree (arr R)) ps (key : option Key) kw (ops : seq lin_stat)
    (x : X) (out : arr R) (J Sg S : nat -> nat -> R) (N : nat),
  (forall k n, size (split k n) = n) -> (forall k s, size (normal k s) = prodn s) ->
  kw_num_samples kw = Some N -> (0 < N)%N -> wf_arr out ->
  model_fn x mean = Ok out -> (0 < prodn (ashape out))%N ->
  is_jacobian J mean out (ad_jvp x) (ad_vjp x) -> acts_as Sg mean mean (ps_cov_mv ps) ->
  acts_as S mean mean (ps_scale_mv ps) ->
  (size (ashape out) <= 1)%N \/ no_var_after_cov ops ->
  exists predict r eps,
    [/\ set_lin_pushforward split normal key0 model_fn ad_jvp ad_vjp mean ps key
          (@lin_setup R X :: [seq stat_fn o | o <- ops]) kw = Ok predict,
        predict x = Ok r, lin_report (get_size mean) out J Sg ops r,
        (forall i, (i < N)%N -> randn_like split normal (nth key0 (split (odflt key0 key) N) i) mean = Ok (eps i)) &
        if SSamples \in ops then
          exists2 a, r_samples r = Some a & sample_report (get_size mean) N out J S eps a
        else r_samples r = None].
Proof.
move=> R X Key split normal key0 model_fn ad_jvp ad_vjp mean ps key kw ops x out J Sg S N
  Hsplit Hnormal HN N0 Wo M n0 HJ HS Hsc Ho.
have [g [eps [smp [Eds Heps Hsmp Hok [aux' [E I]]]]]] :=
  lin_ds key0 model_fn key kw Sg Hsplit Hnormal N0 Wo HJ Hsc.
rewrite /set_lin_pushforward HN /= Eds /=; set ds := DistState _ _ _ _ _ in Eds E Hok *.
have [|r' [aux2 [E2 I2]]] := inv_run M HJ HS n0 (ds := ds) (kw := kw) (ops := ops) I.
  exact: lin_order_ok.
exists (set_prob_predictive model_fn mean ds (@lin_setup R X :: [seq stat_fn o | o <- ops]) kw), r', eps; split=> //.
- rewrite /set_prob_predictive M /= (finalize_cons _ E) -map_comp; exact: E2.
- by rewrite get_sizeE; apply: inv_report I2.
- have := i_smp I2; rewrite /=; case: ifP => // _ Es; exists smp; [exact: Es | exact: Hsmp].
Qed.
Print Assumptions C40_lin_samples.

(** The samples' covariance is the reported covariance: [(J S) (J S)^T = J Sg J^T]. *)
Theorem C40_sample_covariance :
  forall (R : rcfType) (n : nat) (J Sg S : nat -> nat -> R) a b, is_sqrt_of n S Sg ->
  cov_entry n J Sg J a b =
  \sum_(0 <= k < n) (\sum_(0 <= p < n) J a p * S p k) * (\sum_(0 <= q < n) J b q * S q k).
Proof. by move=> R n J Sg S a b; apply: cov_entry_sqrt. Qed.
Print Assumptions C40_sample_covariance.

(** The default list needs [num_samples > 0]: with its default 0 it ends in a KeyError. *)
Theorem C40_default_list_refuted :
  forall (R : rcfType) (X Key : Type) split normal key0 (model_fn : X -> tree (arr R) -> res (arr R))
    ad_jvp ad_vjp (mean : tree (arr R)) ps (key : option Key) kw
    (x : X) (out : arr R) (J Sg : nat -> nat -> R),
  odflt 0%N (kw_num_samples kw) = 0%N ->
  model_fn x mean = Ok out -> (0 < prodn (ashape out))%N ->
  is_jacobian J mean out (ad_jvp x) (ad_vjp x) -> acts_as Sg mean mean (ps_cov_mv ps) ->
  (size (ashape out) <= 1)%N ->
  exists predict,
    set_lin_pushforward split normal key0 model_fn ad_jvp ad_vjp mean ps key
      (@DEFAULT_LIN_FINALIZE_FNS R X) kw = Ok predict /\ predict x = Raise KeyError.
Proof.
move=> R X Key split normal key0 model_fn ad_jvp ad_vjp mean ps key kw x out J Sg N0 M n0 HJ HS H1.
rewrite /set_lin_pushforward N0 /=; eexists; split; first by [].
set ds := DistState _ _ _ _ _.
have [aux' [E I]] := @inv_setup R X model_fn ad_jvp ad_vjp mean x out J Sg ps ds kw out (results0 out) (aux0 R)
   erefl erefl erefl erefl.
rewrite /set_prob_predictive M /DEFAULT_LIN_FINALIZE_FNS /= (finalize_cons _ E).
have [|r' [aux2 [E2 I2]]] := inv_run_app M HJ HS n0 (ds := ds) (kw := kw)
   (ops := [:: SMean; SCov; SVar; SStd]) [:: @lin_samples R X ds x kw] I.
  by apply: lin_order_ok => //; left.
rewrite [LHS]E2; apply: finalize_raise.
by rewrite /lin_samples (i_ajac I2).
Qed.
Print Assumptions C40_default_list_refuted.

(** ... and for predictions with several axes it always ends in a ValueError. *)
Theorem C40_default_list_axes_refuted :
  forall (R : rcfType) (X Key : Type) split normal key0 (model_fn : X -> tree (arr R) -> res (arr R))
    ad_jvp ad_vjp (mean : tree (arr R)) ps (key : option Key) kw
    (x : X) (out : arr R) (J Sg S : nat -> nat -> R) N,
  (forall k n, size (split k n) = n) -> (forall k s, size (normal k s) = prodn s) ->
  kw_num_samples kw = Some N -> (0 < N)%N -> wf_arr out ->
  model_fn x mean = Ok out -> (0 < prodn (ashape out))%N ->
  is_jacobian J mean out (ad_jvp x) (ad_vjp x) -> acts_as Sg mean mean (ps_cov_mv ps) ->
  acts_as S mean mean (ps_scale_mv ps) ->
  (2 <= size (ashape out))%N ->
  exists predict,
    set_lin_pushforward split normal key0 model_fn ad_jvp ad_vjp mean ps key
      (@DEFAULT_LIN_FINALIZE_FNS R X) kw = Ok predict /\ predict x = Raise ValueError.
Proof.
move=> R X Key split normal key0 model_fn ad_jvp ad_vjp mean ps key kw x out J Sg S N
  Hsplit Hnormal HN N0 Wo M n0 HJ HS Hsc H2.
have [g [eps [smp [Eds Heps Hsmp Hok [aux' [E I]]]]]] :=
  lin_ds key0 model_fn key kw Sg Hsplit Hnormal N0 Wo HJ Hsc.
rewrite /set_lin_pushforward HN /= Eds /=; set ds := DistState _ _ _ _ _ in Eds E Hok *.
eexists; split; first by [].
rewrite /set_prob_predictive M /DEFAULT_LIN_FINALIZE_FNS /= (finalize_cons _ E).
exact: (var_after_cov_fails M HJ HS n0 (ops := [:: SMean; SCov; SVar; SStd; SSamples]) I).
Qed.
Print Assumptions C40_default_list_axes_refuted.

(** Execution options are invisible: batch sizes and precomputation do not change the samples. *)
Theorem C40_options_invisible :
  forall (R : rcfType) (X Key : Type) split normal key0 (model_fn : X -> tree (arr R) -> res (arr R))
    ad_jvp ad_vjp (mean : tree (arr R)) ps (key : option Key) kw kw' (x : X) (out : arr R)
    (J Sg S : nat -> nat -> R) (N : nat),
  (forall k n, size (split k n) = n) -> (forall k s, size (normal k s) = prodn s) ->
  kw_num_samples kw = Some N -> kw_num_samples kw' = Some N -> (0 < N)%N -> wf_arr out ->
  model_fn x mean = Ok out -> (0 < prodn (ashape out))%N ->
  is_jacobian J mean out (ad_jvp x) (ad_vjp x) -> acts_as Sg mean mean (ps_cov_mv ps) ->
  acts_as S mean mean (ps_scale_mv ps) ->
  let run k := let! predict := set_lin_pushforward split normal key0 model_fn ad_jvp ad_vjp mean ps key
                                 [:: @lin_setup R X; @lin_samples R X] k in
               let! r := predict x in Ok (r_samples r) in
  exists a, run kw = Ok (Some a) /\ run kw' = Ok (Some a).
Proof.
move=> R X Key split normal key0 model_fn ad_jvp ad_vjp mean ps key kw kw' x out J Sg S N
  Hsplit Hnormal HN HN' N0 Wo M n0 HJ HS Hsc run.
have Ho : no_var_after_cov [:: SSamples] by move=> [|? [|? ?]].
have [f [r [e [E1 E2 _ E3 [a Ea Ha]]]]] :=
  C40_lin_samples key0 key Hsplit Hnormal HN N0 Wo M n0 HJ HS Hsc (or_intror Ho).
have [f' [r' [e' [E1' E2' _ E3' [a' Ea' Ha']]]]] :=
  C40_lin_samples key0 key Hsplit Hnormal HN' N0 Wo M n0 HJ HS Hsc (or_intror Ho).
exists a; rewrite /run [X in bind X _]E1 [X in _ /\ bind X _ = _]E1' /= E2 E2' /= Ea Ea'; split=> //.
congr (Ok (Some _)); case: a a' Ha Ha' {Ea Ea'} => [s d] [s' d'] [/= -> W H] [/= -> W' H']; congr Arr.
move: W W'; rewrite /wf_arr /= => /eqP W /eqP W'; apply: (@eq_from_nth _ 0); rewrite ?W ?W' // => k Hk.
have k0 : (0 < prodn (ashape out))%N by [].
rewrite (divn_eq k (prodn (ashape out))) H' ?H ?ltn_mod ?ltn_divLR //.
have Hi : (k %/ prodn (ashape out) < N)%N by rewrite ltn_divLR.
have Ee : e (k %/ prodn (ashape out))%N = e' (k %/ prodn (ashape out))%N.
  by have := E3 _ Hi; rewrite E3' // => -[].
by rewrite Ee.
Qed.
Print Assumptions C40_options_invisible.

(** Monte-Carlo class probabilities: the average over the samples of their softmaxes; a point of the
    open simplex. *)
Theorem C40_mc_pred_act :
  forall (R : rcfType) (X Key : Type) split normal key0 (model_fn : X -> tree (arr R) -> res (arr R))
    ad_jvp ad_vjp (mean : tree (arr R)) ps (key : option Key) kw (ops : seq lin_stat) expf
    (x : X) (out : arr R) (J Sg S : nat -> nat -> R) (N k : nat),
  (forall k n, size (split k n) = n) -> (forall k s, size (normal k s) = prodn s) ->
  kw_num_samples kw = Some N -> (0 < N)%N -> wf_arr out ->
  model_fn x mean = Ok out -> ashape out = [:: k] -> (0 < k)%N ->
  is_jacobian J mean out (ad_jvp x) (ad_vjp x) -> acts_as Sg mean mean (ps_cov_mv ps) ->
  acts_as S mean mean (ps_scale_mv ps) -> (forall y, 0 < expf y) ->
  exists predict r eps a m,
    [/\ set_lin_pushforward split normal key0 model_fn ad_jvp ad_vjp mean ps key
          (@lin_setup R X :: [seq stat_fn o | o <- ops] ++ [:: @lin_mc_pred_act R X expf]) kw = Ok predict,
        predict x = Ok r, lin_report (get_size mean) out J Sg (rcons ops SSamples) r,
        (forall i, (i < N)%N -> randn_like split normal (nth key0 (split (odflt key0 key) N) i) mean = Ok (eps i)) /\
        r_samples r = Some a /\ sample_report (get_size mean) N out J S eps a &
        r_mc_pred_act r = Some (Arr [:: k] [seq m j | j <- iota 0 k]) /\
        [/\ (forall j, m j = (\sum_(0 <= i < N) expf (nth 0 (adata a) (i * k + j)) /
                               \sum_(0 <= l < k) expf (nth 0 (adata a) (i * k + l))) / N%:R),
            (forall j, (j < k)%N -> 0 < m j) & \sum_(0 <= j < k) m j = 1]].
Proof.
move=> R X Key split normal key0 model_fn ad_jvp ad_vjp mean ps key kw ops expf x out J Sg S N k
  Hsplit Hnormal HN N0 Wo M Hk k0 HJ HS Hsc He.
have n0 : (0 < prodn (ashape out))%N by rewrite Hk /= muln1.
have [g [eps [smp [Eds Heps Hsmp Hok [aux' [E I]]]]]] :=
  lin_ds key0 model_fn key kw Sg Hsplit Hnormal N0 Wo HJ Hsc.
rewrite /set_lin_pushforward HN /= Eds /=; set ds := DistState _ _ _ _ _ in Eds E Hok *.
have [|r1 [aux1 [E1 I1]]] := inv_run_app M HJ HS n0 (ds := ds) (kw := kw) (ops := ops)
    [:: @lin_mc_pred_act R X expf ds x kw] I.
  by apply: lin_order_ok => //; left; rewrite Hk.
have Wsmp : wf_arr smp by case: Hsmp.
have Ssmp : ashape smp = [:: N; k] by case: Hsmp => ->; rewrite Hk.
pose m j := (\sum_(0 <= i < N) expf (nth 0 (adata smp) (i * k + j)) /
              \sum_(0 <= l < k) expf (nth 0 (adata smp) (i * k + l))) / N%:R.
have Hmc : mc_average expf smp = Ok (Arr [:: k] [seq m j | j <- iota 0 k]).
  exact: mc_averageP.
have [r2 [E2 F0 F1 F2]] : exists r2, [/\ finalize_fns [:: @lin_mc_pred_act R X expf ds x kw] r1 aux1 = Ok r2,
    lin_report (get_size mean) out J Sg (rcons ops SSamples) r2, r_samples r2 = Some smp & r_mc_pred_act r2 = Some (Arr [:: k] [seq m j | j <- iota 0 k])].
  rewrite /finalize_fns /lin_mc_pred_act (i_smp I1) /=; case: ifP => Hin.
    exists (set_mc_pred_act (Arr [:: k] [seq m j | j <- iota 0 k]) r1).
    rewrite /= (i_smp I1) /= Hin /= Hmc; split=> //=.
    have [L1 L2 L3 L4 L5] := inv_report I1; rewrite get_sizeE; split; rewrite ?mem_rcons ?inE //=.
    by rewrite L2; case: (ops) Hin.
  have [r3 [aux3 [E3 I3]]] := inv_step M HJ HS n0 (ds := ds) (kw := kw) (o := SSamples) I1 Hok.
  exists (set_mc_pred_act (Arr [:: k] [seq m j | j <- iota 0 k]) r3).
  move: E3 => /= -> /=; rewrite (i_smp I3) mem_rcons inE eqxx /= Hmc /=; split=> //.
  by rewrite get_sizeE; have [L1 L2 L3 L4 L5] := inv_report I3.
exists (set_prob_predictive model_fn mean ds
   (@lin_setup R X :: [seq stat_fn o | o <- ops] ++ [:: @lin_mc_pred_act R X expf]) kw), r2, eps, smp, m; split=> //.
- rewrite /set_prob_predictive M /= (finalize_cons _ E) map_cat -map_comp; rewrite -E2; exact: E1.
- have [H1 H2] := softmax_mean_simplex (fun i j => nth 0 (adata smp) (i * k + j)) He N0 k0.
  by split.
Qed.
Print Assumptions C40_mc_pred_act.

Definition ones_normal (R : rcfType) (_ : unit) (s : seq nat) : seq R := nseq (prodn s) 1.
Lemma ones_normal_size (R : rcfType) k s : size (ones_normal R k s) = prodn s.
Proof. by rewrite size_nseq. Qed.
Lemma nseq_split_size (k : unit) n : size (nseq n k) = n. Proof. by rewrite size_nseq. Qed.
Lemma ident_sqrt (R : rcfType) n : is_sqrt_of n (@ident R) (@ident R).
Proof.
move=> i j Hi Hj; rewrite (eq_bigr (fun k => if k == i then ident R i j else 0)); first by rewrite sum_delta.
move=> k _; rewrite /ident [i == k]eq_sym; case: eqP => [->|_]; last by rewrite mul0r.
by rewrite mul1r [j == i]eq_sym.
Qed.
(** Non-vacuity of C40, with draws that are all ones: the default list and the MC probabilities. *)
Example C40_example (R : rcfType) :
  let out := Arr [:: 2%N] [:: 3%:R; 4%:R : R] in
  let ps := PosteriorState (fun u => Ok u) (fun u : tree (arr R) => Ok u) in
  exists predict r eps a,
    [/\ set_lin_pushforward (fun (k : unit) n => nseq n k) (ones_normal R) tt
          (fun (_ : unit) p => Ok out) (fun _ u => Ok u) (fun _ u => Ok u) (Leaf out) ps None
          (@DEFAULT_LIN_FINALIZE_FNS R unit) (kw0 (Some 3%N)) = Ok predict,
        predict tt = Ok r, r_samples r = Some a & sample_report 2 3 out (@ident R) (@ident R) eps a].
Proof.
move=> out ps.
have [f [r [eps [E1 E2 _ _ [a Ea Ha]]]]] := @C40_lin_samples R unit unit (fun k n => nseq n k) (ones_normal R) tt
  (fun _ p => Ok out) (fun _ u => Ok u) (fun _ u => Ok u)
  (Leaf out) ps None (kw0 (Some 3%N))
  [:: SMean; SCov; SVar; SStd; SSamples] tt _ (@ident R) (@ident R) (@ident R) 3
  nseq_split_size (@ones_normal_size R) erefl isT (eqxx _ : wf_arr out) erefl isT (@is_jacobian_ident R _)
  (@acts_as_ident R _) (@acts_as_ident R _) (or_introl isT).
by exists f, r, eps, a.
Qed.
Example C40_mc_example (R : rcfType) :
  let out := Arr [:: 2%N] [:: 3%:R; 4%:R : R] in
  let ps := PosteriorState (fun u => Ok u) (fun u : tree (arr R) => Ok u) in
  exists predict r m,
    [/\ set_lin_pushforward (fun (k : unit) n => nseq n k) (ones_normal R) tt
          (fun (_ : unit) p => Ok out) (fun _ u => Ok u) (fun _ u => Ok u) (Leaf out) ps None
          [:: @lin_setup R unit; @lin_mc_pred_act R unit (fun x => 1 + x ^+ 2)] (kw0 (Some 3%N)) = Ok predict,
        predict tt = Ok r, r_mc_pred_act r = Some (Arr [:: 2%N] [:: m 0%N; m 1%N]) & m 0%N + m 1%N = 1].
Proof.
move=> out ps.
have [|f [r [eps [a [m [E1 E2 _ _ [E3 [_ _ E4]]]]]]]] := @C40_mc_pred_act R unit unit (fun k n => nseq n k) (ones_normal R) tt
  (fun _ p => Ok out) (fun _ u => Ok u) (fun _ u => Ok u)
  (Leaf out) ps None (kw0 (Some 3%N)) [::] (fun x => 1 + x ^+ 2)
  tt _ (@ident R) (@ident R) (@ident R) 3 2
  nseq_split_size (@ones_normal_size R) erefl isT (eqxx _ : wf_arr out) erefl erefl isT (@is_jacobian_ident R _)
  (@acts_as_ident R _) (@acts_as_ident R _).
  by move=> y; rewrite ltr_paddr ?sqr_ge0 // ltr01.
exists f, r, m; split=> //.
by rewrite -E4 /index_iota /= !big_cons big_nil addr0.
Qed.

(** C41.  Ensemble statistics.  [pred i] is the model evaluated at the [i]-th weight sample
    [mean + S eps_i]. *)
Definition ens_report (R : rcfType) (N : nat) (s : seq nat) (pred : nat -> arr R) (ops : seq ens_stat)
    (r : results R) : Prop :=
  let k := prodn s in
  let P i j := nth 0 (adata (pred i)) j in
  [/\ r_pred_mean r = (if EMean \in ops then Some (Arr s [seq avg N P j | j <- iota 0 k]) else None),
      r_pred_cov r = (if ECov \in ops then
        Some (Arr (if k == 1%N then [::] else [:: k; k])
                  [seq codev N P (ij %/ k) (ij %% k) / (N.-1)%:R | ij <- iota 0 (k * k)]) else None),
      r_pred_var r = omap (fun d => Arr s [seq codev N P j j / d%:R | j <- iota 0 k]) (var_divisor N ops),
      r_pred_std r = omap (fun d => Arr s [seq Num.sqrt (codev N P j j / d%:R) | j <- iota 0 k]) (std_divisor N ops) &
      r_samples r = (if ESamples \in ops then
        Some (Arr (minn 5 N :: s) (flatten [seq adata (pred i) | i <- iota 0 (minn 5 N)])) else None)].
(** [pred] are the predictions of [f] at the weight samples. *)
Definition ens_members (R : rcfType) (Key : Type) split normal (key0 key : Key) (N : nat) (mean : tree (arr R))
    (S : nat -> nat -> R) (f : tree (arr R) -> arr R) (pred : nat -> arr R) : Prop :=
  forall i, (i < N)%N -> exists eps w,
    [/\ randn_like split normal (nth key0 (split key N) i) mean = Ok eps, same_layout mean w, wf_tree w,
        (forall p, (p < get_size mean)%N -> nth 0 (entries w) p =
           nth 0 (entries mean) p + \sum_(0 <= q < get_size mean) S p q * nth 0 (entries eps) q) &
        pred i = f w].

Section EnsDs.
Variables (R : rcfType) (X Key : Type) (split : Key -> nat -> seq Key) (normal : Key -> seq nat -> seq R) (key0 key : Key).
Variables (model_fn : X -> tree (arr R) -> res (arr R)) (ad_jvp ad_vjp : X -> tree (arr R) -> res (tree (arr R))).
Variables (mean : tree (arr R)) (ps : posterior_state R) (kw : kwargs).
Variables (x : X) (f : tree (arr R) -> arr R) (s : seq nat) (S : nat -> nat -> R) (N : nat).
Hypotheses (split_size : forall k n, size (split k n) = n) (normal_size : forall k s, size (normal k s) = prodn s).
Hypotheses (N0 : (0 < N)%N) (Wm : wf_tree mean).
Hypothesis (M : forall w, wf_tree w -> same_layout mean w -> [/\ model_fn x w = Ok (f w), ashape (f w) = s & wf_arr (f w)]).
Hypothesis (Hsc : acts_as S mean mean (ps_scale_mv ps)).

Lemma ens_ds : exists g pred, let ds := DistState (X := X) ps N None None (Some g) in
  [/\ get_dist_state split normal key0 model_fn ad_jvp ad_vjp mean ps false N (Some key) kw = Ok ds,
      ens_members split normal key0 key N mean S f pred,
      (forall i, (i < N)%N -> size (adata (pred i)) = prodn s) &
      forall kw', exists aux, nonlin_setup model_fn ds x kw' (results0 (f mean)) (aux0 R) = Ok (results0 (f mean), aux) /\
        einv N s pred (f mean) [::] (results0 (f mean)) aux].
Proof.
have [g [eps [Eg Hg]]] := weight_samples key0 split_size normal_size (Some key) kw N0 Wm (same_layout_refl mean) Hsc.
pose wv i := match g i with Ok w => w | Raise _ => mean end.
have Hw i : (i < N)%N -> [/\ g i = Ok (wv i), same_layout mean (wv i), wf_tree (wv i) &
    entries (wv i) = [seq p.1 + p.2 | p <- zip (entries mean) (matvec S (nentries mean) (nentries mean) (entries (eps i)))]].
  by move=> Hi; have [w [_ _ _ [E1 E2 E3 E4]]] := Hg i Hi; rewrite /wv E1.
exists g, (fun i => f (wv i)).
have Hp i : (i < N)%N -> ashape (f (wv i)) = s /\ wf_arr (f (wv i)).
  by move=> Hi; have [_ S1 W1 _] := Hw i Hi; have [_ H2 H3] := M W1 S1.
split=> //.
- by rewrite /get_dist_state N0 Eg.
- move=> i Hi; have [w [E0 _ _ _]] := Hg i Hi; have [E1 E2 E3 E4] := Hw i Hi.
  exists (eps i), (wv i); split=> // p; rewrite get_sizeE => Hp'.
  by rewrite E4 nth_zip_add ?size_mkseq ?size_entries // nth_mkseq.
- by move=> i Hi; have [E1 /eqP E2] := Hp i Hi; rewrite E2 E1.
- move=> kw'; rewrite /nonlin_setup /=.
  have E := @ens_loopP R mean N (fun i => entries (wv i)) g (kw_batch kw') N0 _ (model_fn x) (fun i => f (wv i)) s.
  move: E => /(_ _ _ _) E.
  have E' : (let! outs := lax_map (fun i => let! w := g i in let! p := model_fn x w in Ok (Leaf p)) (kw_batch kw') (iota 0 N) in
     let! st := stack_trees outs in as_array st) = Ok (Arr (N :: s) (flatten [seq adata (f (wv i)) | i <- iota 0 N])).
    apply: E => //.
    + by move=> i Hi; have [E1 E2 E3 _] := Hw i Hi; exists (wv i).
    + by move=> i w Hi; have [-> E2 E3 _] := Hw i Hi => -[<-]; have [] := M E3 E2.
  move: E'; case: (lax_map _ _ _) => [outs|e] //=; case: (stack_trees outs) => [st|e] //= ->.
  by eexists; split.
Qed.
End EnsDs.

Theorem C41_ensemble_statistics :
  forall (R : rcfType) (X Key : Type) split normal (key0 key : Key) (model_fn : X -> tree (arr R) -> res (arr R))
    ad_jvp ad_vjp (mean : tree (arr R)) ps kw num_samples (ops : seq ens_stat)
    (x : X) (f : tree (arr R) -> arr R) (s : seq nat) (S : nat -> nat -> R),
  let N := odflt 100%N num_samples in
  (forall k n, size (split k n) = n) -> (forall k s, size (normal k s) = prodn s) ->
  (0 < N)%N -> (ECov \in ops -> (1 < N)%N) -> wf_tree mean ->
  (forall w, wf_tree w -> same_layout mean w -> [/\ model_fn x w = Ok (f w), ashape (f w) = s & wf_arr (f w)]) ->
  acts_as S mean mean (ps_scale_mv ps) ->
  exists predict r pred,
    [/\ set_nonlin_pushforward split normal key0 model_fn ad_jvp ad_vjp mean ps key num_samples
          (nonlin_setup model_fn :: [seq @ens_fn R X o | o <- ops]) kw = Ok predict,
        predict x = Ok r, r_map r = f mean,
        ens_members split normal key0 key N mean S f pred & ens_report N s pred ops r].
Proof.
move=> R X Key split normal key0 key model_fn ad_jvp ad_vjp mean ps kw num_samples ops x f s S N
  Hsplit Hnormal N0 N1 Wm M Hsc.
have [g [pred [Eds Hm Hp Hset]]] := ens_ds key0 key ad_jvp ad_vjp kw Hsplit Hnormal N0 Wm M Hsc.
rewrite /set_nonlin_pushforward -/N Eds /=; set ds := DistState _ _ _ _ _ in Eds Hset *.
set kw' := Kwargs _ _ _ _ _ _.
have [aux [Es I]] := Hset kw'.
have [r [E I']] := @einv_run_app R X N s pred (f mean) Hp [::] ops [::] _ _ ds x kw' I erefl N1.
exists (set_prob_predictive model_fn mean ds (nonlin_setup model_fn :: [seq @ens_fn R X o | o <- ops]) kw'), r, pred.
have [Mm _ _] := M mean Wm (same_layout_refl _).
split=> //.
- rewrite /set_prob_predictive Mm /= (finalize_cons _ Es) -map_comp; move: E; rewrite cats0; exact.
- exact: (e_map I').
- by split; [exact: (e_imean I') | exact: (e_icov I') | exact: (e_ivar I') | exact: (e_istd I') | exact: (e_ismp I')].
Qed.
Print Assumptions C41_ensemble_statistics.

(** "The variance is the diagonal of the covariance" holds when it is requested after the covariance
    (as in the default list), and fails when it is requested before: the two differ by [N / (N-1)]. *)
Theorem C41_order_dependence_refuted :
  forall (R : rcfType) (N : nat) (P : nat -> nat -> R) (j : nat), (1 < N)%N ->
  [/\ var_divisor N [:: ECov; EVar] = Some N.-1, var_divisor N [:: EVar; ECov] = Some N &
      codev N P j j / (N.-1)%:R = codev N P j j / N%:R * (N%:R / (N.-1)%:R) /\
      ((codev N P j j / (N.-1)%:R == codev N P j j / N%:R) = (codev N P j j == 0))].
Proof.
move=> R N P j; case: N => [|[|N]] // _; set n := N.+2; split=> //.
have n0 : n%:R != 0 :> R by rewrite pnatr_eq0.
have m0 : N.+1%:R != 0 :> R by rewrite pnatr_eq0.
rewrite -mulrA mulKf //; split=> //.
apply/eqP/eqP => [H|->]; last by rewrite !mul0r.
have : codev n P j j * n%:R = codev n P j j * N.+1%:R.
  by rewrite -[in LHS](divfK m0 (codev n P j j)) H mulrAC divfK.
move/eqP; rewrite -subr_eq0 -mulrBr mulf_eq0 => /orP [/eqP //|].
by rewrite /n (mulrS 1 N.+1) addrK oner_eq0.
Qed.
Print Assumptions C41_order_dependence_refuted.

(** Divisors never exceed the ensemble: any list asking for a variance divides by [N] or [N - 1], and
    by [N] if no covariance was asked for. *)
Theorem C41_divisor_cases :
  forall (N : nat) (ops : seq ens_stat),
  (EVar \in ops = (var_divisor N ops != None)) /\ (EStd \in ops = (std_divisor N ops != None)) /\
  (forall d, var_divisor N ops = Some d \/ std_divisor N ops = Some d -> d = N \/ d = N.-1 /\ ECov \in ops).
Proof.
move=> N ops; rewrite /var_divisor /std_divisor.
elim/last_ind: ops => [|ops o]; first by split=> //; split=> // d [].
rewrite /divisors foldl_rcons !mem_rcons !inE.
have Hc : forall l, (foldl (divisor_step N) (false, None, None) l).1.1 = (ECov \in l).
  elim/last_ind=> // l o'; rewrite foldl_rcons mem_rcons inE.
  by case: (foldl _ _ l) => [[c dv] ds] /= ->; case: o' => //=.
have := Hc ops; case: (foldl _ _ ops) => [[c dv] ds] /= -> [H1 [H2 H3]].
case: o => /=; rewrite ?H1 ?H2 /=; split=> //; split=> // d.
- by move=> /H3 [->|[->]]; [left | right].
- case=> [[<-]|E]; last by apply: H3; right.
  by case: ifP => Hin; [right | left].
- case=> E; first by apply: H3; left.
  case: dv E H3 {H1} => [e|] /= [<-] H3; last by left.
  by apply: H3; left.
Qed.
Print Assumptions C41_divisor_cases.

(** "[num_samples] samples are returned" is false for more than five. *)
Theorem C41_samples_truncated_refuted :
  forall (R : rcfType) (N : nat) (s : seq nat) (pred : nat -> arr R) ops r,
  (5 < N)%N -> ESamples \in ops -> ens_report N s pred ops r ->
  exists a, r_samples r = Some a /\ ashape a = 5%N :: s.
Proof.
move=> R N s pred ops r HN Hin [_ _ _ _ ->]; rewrite Hin; eexists; split; first by [].
by rewrite /= (minn_idPl (ltnW HN)).
Qed.
Print Assumptions C41_samples_truncated_refuted.

(** Monte-Carlo class probabilities of the ensemble: the average of the softmaxes of the first
    [min(5, N)] members only (and a point of the open simplex), whatever [num_samples] is. *)
Theorem C41_mc_pred_act :
  forall (R : rcfType) (X Key : Type) split normal (key0 key : Key) (model_fn : X -> tree (arr R) -> res (arr R))
    ad_jvp ad_vjp (mean : tree (arr R)) ps kw num_samples (ops : seq ens_stat) expf
    (x : X) (f : tree (arr R) -> arr R) (k : nat) (S : nat -> nat -> R),
  let N := odflt 100%N num_samples in
  (forall k n, size (split k n) = n) -> (forall k s, size (normal k s) = prodn s) ->
  (0 < N)%N -> (ECov \in ops -> (1 < N)%N) -> wf_tree mean -> (0 < k)%N -> (forall y, 0 < expf y) ->
  (forall w, wf_tree w -> same_layout mean w -> [/\ model_fn x w = Ok (f w), ashape (f w) = [:: k] & wf_arr (f w)]) ->
  acts_as S mean mean (ps_scale_mv ps) ->
  exists predict r pred m,
    [/\ set_nonlin_pushforward split normal key0 model_fn ad_jvp ad_vjp mean ps key num_samples
          (nonlin_setup model_fn :: [seq @ens_fn R X o | o <- ops] ++ [:: @nonlin_mc_pred_act R X expf]) kw = Ok predict,
        predict x = Ok r, ens_members split normal key0 key N mean S f pred,
        r_mc_pred_act r = Some (Arr [:: k] [seq m j | j <- iota 0 k]) &
        [/\ (forall j, (j < k)%N -> m j = (\sum_(0 <= i < minn 5 N) expf (nth 0 (adata (pred i)) j) /
                               \sum_(0 <= l < k) expf (nth 0 (adata (pred i)) l)) / (minn 5 N)%:R),
            (forall j, (j < k)%N -> 0 < m j) & \sum_(0 <= j < k) m j = 1]].
Proof.
move=> R X Key split normal key0 key model_fn ad_jvp ad_vjp mean ps kw num_samples ops expf x f k S N
  Hsplit Hnormal N0 N1 Wm k0 He M Hsc.
have [g [pred [Eds Hm Hp Hset]]] := ens_ds key0 key ad_jvp ad_vjp kw Hsplit Hnormal N0 Wm M Hsc.
rewrite /set_nonlin_pushforward -/N Eds /=; set ds := DistState _ _ _ _ _ in Eds Hset *.
set kw' := Kwargs _ _ _ _ _ _.
have [aux [Es I]] := Hset kw'.
have [r [E I']] := @einv_run_app R X N [:: k] pred (f mean) Hp [:: @nonlin_mc_pred_act R X expf ds x kw'] ops [::] _ _ ds x kw' I erefl N1.
rewrite cat0s in I'.
have Hp' i : (i < minn 5 N)%N -> size (adata (pred i)) = k.
  by move=> Hi; rewrite Hp ?(leq_trans Hi (geq_minr _ _)) //= muln1.
pose smp := e_samples N [:: k] pred; set m5 := minn 5 N in Hp' *.
have W : wf_arr smp.
  by rewrite /wf_arr /= muln1 (size_stacked (k := k)).
have Sm : ashape smp = [:: m5; k] by [].
pose m j := (\sum_(0 <= i < m5) expf (nth 0 (adata smp) (i * k + j)) /
              \sum_(0 <= l < k) expf (nth 0 (adata smp) (i * k + l))) / m5%:R.
have Hmc : mc_average expf smp = Ok (Arr [:: k] [seq m j | j <- iota 0 k]) by exact: mc_averageP.
have [r2 [E2 F2]] : exists r2, finalize_fns [:: @nonlin_mc_pred_act R X expf ds x kw'] r aux = Ok r2 /\
    r_mc_pred_act r2 = Some (Arr [:: k] [seq m j | j <- iota 0 k]).
  rewrite /finalize_fns /nonlin_mc_pred_act (e_ismp I') /=; case: ifP => Hin.
    exists (set_mc_pred_act (Arr [:: k] [seq m j | j <- iota 0 k]) r).
    by rewrite /= (e_ismp I') Hin /=; case: Hmc => ->.
  have [//|r3 [E3 I3]] := @einv_step R X N [:: k] pred (f mean) Hp ops r aux ESamples ds x kw' I' erefl.
  exists (set_mc_pred_act (Arr [:: k] [seq m j | j <- iota 0 k]) r3).
  by move: E3 => /= -> /=; rewrite (e_ismp I3) mem_rcons inE eqxx /=; case: Hmc => ->.
exists (set_prob_predictive model_fn mean ds (nonlin_setup model_fn :: [seq @ens_fn R X o | o <- ops] ++
   [:: @nonlin_mc_pred_act R X expf]) kw'), r2, pred, m.
have [Mm _ _] := M mean Wm (same_layout_refl _).
have m50 : (0 < m5)%N by rewrite leq_min N0.
split=> //.
- rewrite /set_prob_predictive Mm /= (finalize_cons _ Es) map_cat -map_comp; rewrite -E2; exact: E.
- have [H1 H2] := softmax_mean_simplex (fun i j => nth 0 (adata smp) (i * k + j)) He m50 k0.
  split=> // j Hj; rewrite /m; congr (_ / _); apply: eq_big_nat => i /andP [_ Hi].
  rewrite (stacked_member Hp') //; congr (_ / _); apply: eq_big_nat => l /andP [_ Hl].
  by rewrite (stacked_member Hp').
Qed.
Print Assumptions C41_mc_pred_act.

(** The closed-form predictives for an ensemble need a variance computed beforehand: the fallback
    looks for the linearised covariance and fails. *)
Theorem C41_special_fallback_refuted :
  forall (R : rcfType) (X Key : Type) split normal (key0 key : Key) (model_fn : X -> tree (arr R) -> res (arr R))
    ad_jvp ad_vjp (mean : tree (arr R)) ps kw num_samples vp cp pf
    (x : X) (f : tree (arr R) -> arr R) (s : seq nat) (S : nat -> nat -> R),
  let N := odflt 100%N num_samples in
  (forall k n, size (split k n) = n) -> (forall k s, size (normal k s) = prodn s) ->
  (0 < N)%N -> wf_tree mean ->
  (forall w, wf_tree w -> same_layout mean w -> [/\ model_fn x w = Ok (f w), ashape (f w) = s & wf_arr (f w)]) ->
  acts_as S mean mean (ps_scale_mv ps) ->
  vp (odflt "mean_field_0"%string (kw_special_pred_type kw)) = Some pf ->
  exists predict,
    set_nonlin_pushforward split normal key0 model_fn ad_jvp ad_vjp mean ps key num_samples
      [:: nonlin_setup model_fn; @nonlin_pred_mean R X; @nonlin_special_pred_act R X vp cp] kw = Ok predict /\
    predict x = Raise KeyError.
Proof.
move=> R X Key split normal key0 key model_fn ad_jvp ad_vjp mean ps kw num_samples vp cp pf x f s S N
  Hsplit Hnormal N0 Wm M Hsc Hvp.
have [g [pred [Eds Hm Hp Hset]]] := ens_ds key0 key ad_jvp ad_vjp kw Hsplit Hnormal N0 Wm M Hsc.
rewrite /set_nonlin_pushforward -/N Eds /=; set ds := DistState _ _ _ _ _ in Eds Hset *.
set kw' := Kwargs _ _ _ _ _ _.
have [aux [Es I]] := Hset kw'.
have [Mm _ _] := M mean Wm (same_layout_refl _).
eexists; split; first by [].
rewrite /set_prob_predictive Mm /= (finalize_cons _ Es).
have [//|r [E I']] := @einv_run_app R X N s pred (f mean) Hp [:: @nonlin_special_pred_act R X vp cp ds x kw'] [:: EMean] [::] _ _ ds x kw' I erefl.
rewrite [LHS]E; apply: finalize_raise.
rewrite /nonlin_special_pred_act /special_pred_act (e_imean I') /= (e_imean I') /= Hvp (e_ivar I') /=.
by rewrite /lin_pred_var (e_iacov I').
Qed.
Print Assumptions C41_special_fallback_refuted.

Lemma einv_idem (R : rcfType) N s (pred : nat -> arr R) out done r aux o :
  o \in [:: EMean; ECov] -> o \in done -> einv N s pred out done r aux -> einv N s pred out (rcons done o) r aux.
Proof.
move=> Ho Hd [A1 A2 A3 A4 A5 A6 A7 A8 A9 A10 A11].
have S1 : (EMean \in rcons done o) = (EMean \in done).
  by rewrite mem_rcons inE; case: eqP => // E; rewrite E Hd.
have S2 : (ECov \in rcons done o) = (ECov \in done).
  by rewrite mem_rcons inE; case: eqP => // E; rewrite E Hd.
have S3 : (ESamples \in rcons done o) = (ESamples \in done).
  by rewrite mem_rcons inE; move: Ho; rewrite !inE => /orP[] /eqP->.
have D : divisors N (rcons done o) = divisors N done.
  rewrite divisors_rcons; move: Ho Hd; rewrite !inE => /orP[] /eqP-> Hd; move: A4;
    case: (divisors N done) => [[c dv] dst] //= ->; by rewrite Hd.
by split=> //; rewrite /var_divisor /std_divisor ?D ?S1 ?S2 ?S3.
Qed.

(** The results [r] with the closed-form probabilities [p] added. *)
Definition special_added (R : rcfType) (p : arr R) (r : results R) : results R :=
  {| r_map := r_map r; r_pred_mean := r_pred_mean r; r_pred_cov := r_pred_cov r; r_pred_var := r_pred_var r;
     r_pred_std := r_pred_std r; r_samples := r_samples r; r_mc_pred_act := r_mc_pred_act r;
     r_special_pred_act := Some p |}.

(** The covariance-based closed form (["mean_field_2"]) for an ensemble: whatever was requested
    before, it receives the ensemble mean and the ensemble covariance, computing the missing ones. *)
Theorem C41_special_covariance :
  forall (R : rcfType) (X Key : Type) split normal (key0 key : Key) (model_fn : X -> tree (arr R) -> res (arr R))
    ad_jvp ad_vjp (mean : tree (arr R)) ps kw num_samples (ops : seq ens_stat) vp cp pf
    (x : X) (f : tree (arr R) -> arr R) (s : seq nat) (S : nat -> nat -> R),
  let N := odflt 100%N num_samples in
  let t := odflt "mean_field_0"%string (kw_special_pred_type kw) in
  (forall k n, size (split k n) = n) -> (forall k s, size (normal k s) = prodn s) ->
  (1 < N)%N -> wf_tree mean ->
  (forall w, wf_tree w -> same_layout mean w -> [/\ model_fn x w = Ok (f w), ashape (f w) = s & wf_arr (f w)]) ->
  acts_as S mean mean (ps_scale_mv ps) ->
  vp t = None -> cp t = Some pf ->
  exists predict r pred m c,
    [/\ set_nonlin_pushforward split normal key0 model_fn ad_jvp ad_vjp mean ps key num_samples
          (nonlin_setup model_fn :: [seq @ens_fn R X o | o <- ops] ++ [:: @nonlin_special_pred_act R X vp cp]) kw
          = Ok predict,
        ens_members split normal key0 key N mean S f pred,
        ens_report N s pred (ops ++ [:: EMean; ECov]) r,
        r_pred_mean r = Some m /\ r_pred_cov r = Some c &
        predict x = rmap (fun a => special_added a r) (pf m c)].
Proof.
move=> R X Key split normal key0 key model_fn ad_jvp ad_vjp mean ps kw num_samples ops vp cp pf x f s S N t
  Hsplit Hnormal N1 Wm M Hsc Hv Hc.
have N0 : (0 < N)%N by apply: ltn_trans N1.
have [g [pred [Eds Hm Hp Hset]]] := ens_ds key0 key ad_jvp ad_vjp kw Hsplit Hnormal N0 Wm M Hsc.
rewrite /set_nonlin_pushforward -/N Eds /=; set ds := DistState _ _ _ _ _ in Eds Hset *.
set kw' := Kwargs _ _ _ _ _ _.
have [aux [Es I]] := Hset kw'.
have [Mm _ _] := M mean Wm (same_layout_refl _).
have [//|r [E I']] := @einv_run_app R X N s pred (f mean) Hp [:: @nonlin_special_pred_act R X vp cp ds x kw'] ops [::] _ _ ds x kw' I erefl.
have [r1 [E1 I1]] : exists r1, (if r_pred_mean r is Some _ then Ok (r, aux) else @nonlin_pred_mean R X ds x kw' r aux) = Ok (r1, aux)
    /\ einv N s pred (f mean) (rcons ops EMean) r1 aux.
  rewrite (e_imean I') /=; case: ifP => Hin.
    by exists r; split=> //; apply: einv_idem.
  by have [//|r1 [E1 I1]] := @einv_step R X N s pred (f mean) Hp ops r aux EMean ds x kw' I' erefl; exists r1.
have [r2 [E2 I2]] : exists r2, (if r_pred_cov r1 is Some _ then Ok (r1, aux) else @nonlin_pred_cov R X ds x kw' r1 aux) = Ok (r2, aux)
    /\ einv N s pred (f mean) (rcons (rcons ops EMean) ECov) r2 aux.
  rewrite (e_icov I1) /=; case: ifP => Hin.
    by exists r1; split=> //; apply: einv_idem.
  by have [//|r2 [E2 I2]] := @einv_step R X N s pred (f mean) Hp (rcons ops EMean) r1 aux ECov ds x kw' I1 erefl; exists r2.
have F1 := e_imean I1; rewrite mem_rcons inE eqxx /= in F1.
have F2 := e_imean I2; rewrite !(mem_rcons, inE) eqxx orbT /= in F2.
have F3 := e_icov I2; rewrite mem_rcons inE eqxx /= in F3.
exists (set_prob_predictive model_fn mean ds (nonlin_setup model_fn :: [seq @ens_fn R X o | o <- ops] ++
   [:: @nonlin_special_pred_act R X vp cp]) kw'), r2, pred.
exists (e_mean N s pred), (e_cov N s pred); split=> //.
- have -> : ops ++ [:: EMean; ECov] = rcons (rcons ops EMean) ECov by rewrite -!cats1 -catA.
  by split; [exact: (e_imean I2) | exact: (e_icov I2) | exact: (e_ivar I2) | exact: (e_istd I2) | exact: (e_ismp I2)].
- rewrite /set_prob_predictive Mm /= (finalize_cons _ Es) map_cat -map_comp; rewrite [LHS]E /finalize_fns /=.
  rewrite /nonlin_special_pred_act /special_pred_act E1 /= F1 /= -/t Hv Hc /= E2 /= F3 /=.
  by case: (pf _ _).
Qed.
Print Assumptions C41_special_covariance.

(** Non-vacuity of C41: the identity model with draws that are all ones, seven members, the default list. *)
Example C41_example (R : rcfType) :
  let t := Leaf (Arr [:: 2%N] [:: 3%:R; 4%:R : R]) in
  let model (_ : unit) (p : tree (arr R)) := if p is Leaf a then Ok a else Raise TypeError in
  let ps := PosteriorState (fun u => Ok u) (fun u : tree (arr R) => Ok u) in
  exists predict r pred,
    [/\ set_nonlin_pushforward (fun (k : unit) n => nseq n k) (ones_normal R) tt model (fun _ u => Ok u) (fun _ u => Ok u)
          t ps tt (Some 7%N) (DEFAULT_NONLIN_FINALIZE_FNS model) (kw0 None) = Ok predict,
        predict tt = Ok r &
        ens_report 7 [:: 2%N] pred [:: EMean; ECov; EVar; EStd; ESamples] r].
Proof.
move=> t model ps.
have [|||f [r [pred [E1 E2 _ _ E3]]]] := @C41_ensemble_statistics R unit unit (fun k n => nseq n k) (ones_normal R) tt tt
  model (fun _ u => Ok u) (fun _ u => Ok u) t ps (kw0 None) (Some 7%N) [:: EMean; ECov; EVar; EStd; ESamples] tt
  (fun p => if p is Leaf a then a else Arr [::] [::]) [:: 2%N] (@ident R)
  nseq_split_size (@ones_normal_size R) isT (fun=> isT).
- by [].
- move=> w W S; have [b [E Eb]] := layout_leaf S; move: W; rewrite E wf_leaf /wf_arr => W.
  by split.
- exact: acts_as_ident.
by exists f, r, pred.
Qed.
Example C41_special_example (R : rcfType) :
  let t := Leaf (Arr [:: 2%N] [:: 3%:R; 4%:R : R]) in
  let model (_ : unit) (p : tree (arr R)) := if p is Leaf a then Ok a else Raise TypeError in
  let ps := PosteriorState (fun u => Ok u) (fun u : tree (arr R) => Ok u) in
  let cp n := if String.eqb n "mean_field_2" then Some (fun m _ : arr R => Ok m) else None in
  let kw := Kwargs None (Some "mean_field_2"%string) None None None None in
  exists predict r pred m,
    [/\ set_nonlin_pushforward (fun (k : unit) n => nseq n k) (ones_normal R) tt model (fun _ u => Ok u) (fun _ u => Ok u)
          t ps tt (Some 7%N) [:: nonlin_setup model; @nonlin_special_pred_act R unit (fun=> None) cp] kw = Ok predict,
        predict tt = Ok r, r_special_pred_act r = Some m &
        m = Arr [:: 2%N] [seq avg 7 (fun i j => nth 0 (adata (pred i)) j) j | j <- iota 0 2]].
Proof.
move=> t model ps cp kw.
have [|||f [r [pred [m [c [E1 _ [E3 _ _ _ _] [E4 _] E5]]]]]] := @C41_special_covariance R unit unit (fun k n => nseq n k)
  (ones_normal R) tt tt model (fun _ u => Ok u) (fun _ u => Ok u) t ps kw (Some 7%N) [::] (fun=> None) cp
  (fun m _ : arr R => Ok m) tt
  (fun p => if p is Leaf a then a else Arr [::] [::]) [:: 2%N] (@ident R)
  nseq_split_size (@ones_normal_size R) isT _ _ _ erefl erefl.
- by [].
- move=> w W S; have [b [E Eb]] := layout_leaf S; move: W; rewrite E wf_leaf /wf_arr => W.
  by split.
- exact: acts_as_ident.
exists f, (special_added m r), pred, m; split=> //.
by move: E4; rewrite E3 => -[<-].
Qed.
Example C41_spread_example (R : rcfType) : codev 2 (fun i _ => (i == 1%N)%:R *+ 2 : R) 0 0 = 1 *+ 2.
Proof.
have A : avg 2 (fun i _ => (i == 1%N)%:R *+ 2 : R) 0 = 1.
  by rewrite /avg /index_iota /= !big_cons big_nil /= mul0rn add0r addr0 divff // pnatr_eq0.
rewrite /codev A /index_iota /= !big_cons big_nil /= mul0rn sub0r mulrNN mulr1.
by rewrite mulr2n addrK mulr1 addr0.
Qed.

(** C42.  The posterior GP kernel.  [k(x1, x2)] acts as [J(x1) Sg J(x2)^T] from arrays like the
    prediction at [x2] to arrays like the prediction at [x1]. *)
Theorem C42_kernel_mv :
  forall (R : rcfType) (X Key : Type) split normal (key0 : Key) (model_fn : X -> tree (arr R) -> res (arr R))
    ad_jvp ad_vjp (mean : tree (arr R)) ps layout kw,
  exists kernel ds,
    set_posterior_gp_kernel split normal key0 model_fn ad_jvp ad_vjp mean ps false layout kw = Ok (KernelMv kernel, ds) /\
    forall x1 x2 out1 out2 J1 J2 Sg,
      model_fn x2 mean = Ok out2 ->
      is_jacobian J1 mean out1 (ad_jvp x1) (ad_vjp x1) -> is_jacobian J2 mean out2 (ad_jvp x2) (ad_vjp x2) ->
      acts_as Sg mean mean (ps_cov_mv ps) ->
      acts_as (cov_entry (get_size mean) J1 Sg J2) (Leaf out2) (Leaf out1) (fun v => kernel v x1 x2 ds).
Proof.
move=> R X Key split normal key0 model_fn ad_jvp ad_vjp mean ps layout kw.
rewrite /set_posterior_gp_kernel /=; eexists; eexists; split; first by [].
move=> x1 x2 out1 out2 J1 J2 Sg M2 H1 H2 HS; rewrite get_sizeE.
exact: (kernel_acts M2 H1 H2 HS).
Qed.
Print Assumptions C42_kernel_mv.

(** The dense variant returns the matrix (one-axis predictions). *)
Theorem C42_kernel_dense :
  forall (R : rcfType) (X Key : Type) split normal (key0 : Key) (model_fn : X -> tree (arr R) -> res (arr R))
    ad_jvp ad_vjp (mean : tree (arr R)) ps kw k2,
  exists kernel ds,
    set_posterior_gp_kernel split normal key0 model_fn ad_jvp ad_vjp mean ps true (Some (LInt R k2)) kw =
      Ok (KernelDense kernel, ds) /\
    forall x1 x2 out1 out2 J1 J2 Sg k1,
      ashape out1 = [:: k1] -> ashape out2 = [:: k2] -> (0 < k2)%N ->
      model_fn x2 mean = Ok out2 ->
      is_jacobian J1 mean out1 (ad_jvp x1) (ad_vjp x1) -> is_jacobian J2 mean out2 (ad_jvp x2) (ad_vjp x2) ->
      acts_as Sg mean mean (ps_cov_mv ps) ->
      kernel x1 x2 = Ok (Leaf (Arr [:: k1; k2]
        (flatten [seq [seq cov_entry (get_size mean) J1 Sg J2 a b | b <- iota 0 k2] | a <- iota 0 k1]))).
Proof.
move=> R X Key split normal key0 model_fn ad_jvp ad_vjp mean ps kw k2.
rewrite /set_posterior_gp_kernel /=; eexists; eexists; split; first by [].
move=> x1 x2 out1 out2 J1 J2 Sg k1 S1 S2 k0 M2 H1 H2 HS; rewrite get_sizeE.
apply: (@to_dense_acts_int R) => //.
apply: acts_layout (kernel_acts M2 H1 H2 HS (erefl (prodn (ashape out2)))).
- exact: leaf_layout.
- exact: leaf_layout.
Qed.
Print Assumptions C42_kernel_dense.

Theorem C42_dense_needs_layout :
  forall (R : rcfType) (X Key : Type) split normal (key0 : Key) (model_fn : X -> tree (arr R) -> res (arr R))
    ad_jvp ad_vjp (mean : tree (arr R)) ps kw,
  set_posterior_gp_kernel split normal key0 model_fn ad_jvp ad_vjp mean ps true None kw = Raise ValueError.
Proof. by []. Qed.
Print Assumptions C42_dense_needs_layout.

(** [k(x2, x1) = k(x1, x2)^T], and the kernel is positive semidefinite: for every finite list [l] of
    (coefficient, input, output index), the quadratic form of its Gram matrix is non-negative. *)
Theorem C42_symmetric_psd :
  forall (R : rcfType) (X : Type) (n : nat) (J : X -> nat -> nat -> R) (Sg : nat -> nat -> R),
  sym_entries n Sg -> psd_entries n Sg ->
  let K x1 x2 a b := cov_entry n (J x1) Sg (J x2) a b in
  (forall x1 x2 a b, K x2 x1 b a = K x1 x2 a b) /\
  (forall l : seq (R * X * nat),
     0 <= \sum_(u <- l) \sum_(v <- l) u.1.1 * v.1.1 * K u.1.2 v.1.2 u.2 v.2).
Proof.
move=> R X n J Sg H1 H2 K; split; first by move=> *; rewrite /K cov_entry_sym.
move=> l; pose w p := \sum_(u <- l) u.1.1 * J u.1.2 u.2 p.
rewrite (_ : (\sum_(u <- l) _) = \sum_(0 <= p < n) \sum_(0 <= q < n) w p * Sg p q * w q); first exact: H2.
transitivity (\sum_(u <- l) \sum_(v <- l) \sum_(0 <= p < n) \sum_(0 <= q < n)
   (u.1.1 * J u.1.2 u.2 p) * Sg p q * (v.1.1 * J v.1.2 v.2 q)).
  apply: eq_bigr => u _; apply: eq_bigr => v _.
  rewrite /K /cov_entry big_distrr /=; apply: eq_bigr => p _.
  rewrite big_distrr /=; apply: eq_bigr => q _.
  rewrite -!mulrA; congr (_ * _).
  by rewrite [v.1.1 * _]mulrCA; congr (_ * _); rewrite mulrCA.
rewrite (eq_bigr (fun u => \sum_(0 <= p < n) \sum_(v <- l) \sum_(0 <= q < n)
   (u.1.1 * J u.1.2 u.2 p) * Sg p q * (v.1.1 * J v.1.2 v.2 q))); last by move=> u _; rewrite exchange_big.
rewrite exchange_big /=; apply: eq_bigr => p _.
transitivity (\sum_(u <- l) \sum_(0 <= q < n) \sum_(v <- l) u.1.1 * J u.1.2 u.2 p * Sg p q * (v.1.1 * J v.1.2 v.2 q)).
  by apply: eq_bigr => u _; rewrite exchange_big.
rewrite exchange_big /=; apply: eq_bigr => q _.
rewrite /w -mulrA big_distrl /=; apply: eq_bigr => u _.
by rewrite mulrA big_distrr.
Qed.
Print Assumptions C42_symmetric_psd.

(** Non-vacuity: two inputs, the model [x * theta] with derivative [x]. *)
Example C42_example (R : rcfType) : sym_entries 3 (@ident R) /\ psd_entries 3 (@ident R).
Proof. exact: ident_psd. Qed.
Example C42_dense_example (R : rcfType) :
  let out := Arr [:: 2%N] [:: 3%:R; 4%:R : R] in
  let ps := PosteriorState (fun u => Ok u) (fun u : tree (arr R) => Ok u) in
  exists kernel ds D,
    set_posterior_gp_kernel (fun (k : unit) n => nseq n k) (ones_normal R) tt (fun (_ : unit) p => Ok out)
      (fun _ u => Ok u) (fun _ u => Ok u) (Leaf out) ps true (Some (LInt R 2)) (kw0 None) = Ok (KernelDense kernel, ds) /\
    kernel tt tt = Ok (Leaf (Arr [:: 2%N; 2%N] D)).
Proof.
move=> out ps.
have [kernel [ds [E H]]] := @C42_kernel_dense R unit unit (fun k n => nseq n k) (ones_normal R) tt
  (fun _ p => Ok out) (fun _ u => Ok u) (fun _ u => Ok u) (Leaf out) ps (kw0 None) 2.
have H0 := H tt tt out out (@ident R) (@ident R) (@ident R) 2%N erefl erefl isT erefl (@is_jacobian_ident R _)
   (@is_jacobian_ident R _) (@acts_as_ident R _).
by exists kernel, ds; eexists; split; [exact: E | exact: H0].
Qed.
