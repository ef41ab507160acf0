(** C61: the keyword arguments of the pushforward functions. *)
From Coq Require Import Reals String.
From mathcomp Require Import all_ssreflect all_algebra.
From Verif Require Import Base PyTree TreeSpec PyTreeProofs BasisProofs StackProofs Mv MvProofs TreeOpsProofs.
From Verif Require Import EvalUtils Pushforward PushforwardSpec PushforwardProofs Keywords EvalBatch EvalProofs P_Pushforward.
From Verif Require Import RealStruct Predictives Metrics Api Objectives.
Set Implicit Arguments.
Unset Strict Implicit.
Unset Printing Implicit Defensive.
Import Order.TTheory GRing.Theory Num.Theory.
Local Open Scope ring_scope.
Local Open Scope string_scope.

(** ** Specification *)

(** The library's own pushforward functions. *)
Inductive builtin : Set :=
  | LinSetupFn | LinMeanFn | LinCovFn | LinVarFn | LinStdFn | LinSamplesFn | LinMcFn | LinSpecialFn
  | NonlinSetupFn | NonlinMeanFn | NonlinCovFn | NonlinVarFn | NonlinStdFn | NonlinSamplesFn | NonlinMcFn
  | NonlinSpecialFn.
Section Builtin.
Variables (R : rcfType) (X : Type) (model_fn : X -> tree (arr R) -> res (arr R)) (expf : R -> R).
Variable var_predictive : string -> option (arr R -> arr R -> bool -> res (arr R)).
Variable cov_predictive : string -> option (arr R -> arr R -> res (arr R)).
Definition builtin_fn (b : builtin) : pushfn R X :=
  match b with
  | LinSetupFn => @lin_setup R X | LinMeanFn => @lin_pred_mean R X | LinCovFn => @lin_pred_cov R X
  | LinVarFn => @lin_pred_var R X | LinStdFn => @lin_pred_std R X | LinSamplesFn => @lin_samples R X
  | LinMcFn => @lin_mc_pred_act R X expf
  | LinSpecialFn => @lin_special_pred_act R X var_predictive cov_predictive
  | NonlinSetupFn => nonlin_setup model_fn | NonlinMeanFn => @nonlin_pred_mean R X
  | NonlinCovFn => @nonlin_pred_cov R X | NonlinVarFn => @nonlin_pred_var R X
  | NonlinStdFn => @nonlin_pred_std R X | NonlinSamplesFn => @nonlin_samples R X
  | NonlinMcFn => @nonlin_mc_pred_act R X expf
  | NonlinSpecialFn => @nonlin_special_pred_act R X var_predictive cov_predictive
  end.
End Builtin.

(** The keywords that say what is computed, and those that say only how (compilation, batching, and
    storing the draws). *)
Definition meaning_keywords : seq string := [:: "num_samples"; "key"; "special_pred_type"; "use_correction"].
Definition integer_options : seq string :=
  [:: "weight_batch_size"; "lin_samples_batch_size"; "nonlin_setup_batch_size"; "precompute_list_batch_size"].
Definition flag_options : seq string := [:: "set_get_weight_sample_precompute"].
(** The names of parameters, which cannot be used as extra keywords. *)
Definition parameter_names : seq string :=
  [:: "posterior_state"; "linearized"; "dist_state"; "scale_mv"; "func"; "items"; "precompute";
      "fns"; "results"; "aux"; "input"].

Section Spec.
Variables (R : rcfType) (Key : Type).
Notation kwdict := (sdict (kwval R Key)).
(** Options have their documented types: integers or None, flags or None. *)
Definition options_ok (d : kwdict) : Prop :=
  (forall k, List.In k integer_options -> [\/ sget d k = None, sget d k = Some (KwNone R Key) | exists n, sget d k = Some (KwInt R Key n)]) /\
  (forall k, List.In k flag_options -> [\/ sget d k = None, sget d k = Some (KwNone R Key) | exists b, sget d k = Some (KwBool R Key b)]).
Definition no_parameter (d : kwdict) : Prop := forall k, List.In k parameter_names -> sget d k = None.
Definition same_meaning (d d' : kwdict) : Prop := forall k, List.In k meaning_keywords -> sget d k = sget d' k.
End Spec.

Section Lemmas.
Variables (R : rcfType) (X Key : Type) (split : Key -> nat -> seq Key) (normal : Key -> seq nat -> seq R) (key0 : Key).
Variables (model_fn : X -> tree (arr R) -> res (arr R)) (ad_jvp ad_vjp : X -> tree (arr R) -> res (tree (arr R))).
Variable expf : R -> R.
Variable var_predictive : string -> option (arr R -> arr R -> bool -> res (arr R)).
Variable cov_predictive : string -> option (arr R -> arr R -> res (arr R)).
Hypotheses (split_size : forall k n, size (split k n) = n) (normal_size : forall k s, size (normal k s) = prodn s).
Notation ptree := (tree (arr R)).
Notation bfn := (builtin_fn model_fn expf var_predictive cov_predictive).

Lemma weight_lookup (t m : ptree) (S : nat -> nat -> R) scale key N kw :
  (0 < N)%N -> wf_tree m -> same_layout t m -> acts_as S t t scale ->
  exists2 g, set_get_weight_sample split normal key0 key m scale N kw = Ok g &
    forall i, (i < N)%N -> g i = normal_like split normal (nth key0 (split (odflt key0 key) N) i) m scale.
Proof.
move=> N0 Wm Sm HS.
pose keys := split (odflt key0 key) N.
pose f i := normal_like split normal (nth key0 keys i) m scale.
have Hf i : exists w, [/\ f i = Ok w, same_layout t w & wf_tree w].
  have [e [E S1 W1]] := randn_likeP split_size normal_size (nth key0 keys i) t.
  have [s [Es Ss Ws Hs]] := HS e W1 S1.
  have Em : randn_like split normal (nth key0 keys i) m = Ok e.
    by rewrite (randn_like_layout _ _ _ (same_layout_sym Sm)).
  have [w [Ew Sw Ww Hw]] := normal_likeP Wm Em Es Ws (same_layout_trans (same_layout_sym Sm) Ss).
  by exists w; split=> //; apply: same_layout_trans Sm Sw.
pose wv i := match f i with Ok w => w | Raise _ => t end.
have Hw i : [/\ f i = Ok (wv i), same_layout t (wv i) & wf_tree (wv i)].
  by have [w [E1 E2 E3]] := Hf i; rewrite /wv E1.
rewrite /set_get_weight_sample -/keys.
set f' := (fun idx : nat => match _ with [::] => _ | _ => _ end); have Hf' i : (i < N)%N -> f' i = f i.
  by move=> Hi; rewrite /f' (drop_nth key0) // split_size.
case Ep : (kw_precompute kw == Some false).
- by rewrite (eqP Ep) precompute_off /=; exists f'.
- have Hus : mapM f' (iota 0 N) = Ok [seq wv i | i <- iota 0 N].
    apply: mapM_ok_in => i; rewrite mem_iota add0n => /= Hi; rewrite Hf' //.
    by have [-> _ _] := Hw i.
  have [|||get [-> Hget]] := @precompute_on R nat f' (iota 0 N) (kw_precompute kw)
     (kw_precompute_batch kw) _ t 0%N _ _ Hus.
  + by move/eqP: Ep.
  + by rewrite size_iota.
  + rewrite size_map size_iota => i Hi; rewrite (nth_map 0%N) ?size_iota // nth_iota //.
    by have [_ A B] := Hw (0 + i)%N.
  exists get => // i Hi.
  by rewrite Hget ?size_iota // nth_iota // add0n Hf'.
Qed.

(** Two distribution states that differ in how draws are looked up, not in the draws. *)
Definition same_draws (ds ds' : dist_state R X) : Prop :=
  [/\ ds_posterior ds = ds_posterior ds', ds_num_samples ds = ds_num_samples ds', ds_jvp ds = ds_jvp ds',
      ds_vjp ds = ds_vjp ds' &
      match ds_get_weight_samples ds, ds_get_weight_samples ds' with
      | Some g, Some g' => forall i, (i < ds_num_samples ds)%N -> g i = g' i
      | None, None => True
      | _, _ => False
      end].
Definition same_request (kw kw' : kwargs) : Prop :=
  [/\ kw_num_samples kw = kw_num_samples kw', kw_special_pred_type kw = kw_special_pred_type kw' &
      kw_use_correction kw = kw_use_correction kw'].

Lemma in_iota n i : List.In i (iota 0 n) -> (i < n)%N.
Proof.
suff H m : List.In i (iota m n) -> (m <= i < m + n)%N by move/H.
elim: n m => [|n IH] m //= [<-|/IH /andP [H1 H2]]; first by rewrite leqnn addnS ltnS leq_addr.
by rewrite (ltnW H1) addnS -addSn.
Qed.

Lemma lin_samples_same ds ds' x kw kw' r aux : same_draws ds ds' -> 
  lin_samples ds x kw r aux = lin_samples ds' x kw' r aux.
Proof.
case: ds ds' => p n j v [g|] [p' n' j' v' [g'|]] [//= E1 E2 E3 E4 Hg]; rewrite /lin_samples /= -E2 //.
case: (get_key (a_jac_mv aux)) => [jm|//] /=; rewrite !lax_mapE.
by rewrite (@mapM_ext_In _ _ _ (fun i => let! w := g' i in let! d := jm w in tree_add (Leaf (the_pred_mean (ensure_pred_mean r))) d)) // => i /in_iota Hi; rewrite Hg.
Qed.
Lemma lin_mc_same ds ds' x kw kw' r aux : same_draws ds ds' ->
  lin_mc_pred_act expf ds x kw r aux = lin_mc_pred_act expf ds' x kw' r aux.
Proof. by move=> H; rewrite /lin_mc_pred_act; case: (r_samples r) => //; rewrite (lin_samples_same _ _ kw' _ _ H). Qed.
Lemma nonlin_setup_same ds ds' x kw kw' r aux : same_draws ds ds' ->
  nonlin_setup model_fn ds x kw r aux = nonlin_setup model_fn ds' x kw' r aux.
Proof.
case: ds ds' => p n j v [g|] [p' n' j' v' [g'|]] [//= E1 E2 E3 E4 Hg]; rewrite /nonlin_setup /= -E2 !lax_mapE //.
by rewrite (@mapM_ext_In _ _ _ (fun i => let! w := g' i in let! p := model_fn x w in Ok (Leaf p))) // => i /in_iota Hi; rewrite Hg.
Qed.
Lemma builtin_same b ds ds' x kw kw' r aux : same_draws ds ds' -> same_request kw kw' ->
  bfn b ds x kw r aux = bfn b ds' x kw' r aux.
Proof.
move=> Hd Hk; case: (Hd) => E1 E2 E3 E4 _; case: (Hk) => K1 K2 K3; case: b => //=.
- by rewrite /lin_setup E1 E3 E4.
- exact: lin_samples_same.
- exact: lin_mc_same.
- by rewrite /lin_special_pred_act /special_pred_act K2 K3.
- exact: nonlin_setup_same.
- by rewrite /nonlin_samples K1.
- by rewrite /nonlin_mc_pred_act /nonlin_samples K1.
- by rewrite /nonlin_special_pred_act /special_pred_act K2 K3.
Qed.
Lemma builtins_same (bs : seq builtin) ds ds' x kw kw' r aux : same_draws ds ds' -> same_request kw kw' ->
  finalize_fns [seq f ds x kw | f <- [seq bfn b | b <- bs]] r aux =
  finalize_fns [seq f ds' x kw' | f <- [seq bfn b | b <- bs]] r aux.
Proof.
move=> Hd Hk; elim: bs r aux => [//|b bs IH] r aux.
rewrite /= /finalize_fns (builtin_same b x r aux Hd Hk) -!/(finalize_fns _ _ _) /=.
case: (bfn b ds' x kw' r aux) => [[r' a']|//] /=; exact: (IH r' a').
Qed.

Lemma dist_state_same (mean : ptree) ps lin N key kw kw' S : wf_tree mean -> acts_as S mean mean (ps_scale_mv ps) ->
  exists ds ds', [/\ get_dist_state split normal key0 model_fn ad_jvp ad_vjp mean ps lin N key kw = Ok ds,
    get_dist_state split normal key0 model_fn ad_jvp ad_vjp mean ps lin N key kw' = Ok ds' & same_draws ds ds'].
Proof.
move=> Wm HS; rewrite /get_dist_state; case: (posnP N) => [->|N0] /=.
  by do 2 eexists; split; try reflexivity; split.
have [Wz Sz] : wf_tree (if lin then zeros_like mean else mean) /\ same_layout mean (if lin then zeros_like mean else mean).
  case: lin => //; split; last by split; rewrite /zeros_like ?treedef_tmap // leaves_tmap -map_comp.
  rewrite /wf_tree /zeros_like leaves_tmap; elim: (leaves mean) => //= a l ->.
  by rewrite /wf_arr /= size_nseq eqxx.
have [g -> Hg] := @weight_lookup mean _ S (ps_scale_mv ps) key N kw N0 Wz Sz HS.
have [g' -> Hg'] := @weight_lookup mean _ S (ps_scale_mv ps) key N kw' N0 Wz Sz HS.
by do 2 eexists; split; try reflexivity; split=> //= i Hi; rewrite Hg // Hg'.
Qed.
End Lemmas.

Section Reading.
Variables (R : rcfType) (Key : Type).
Notation kwdict := (sdict (kwval R Key)).
Implicit Types d : kwdict.

Lemma any_of_none ks d : (forall k, List.In k ks -> sget d k = None) -> any_of ks d = false.
Proof.
move=> H; rewrite /any_of; elim: ks H => [//|k ks IH] H /=.
by rewrite /shas H ?IH //=; [move=> k' Hk'; apply: H; right | left].
Qed.
Lemma any_of_same ks d d' : (forall k, List.In k ks -> sget d k = sget d' k) -> any_of ks d = any_of ks d'.
Proof.
move=> H; rewrite /any_of; elim: ks H => [//|k ks IH] H /=.
by rewrite {1 2}/shas H ?IH //=; [move=> k' Hk'; apply: H; right | left].
Qed.
Lemma any_of_has ks d k : List.In k ks -> shas d k -> any_of ks d.
Proof. by rewrite /any_of; elim: ks => [//|k' ks IH] /= [-> ->//|/IH H /H ->]; rewrite orbT. Qed.
Lemma kget_int_ok d k : options_ok d -> List.In k integer_options -> exists n, kget_int d k = Ok n.
Proof. by move=> [H _] /H; rewrite /kget_int; case=> [->|->|[n ->]]; eexists. Qed.
Lemma kget_bool_ok d k : options_ok d -> List.In k flag_options -> exists n, kget_bool d k = Ok n.
Proof. by move=> [_ H] /H; rewrite /kget_bool; case=> [->|->|[n ->]]; eexists. Qed.

(** Reading the options: what is computed depends only on the keywords with a meaning. *)
Lemma read_same batch n d d' : List.In batch integer_options -> options_ok d -> options_ok d' -> same_meaning d d' ->
  (exists e, read_kwargs batch n d = Raise e /\ read_kwargs batch n d' = Raise e) \/
  (exists kw kw', [/\ read_kwargs batch n d = Ok kw, read_kwargs batch n d' = Ok kw', same_request kw kw' &
                     kw_num_samples kw = n]).
Proof.
move=> Hb Hd Hd' Hm; rewrite /read_kwargs.
have -> : kget_str d "special_pred_type" = kget_str d' "special_pred_type" by rewrite /kget_str Hm //=; do 2 right; left.
have -> : kget_flag d "use_correction" = kget_flag d' "use_correction" by rewrite /kget_flag Hm //=; do 3 right; left.
case: (kget_str d' _) => [sp|e] /=; last by left; exists e.
case: (kget_flag d' _) => [uc|e] /=; last by left; exists e.
have H1 d0 : options_ok d0 -> exists b, kget_int2 d0 batch "weight_batch_size" = Ok b.
  by move=> H; rewrite /kget_int2; case: ifP => _; apply: kget_int_ok => //; left.
have [b ->] := H1 d Hd. have [b' ->] := H1 d' Hd'; cbn [bind].
have [c ->] := kget_bool_ok Hd (or_introl erefl : List.In "set_get_weight_sample_precompute" flag_options).
have [c' ->] := kget_bool_ok Hd' (or_introl erefl : List.In "set_get_weight_sample_precompute" flag_options); cbn [bind].
have Hp : List.In "precompute_list_batch_size" integer_options by do 3 right; left.
have [f ->] := kget_int_ok Hd Hp. have [f' ->] := kget_int_ok Hd' Hp; cbn [bind].
by right; do 2 eexists; split; try reflexivity; split.
Qed.
End Reading.

(** ** C61 *)
Section Thms.
Variables (R : rcfType) (X Key : Type) (split : Key -> nat -> seq Key) (normal : Key -> seq nat -> seq R) (key0 : Key).
Variables (model_fn : X -> tree (arr R) -> res (arr R)) (ad_jvp ad_vjp : X -> tree (arr R) -> res (tree (arr R))).
Variable expf : R -> R.
Variable var_predictive : string -> option (arr R -> arr R -> bool -> res (arr R)).
Variable cov_predictive : string -> option (arr R -> arr R -> res (arr R)).
Hypotheses (split_size : forall k n, size (split k n) = n) (normal_size : forall k s, size (normal k s) = prodn s).
Variables (mean : tree (arr R)) (ps : posterior_state R) (S : nat -> nat -> R).
Hypotheses (wf_mean : wf_tree mean) (scale_acts : acts_as S mean mean (ps_scale_mv ps)).
Notation kwdict := (sdict (kwval R Key)).
Notation builtins bs := [seq builtin_fn model_fn expf var_predictive cov_predictive b | b <- bs].
(** What a user gets who builds the predictive with the keywords [d] and applies it to [x]. *)
Definition linear_result (fns : seq (pushfn R X)) (d : kwdict) (x : X) : res (results R) :=
  let! predict := lin_pushforward_kw split normal key0 model_fn ad_jvp ad_vjp mean ps fns d in predict x.
Definition ensemble_result (key : Key) (N : option nat) (fns : seq (pushfn R X)) (d : kwdict) (x : X) : res (results R) :=
  let! predict := nonlin_pushforward_kw split normal key0 model_fn ad_jvp ad_vjp mean ps key N fns d in predict x.

Lemma no_parameter_names (d : kwdict) : no_parameter d -> [/\ any_of dist_state_names d = false, any_of sampling_names d = false,
  any_of predictive_names d = false & shas d "dist_state" = false].
Proof.
move=> H; split; try (apply: any_of_none => k Hk; apply: H; move: Hk => /=; tauto).
by rewrite /shas H //=; do 2 right; left.
Qed.

Lemma linear_options bs (d d' : kwdict) x : options_ok d -> options_ok d' -> no_parameter d -> no_parameter d' ->
  same_meaning d d' -> linear_result (builtins bs) d x = linear_result (builtins bs) d' x.
Proof.
move=> Hd Hd' Pd Pd' Hm; rewrite /linear_result /lin_pushforward_kw.
have [-> -> H1 ->] := no_parameter_names Pd; have [-> -> H2 ->] := no_parameter_names Pd'.
have E1 : sget d "num_samples" = sget d' "num_samples" by apply: Hm; left.
have E2 : sget d "key" = sget d' "key" by apply: Hm; right; left.
rewrite /kget_int /kget_key E1 E2.
case: (match sget d' "num_samples" with Some (KwNone) => _ | _ => _ end) => [n|//]; cbn [bind].
case: (match sget d' "key" with Some (KwNone) => _ | _ => _ end) => [k|//]; cbn [bind].
rewrite !andbF.
have Hb : List.In "lin_samples_batch_size" integer_options by right; left.
have [[e [-> ->]]//|[kw [kw' [-> -> Hk En]]]] := read_same n Hb Hd Hd' Hm; cbn [bind].
rewrite /set_lin_pushforward; have [<- _ _] := Hk.
have [ds [ds' [-> -> Hs]]] := dist_state_same key0 model_fn ad_jvp ad_vjp split_size normal_size true
  (odflt 0%N (kw_num_samples kw)) k kw kw' wf_mean scale_acts.
rewrite /= /predict_kw H1 H2 /set_prob_predictive; case: (model_fn x mean) => [out|//] /=.
exact: builtins_same.
Qed.
Lemma ensemble_options bs key N (d d' : kwdict) x : options_ok d -> options_ok d' -> no_parameter d -> no_parameter d' ->
  same_meaning d d' -> ensemble_result key N (builtins bs) d x = ensemble_result key N (builtins bs) d' x.
Proof.
move=> Hd Hd' Pd Pd' Hm; rewrite /ensemble_result /nonlin_pushforward_kw.
have [-> -> H1 ->] := no_parameter_names Pd; have [-> -> H2 ->] := no_parameter_names Pd'; rewrite !andbF.
have Hb : List.In "nonlin_setup_batch_size" integer_options by do 2 right; left.
have [[e [-> ->]]//|[kw [kw' [-> -> Hk En]]]] := read_same None Hb Hd Hd' Hm; cbn [bind].
rewrite /set_nonlin_pushforward.
have [ds [ds' [-> -> Hs]]] := dist_state_same key0 model_fn ad_jvp ad_vjp split_size normal_size false
  (odflt 100%N N) (Some key) kw kw' wf_mean scale_acts.
rewrite /= /predict_kw H1 H2 /set_prob_predictive; case: (model_fn x mean) => [out|//] /=.
apply: builtins_same => //; by case: Hk => _ H3 H4; split.
Qed.
End Thms.

(** Keywords that only say how to compute (batch sizes, storing the draws or not) never change what
    is computed: for every list of the library's functions and every input, the results -- or the
    exception -- are those of any other dictionary with the same values of the keywords that have a
    meaning. *)
Theorem C61_options_invisible :
  forall (R : rcfType) (X Key : Type) split normal key0 (model_fn : X -> tree (arr R) -> res (arr R)) ad_jvp ad_vjp
    expf var_predictive cov_predictive (mean : tree (arr R)) ps (S : nat -> nat -> R) (bs : seq builtin)
    (d d' : sdict (kwval R Key)) (x : X),
  (forall k n, size (split k n) = n) -> (forall k s, size (normal k s) = prodn s) ->
  wf_tree mean -> acts_as S mean mean (ps_scale_mv ps) ->
  options_ok d -> options_ok d' -> no_parameter d -> no_parameter d' -> same_meaning d d' ->
  let fns := [seq builtin_fn model_fn expf var_predictive cov_predictive b | b <- bs] in
  linear_result split normal key0 model_fn ad_jvp ad_vjp mean ps fns d x =
    linear_result split normal key0 model_fn ad_jvp ad_vjp mean ps fns d' x /\
  forall key N, ensemble_result split normal key0 model_fn ad_jvp ad_vjp mean ps key N fns d x =
    ensemble_result split normal key0 model_fn ad_jvp ad_vjp mean ps key N fns d' x.
Proof.
move=> R X Key split normal key0 model_fn ad_jvp ad_vjp expf vp cp mean ps S bs d d' x Hsp Hno Wm HS Hd Hd' Pd Pd' Hm fns.
by split=> [|key N]; [apply: (linear_options _ _ _ _ _ _ _ Hsp Hno Wm HS) | apply: (ensemble_options _ _ _ _ _ _ _ Hsp Hno Wm HS)].
Qed.
Print Assumptions C61_options_invisible.

(** A keyword that no function reads and that is no parameter's name is ignored silently, whatever the
    functions (the library's, or the user's, which see only the values read); in particular the
    documented [n_samples]. *)
Definition known_keywords : seq string := meaning_keywords ++ integer_options ++ flag_options ++ parameter_names.
Theorem C61_unknown_ignored :
  forall (R : rcfType) (X Key : Type) split normal key0 (model_fn : X -> tree (arr R) -> res (arr R)) ad_jvp ad_vjp
    (mean : tree (arr R)) ps fns (d : sdict (kwval R Key)) (k : string) (v : kwval R Key) (x : X),
  ~ List.In k known_keywords ->
  linear_result split normal key0 model_fn ad_jvp ad_vjp mean ps fns (sset d k v) x =
    linear_result split normal key0 model_fn ad_jvp ad_vjp mean ps fns d x /\
  forall key N, ensemble_result split normal key0 model_fn ad_jvp ad_vjp mean ps key N fns (sset d k v) x =
    ensemble_result split normal key0 model_fn ad_jvp ad_vjp mean ps key N fns d x.
Proof.
move=> R X Key split normal key0 model_fn ad_jvp ad_vjp mean ps fns d k v x Hk.
have E k' : List.In k' known_keywords -> sget (sset d k v) k' = sget d k'.
  by move=> H; rewrite sget_sset; case: String.eqb_spec => // Ek; case: Hk; rewrite Ek.
have Er b n : List.In b integer_options -> read_kwargs b n (sset d k v) = read_kwargs b n d.
  move=> Hb; rewrite /read_kwargs /kget_str /kget_flag /kget_int2 /kget_bool /kget_int /shas !E //=; try tauto.
  by move: Hb => /=; tauto.
have Ea ks : (forall k', List.In k' ks -> List.In k' known_keywords) -> any_of ks (sset d k v) = any_of ks d.
  by move=> H; apply: any_of_same => k' /H /E.
have A1 : any_of dist_state_names (sset d k v) = any_of dist_state_names d by apply: Ea => k' /=; tauto.
have A2 : any_of sampling_names (sset d k v) = any_of sampling_names d by apply: Ea => k' /=; tauto.
have A3 : any_of predictive_names (sset d k v) = any_of predictive_names d by apply: Ea => k' /=; tauto.
have A4 : shas (sset d k v) "dist_state" = shas d "dist_state" by rewrite /shas E //=; tauto.
split=> [|key N].
  rewrite /linear_result /lin_pushforward_kw A1 A2 A4 /kget_int /kget_key.
  rewrite (E "num_samples"); last by left.
  rewrite (E "key"); last by right; left.
  case: (any_of _ d) => //.
  case: (match sget d "num_samples" with Some KwNone => _ | _ => _ end) => [n|//]; cbn [bind].
  case: (match sget d "key" with Some KwNone => _ | _ => _ end) => [ky|//]; cbn [bind].
  rewrite Er; last by right; left.
  case: (_ && _) => //; case: (read_kwargs _ _ d) => [kw|//]; cbn [bind].
  by case: (set_lin_pushforward _ _ _ _ _ _ _ _ _ _ _) => [p|//]; cbn [bind]; rewrite /predict_kw A3.
rewrite /ensemble_result /nonlin_pushforward_kw A1 A2 A4 Er; last by do 2 right; left.
case: (any_of _ d) => //; case: (_ && _) => //; case: (read_kwargs _ _ d) => [kw|//]; cbn [bind].
by case: (set_nonlin_pushforward _ _ _ _ _ _ _ _ _ _ _ _) => [p|//]; cbn [bind]; rewrite /predict_kw A3.
Qed.
Print Assumptions C61_unknown_ignored.

(** [n_samples], the keyword documented for [set_lin_pushforward], does not request samples: without
    [num_samples] the samples end in a KeyError. *)
Theorem C61_n_samples_refuted :
  forall (R : rcfType) (X Key : Type) split normal key0 (model_fn : X -> tree (arr R) -> res (arr R)) ad_jvp ad_vjp
    (mean : tree (arr R)) ps (v : kwval R Key) (x : X) (out : arr R),
  model_fn x mean = Ok out ->
  linear_result split normal key0 model_fn ad_jvp ad_vjp mean ps [:: @lin_setup R X; @lin_samples R X]
    [:: ("n_samples", v)] x = Raise KeyError.
Proof.
move=> R X Key split normal key0 model_fn ad_jvp ad_vjp mean ps v x out M.
by rewrite /linear_result /lin_pushforward_kw /= /predict_kw /set_prob_predictive M.
Qed.
Print Assumptions C61_n_samples_refuted.

(** The fallback keyword [precompute] can never be used: whenever samples are drawn it is passed twice,
    which raises TypeError; where none are drawn it has no effect. *)
Theorem C61_precompute_refuted :
  forall (R : rcfType) (X Key : Type) split normal key0 (model_fn : X -> tree (arr R) -> res (arr R)) ad_jvp ad_vjp
    (mean : tree (arr R)) ps fns (d : sdict (kwval R Key)) (x : X) (n : nat) (key : option Key),
  shas d "precompute" -> (0 < n)%N ->
  (sget d "num_samples" = Some (KwInt R Key n) ->
   sget d "key" = omap (@KwKey R Key) key ->
   linear_result split normal key0 model_fn ad_jvp ad_vjp mean ps fns d x = Raise TypeError) /\
  (forall key', ensemble_result split normal key0 model_fn ad_jvp ad_vjp mean ps key' (Some n) fns d x = Raise TypeError).
Proof.
move=> R X Key split normal key0 model_fn ad_jvp ad_vjp mean ps fns d x n key Hp Hn.
have Hs : any_of sampling_names d by apply: (any_of_has _ Hp); do 3 right; left.
split=> [En Ek|key'].
  rewrite /linear_result /lin_pushforward_kw; case: ifP => // _.
  by rewrite /kget_int /kget_key En Ek; case: key {Ek} => [ky|]; cbn [bind omap obind oapp odflt]; rewrite Hn Hs.
by rewrite /ensemble_result /nonlin_pushforward_kw; case: ifP => // _; cbn [odflt oapp]; rewrite Hn Hs.
Qed.
Print Assumptions C61_precompute_refuted.

(** The names of parameters are refused: no such dictionary ever gives a result. *)
Theorem C61_parameter_names :
  forall (R : rcfType) (X Key : Type) split normal key0 (model_fn : X -> tree (arr R) -> res (arr R)) ad_jvp ad_vjp
    (mean : tree (arr R)) ps (S : nat -> nat -> R) fns (d : sdict (kwval R Key)) (k : string) (x : X) (out : arr R)
    (n : nat) (key : option Key),
  (forall k n, size (split k n) = n) -> (forall k s, size (normal k s) = prodn s) ->
  wf_tree mean -> acts_as S mean mean (ps_scale_mv ps) -> model_fn x mean = Ok out ->
  options_ok d ->
  sget d "special_pred_type" = None \/ (exists s, sget d "special_pred_type" = Some (KwStr R Key s)) ->
  sget d "use_correction" = None \/ (exists b, sget d "use_correction" = Some (KwBool R Key b)) ->
  List.In k parameter_names -> shas d k -> (0 < n)%N ->
  sget d "num_samples" = Some (KwInt R Key n) -> sget d "key" = omap (@KwKey R Key) key ->
  linear_result split normal key0 model_fn ad_jvp ad_vjp mean ps fns d x = Raise TypeError.
Proof.
move=> R X Key split normal key0 model_fn ad_jvp ad_vjp mean ps S fns d k x out n key Hsp Hno Wm HS M Ho Hs Hc Hk Hd Hn En Ek.
have [kw' Er'] : exists kw', read_kwargs "lin_samples_batch_size" (Some n) d = Ok kw' /\ kw_num_samples kw' = Some n.
  have Hb : List.In "lin_samples_batch_size" integer_options by right; left.
  have [[e [Er _]]|[kw [_ [Er _ _ Ekw]]]] := read_same (Some n) Hb Ho Ho (fun _ _ => erefl); last by exists kw.
  move: Er; rewrite /read_kwargs /kget_str /kget_flag.
  have -> : match sget d "special_pred_type" with None => Ok None | Some (KwStr s) => Ok (Some s) | _ => Raise Unmodelled end =
     Ok (if sget d "special_pred_type" is Some (KwStr s) then Some s else None) by case: Hs => [->|[s ->]].
  have -> : match sget d "use_correction" with None => Ok None | Some (KwBool s) => Ok (Some s) | _ => Raise Unmodelled end =
     Ok (if sget d "use_correction" is Some (KwBool s) then Some s else None) by case: Hc => [->|[s ->]].
  have [b ->] : exists b, kget_int2 d "lin_samples_batch_size" "weight_batch_size" = Ok b.
    by rewrite /kget_int2; case: ifP => _; apply: kget_int_ok => //; left.
  have [c ->] := kget_bool_ok Ho (or_introl erefl : List.In "set_get_weight_sample_precompute" flag_options).
  by have [|f ->] := kget_int_ok (k := "precompute_list_batch_size") Ho; first by do 3 right; left.
rewrite /linear_result /lin_pushforward_kw; case: ifP => // H1.
rewrite /kget_int /kget_key En Ek.
have -> : match omap (@KwKey R Key) key with None | Some KwNone => Ok None | Some (KwKey v) => Ok (Some v) | _ => Raise Unmodelled end = Ok key.
  by case: key {Ek}.
cbn [bind odflt oapp]; rewrite Hn andTb; case: ifP => // H2.
case: Er' => -> En'; cbn [bind]; rewrite /set_lin_pushforward En' /=.
have [ds [_ [-> _ _]]] := dist_state_same key0 model_fn ad_jvp ad_vjp Hsp Hno true n key kw' kw' Wm HS.
cbn [bind]; case: ifP => // H3; cbn [bind]; rewrite /predict_kw M; cbn [bind]; case: ifP => // H4.
suff : false by [].
move: Hk => /=.
move=> [E|[E|[E|Hk]]]; try by [rewrite -E in Hd; rewrite Hd in H3 | rewrite -E in Hd; rewrite /any_of /= Hd ?orbT in H1].
have [H|H] : List.In k sampling_names \/ List.In k predictive_names by move: Hk => /=; tauto.
  by rewrite -H2; apply: any_of_has H Hd.
by rewrite -H4; apply: any_of_has H Hd.
Qed.
Print Assumptions C61_parameter_names.

(** The posterior kernel: [num_samples] is refused; [dense] without a (truthy) [output_layout] is a
    ValueError; otherwise the keywords choose between the matrix and the product. *)
Theorem C61_kernel_keywords :
  forall (R : rcfType) (X Key : Type) split normal key0 (model_fn : X -> tree (arr R) -> res (arr R)) ad_jvp ad_vjp
    (mean : tree (arr R)) ps (d : sdict (kwval R Key)),
  let kernel_of := gp_kernel_kw split normal key0 model_fn ad_jvp ad_vjp mean ps in
  (shas d "num_samples" -> kernel_of d = Raise TypeError) /\
  (~~ any_of [:: "num_samples"; "mean_params"; "posterior_state"; "linearized"] d ->
   [/\ sget d "dense" = None \/ sget d "dense" = Some (KwBool R Key false) ->
         exists kern ds, kernel_of d = Ok (KernelMv kern, ds),
       sget d "dense" = Some (KwBool R Key true) -> sget d "output_layout" = None \/ sget d "output_layout" = Some (KwInt R Key 0) ->
         kernel_of d = Raise ValueError &
       forall n, sget d "dense" = Some (KwBool R Key true) -> sget d "output_layout" = Some (KwInt R Key n.+1) ->
         exists kern ds, kernel_of d = Ok (KernelDense kern, ds) /\
           set_posterior_gp_kernel split normal key0 model_fn ad_jvp ad_vjp mean ps true (Some (LInt R n.+1))
             (Kwargs None None None None None None) = Ok (KernelDense kern, ds)]).
Proof.
move=> R X Key split normal key0 model_fn ad_jvp ad_vjp mean ps d kernel_of; rewrite /kernel_of /gp_kernel_kw; split.
  by move=> H; rewrite /any_of /= H.
move=> H; rewrite (_ : any_of _ d = false); last exact: negbTE H.
split=> [Hd|Hd Hl|n Hd Hl].
- rewrite /kget_bool; have -> : match sget d "dense" with None | Some KwNone => Ok None | Some (KwBool b) => Ok (Some b) | _ => Raise Unmodelled end
     = Ok (if sget d "dense" is Some _ then Some false else None) by case: Hd => ->.
  by case: Hd => -> /=; do 2 eexists.
- by rewrite /kget_bool Hd /= /kget_layout; case: Hl => ->.
- by rewrite /kget_bool Hd /= /kget_layout Hl /=; do 2 eexists.
Qed.
Print Assumptions C61_kernel_keywords.

(** An array is not usable as [output_layout] although [to_dense] takes arrays as layouts: its truth
    value is taken.  It is a ValueError for every array of more (or less) than one entry, in particular
    for a prediction of two or more outputs; an array of the one entry 0 counts as missing. *)
Theorem C61_kernel_array_layout_refuted :
  forall (R : rcfType) (X Key : Type) split normal key0 (model_fn : X -> tree (arr R) -> res (arr R)) ad_jvp ad_vjp
    (mean : tree (arr R)) ps (d : sdict (kwval R Key)) (a : arr R),
  ~~ any_of [:: "num_samples"; "mean_params"; "posterior_state"; "linearized"] d ->
  sget d "dense" = Some (KwBool R Key true) -> sget d "output_layout" = Some (KwTree Key (Leaf a)) ->
  size (adata a) != 1%N \/ adata a = [:: 0] ->
  gp_kernel_kw split normal key0 model_fn ad_jvp ad_vjp mean ps d = Raise ValueError.
Proof.
move=> R X Key split normal key0 model_fn ad_jvp ad_vjp mean ps d a H Hd Hl Ha; rewrite /gp_kernel_kw.
rewrite (_ : any_of _ d = false); last exact: negbTE H.
rewrite /kget_bool Hd /= /kget_layout Hl /=; case: Ha => [|->]; last by rewrite eqxx.
by case: (adata a) => [|x [|y l]].
Qed.
Print Assumptions C61_kernel_array_layout_refuted.
(** A non-empty container of arrays is accepted when the kernel is built. *)
Theorem C61_kernel_container_layout :
  forall (R : rcfType) (X Key : Type) split normal key0 (model_fn : X -> tree (arr R) -> res (arr R)) ad_jvp ad_vjp
    (mean : tree (arr R)) ps (d : sdict (kwval R Key)) k c ch,
  ~~ any_of [:: "num_samples"; "mean_params"; "posterior_state"; "linearized"] d ->
  sget d "dense" = Some (KwBool R Key true) -> sget d "output_layout" = Some (KwTree Key (Node k (c :: ch))) ->
  exists kern ds, gp_kernel_kw split normal key0 model_fn ad_jvp ad_vjp mean ps d = Ok (KernelDense kern, ds) /\
    set_posterior_gp_kernel split normal key0 model_fn ad_jvp ad_vjp mean ps true (Some (LTree (Node k (c :: ch))))
      (Kwargs None None None None None None) = Ok (KernelDense kern, ds).
Proof.
move=> R X Key split normal key0 model_fn ad_jvp ad_vjp mean ps d k c ch H Hd Hl; rewrite /gp_kernel_kw.
rewrite (_ : any_of _ d = false); last exact: negbTE H.
by rewrite /kget_bool Hd /= /kget_layout Hl /=; do 2 eexists.
Qed.
Print Assumptions C61_kernel_container_layout.
(** An empty container ([()], [[]], [{}]) counts as no layout: ValueError, as for None. *)
Theorem C61_kernel_empty_layout :
  forall (R : rcfType) (X Key : Type) split normal key0 (model_fn : X -> tree (arr R) -> res (arr R)) ad_jvp ad_vjp
    (mean : tree (arr R)) ps (d : sdict (kwval R Key)) k,
  ~~ any_of [:: "num_samples"; "mean_params"; "posterior_state"; "linearized"] d ->
  sget d "dense" = Some (KwBool R Key true) -> sget d "output_layout" = Some (KwTree Key (Node k [::])) ->
  gp_kernel_kw split normal key0 model_fn ad_jvp ad_vjp mean ps d = Raise ValueError.
Proof.
move=> R X Key split normal key0 model_fn ad_jvp ad_vjp mean ps d k H Hd Hl; rewrite /gp_kernel_kw.
rewrite (_ : any_of _ d = false); last exact: negbTE H.
by rewrite /kget_bool Hd /= /kget_layout Hl.
Qed.
Print Assumptions C61_kernel_empty_layout.
Example C61_array_layout_example (R : rcfType) :
  let d := [:: ("dense", KwBool R unit true); ("output_layout", KwTree unit (Leaf (Arr [:: 2%N] [:: 1; 1 : R])))] in
  [/\ ~~ any_of [:: "num_samples"; "mean_params"; "posterior_state"; "linearized"] d,
      sget d "dense" = Some (KwBool R unit true) &
      sget d "output_layout" = Some (KwTree unit (Leaf (Arr [:: 2%N] [:: 1; 1 : R])))].
Proof. by []. Qed.

(** [special_pred_type] among the keywords of the call replaces the predictive type chosen when the
    predictive was set up: the results are those of a predictive set up with that type. *)
Theorem C61_keyword_wins :
  forall (X : Type) (model_fn : X -> tree (arr R) -> res (arr R)) (mean : tree (arr R)) ds (p t : string) pf pf' kw kw0 (x : X),
  List.In p SPECIAL_PREDICTIVES -> List.In t SPECIAL_PREDICTIVES ->
  setup_pushforward (EStr "linear") (EStr p) (None : option (seq (pushfn [rcfType of R] X))) = Ok pf ->
  setup_pushforward (EStr "linear") (EStr t) (None : option (seq (pushfn [rcfType of R] X))) = Ok pf' ->
  kw_special_pred_type kw = Some t -> kw_special_pred_type kw0 = None -> kw_use_correction kw0 = kw_use_correction kw ->
  api_predictive model_fn mean ds pf.2 kw x = api_predictive model_fn mean ds pf'.2 kw0 x.
Proof.
move=> X model_fn mean ds p q pf pf' kw kw0 x Hp Hq.
have E r (f : pf_setter * seq (pf_fn (pushfn [rcfType of R] X))) : List.In r SPECIAL_PREDICTIVES -> setup_pushforward (EStr "linear") (EStr r) None = Ok f ->
    f.2 = [:: LinSetup; LinPredMean; LinPredStd; LinSpecialPredAct r; GetPredAct].
  by move=> /= [<-|[<-|[<-|[<-|//]]]] [<-].
move=> /(E _ _ Hp) -> /(E _ _ Hq) -> Ht H0 Hc.
by rewrite /api_predictive /= /lift_fn /lin_special_pred_act /special_pred_act /with_special /= Ht H0 Hc.
Qed.
Print Assumptions C61_keyword_wins.

(** Non-vacuity: two dictionaries with different options for two samples, and a posterior. *)
Definition kw_one (R : rcfType) : sdict (kwval R unit) :=
  [:: ("num_samples", KwInt R unit 2); ("weight_batch_size", KwInt R unit 1)].
Definition kw_two (R : rcfType) : sdict (kwval R unit) :=
  [:: ("lin_samples_batch_size", KwNone R unit); ("num_samples", KwInt R unit 2);
      ("set_get_weight_sample_precompute", KwBool R unit false); ("verbose", KwOther R unit)].
Example C61_hypotheses_met (R : rcfType) (t : tree (arr R)) :
  [/\ options_ok (kw_one R), options_ok (kw_two R), no_parameter (kw_one R), no_parameter (kw_two R) &
      same_meaning (kw_one R) (kw_two R)] /\ acts_as (@ident R) t t (fun u => Ok u).
Proof.
split; last exact: acts_as_ident.
split; try (by move=> k /=; intuition; subst k).
- by split=> k /=; intuition; subst k => //=; constructor; rewrite /=; (try by exists 1%N); try by [].
- by split=> k /=; intuition; subst k => //=; constructor; rewrite /=; (try by exists false); try by [].
Qed.
Example C61_two_samples (R : rcfType) :
  let out := Arr [:: 2%N] [:: 3%:R; 4%:R : R] in
  let ps := PosteriorState (fun u => Ok u) (fun u : tree (arr R) => Ok u) in
  exists r a, linear_result (fun (k : unit) n => nseq n k) (fun _ s => nseq (prodn s) 1) tt (fun (_ : unit) p => Ok out)
      (fun _ u => Ok u) (fun _ u => Ok u) (Leaf out) ps [:: @lin_setup R unit; @lin_samples R unit] (kw_one R) tt = Ok r /\
    r_samples r = Some a /\ ashape a = [:: 2%N; 2%N].
Proof. by do 2 eexists; split; [reflexivity | split; reflexivity]. Qed.
