(** Property C52: the calibration objectives as functions of the prior precision. *)
From Coq Require Import Reals String SpecFloat.
From mathcomp Require Import all_ssreflect all_algebra.
From Verif Require Import Base RealStruct PyTree TreeSpec Mv PyTreeProofs TreeOpsProofs Ggn Posterior EvalUtils Pushforward
  PushforwardSpec PushforwardProofs Predictives Normal Metrics MetricsSpec MetricsProofs CrpsProofs GridSearch GridSpec Api Objectives.
From Verif Require Import P_Pushforward P_Metrics P_Regression P_Api.
Set Implicit Arguments.
Unset Strict Implicit.
Unset Printing Implicit Defensive.
Import GRing.Theory Num.Theory Order.TTheory.
Local Open Scope ring_scope.

(** ** Running lifted functions *)
Section Run.
Variables (X : Type).
Notation RR := [rcfType of R].
Lemma finalize_lift (ds : dist_state RR X) x kw (fns : seq (pushfn RR X)) rest r p aux :
  finalize_fns ([seq lift_fn f ds x kw | f <- fns] ++ rest) (r, p) aux =
  let fix go fns r aux :=
    match fns with
    | [::] => finalize_fns rest (r, p) aux
    | f :: fs => let! st := f ds x kw r aux in go fs st.1 st.2
    end in go fns r aux.
Proof.
elim: fns r aux => [|f fns IH] r aux //=.
rewrite /finalize_fns /= /lift_fn; case: (f ds x kw r aux) => //= -[r' aux'] /=; exact: IH.
Qed.

Lemma finalize_lift0 (ds : dist_state RR X) x kw (fns : seq (pushfn RR X)) r p aux :
  finalize_fns [seq lift_fn f ds x kw | f <- fns] (r, p) aux =
  rmap (fun r' => (r', p)) (finalize_fns [seq f ds x kw | f <- fns] r aux).
Proof.
elim: fns r aux => [|f fns IH] r aux //=.
rewrite /finalize_fns /= /lift_fn; case: (f ds x kw r aux) => //= -[r' aux'] /=; exact: IH.
Qed.
(** A function that only looks at the results may run afterwards. *)
Lemma finalize_get (ds : dist_state RR X) x kw (fns : seq (pushfn RR X)) r p aux :
  finalize_fns ([seq lift_fn f ds x kw | f <- fns] ++ [:: @get_pred_act X ds x kw]) (r, p) aux =
  rmap (fun r' => (r', if r_special_pred_act r' is Some a then Some a
                       else if r_mc_pred_act r' is Some a then Some a else p))
       (finalize_fns [seq f ds x kw | f <- fns] r aux).
Proof.
elim: fns r aux => [|f fns IH] r aux //=.
rewrite /finalize_fns /= /lift_fn; case: (f ds x kw r aux) => //= -[r' aux'] /=; exact: IH.
Qed.
End Run.

(** The functions of the linear pushforward without samples leave the other entries alone. *)
Lemma bind_ok (A B : Type) (m : res A) (f : A -> res B) y :
  bind m f = Ok y -> exists2 x, m = Ok x & f x = Ok y.
Proof. by case: m => //= x E; exists x. Qed.
Definition same_extras (r r' : results [rcfType of R]) : Prop :=
  [/\ r_samples r' = r_samples r, r_mc_pred_act r' = r_mc_pred_act r &
      r_special_pred_act r' = r_special_pred_act r].
Lemma same_extras_trans r1 r2 r3 : same_extras r1 r2 -> same_extras r2 r3 -> same_extras r1 r3.
Proof. by move=> [E1 E2 E3] [F1 F2 F3]; split; rewrite ?F1 ?F2 ?F3. Qed.
Lemma ensure_extras r : same_extras r (ensure_pred_mean r).
Proof. by rewrite /ensure_pred_mean; case: (r_pred_mean r). Qed.
Definition keeps (X : Type) (f : pushfn [rcfType of R] X) : Prop := forall ds x kw r aux st,
  f ds x kw r aux = Ok st -> same_extras r st.1.
Lemma lin_setup_keeps X : keeps (@lin_setup [rcfType of R] X).
Proof.
move=> ds x kw r aux st E; have [jv _ {}E] := bind_ok E; have [vj _ [<-]] := bind_ok E; by [].
Qed.
Lemma lin_pred_mean_keeps X : keeps (@lin_pred_mean [rcfType of R] X).
Proof. by move=> ds x kw r aux st [<-]. Qed.
Lemma lin_pred_var_keeps X : keeps (@lin_pred_var [rcfType of R] X).
Proof.
move=> ds x kw r aux st E; have [cm _ {}E] := bind_ok E; have [d _ {}E] := bind_ok E; have [v _ [<-]] := bind_ok E.
exact: (ensure_extras r).
Qed.
Lemma lin_pred_cov_keeps X : keeps (@lin_pred_cov [rcfType of R] X).
Proof.
move=> ds x kw r aux st E; have [cm _ {}E] := bind_ok E; have [d _ {}E] := bind_ok E; have [v _ [<-]] := bind_ok E.
exact: (ensure_extras r).
Qed.
Lemma lin_pred_std_keeps X : keeps (@lin_pred_std [rcfType of R] X).
Proof.
move=> ds x kw r aux st F; have [st' E {}F] := bind_ok F; have [v _ [<-]] := bind_ok F; rewrite /=.
by case: (r_pred_var r) E => [? [<-] //|E]; have := @lin_pred_var_keeps X _ _ _ _ _ _ E.
Qed.
Lemma keeps_run X ds x kw (fns : seq (pushfn [rcfType of R] X)) r aux r' :
  (forall f, List.In f fns -> keeps f) ->
  finalize_fns [seq f ds x kw | f <- fns] r aux = Ok r' -> same_extras r r'.
Proof.
elim: fns r aux => [|f fns IH] r aux H /=; first by rewrite /finalize_fns /= => -[<-].
rewrite /finalize_fns /= => E; have [[r1 a1] E1 E2] := bind_ok E.
apply: same_extras_trans (H f _ ds x kw r aux (r1, a1) E1) _; first by left.
by apply: (IH r1 a1) => [g Hg|]; [apply: H; right | exact: E2].
Qed.

(** ** Stacking the dictionaries of the points *)
Lemma sget_map (V : Type) (ks : seq string) (val : string -> V) k :
  List.In k ks -> sget [seq (k, val k) | k <- ks] k = Some (val k).
Proof.
elim: ks => [//|k' ks IH] /= H; case: (String.eqb_spec k' k) => [->//|N].
by apply: IH; case: H.
Qed.
Lemma stack_dictsE (V D : Type) (ks : seq string) (val : string -> D -> V) (ds : seq D) :
  ds <> [::] ->
  stack_dicts [seq [seq (k, val k d) | k <- ks] | d <- ds] =
  Ok [seq (k, [seq val k d | d <- ds]) | k <- ks].
Proof.
case: ds => [//|d0 ds _]; rewrite /stack_dicts [map _ (d0 :: ds)]/=.
have Ek d : skeys [seq (k, val k d) | k <- ks] = ks by rewrite /skeys -map_comp map_id.
have Er : all2 String.eqb ks ks by elim: ks {Ek} => //= k ks ->; rewrite String.eqb_refl.
rewrite -[_ :: [seq _ | d <- ds]]/[seq [seq (k, val k d) | k <- ks] | d <- d0 :: ds].
rewrite all_map (_ : all _ _ = true); last first.
  by elim: (d0 :: ds) => //= d l ->; rewrite !Ek Er.
rewrite Ek.
have G (l : seq string) : (forall k, List.In k l -> List.In k ks) ->
   mapM (fun k => rmap (pair k) (mapM (fun d : sdict V => sindex d k) [seq [seq (k, val k d) | k <- ks] | d <- d0 :: ds])) l =
   Ok [seq (k, [seq val k d | d <- d0 :: ds]) | k <- l].
  elim: l => [//|k l IH] H; rewrite /= IH; last by move=> k' Hk; apply: H; right.
  have Hk : List.In k ks by apply: H; left.
  have E d : sindex [seq (k0, val k0 d) | k0 <- ks] k = Ok (val k d).
    by rewrite /sindex (sget_map (fun k => val k d) Hk).
  have F l' : mapM (fun d : sdict V => sindex d k) [seq [seq (k0, val k0 d) | k0 <- ks] | d <- l'] =
     Ok [seq val k d | d <- l'] by elim: l' => //= d l' ->; rewrite E.
  by rewrite E F.
exact: G.
Qed.

(** Evaluating a predictive on points. *)
Lemma map_pointsE (V X : Type) (pred_fn : X -> res (sdict V)) ks (val : string -> X -> V)
    (data : seq (X * V)) :
  data <> [::] -> ~ List.In "target"%string ks ->
  (forall d, List.In d data -> pred_fn d.1 = Ok [seq (k, val k d.1) | k <- ks]) ->
  map_points (with_target pred_fn) data =
  Ok (rcons [seq (k, [seq val k d.1 | d <- data]) | k <- ks] ("target"%string, [seq d.2 | d <- data])).
Proof.
move=> D0 Nt H; rewrite /map_points.
pose val' k (d : X * V) := if String.eqb k "target" then d.2 else val k d.1.
have E1 d : sset [seq (k, val k d.1) | k <- ks] "target" d.2 = [seq (k, val' k d) | k <- rcons ks "target"%string].
  elim: ks Nt {H} => [//|k ks IH] N /=; case: (String.eqb_spec k "target") => [E|E].
    by case: N; left.
  rewrite IH; last by move=> Hin; apply: N; right.
  by congr ((_, _) :: _); rewrite /val'; move/String.eqb_neq: E => ->.
have -> : mapM (with_target pred_fn) data = Ok [seq [seq (k, val' k d) | k <- rcons ks "target"%string] | d <- data].
  elim: data H {D0} => [//|d data IH] H; rewrite /= {1}/with_target H; last by left.
  by rewrite /= E1 IH // => d' Hd; apply: H; right.
rewrite /= stack_dictsE // map_rcons; congr (Ok (rcons _ _)).
elim: ks Nt {H E1} => [//|k ks IH] N /=; rewrite IH; last by move=> Hin; apply: N; right.
congr (( _ , _) :: _); rewrite /val'; case: (String.eqb_spec k "target") => // E; by case: N; left.
Qed.

(** ** Stacked arrays *)
Lemma stack_valuesE (D : Type) (f : D -> arr R) (data : seq D) sh :
  data <> [::] -> (forall d, List.In d data -> ashape (f d) = sh) ->
  stack_values [seq VArr (f d) | d <- data] = Arr (size data :: sh) (flatten [seq adata (f d) | d <- data]).
Proof.
case: data => [//|d0 data] _ H.
rewrite /stack_values -map_comp size_map /= H; last by left.
by congr (Arr _ (_ ++ flatten _)); rewrite -map_comp.
Qed.

Lemma sum_triples (D : Type) (data : seq D) (m sd y : D -> seq R) (K : nat) (F : R * R * R -> R) :
  (forall d, List.In d data -> [/\ size (m d) = K, size (sd d) = K & size (y d) = K]) ->
  \sum_(t <- zip (zip (flatten (map m data)) (flatten (map sd data))) (flatten (map y data))) F t =
  \sum_(d <- data) \sum_(0 <= k < K) F (nth 0 (m d) k, nth 0 (sd d) k, nth 0 (y d) k).
Proof.
elim: data => [|d data IH] H; first by rewrite /= !big_nil.
have [E1 E2 E3] := H d (or_introl erefl).
rewrite /= zip_cat ?E1 ?E2 // zip_cat; last by rewrite size_zip E1 E2 minnn E3.
rewrite big_cat big_cons /= IH; last by move=> d' Hd; apply: H; right.
congr (_ + _); rewrite (big_nth (0, 0, 0)) !size_zip E1 E2 E3 !minnn.
apply: eq_big_nat => k /andP [_ Hk]; rewrite !nth_zip ?size_zip ?E1 ?E2 ?E3 ?minnn //.
Qed.

Lemma mem_map_In (D : Type) (T : eqType) (f : D -> T) (data : seq D) y :
  y \in map f data -> exists2 d, List.In d data & y = f d.
Proof.
elim: data => [//|d data IH] /=; rewrite inE => /orP [/eqP ->|/IH [d' H ->]]; first by exists d; [left|].
by exists d'; [right|].
Qed.
Lemma bindA (A B C : Type) (m : res A) (g : A -> res B) (f : B -> res C) :
  bind m (fun x => bind (g x) f) = bind (bind m g) f.
Proof. by case: m. Qed.

Section Linear.
Notation RR := [rcfType of R].
Variables (X Key : Type).
Variables (split : Key -> nat -> seq Key) (normal : Key -> seq nat -> seq R) (key0 : Key).
Variable model_fn : X -> tree (arr R) -> res (arr R).
Variables ad_jvp ad_vjp : X -> tree (arr R) -> res (tree (arr R)).
Variables (mean : tree (arr R)) (s : seq nat) (pred : X -> arr R) (J : X -> nat -> nat -> R).

(** At an input: the model returns [pred x], an array of shape [s], and [J x] is its Jacobian. *)
Definition point_ok (x : X) : Prop :=
  [/\ model_fn x mean = Ok (pred x), ashape (pred x) = s, wf_arr (pred x) &
      is_jacobian (J x) mean (pred x) (ad_jvp x) (ad_vjp x)].

(** The posterior has covariance [Sg] and some linear scale. *)
Definition posterior_ok (ps : posterior_state RR) (Sg : nat -> nat -> R) : Prop :=
  acts_as Sg mean mean (ps_cov_mv ps) /\ exists S, acts_as S mean mean (ps_scale_mv ps).

(** Predictive variance of output entry [k]: [(J x Sg (J x)^T)_kk]. *)
Definition pvar (Sg : nat -> nat -> R) (x : X) (k : nat) : R := cov_entry (get_size mean) (J x) Sg (J x) k k.

Definition lin_value (Sg : nat -> nat -> R) (k : string) (x : X) : value :=
  VArr (if String.eqb k "pred_var" then Arr s [seq pvar Sg x i | i <- iota 0 (prodn s)]
        else if String.eqb k "pred_std" then Arr s [seq Num.sqrt (pvar Sg x i) | i <- iota 0 (prodn s)]
        else pred x).

Lemma lin_predictive (key : Key) (N : nat) ps Sg x0 :
  (forall k n, size (split k n) = n) -> (forall k s, size (normal k s) = prodn s) ->
  (0 < prodn s)%N -> posterior_ok ps Sg -> point_ok x0 ->
  exists2 predict,
    build_predictive split normal key0 model_fn ad_jvp ad_vjp mean key N
      (SetLinPushforward, [:: LinSetup; LinPredMean; LinPredStd]) ps = Ok predict &
    forall x, point_ok x ->
      predict x = Ok [seq (k, lin_value Sg k x) | k <- [:: "map"; "pred_mean"; "pred_var"; "pred_std"]%string].
Proof.
move=> Hsplit Hnormal n0 [Hc [S HS]] P0.
pose kw := Kwargs (Some N) None None None None None.
have G x : point_ok x -> exists predict r, [/\ set_lin_pushforward split normal key0 model_fn ad_jvp ad_vjp mean ps
      (Some key) (@lin_setup RR X :: [seq stat_fn o | o <- [:: SMean; SStd]]) kw = Ok predict,
      predict x = Ok r, lin_report (get_size mean) (pred x) (J x) Sg [:: SMean; SStd] r &
      [/\ r_samples r = None, r_mc_pred_act r = None & r_special_pred_act r = None]].
  move=> [M Sh W HJ]; rewrite -Sh in n0.
  have Ho : (size (ashape (pred x)) <= 1)%N \/ no_var_after_cov [:: SMean; SStd].
    by right=> -[|a [|b [|c l1]]] l2 //=; case.
  have T p r : set_lin_pushforward split normal key0 model_fn ad_jvp ad_vjp mean ps
      (Some key) (@lin_setup RR X :: [seq stat_fn o | o <- [:: SMean; SStd]]) kw = Ok p -> p x = Ok r ->
      [/\ r_samples r = None, r_mc_pred_act r = None & r_special_pred_act r = None].
    rewrite /set_lin_pushforward; case: (get_dist_state _ _ _ _ _ _ _ _ _ _ _ _) => //= ds [<-].
    rewrite /set_prob_predictive M /= => E.
    have [|//] := @keeps_run X ds x kw [:: @lin_setup RR X; @lin_pred_mean RR X; @lin_pred_std RR X] _ _ _ _ E.
    move=> f [<-|[<-|[<-|//]]];
      [exact: lin_setup_keeps|exact: lin_pred_mean_keeps|exact: lin_pred_std_keeps].
  case: (posnP N) => N0.
    have [||p [r [E1 E2 E3]]] := @C39_lin_statistics RR X Key split normal key0 model_fn ad_jvp ad_vjp mean ps
      (Some key) kw [:: SMean; SStd] x (pred x) (J x) Sg _ _ M n0 HJ Hc Ho => //.
    by exists p, r; split=> //; apply: (T p).
  have [|p [r [eps [E1 E2 E3 _ _]]]] := @C40_lin_samples RR X Key split normal key0 model_fn ad_jvp ad_vjp mean ps
      (Some key) kw [:: SMean; SStd] x (pred x) (J x) Sg S N Hsplit Hnormal _ N0 W M n0 HJ Hc HS Ho => //.
  by exists p, r; split=> //; apply: (T p).
rewrite /build_predictive.
have [p0 [r0 [E0 _ _ _]]] := G _ P0.
move: G; rewrite /set_lin_pushforward in E0 *; rewrite -/kw.
case Eds: (get_dist_state _ _ _ _ _ _ _ _ _ _ _ _) E0 => [ds|//] _ G /=.
eexists; first by [].
move=> x Px; have [p [r [[<-] E2 [L1 L2 L3 L4 L5] [R1 R2 R3]]]] := G _ Px.
rewrite /api_predictive; case: Px => M Sh W HJ; rewrite M /=.
move: E2; rewrite /set_prob_predictive M /= => E2.
have := finalize_lift0 ds x kw (@lin_setup RR X :: [seq stat_fn o | o <- [:: SMean; SStd]]) (results0 (pred x)) None (aux0 RR).
rewrite /= E2 /= => -> /=.
rewrite /entries_of /= L1 L2 /= L3 L4 L5 R1 R2 R3 /=.
by rewrite /lin_value /= /pvar Sh.
Qed.

Variables (posterior_fn : R -> res (posterior_state RR)) (mll : seq (X * value) -> R -> res R).
Variables (key : Key) (N : nat).
Hypothesis Hsplit : forall k n, size (split k n) = n.
Hypothesis Hnormal : forall k s, size (normal k s) = prodn s.

Notation objective := (objective_value split normal key0 model_fn ad_jvp ad_vjp mean key N posterior_fn mll).
Definition regression_fns : pf_setter * seq (pf_fn (pushfn RR X)) :=
  (SetLinPushforward, [:: LinSetup; LinPredMean; LinPredStd]).

(** What the metrics of the regression objectives receive. *)
Lemma lin_stacked Sg tau ps (data : seq (X * value)) :
  data <> [::] -> (0 < prodn s)%N -> posterior_fn tau = Ok ps -> posterior_ok ps Sg ->
  (forall d, List.In d data -> point_ok d.1) ->
  (let! predict := (let! ps := posterior_fn tau in
       build_predictive split normal key0 model_fn ad_jvp ad_vjp mean key N regression_fns ps) in
   map_points (with_target predict) data) =
  Ok (rcons [seq (k, [seq lin_value Sg k d.1 | d <- data])
            | k <- [:: "map"; "pred_mean"; "pred_var"; "pred_std"]%string]
            ("target"%string, [seq d.2 | d <- data])).
Proof.
move=> D0 n0 Ep Pp H; rewrite Ep; cbn [bind].
have [d0 Hd0] : exists d, List.In d data by case: (data) D0 => // d l _; exists d; left.
have [predict -> Hp] := lin_predictive key N Hsplit Hnormal n0 Pp (H _ Hd0).
cbn [bind]; apply: map_pointsE => //; first by case=> [|[|[|[|]]]].
by move=> d Hd; apply: Hp; apply: H.
Qed.

(** The three arrays. *)
Definition stacked_mean (D : Type) (data : seq (X * D)) : arr R :=
  Arr (size data :: s) (flatten [seq adata (pred d.1) | d <- data]).
Definition stacked_std (D : Type) (Sg : nat -> nat -> R) (data : seq (X * D)) : arr R :=
  Arr (size data :: s) (flatten [seq [seq Num.sqrt (pvar Sg d.1 k) | k <- iota 0 (prodn s)] | d <- data]).

Lemma lin_objectiveE (D : Type) (tgt : D -> value) (g : arr R -> arr R -> arr R -> res R) Sg tau ps
    (data : seq (X * D)) :
  data <> [::] -> (0 < prodn s)%N -> posterior_fn tau = Ok ps -> posterior_ok ps Sg ->
  (forall d, List.In d data -> point_ok d.1) ->
  evaluate_for_given_prior_arguments
    (fun tau => let! ps := posterior_fn tau in
       build_predictive split normal key0 model_fn ad_jvp ad_vjp mean key N regression_fns ps)
    (fun e => let! m := arg e "pred_mean" in let! sd := arg e "pred_std" in let! y := arg e "target" in
              g (stack_values m) (stack_values sd) (stack_values y))
    [seq (d.1, tgt d.2) | d <- data] tau =
  g (stacked_mean data) (stacked_std Sg data) (stack_values [seq tgt d.2 | d <- data]).
Proof.
move=> D0 n0 Ep Pp H; rewrite /evaluate_for_given_prior_arguments.
rewrite bindA (@lin_stacked Sg tau ps) //; first last.
- by move=> d /List.in_map_iff [d' [<- Hd]]; exact: (H _ Hd).
- by case: (data) D0.
rewrite [LHS]/= -!map_comp.
have -> : stacked_mean data = stack_values [seq VArr (pred d.1) | d <- data].
  by rewrite (@stack_valuesE _ _ _ s) // => d /H [].
have -> : stacked_std Sg data =
    stack_values [seq VArr (Arr s [seq Num.sqrt (pvar Sg d.1 k) | k <- iota 0 (prodn s)]) | d <- data].
  by rewrite (@stack_valuesE _ _ _ s).
by [].
Qed.

(** C52.  The NLL objective of a regression calibration is the average over data and outputs of
    [- ln] of the density of the Gaussian with the prediction as mean and [(J Sg J^T)_kk] as
    variance. *)
Theorem C52_nll_objective Sg tau ps (data : seq (X * arr R)) :
  data <> [::] -> (0 < prodn s)%N -> posterior_fn tau = Ok ps -> posterior_ok ps Sg ->
  (forall d, List.In d data -> [/\ point_ok d.1, ashape d.2 = s & wf_arr d.2]) ->
  (forall d k, List.In d data -> (k < prodn s)%N -> 0 < pvar Sg d.1 k) ->
  objective (NllObjective false) regression_fns [seq (d.1, VArr d.2) | d <- data] tau =
  Ok (- (\sum_(d <- data) \sum_(0 <= k < prodn s)
           ln (gauss_density (nth 0 (adata (pred d.1)) k) (Num.sqrt (pvar Sg d.1 k)) (nth 0 (adata d.2) k)))
      / (size data * prodn s)%:R).
Proof.
move=> D0 n0 Ep Pp H Hpos.
rewrite /objective_value (@lin_objectiveE _ (@VArr) (fun m sd y => nll_gaussian m sd y true) Sg tau ps) //; last first.
  by move=> d /H [].
rewrite (@stack_valuesE _ _ _ s) //; last by move=> d /H [].
have [|||_ ->] := C36_nll_value (m := stacked_mean data) (s := stacked_std Sg data)
    (y := Arr (size data :: s) (flatten [seq adata d.2 | d <- data])) => //.
  move=> x /flattenP [l /mem_map_In [d Hd ->] /mapP [k]].
  by rewrite mem_iota add0n => /andP [_ Hk] ->; rewrite sqrtr_gt0; apply: Hpos.
rewrite /triples (@sum_triples _ data _ _ _ (prodn s)); last first.
  by move=> d /H [[_ E1 /eqP E2 _] E3 /eqP E4]; rewrite E2 E1 E4 E3 size_map size_iota.
rewrite /=; congr (Ok (- _ / _)).
apply: eq_bigr => d _; apply: eq_big_nat => k /andP [_ Hk].
by rewrite (nth_map 0%N) ?size_iota // nth_iota.
Qed.

(** The chi-squared objective is the distance of the average of [(f - y)^2 / (J Sg J^T)_kk] from 1. *)
Theorem C52_chi2_objective Sg tau ps (data : seq (X * arr R)) :
  data <> [::] -> (0 < prodn s)%N -> posterior_fn tau = Ok ps -> posterior_ok ps Sg ->
  (forall d, List.In d data -> [/\ point_ok d.1, ashape d.2 = s & wf_arr d.2]) ->
  (forall d k, List.In d data -> (k < prodn s)%N -> 0 <= pvar Sg d.1 k) ->
  objective Chi2Objective regression_fns [seq (d.1, VArr d.2) | d <- data] tau =
  Ok `| (\sum_(d <- data) \sum_(0 <= k < prodn s)
           (nth 0 (adata (pred d.1)) k - nth 0 (adata d.2) k) ^+ 2 / pvar Sg d.1 k)
        / (size data * prodn s)%:R - 1 |.
Proof.
move=> D0 n0 Ep Pp H Hpos.
rewrite /objective_value (@lin_objectiveE _ (@VArr) (fun m sd y => chi_squared_zero m sd y) Sg tau ps) //; last first.
  by move=> d /H [].
rewrite (@stack_valuesE _ _ _ s) //; last by move=> d /H [].
have W (f : X * arr R -> seq R) : (forall d, List.In d data -> size (f d) = prodn s) ->
    wf_arr (Arr (size data :: s) (flatten (map f data))).
  rewrite /wf_arr /= size_flatten /shape -map_comp => Hf.
  have <- : sumn [seq prodn s | d <- data] = (size data * prodn s)%N.
    by elim: (data) => //= d l ->; rewrite mulSn.
  by apply/eqP; congr sumn; elim: (data) Hf => //= d l IH Hf; rewrite Hf ?IH //; [move=> ? ?; apply: Hf; right | left].
have [|||||_ [_ ->]] := C36_chi_squared (m := stacked_mean data) (s := stacked_std Sg data)
    (y := Arr (size data :: s) (flatten [seq adata d.2 | d <- data])) => //.
- by apply: W => d /H [[_ E1 /eqP E2 _] _ _]; rewrite E2 E1.
- by apply: W => d _; rewrite size_map size_iota.
- by apply: W => d /H [_ E3 /eqP E4]; rewrite E4 E3.
rewrite /triples (@sum_triples _ data _ _ _ (prodn s)); last first.
  by move=> d /H [[_ E1 /eqP E2 _] E3 /eqP E4]; rewrite E2 E1 E4 E3 size_map size_iota.
rewrite /=; congr (Ok `|_ / _ - _|).
elim: (data) Hpos => [|d l IH] Hpos; first by rewrite !big_nil.
rewrite !big_cons IH; last by move=> d' k Hd; apply: Hpos; right.
congr (_ + _); apply: eq_big_nat => k /andP [_ Hk].
rewrite (nth_map 0%N) ?size_iota // nth_iota // add0n sqr_sqrtr //.
by apply: Hpos => //; left.
Qed.
End Linear.

Lemma array_of_entries (a : arr R) (N k : nat) (z : nat -> nat -> R) :
  (0 < k)%N -> ashape a = [:: N; k] -> wf_arr a ->
  (forall i j, (i < N)%N -> (j < k)%N -> nth 0 (adata a) (i * k + j) = z i j) ->
  a = Arr [:: N; k] [seq z (q %/ k)%N (q %% k)%N | q <- iota 0 (N * k)].
Proof.
case: a => sh d /= k0 -> /eqP /=; rewrite muln1 => Sd H; congr Arr.
apply: (@eq_from_nth _ 0) => [|q Hq]; first by rewrite size_map size_iota.
rewrite Sd in Hq; rewrite (nth_map 0%N) ?size_iota // nth_iota // add0n.
rewrite -H ?ltn_mod // ?ltn_divLR //.
by rewrite -divn_eq.
Qed.

Section LinearClassification.
Notation RR := [rcfType of R].
Variables (X Key : Type).
Variables (split : Key -> nat -> seq Key) (normal : Key -> seq nat -> seq R) (key0 : Key).
Variable model_fn : X -> tree (arr R) -> res (arr R).
Variables ad_jvp ad_vjp : X -> tree (arr R) -> res (tree (arr R)).
Variables (mean : tree (arr R)) (K : nat) (pred : X -> arr R) (J : X -> nat -> nat -> R).
Variables (posterior_fn : R -> res (posterior_state RR)) (mll : seq (X * value) -> R -> res R).
Variables (key : Key) (N : nat).
Hypothesis Hsplit : forall k n, size (split k n) = n.
Hypothesis Hnormal : forall k s, size (normal k s) = prodn s.
Hypothesis N0 : (0 < N)%N.
Hypothesis K0 : (0 < K)%N.

Notation pt_ok := (point_ok model_fn ad_jvp ad_vjp mean [:: K] pred J).
Notation objective := (objective_value split normal key0 model_fn ad_jvp ad_vjp mean key N posterior_fn mll).

(** [eps i] is the [i]-th standard normal draw of parameters. *)
Definition draws (eps : nat -> tree (arr R)) : Prop :=
  forall i, (i < N)%N -> randn_like split normal (nth key0 (split key N) i) mean = Ok (eps i).

(** Logit [j] of the [i]-th sample, [f(x) + J S eps_i], and the Monte-Carlo class probabilities. *)
Definition sample_logit (S : nat -> nat -> R) (eps : nat -> tree (arr R)) (x : X) (i j : nat) : R :=
  nth 0 (adata (pred x)) j +
  \sum_(0 <= p < get_size mean) J x j p * \sum_(0 <= q < get_size mean) S p q * nth 0 (entries (eps i)) q.
Definition mc_prob (S : nat -> nat -> R) (eps : nat -> tree (arr R)) (x : X) (j : nat) : R :=
  (\sum_(0 <= i < N) exp (sample_logit S eps x i j) / \sum_(0 <= l < K) exp (sample_logit S eps x i l)) / N%:R.

Definition mc_fns : pf_setter * seq (pf_fn (pushfn RR X)) :=
  (SetLinPushforward, [:: LinSetup; LinPredMean; LinPredStd; LinMcPredAct; GetPredAct]).

Definition mc_value Sg S eps (k : string) (x : X) : value :=
  if String.eqb k "samples" then VArr (Arr [:: N; K] [seq sample_logit S eps x (q %/ K)%N (q %% K)%N | q <- iota 0 (N * K)])
  else if String.eqb k "mc_pred_act" || String.eqb k "pred_act" then VArr (Arr [:: K] [seq mc_prob S eps x j | j <- iota 0 K])
  else lin_value mean [:: K] pred J Sg k x.

Lemma exp_gt0 (y : R) : 0 < exp y.
Proof. by apply/RltP; exact: exp_pos. Qed.

Lemma lin_samples_special ds x kw r aux st :
  @lin_samples RR X ds x kw r aux = Ok st -> r_special_pred_act st.1 = r_special_pred_act r.
Proof.
move=> E; have [jm _ {}E] := bind_ok E; have [gw _ {}E] := bind_ok E; have [o _ {}E] := bind_ok E.
have [t _ {}E] := bind_ok E; have [a _ [<-]] := bind_ok E.
by have [_ _] := ensure_extras r.
Qed.
Lemma lin_mc_special ds x kw r aux st :
  @lin_mc_pred_act RR X exp ds x kw r aux = Ok st -> r_special_pred_act st.1 = r_special_pred_act r.
Proof.
move=> F; have [st' E {}F] := bind_ok F; have [sm _ {}F] := bind_ok F; have [m _ [<-]] := bind_ok F.
by rewrite /=; case: (r_samples r) E => [? [<-] //|E]; have := lin_samples_special E.
Qed.

Lemma run_special ds x kw (fns : seq (pushfn RR X)) r aux r' :
  (forall f, List.In f fns -> forall ds x kw r aux st, f ds x kw r aux = Ok st ->
     r_special_pred_act st.1 = r_special_pred_act r) ->
  finalize_fns [seq f ds x kw | f <- fns] r aux = Ok r' -> r_special_pred_act r' = r_special_pred_act r.
Proof.
elim: fns r aux => [|f fns IH] r aux H /=; first by rewrite /finalize_fns /= => -[<-].
rewrite /finalize_fns /= => E; have [[r1 a1] E1 E2] := bind_ok E.
rewrite -(H f _ ds x kw r aux (r1, a1) E1); last by left.
by apply: (IH r1 a1) => [g Hg|]; [apply: H; right | exact: E2].
Qed.

Lemma lin_mc_predictive ps Sg S eps x0 :
  draws eps -> acts_as Sg mean mean (ps_cov_mv ps) -> acts_as S mean mean (ps_scale_mv ps) -> pt_ok x0 ->
  exists2 predict,
    build_predictive split normal key0 model_fn ad_jvp ad_vjp mean key N mc_fns ps = Ok predict &
    forall x, pt_ok x ->
      [/\ predict x = Ok [seq (k, mc_value Sg S eps k x)
                         | k <- [:: "map"; "pred_mean"; "pred_var"; "pred_std"; "samples"; "mc_pred_act"; "pred_act"]%string],
          (forall j, (j < K)%N -> 0 < mc_prob S eps x j) & \sum_(0 <= j < K) mc_prob S eps x j = 1].
Proof.
move=> Heps Hc HS P0.
pose kw := Kwargs (Some N) None None None None None.
pose fns := @lin_setup RR X :: [seq stat_fn o | o <- [:: SMean; SStd]] ++ [:: @lin_mc_pred_act RR X exp].
have G x : pt_ok x -> exists predict r, [/\ set_lin_pushforward split normal key0 model_fn ad_jvp ad_vjp mean ps
      (Some key) fns kw = Ok predict,
      predict x = Ok r, lin_report (get_size mean) (pred x) (J x) Sg [:: SMean; SStd; SSamples] r,
      [/\ r_samples r = Some (Arr [:: N; K] [seq sample_logit S eps x (q %/ K)%N (q %% K)%N | q <- iota 0 (N * K)]),
          r_mc_pred_act r = Some (Arr [:: K] [seq mc_prob S eps x j | j <- iota 0 K]) &
          r_special_pred_act r = None] &
      (forall j, (j < K)%N -> 0 < mc_prob S eps x j) /\ \sum_(0 <= j < K) mc_prob S eps x j = 1].
  move=> [M Sh W HJ].
  have [p [r [eps' [a [m [E1 E2 E3 [F1 [F2 F3]] [F4 [F5 F6 F7]]]]]]]] :=
    @C40_mc_pred_act RR X Key split normal key0 model_fn ad_jvp ad_vjp mean ps (Some key) kw [:: SMean; SStd] exp
      x (pred x) (J x) Sg S N K Hsplit Hnormal erefl N0 W M Sh K0 HJ Hc HS exp_gt0.
  have Ee i : (i < N)%N -> eps' i = eps i.
    by move=> Hi; have := F1 i Hi; rewrite /= Heps // => -[].
  have Ez i j : (i < N)%N -> (j < K)%N -> nth 0 (adata a) (i * K + j) = sample_logit S eps x i j.
    case: F3 => _ _ F3 Hi Hj; have := F3 i j Hi; rewrite Sh /= muln1 => -> //.
    by rewrite Ee.
  have Em j : (j < K)%N -> m j = mc_prob S eps x j.
    move=> Hj; rewrite F5 /mc_prob; congr (_ / _); apply: eq_big_nat => i /andP [_ Hi].
    rewrite Ez //; congr (_ / _); apply: eq_big_nat => l /andP [_ Hl]; by rewrite Ez.
  exists p, r; split=> //; last first.
    split; first by move=> j Hj; rewrite -Em //; exact: F6.
    rewrite -F7; apply: eq_big_nat => j /andP [_ Hj]; by rewrite Em.
  split.
  - rewrite F2; congr Some; case: F3; rewrite Sh => A1 A2 _; exact: array_of_entries.
  - rewrite F4; congr (Some (Arr _ _)); apply/eq_in_map => j; rewrite mem_iota add0n => /andP [_ Hj].
    exact: Em.
  - move: E1; rewrite /set_lin_pushforward => E1; have [ds _ [Ep]] := bind_ok E1.
    move: E2; rewrite -Ep /set_prob_predictive M; cbn [bind] => E2.
    apply: (run_special _ E2) => f [<-|[<-|[<-|[<-|//]]]] ds' x' kw' r' aux' st' E'.
    + by have [_ _ ->] := lin_setup_keeps E'.
    + by have [_ _ ->] := lin_pred_mean_keeps E'.
    + by have [_ _ ->] := lin_pred_std_keeps E'.
    + exact: lin_mc_special E'.
rewrite /build_predictive.
have [p0 [r0 [E0 _ _ _ _]]] := G _ P0.
move: G; rewrite /set_lin_pushforward in E0 *; rewrite -/kw.
case Eds: (get_dist_state _ _ _ _ _ _ _ _ _ _ _ _) E0 => [ds|//] _ G /=.
eexists; first by [].
move=> x Px; have [p [r [[<-] E2 [L1 L2 L3 L4 L5] [R1 R2 R3] [Q1 Q2]]]] := G _ Px; split=> //.
rewrite /api_predictive; case: Px => M Sh W HJ; rewrite M; cbn [bind].
move: E2; rewrite /set_prob_predictive M; cbn [bind] => E2.
have := finalize_get ds x kw fns (results0 (pred x)) None (aux0 RR).
rewrite E2 /= => -> /=.
rewrite /entries_of /= L1 L2 /= L3 L4 L5 R1 R2 R3 /=.
by rewrite /mc_value /= /lin_value /= /pvar Sh.
Qed.

Lemma mc_stacked Sg S eps tau ps (data : seq (X * value)) :
  data <> [::] -> posterior_fn tau = Ok ps -> acts_as Sg mean mean (ps_cov_mv ps) ->
  acts_as S mean mean (ps_scale_mv ps) -> draws eps -> (forall d, List.In d data -> pt_ok d.1) ->
  (let! predict := (let! ps := posterior_fn tau in
       build_predictive split normal key0 model_fn ad_jvp ad_vjp mean key N mc_fns ps) in
   map_points (with_target predict) data) =
  Ok (rcons [seq (k, [seq mc_value Sg S eps k d.1 | d <- data])
            | k <- [:: "map"; "pred_mean"; "pred_var"; "pred_std"; "samples"; "mc_pred_act"; "pred_act"]%string]
            ("target"%string, [seq d.2 | d <- data])).
Proof.
move=> D0 Ep Hc HS He H; rewrite Ep; cbn [bind].
have [d0 Hd0] : exists d, List.In d data by case: (data) D0 => // d l _; exists d; left.
have [predict -> Hp] := lin_mc_predictive He Hc HS (H _ Hd0).
cbn [bind]; apply: map_pointsE => //; first by case=> [|[|[|[|[|[|[|]]]]]]].
by move=> d Hd; have [] := Hp _ (H _ Hd).
Qed.

Lemma value_rowsE (D : Type) (f : D -> seq R) (data : seq D) :
  value_rows [seq VArr (Arr [:: K] (f d)) | d <- data] = Ok [seq f d | d <- data].
Proof. by rewrite /value_rows; elim: data => //= d l ->. Qed.
Lemma value_labels (D : Type) (f : D -> nat) (data : seq D) :
  value_targets [seq VLabel (f d) | d <- data] = Ok (Labels _ [seq f d | d <- data]).
Proof.
rewrite /value_targets; suff -> : mapM (fun v => if v is VLabel l then Ok l else Raise Unmodelled)
  [seq VLabel (f d) | d <- data] = Ok [seq f d | d <- data] by [].
by elim: data => //= d l ->.
Qed.

(** [c] is the largest of [p 0, ..., p (n - 1)]. *)
Definition is_largest (p : nat -> R) (n : nat) (c : R) : Prop :=
  (exists2 j, (j < n)%N & c = p j) /\ forall j, (j < n)%N -> p j <= c.
Lemma is_largest_jmax p n c : is_largest p n c -> jmax [seq p j | j <- iota 0 n] = c.
Proof.
move=> [[j Hj ->] Hm]; apply: le_anti; apply/andP; split.
  have : jmax [seq p j | j <- iota 0 n] \in [seq p j | j <- iota 0 n].
    by apply: jmax_in; case: (n) Hj.
  by case/mapP => i; rewrite mem_iota add0n => /andP [_ Hi] ->; exact: Hm.
by apply: jmax_ge; apply/mapP; exists j => //; rewrite mem_iota.
Qed.
Lemma first_max_unique (xs : seq R) a b : first_max xs a -> first_max xs b -> a = b.
Proof.
move=> [A1 A2 A3] [B1 B2 B3]; case: (ltngtP a b) => // H.
  by have := B3 _ H; rewrite ltNge A2.
by have := A3 _ H; rewrite ltNge B2.
Qed.

(** [e] is the expected calibration error, with 15 bins, of confidences [conf] when the prediction
    at [x] is class [top x]. *)
Definition is_ece (conf : X -> R) (top : X -> nat) (data : seq (X * nat)) (e : R) : Prop :=
  e = (\sum_(b <- iota 0 15) `| \sum_(d <- data | in_bin 15 b (conf d.1))
         ((if top d.1 == d.2 then 1 else 0) - conf d.1) |) / (size data)%:R
  /\ 0 <= e <= 1.

Lemma ece_value (P : X -> nat -> R) (args : sdict (seq value)) (data : seq (X * nat)) conf top :
  data <> [::] -> (forall d, List.In d data -> pt_ok d.1) ->
  arg args "map" = Ok [seq VArr (pred d.1) | d <- data] ->
  arg args "pred_act" = Ok [seq VArr (Arr [:: K] [seq P d.1 j | j <- iota 0 K]) | d <- data] ->
  arg args "target" = Ok [seq VLabel d.2 | d <- data] ->
  (forall d, List.In d data -> is_largest (P d.1) K (conf d.1)) ->
  (forall d, List.In d data -> first_max (adata (pred d.1)) (top d.1)) ->
  (forall d j, List.In d data -> (j < K)%N -> 0 <= P d.1 j <= 1) ->
  exists2 e, metric_ece args = Ok e & is_ece conf top data e.
Proof.
move=> D0 H A1 A2 A3 Hconf Htop HP.
rewrite /metric_ece A1 A2 A3; cbn [bind].
rewrite [value_rows (map _ data)](value_rowsE (fun d => [seq P d.1 j | j <- iota 0 K])).
cbn [bind].
rewrite [value_rows (map _ data)](_ : _ = Ok [seq adata (pred d.1) | d <- data]); last first.
  rewrite /value_rows; elim: (data) H => [//|d l IH] Hl; rewrite /= IH; last by move=> d' Hd; apply: Hl; right.
  by have [_ -> _ _] := Hl d (or_introl erefl).
cbn [bind]; rewrite [value_targets _](value_labels snd); cbn [bind].
have -> : correctness [seq adata (pred d.1) | d <- data] (Labels _ [seq d.2 | d <- data]) =
    Ok [seq top d.1 == d.2 | d <- data].
  rewrite /correctness /= !size_map eqxx /=; congr Ok.
  elim: (data) H Htop => [//|d l IH] Hl Ht; rewrite /= IH; first last.
  - by move=> d' Hd; apply: Ht; right.
  - by move=> d' Hd; apply: Hl; right.
  congr (_ :: _); congr (_ == _); apply: (@first_max_unique (adata (pred d.1))); last by apply: Ht; left.
  apply: argmaxP => E; have [_ E1 /eqP] := Hl d (or_introl erefl).
  by rewrite E1 E /= muln1 => E2; move: K0; rewrite -E2.
cbn [bind].
have -> : map (@jmax [realFieldType of R]) [seq [seq P d.1 j | j <- iota 0 K] | d <- data] =
    [seq conf d.1 | d <- data].
  elim: (data) Hconf => [//|d l IH] Hl; rewrite /= IH; last by move=> d' Hd; apply: Hl; right.
  by rewrite (is_largest_jmax (Hl d (or_introl erefl))).
rewrite -map_comp; set co := [seq conf d.1 | d <- data].
have -> : [seq ((fun b : bool => if b then 1 else 0) \o (fun d : X * nat => top d.1 == d.2)) i | i <- data] =
  [seq (if top d.1 == d.2 then 1 else 0 : R) | d <- data] by [].
set cr := [seq _ | d <- data].
have Hn : (0 < size co)%N by rewrite size_map; case: (data) D0.
have Hs : size co = size cr by rewrite !size_map.
have [e [Ee [Ev _ _]]] := C33_ece_value (B := 15) isT Hn Hs.
have [e' [m' [Ee' [Em [_ _ /andP [B1 B2] B3]]]]] := C33_ece_le_mce (B := 15) isT Hn Hs.
have Eee : e' = e by move: Ee'; rewrite Ee => -[].
exists e; first exact: Ee.
split.
  rewrite Ev; congr (_ / _); last by rewrite size_zip -Hs minnn size_map.
  by apply: eq_bigr => b _; congr `|_|; rewrite zip_map big_map.
rewrite -Eee B1 /=; apply: le_trans B2 (B3 _) => t; rewrite zip_map => /mem_map_In [d Hd ->] /=.
split; last by case: eqP; rewrite ?lexx ?ler01.
have [[j Hj ->] _] := Hconf _ Hd; exact: HP.
Qed.

(** The ECE objective with the Monte-Carlo predictive: confidence is the largest of the Monte-Carlo
    class probabilities, but a prediction counts as correct when the MAP prediction (not the
    predictive) has its largest logit at the label; the value lies in [0, 1]. *)
Theorem C52_ece_objective Sg S eps tau ps (data : seq (X * nat)) (conf : X -> R) (top : X -> nat) :
  data <> [::] -> posterior_fn tau = Ok ps -> acts_as Sg mean mean (ps_cov_mv ps) ->
  acts_as S mean mean (ps_scale_mv ps) -> draws eps -> (forall d, List.In d data -> pt_ok d.1) ->
  (forall d, List.In d data -> is_largest (mc_prob S eps d.1) K (conf d.1)) ->
  (forall d, List.In d data -> first_max (adata (pred d.1)) (top d.1)) ->
  exists2 e, objective EceObjective mc_fns [seq (d.1, VLabel d.2) | d <- data] tau = Ok e
           & is_ece conf top data e.
Proof.
move=> D0 Ep Hc HS He H Hconf Htop.
rewrite /objective_value /evaluate_for_given_prior_arguments bindA (@mc_stacked Sg S eps tau ps) //; first last.
- by move=> d /List.in_map_iff [d' [<- Hd]]; exact: (H _ Hd).
- by case: (data) D0.
rewrite [objective_metric _]/=; cbn [bind]; apply: (@ece_value (mc_prob S eps)) => //;
  try by rewrite /arg; cbn [sget rcons map String.eqb Ascii.eqb Bool.eqb]; rewrite -!map_comp.
move=> d j Hd Hj.
have [predict _ Hp] := lin_mc_predictive He Hc HS (H _ Hd); have [_ Q1 Q2] := Hp _ (H _ Hd).
rewrite ltW ?Q1 //= -Q2 big_mkord (bigD1 (Ordinal Hj)) //= ler_addl sumr_ge0 // => i _; exact/ltW/Q1.
Qed.

Lemma mc_objectiveE (D : Type) (tgt : D -> value) (g : arr R -> arr R -> arr R -> res R) Sg S eps tau ps
    (data : seq (X * D)) :
  data <> [::] -> posterior_fn tau = Ok ps -> acts_as Sg mean mean (ps_cov_mv ps) ->
  acts_as S mean mean (ps_scale_mv ps) -> draws eps -> (forall d, List.In d data -> pt_ok d.1) ->
  evaluate_for_given_prior_arguments
    (fun tau => let! ps := posterior_fn tau in
       build_predictive split normal key0 model_fn ad_jvp ad_vjp mean key N mc_fns ps)
    (fun e => let! m := arg e "pred_mean" in let! sd := arg e "pred_std" in let! y := arg e "target" in
              g (stack_values m) (stack_values sd) (stack_values y))
    [seq (d.1, tgt d.2) | d <- data] tau =
  g (stacked_mean [:: K] pred data) (stacked_std mean [:: K] J Sg data) (stack_values [seq tgt d.2 | d <- data]).
Proof.
move=> D0 Ep Hc HS He H; rewrite /evaluate_for_given_prior_arguments.
rewrite bindA (@mc_stacked Sg S eps tau ps) //; first last.
- by move=> d /List.in_map_iff [d' [<- Hd]]; exact: (H _ Hd).
- by case: (data) D0.
rewrite [LHS]/= -!map_comp.
have -> : stacked_mean [:: K] pred data = stack_values [seq VArr (pred d.1) | d <- data].
  by rewrite (@stack_valuesE _ _ _ [:: K]) // => d /H [].
have -> : stacked_std mean [:: K] J Sg data =
    stack_values [seq VArr (Arr [:: K] [seq Num.sqrt (pvar mean J Sg d.1 k) | k <- iota 0 (prodn [:: K])]) | d <- data].
  by rewrite (@stack_valuesE _ _ _ [:: K]).
by [].
Qed.

Lemma stack_labels (D : Type) (f : D -> nat) (data : seq D) : data <> [::] ->
  stack_values [seq VLabel (f d) | d <- data] = Arr [:: size data] [seq (f d)%:R | d <- data].
Proof.
case: data => [//|d0 data _]; rewrite /stack_values -map_comp size_map /=; congr (Arr _ (_ :: _)).
by elim: data => //= d l ->.
Qed.

(** The NLL objective of a classification compares the logits (not probabilities) with the one-hot
    encoded labels under the Gaussians of the linearised predictive. *)
Theorem C52_nll_classification Sg S eps tau ps (data : seq (X * nat)) :
  data <> [::] -> posterior_fn tau = Ok ps -> acts_as Sg mean mean (ps_cov_mv ps) ->
  acts_as S mean mean (ps_scale_mv ps) -> draws eps -> (forall d, List.In d data -> pt_ok d.1) ->
  (forall d k, List.In d data -> (k < K)%N -> 0 < pvar mean J Sg d.1 k) ->
  objective (NllObjective true) mc_fns [seq (d.1, VLabel d.2) | d <- data] tau =
  Ok (- (\sum_(d <- data) \sum_(0 <= k < K)
           ln (gauss_density (nth 0 (adata (pred d.1)) k) (Num.sqrt (pvar mean J Sg d.1 k))
                 (if k == d.2 then 1 else 0)))
      / (size data * K)%:R).
Proof.
move=> D0 Ep Hc HS He H Hpos.
rewrite /objective_value [objective_metric _]/=.
rewrite (@mc_objectiveE _ VLabel (fun m sd y => nll_gaussian m sd (one_hot_array (last 0%N (ashape m)) y) true) Sg S eps tau ps) //.
rewrite stack_labels // /one_hot_array /=.
have -> : flatten [seq [seq (if x == c%:R then 1 else 0 : R) | c <- iota 0 K] | x <- [seq ((d.2)%:R : R) | d <- data]] =
    flatten [seq [seq (if c == d.2 then 1 else 0 : R) | c <- iota 0 K] | d <- data].
  elim: (data) => [//|d l IH]; rewrite !map_cons; congr (_ ++ _); last exact: IH.
  by apply: eq_map => c; rewrite eqr_nat eq_sym.
have [|||_ ->] := C36_nll_value (m := stacked_mean [:: K] pred data) (s := stacked_std mean [:: K] J Sg data)
    (y := Arr [:: size data; K] (flatten [seq [seq (if c == d.2 then 1 else 0 : R) | c <- iota 0 K] | d <- data])) => //.
  move=> x /flattenP [l /mem_map_In [d Hd ->] /mapP [k]].
  by rewrite mem_iota add0n => /andP [_]; rewrite /= muln1 => Hk ->; rewrite sqrtr_gt0; apply: Hpos.
rewrite /triples (@sum_triples _ data _ _ _ K); last first.
  by move=> d /H [_ E1 /eqP E2 _]; rewrite E2 E1 !size_map !size_iota /= muln1.
rewrite /= muln1; congr (Ok (- _ / _)).
apply: eq_bigr => d _; apply: eq_big_nat => k /andP [_ Hk].
by rewrite !(nth_map 0%N) ?size_iota // ?nth_iota.
Qed.

(** One-hot encoded (or any array) targets, which correctness and the accuracies accept, make this
    objective fail with a ValueError at every prior precision. *)
Theorem C52_one_hot_targets_refuted Sg S eps tau ps (data : seq (X * arr R)) :
  data <> [::] -> posterior_fn tau = Ok ps -> acts_as Sg mean mean (ps_cov_mv ps) ->
  acts_as S mean mean (ps_scale_mv ps) -> draws eps -> (forall d, List.In d data -> pt_ok d.1) ->
  (forall d, List.In d data -> ashape d.2 = [:: K]) ->
  objective (NllObjective true) mc_fns [seq (d.1, VArr d.2) | d <- data] tau = Raise ValueError.
Proof.
move=> D0 Ep Hc HS He H Hsh.
rewrite /objective_value [objective_metric _]/=.
rewrite (@mc_objectiveE _ VArr (fun m sd y => nll_gaussian m sd (one_hot_array (last 0%N (ashape m)) y) true) Sg S eps tau ps) //.
rewrite (@stack_valuesE _ _ _ [:: K]) // /one_hot_array /= /nll_gaussian /shape_eq3 /=.
by rewrite (_ : [:: size data; K] == [:: size data; K; K] = false) ?andbF //; apply/negbTE/negP; case/eqP.
Qed.

(** ** The closed-form predictives *)
Lemma finalize_cat ds x kw (fns : seq (pushfn RR X)) rest r r' p aux :
  finalize_fns [seq f ds x kw | f <- fns] r aux = Ok r' ->
  exists aux', finalize_fns ([seq lift_fn f ds x kw | f <- fns] ++ rest) (r, p) aux =
               finalize_fns rest (r', p) aux'.
Proof.
elim: fns r aux => [|f fns IH] r aux /=; first by rewrite {1}/finalize_fns /= => -[->]; exists aux.
rewrite {1}/finalize_fns /= => E; have [[r1 a1] E1 E2] := bind_ok E.
have [aux' Ea] := IH r1 a1 E2; exists aux'.
by rewrite -Ea {1}/finalize_fns /= /lift_fn E1.
Qed.

Definition special_fns (name : string) : pf_setter * seq (pf_fn (pushfn RR X)) :=
  (SetLinPushforward, [:: LinSetup; LinPredMean; LinPredStd; LinSpecialPredAct name; GetPredAct]).
(** The arrays of predictive variances. *)
Definition var_arr Sg (x : X) : arr R := Arr [:: K] [seq pvar mean J Sg x i | i <- iota 0 K].

Lemma special_run ps Sg name fn x0 : var_table name = Some fn ->
  posterior_ok mean ps Sg -> pt_ok x0 ->
  exists2 predict,
    build_predictive split normal key0 model_fn ad_jvp ad_vjp mean key N (special_fns name) ps = Ok predict &
    forall x, pt_ok x ->
      predict x =
      let! a := fn (pred x) (var_arr Sg x) true in
      Ok [seq (k, if String.eqb k "special_pred_act" || String.eqb k "pred_act" then VArr a
                  else lin_value mean [:: K] pred J Sg k x)
         | k <- [:: "map"; "pred_mean"; "pred_var"; "pred_std"; "special_pred_act"; "pred_act"]%string].
Proof.
move=> Hfn Pp P0.
pose kw := Kwargs (Some N) None None None None None.
have K1 : (0 < prodn [:: K])%N by rewrite /= muln1.
have [p0 Eb Hp] := lin_predictive key0 key N Hsplit Hnormal K1 Pp P0.
rewrite /build_predictive -/kw in Eb *.
rewrite /= in Eb *; have [ds Eds [Ep]] := bind_ok Eb; rewrite Eds; cbn [bind].
eexists; first by [].
move=> x Px; have := Hp x Px; rewrite -Ep /api_predictive.
have [M Sh W HJ] := Px; rewrite M; cbn [bind].
have := finalize_lift0 ds x kw (@lin_setup RR X :: [seq stat_fn o | o <- [:: SMean; SStd]]) (results0 (pred x)) None (aux0 RR).
rewrite /= => ->.
case Er: (finalize_fns _ _ _) => [r|//] /= [].
have [aux' Ea] := @finalize_cat ds x kw (@lin_setup RR X :: [seq stat_fn o | o <- [:: SMean; SStd]])
   [:: lift_fn (@lin_special_pred_act RR X var_table cov_table) ds x (with_special name kw); @get_pred_act X ds x kw]
   (results0 (pred x)) r None (aux0 RR) Er.
move: Ea; rewrite /= => ->.
have [R1 R2 R3] : same_extras (results0 (pred x)) r.
  apply: (@keeps_run X ds x kw [:: @lin_setup RR X; @lin_pred_mean RR X; @lin_pred_std RR X] _ _ _ _ Er).
  move=> f [<-|[<-|[<-|//]]];
      [exact: lin_setup_keeps|exact: lin_pred_mean_keeps|exact: lin_pred_std_keeps].
rewrite /entries_of /= R1 R2 R3 /=.
case: r Er R1 R2 R3 => rm rpm rpc rpv rps rsm rmc rsp /= _ -> -> ->.
case: rpm => [rpm|]; case: rpc => [rpc|]; case: rpv => [rpv|]; case: rps => [rps|] //= -> [-> -> ->].
rewrite /finalize_fns /= /lift_fn /lin_special_pred_act /special_pred_act /= Hfn /=.
rewrite /lin_value /= muln1 -/(var_arr Sg x).
by case: (fn _ _ _) => [a|e] //=.
Qed.


(** Class probabilities of the mean-field predictive of order 0. *)
Definition mf0_logit Sg (x : X) (j : nat) : R :=
  nth 0 (adata (pred x)) j / sqrt (1 + PI / 8%:R * pvar mean J Sg x j).
Definition mf0_prob Sg (x : X) (j : nat) : R :=
  exp (mf0_logit Sg x j) / \sum_(0 <= l < K) exp (mf0_logit Sg x l).

Lemma mf0_row Sg x fn : var_table "mean_field_0" = Some fn -> ashape (pred x) = [:: K] ->
  fn (pred x) (var_arr Sg x) true = Ok (Arr [:: K] [seq mf0_prob Sg x j | j <- iota 0 K]).
Proof.
move=> [<-] Sh; rewrite /on_vector Sh; congr (Ok (Arr _ _)).
rewrite -val_enum_ord -[RHS]map_comp; apply: eq_map => i /=.
rewrite /mf0_prob /mean_field_0_predictive !mxE big_mkord; congr (_ / _).
  rewrite /mf0_logit /=; congr (exp (_ / sqrt (_ + _ * _))).
  by rewrite (nth_map 0%N) ?size_iota ?nth_iota // ltn_ord.
apply: eq_bigr => k _; rewrite !mxE /mf0_logit; congr (exp (_ / sqrt (_ + _ * _))).
by rewrite (nth_map 0%N) ?size_iota ?nth_iota // ltn_ord.
Qed.

(** The same objective with the closed-form predictive "mean_field_0" (no draws are used). *)
Theorem C52_ece_mean_field_0 Sg tau ps (data : seq (X * nat)) (conf : X -> R) (top : X -> nat) :
  data <> [::] -> posterior_fn tau = Ok ps -> posterior_ok mean ps Sg ->
  (forall d, List.In d data -> pt_ok d.1) ->
  (forall d, List.In d data -> is_largest (mf0_prob Sg d.1) K (conf d.1)) ->
  (forall d, List.In d data -> first_max (adata (pred d.1)) (top d.1)) ->
  exists2 e, objective EceObjective (special_fns "mean_field_0") [seq (d.1, VLabel d.2) | d <- data] tau = Ok e
           & is_ece conf top data e.
Proof.
move=> D0 Ep Pp H Hconf Htop.
have [d0 Hd0] : exists d, List.In d data by case: (data) D0 => // d l _; exists d; left.
have [predict Eb Hp] := special_run (erefl : var_table "mean_field_0" = Some _) Pp (H _ Hd0).
rewrite /objective_value /evaluate_for_given_prior_arguments Ep; cbn [bind]; rewrite Eb; cbn [bind].
rewrite (@map_pointsE _ _ predict
  [:: "map"; "pred_mean"; "pred_var"; "pred_std"; "special_pred_act"; "pred_act"]%string
  (fun k x => if String.eqb k "special_pred_act" || String.eqb k "pred_act"
              then VArr (Arr [:: K] [seq mf0_prob Sg x j | j <- iota 0 K])
              else lin_value mean [:: K] pred J Sg k x)); first last.
- move=> d /List.in_map_iff [d' [<- Hd]]; rewrite Hp; last exact: (H _ Hd).
  have [_ Sh _ _] := H _ Hd.
  by rewrite (mf0_row Sg (erefl : var_table "mean_field_0" = Some _) Sh).
- by case=> [|[|[|[|[|[|]]]]]].
- by case: (data) D0.
rewrite [objective_metric _]/=; cbn [bind]; apply: (@ece_value (mf0_prob Sg)) => //;
  try by rewrite /arg; cbn [sget rcons map String.eqb Ascii.eqb Bool.eqb]; rewrite -!map_comp.
move=> d j Hd Hj; rewrite /mf0_prob big_mkord.
have Q l : 0 <= exp (mf0_logit Sg d.1 l) by exact/ltW/exp_gt0.
have Q0 : 0 < \sum_(l < K) exp (mf0_logit Sg d.1 l).
  rewrite (bigD1 (Ordinal Hj)) //= ltr_paddr ?exp_gt0 // sumr_ge0 //.
rewrite divr_ge0 ?Q ?(ltW Q0) //= ler_pdivr_mulr // mul1r (bigD1 (Ordinal Hj)) //= ler_addl sumr_ge0 //.
Qed.

(** "laplace_bridge" on vectors of logits: IndexError at every prior precision, for every objective
    that needs the predictive. *)
Theorem C52_laplace_bridge_refuted kind Sg tau ps (data : seq (X * value)) :
  data <> [::] -> posterior_fn tau = Ok ps -> posterior_ok mean ps Sg ->
  (forall d, List.In d data -> pt_ok d.1) -> kind <> MllObjective ->
  objective kind (special_fns "laplace_bridge") data tau = Raise IndexError.
Proof.
move=> D0 Ep Pp H Hk.
have [d0 Hd0] : exists d, List.In d data by case: (data) D0 => // d l _; exists d; left.
have [predict Eb Hp] := special_run (erefl : var_table "laplace_bridge" = Some _) Pp (H _ Hd0).
suff G : evaluate_for_given_prior_arguments
    (fun tau => let! ps := posterior_fn tau in
       build_predictive split normal key0 model_fn ad_jvp ad_vjp mean key N (special_fns "laplace_bridge") ps)
    (objective_metric kind) data tau = Raise IndexError by rewrite /objective_value; case: kind Hk G.
rewrite /evaluate_for_given_prior_arguments Ep; cbn [bind]; rewrite Eb; cbn [bind].
case: data D0 H {Hd0} => [//|d l] _ H.
have Pd := H d (or_introl erefl).
rewrite /map_points /= {1}/with_target Hp //= /on_vector; have [_ -> _ _] := Pd.
by [].
Qed.
End LinearClassification.

(** ** Predictives without the entry pred_act *)
Section NoPredAct.
Notation RR := [rcfType of R].
Variables (X Key : Type).
Variables (split : Key -> nat -> seq Key) (normal : Key -> seq nat -> seq R) (key0 : Key).
Variable model_fn : X -> tree (arr R) -> res (arr R).
Variables ad_jvp ad_vjp : X -> tree (arr R) -> res (tree (arr R)).
Variables (mean : tree (arr R)) (posterior_fn : R -> res (posterior_state RR)) (mll : seq (X * value) -> R -> res R).
Variables (key : Key) (N : nat).
Notation objective := (objective_value split normal key0 model_fn ad_jvp ad_vjp mean key N posterior_fn mll).

Definition sets_pred_act (f : pf_fn (pushfn RR X)) : bool := if f is GetPredAct then true else false.

Lemma no_pred_act fns ds x kw r aux r' : ~~ has sets_pred_act fns -> r.2 = None ->
  finalize_fns [seq fn_of model_fn f ds x kw | f <- fns] r aux = Ok r' -> r'.2 = None.
Proof.
elim: fns r aux => [|f fns IH] r aux /=; first by rewrite /finalize_fns /= => _ H [<-].
rewrite negb_or => /andP [Nf Nfs] H; rewrite /finalize_fns /= => E.
have [[r1 a1] E1 E2] := bind_ok E; apply: (IH r1 a1 Nfs _ E2).
by case: f Nf E1 {E E2} => //= *; match goal with h : lift_fn _ _ _ _ _ _ = _ |- _ =>
   move: h; rewrite /lift_fn => h; have [st _ [<- _]] := bind_ok h end.
Qed.

Lemma sget_absent (V : Type) (l : seq (string * V)) k :
  ~ List.In k (skeys l) -> sget l k = None.
Proof.
elim: l => [//|[k' v] l IH] /= H; case: (String.eqb_spec k' k) => [E|_]; first by case: H; left.
by apply: IH => Hin; apply: H; right.
Qed.
Lemma skeys_sset (V : Type) (l : seq (string * V)) k v k' :
  List.In k' (skeys (sset l k v)) -> k' = k \/ List.In k' (skeys l).
Proof.
elim: l => [|[k1 v1] l IH] /=; first by case=> // ->; left.
case: (String.eqb_spec k1 k) => [_|_] /=; first by case=> [->|H]; right; [left|right].
by case=> [->|/IH [->|H]]; [right; left|left|right; right].
Qed.
Lemma skeys_entries (r : presults) : r.2 = None -> ~ List.In "pred_act"%string (skeys (entries_of r)).
Proof.
case: r => -[m [?|] [?|] [?|] [?|] [?|] [?|] [?|]] p /= -> /=; intuition discriminate.
Qed.
Lemma mapM_keys (V : Type) (F : string -> res V) ks l :
  mapM (fun k => rmap (pair k) (F k)) ks = Ok l -> skeys l = ks.
Proof.
elim: ks l => [|k ks IH] l /=; first by case=> <-.
move=> E; have [v Ev {}E] := bind_ok E; have [l' El [<-]] := bind_ok E.
by rewrite /= (IH _ El); case: (F k) Ev => //= ? [<-].
Qed.
Lemma stack_keys (V : Type) (rows : seq (sdict V)) l : stack_dicts rows = Ok l ->
  exists2 r, List.In r rows & skeys l = skeys r.
Proof.
case: rows => [//|r rows]; rewrite /stack_dicts; case: ifP => // _ E.
by exists r; [left | exact: mapM_keys E].
Qed.
Lemma mapM_in (A B : Type) (f : A -> res B) l l' y :
  mapM f l = Ok l' -> List.In y l' -> exists2 x, List.In x l & f x = Ok y.
Proof.
elim: l l' => [|x l IH] l' /=; first by case=> <-.
move=> E; have [v Ev {}E] := bind_ok E; have [l1 El [<-]] := bind_ok E.
by case=> [<-|H]; [exists x; [left|] | have [x' H1 H2] := IH _ El H; exists x'; [right|]].
Qed.

(** Without [get_pred_act] in the list the ECE objective has no value; when posterior and predictions
    are computed without an error it raises TypeError. *)
Theorem C52_ece_needs_pred_act st fns (data : seq (X * value)) tau :
  ~~ has sets_pred_act fns ->
  (forall v, objective EceObjective (st, fns) data tau <> Ok v) /\
  (forall ps predict entries, posterior_fn tau = Ok ps ->
     build_predictive split normal key0 model_fn ad_jvp ad_vjp mean key N (st, fns) ps = Ok predict ->
     map_points (with_target predict) data = Ok entries ->
     objective EceObjective (st, fns) data tau = Raise TypeError).
Proof.
move=> Hf.
have G ps predict entries : posterior_fn tau = Ok ps ->
     build_predictive split normal key0 model_fn ad_jvp ad_vjp mean key N (st, fns) ps = Ok predict ->
     map_points (with_target predict) data = Ok entries ->
     metric_ece entries = Raise TypeError.
  move=> _ Eb Em.
  have Hp x r : predict x = Ok r -> ~ List.In "pred_act"%string (skeys r).
    have K1 ds kw : rmap entries_of (api_predictive model_fn mean ds fns kw x) = Ok r ->
        ~ List.In "pred_act"%string (skeys r).
      case E: (api_predictive _ _ _ _ _ _) => [r'|//] /= [<-]; apply: skeys_entries.
      move: E; rewrite /api_predictive => E; have [m _ {}E] := bind_ok E.
      exact: (no_pred_act Hf _ E).
    move: Eb; rewrite /build_predictive /=; case: (st) => Eb; have [ds _ [<-]] := bind_ok Eb; exact: K1.
  move: Em; rewrite /map_points => Em; have [rows Er Es] := bind_ok Em.
  have [row Hrow Ek] := stack_keys Es; have [d Hd Ed] := mapM_in Er Hrow.
  have Hn : ~ List.In "pred_act"%string (skeys entries).
    rewrite Ek; move: Ed; rewrite /with_target => Ed; have [r E1 [<-]] := bind_ok Ed.
    by move=> H0; case: (skeys_sset H0) => // H; exact: (Hp _ _ E1 H).
  rewrite /metric_ece /arg (sget_absent Hn).
  by case: (sget entries "map").
rewrite /objective_value /evaluate_for_given_prior_arguments; split=> [v|ps predict entries Ep Eb Em].
  case Ep: (posterior_fn tau) => [ps|//]; cbn [bind].
  case Eb: (build_predictive _ _ _ _ _ _ _ _ _ _ _) => [predict|//]; cbn [bind].
  case Em: (map_points _ _) => [entries|//]; cbn [bind].
  by rewrite [objective_metric _]/= (G _ _ _ Ep Eb Em).
by rewrite Ep; cbn [bind]; rewrite Eb; cbn [bind]; rewrite Em; cbn [bind]; exact: (G _ _ _ Ep Eb Em).
Qed.

(** This is what a nonlinear pushforward with predictive type "mc_bridge" gives. *)
Theorem C52_nonlinear_mc_bridge_refuted s1 s2 pf (data : seq (X * value)) tau :
  lower s1 = "nonlinear"%string -> lower s2 = "mc_bridge"%string ->
  setup_pushforward (EStr s1) (EStr s2) None = Ok pf ->
  forall v, objective EceObjective pf data tau <> Ok v.
Proof.
move=> E1 E2; rewrite C46_pushforward_table E1 E2 /= => -[<-].
exact: (proj1 (@C52_ece_needs_pred_act SetNonlinPushforward _ data tau _)).
Qed.
End NoPredAct.
Print Assumptions C52_nll_objective.
Print Assumptions C52_chi2_objective.
Print Assumptions C52_ece_objective.
Print Assumptions C52_nll_classification.
Print Assumptions C52_one_hot_targets_refuted.
Print Assumptions C52_ece_mean_field_0.
Print Assumptions C52_laplace_bridge_refuted.
Print Assumptions C52_ece_needs_pred_act.
Print Assumptions C52_nonlinear_mc_bridge_refuted.

(** Concretely: two parameters that are the two logits, identity posterior covariance, one point. *)
Section Example.
Let out : arr R := Arr [:: 2%N] [:: 3%:R; 4%:R].
Let ps : posterior_state [rcfType of R] := PosteriorState (fun u => Ok u) (fun u => Ok u).
Notation objective := (objective_value (fun (k : unit) n => nseq n k) (ones_normal [rcfType of R]) tt
  (fun (_ : unit) p => Ok out) (fun _ u => Ok u) (fun _ u => Ok u) (Leaf out) tt 3 (fun _ => Ok ps)
  (fun _ _ => Raise Unmodelled)).

Lemma example_point (x : unit) : point_ok (fun _ p => Ok out) (fun _ u => Ok u) (fun _ u => Ok u) (Leaf out) [:: 2%N]
  (fun _ => out) (fun _ => @ident [rcfType of R]) x.
Proof. by split=> //; exact: is_jacobian_ident. Qed.

Lemma example_var x (k : nat) : (k < 2)%N -> 0 < pvar (Leaf out) (fun _ : unit => @ident [rcfType of R]) (@ident _) x k.
Proof.
move=> Hk; rewrite /pvar /cov_entry (_ : get_size (Leaf out) = 2%N) //.
case: k Hk => [|[|//]] _; rewrite !big_nat_recl // !big_geq // /ident /= !(mul0r, mulr0, mul1r, addr0, add0r); exact: ltr01.
Qed.

Example C52_example_ece : exists2 e, objective EceObjective (mc_fns unit) [:: (tt, VLabel 1)] 1 = Ok e & 0 <= e <= 1.
Proof.
pose eps (i : nat) := match randn_like (fun (k : unit) n => nseq n k) (ones_normal [rcfType of R])
  (nth tt (nseq 3 tt) i) (Leaf out) with Ok e => e | Raise _ => Leaf out end.
have He : draws (fun (k : unit) n => nseq n k) (ones_normal [rcfType of R]) tt (Leaf out) tt 3 eps.
  move=> i _; rewrite /eps.
  by have [e [-> _ _]] := randn_likeP nseq_split_size (@ones_normal_size [rcfType of R]) (nth tt (nseq 3 tt) i) (Leaf out).
set S := @ident [rcfType of R]; pose P x := mc_prob (Leaf out) 2 (fun _ : unit => out) (fun _ => S) 3 S eps x.
pose conf x := jmax [seq P x j | j <- iota 0 2].
have H1 (d : unit * nat) : List.In d [:: (tt, 1%N)] -> is_largest (P d.1) 2 (conf d.1).
  move=> _; split=> [|j Hj].
    have : conf d.1 \in [seq P d.1 j | j <- iota 0 2] by apply: jmax_in.
    by case/mapP => j; rewrite mem_iota add0n => /andP [_ Hj] ->; exists j.
  by apply: jmax_ge; apply/mapP; exists j => //; rewrite mem_iota.
have H2 (d : unit * nat) : List.In d [:: (tt, 1%N)] -> first_max (adata out) (argmax (adata out)).
  by move=> _; apply: argmaxP.
have H3 : [:: (tt, 1%N)] <> [::] by [].
have [e E [_ H]] := @C52_ece_objective unit unit (fun (k : unit) n => nseq n k) (ones_normal [rcfType of R]) tt
  (fun _ p => Ok out) (fun _ u => Ok u) (fun _ u => Ok u) (Leaf out) 2 (fun _ => out) (fun _ => S) (fun _ => Ok ps)
  (fun _ _ => Raise Unmodelled) tt 3 nseq_split_size (@ones_normal_size _) isT isT S S eps 1 ps [:: (tt, 1%N)] conf
  (fun _ => argmax (adata out)) H3 erefl (@acts_as_ident _ _) (@acts_as_ident _ _) He (fun d _ => example_point d.1) H1 H2.
by exists e; [exact: E | exact: H].
Qed.

Example C52_example_nll : exists v, objective (NllObjective false) (regression_fns unit) [:: (tt, VArr out)] 1 = Ok v.
Proof.
eexists.
apply: (@C52_nll_objective unit unit (fun (k : unit) n => nseq n k) (ones_normal [rcfType of R]) tt
  (fun _ p => Ok out) (fun _ u => Ok u) (fun _ u => Ok u) (Leaf out) [:: 2%N] (fun _ => out) (fun _ => @ident _) (fun _ => Ok ps)
  (fun _ _ => Raise Unmodelled) tt 3 nseq_split_size (@ones_normal_size _) (@ident _) 1 ps [:: (tt, out)]) => //.
- by split; [exact: acts_as_ident | exists (@ident _); exact: acts_as_ident].
- by move=> d [<-|//]; split=> //; exact: example_point.
- by move=> d k _ Hk; exact: example_var.
Qed.
End Example.
