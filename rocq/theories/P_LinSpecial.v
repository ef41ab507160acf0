(** Properties C39 and C37, continued: closed-form class probabilities of a linearised pushforward. *)
From Coq Require Import String.
From mathcomp Require Import all_ssreflect all_algebra.
From Verif Require Import Base PyTree TreeSpec PyTreeProofs BasisProofs StackProofs Mv MvProofs TreeOpsProofs.
From Verif Require Import EvalUtils Pushforward PushforwardSpec PushforwardProofs P_Pushforward.
Set Implicit Arguments.
Unset Strict Implicit.
Unset Printing Implicit Defensive.
Import Order.TTheory GRing.Theory Num.Theory.
Local Open Scope ring_scope.

Section Special.
Variables (R : rcfType) (X Key : Type) (split : Key -> nat -> seq Key) (normal : Key -> seq nat -> seq R) (key0 : Key).
Variables (model_fn : X -> tree (arr R) -> res (arr R)) (ad_jvp ad_vjp : X -> tree (arr R) -> res (tree (arr R))).
Variables (mean : tree (arr R)) (ps : posterior_state R) (key : option Key) (kw : kwargs) (ops : seq lin_stat).
Variables (vp : string -> option (arr R -> arr R -> bool -> res (arr R))) (cp : string -> option (arr R -> arr R -> res (arr R))).
Variables (x : X) (out : arr R) (J Sg : nat -> nat -> R).
Let n := get_size mean.
Let s := ashape out.
Let C := cov_entry n J Sg J.
Let var := Arr s [seq C i i | i <- iota 0 (prodn s)].
Let method := odflt "mean_field_0"%string (kw_special_pred_type kw).
Let fns := @lin_setup R X :: [seq stat_fn o | o <- ops] ++ [:: @lin_special_pred_act R X vp cp].
Notation pushforward := (set_lin_pushforward split normal key0 model_fn ad_jvp ad_vjp mean ps key fns kw).

(** The hypotheses of C39: no samples, a model with Jacobian [J], a posterior with covariance [Sg]. *)
Definition lin_ready : Prop :=
  [/\ odflt 0%N (kw_num_samples kw) = 0%N, SSamples \notin ops, model_fn x mean = Ok out, (0 < prodn s)%N &
      is_jacobian J mean out (ad_jvp x) (ad_vjp x) /\ acts_as Sg mean mean (ps_cov_mv ps)].

Lemma inv_more smp done done' r aux :
  inv model_fn ad_jvp ad_vjp mean x out J Sg ps smp done r aux ->
  (SCov \in done') = (SCov \in done) -> (SVar \in done') || (SStd \in done') = (SVar \in done) || (SStd \in done) ->
  (SStd \in done') = (SStd \in done) -> (SSamples \in done') = (SSamples \in done) ->
  (done <> [::]) -> (done' <> [::]) ->
  inv model_fn ad_jvp ad_vjp mean x out J Sg ps smp done' r aux.
Proof.
move=> [A1 A2 A3 A4 A5 A6 A7 A8 A9 A10] E1 E2 E3 E4 D D'.
split=> //; rewrite ?E1 ?E2 ?E3 ?E4 //.
by case: (done) (done') D D' A2 => [//|? ?] [|].
Qed.

(** The part of the pushforward before the special function, with the missing mean filled in. *)
Lemma special_start : lin_ready -> (size s <= 1)%N \/ no_var_after_cov ops ->
  exists predict ds r aux smp,
    [/\ pushforward = Ok predict, inv model_fn ad_jvp ad_vjp mean x out J Sg ps smp (rcons ops SMean) r aux &
      predict x = match vp method with
        | Some pred_fn =>
          let! st := (if r_pred_var r is Some _ then Ok (r, aux) else lin_pred_var ds x kw r aux) in
          let! v := get_key (r_pred_var st.1) in
          let! p := pred_fn out v (odflt true (kw_use_correction kw)) in
          Ok (set_special_pred_act p st.1)
        | None =>
          let! pred_fn := get_key (cp method) in
          let! st := (if r_pred_cov r is Some _ then Ok (r, aux) else lin_pred_cov ds x kw r aux) in
          let! c := get_key (r_pred_cov st.1) in
          let! p := pred_fn out c in Ok (set_special_pred_act p st.1)
        end].
Proof.
move=> [N0 Hsm M n0 [HJ HS]] Ho.
rewrite /set_lin_pushforward N0 /=.
set ds := DistState _ _ _ _ _.
have [aux' [E I]] := @inv_setup R X model_fn ad_jvp ad_vjp mean x out J Sg ps ds kw out (results0 out) (aux0 R)
   erefl erefl erefl erefl.
have [|r' [aux2 [E2 I2]]] := inv_run_app M HJ HS n0 (ds := ds) (kw := kw) (ops := ops)
    [:: @lin_special_pred_act R X vp cp ds x kw] I.
  move=> l1 o l2 El.
  case: o El => //= El.
  + by case: Ho => Ho; [left | right; apply: (order_cases El Ho)].
  + by case: Ho => Ho; [left | right; apply: (order_cases El Ho)].
  + by move: Hsm; rewrite El mem_cat inE eqxx !orbT.
have [r3 [aux3 [E3 I3]]] : exists r3 aux3,
  (if r_pred_mean r' is Some _ then Ok (r', aux2) else @lin_pred_mean R X ds x kw r' aux2) = Ok (r3, aux3) /\
  inv model_fn ad_jvp ad_vjp mean x out J Sg ps out (rcons ops SMean) r3 aux3.
  case Eo: ops => [|o l].
    rewrite Eo in I2; rewrite (i_mean I2).
    have [//|r4 [aux4 [E4 I4]]] := inv_step M HJ HS n0 (ds := ds) (kw := kw) I2 (o := SMean).
    by exists r4, aux4.
  exists r', aux2; rewrite (i_mean I2) Eo /=; split=> //; rewrite -rcons_cons -Eo.
  apply: (inv_more I2) => //; rewrite ?mem_rcons ?inE //; first by rewrite Eo.
  by case: (ops).
have Hm : r_pred_mean r3 = Some out by rewrite (i_mean I3) rcons_not_nil.
eexists; exists ds, r3, aux3, out; split; [by [] | exact: I3 |].
rewrite /set_prob_predictive M /= (finalize_cons _ E) map_cat -map_comp E2 /finalize_fns /=.
rewrite /lin_special_pred_act /special_pred_act E3 /= Hm /=.
rewrite -/method; case: (vp method) => [pf|] /=.
  by case: (if r_pred_var r3 is Some _ then _ else _) => [st|//] /=; case: (r_pred_var st.1) => //= v; case: (pf _ _ _).
case: (cp method) => //= pf.
by case: (if r_pred_cov r3 is Some _ then _ else _) => [st|//] /=; case: (r_pred_cov st.1) => //= v; case: (pf _ _).
Qed.

(** C39.  A closed form that works on variances receives the prediction and the variances of the
    linearised model, whatever was requested before it; what was requested stays in the results. *)
Theorem C39_special_variance pf : lin_ready ->
  (size s <= 1)%N \/ no_var_after_cov (rcons ops SVar) -> vp method = Some pf ->
  exists predict r, [/\ pushforward = Ok predict, lin_report n out J Sg (ops ++ [:: SMean; SVar]) r &
    predict x = rmap (fun p => special_added p r) (pf out var (odflt true (kw_use_correction kw)))].
Proof.
move=> Hr Ho Hv; have [N0 Hsm M n0 [HJ HS]] := Hr.
have Ho' : (size s <= 1)%N \/ no_var_after_cov ops.
  case: Ho => Ho; [by left | right => l1 l2 E].
  have [] := Ho l1 (rcons l2 SVar); first by rewrite E rcons_cat.
  by rewrite !mem_rcons !inE.
have [predict [ds [r [aux [smp [E I Ep]]]]]] := special_start Hr Ho'; move: Ep; rewrite Hv => Ep.
exists predict; rewrite Ep.
have Hv0 : SVar \in ops ++ [:: SMean; SVar] by rewrite mem_cat !inE eqxx !orbT.
have L (l : seq lin_stat) (r0 : results R) (a0 : auxd R) : inv model_fn ad_jvp ad_vjp mean x out J Sg ps smp l r0 a0 -> (SVar \in l) || (SStd \in l) ->
  r_pred_var r0 = Some var.
  by move=> Il Hl; rewrite (i_var Il) Hl /the_var /var /C /n get_sizeE /= /mkseq.
have EI : (SVar \in ops ++ [:: SMean; SVar]) || (SStd \in ops ++ [:: SMean; SVar]) by rewrite Hv0.
have D1 : ops ++ [:: SMean; SVar] <> [::] by case: (ops).
case Hp: ((SVar \in rcons ops SMean) || (SStd \in rcons ops SMean)).
  have Er := L _ _ _ I Hp; exists r; split=> //; last first.
    by rewrite Er /= Er /=; case: (pf _ _ _).
  have D2 : rcons ops SMean <> [::] by case: (ops).
  rewrite /n get_sizeE; apply: (inv_report (inv_more I _ _ _ _ D2 D1)); last 3 first.
  - by rewrite Hp EI.
  - by rewrite mem_cat mem_rcons !inE /= orbF.
  - by rewrite mem_cat mem_rcons !inE /= orbF.
  by rewrite mem_cat mem_rcons !inE /= orbF.
have [|r2 [aux2 [E2 I2]]] := inv_step M HJ HS n0 (ds := ds) (kw := kw) I (o := SVar).
  case: Ho => Ho; [by left | right].
  rewrite mem_rcons inE /=; apply/negP => /path.splitPr Hs; case: Hs Ho => a b Ho.
  by have [] := Ho a (rcons b SVar); rewrite ?rcons_cat // mem_rcons inE eqxx.
have Ev : r_pred_var r = None by rewrite (i_var I) Hp.
have EE : rcons (rcons ops SMean) SVar = ops ++ [:: SMean; SVar] by rewrite -!cats1 -catA.
rewrite EE in I2.
have Er := L _ _ _ I2 EI; exists r2; split=> //; first by rewrite /n get_sizeE; exact: (inv_report I2).
by rewrite Ev; move: E2; rewrite /stat_fn => -> /=; rewrite Er /=; case: (pf _ _ _).
Qed.

(** One that works on covariances receives the prediction and the covariance. *)
Theorem C39_special_covariance pf : lin_ready ->
  (size s <= 1)%N \/ no_var_after_cov ops -> vp method = None -> cp method = Some pf ->
  exists predict r c, [/\ pushforward = Ok predict, lin_report n out J Sg (ops ++ [:: SMean; SCov]) r,
    r_pred_cov r = Some c & predict x = rmap (fun p => special_added p r) (pf out c)].
Proof.
move=> Hr Ho Hv Hc; have [N0 Hsm M n0 [HJ HS]] := Hr.
have [predict [ds [r [aux [smp [E I Ep]]]]]] := special_start Hr Ho; move: Ep; rewrite Hv Hc => Ep.
exists predict; rewrite Ep.
have EI : SCov \in ops ++ [:: SMean; SCov] by rewrite mem_cat !inE eqxx !orbT.
have D0 : rcons ops SMean <> [::] by case: (ops).
have D1 : ops ++ [:: SMean; SCov] <> [::] by case: (ops).
case Hp: (SCov \in rcons ops SMean).
  have := i_cov I; rewrite Hp => -[c Er _]; exists r, c; split=> //; last first.
    by rewrite /= Er /= Er /=; case: (pf _ _).
  rewrite /n get_sizeE; apply: (inv_report (inv_more I _ _ _ _ D0 D1)); last 3 first.
  - by rewrite !mem_cat !mem_rcons !inE /= !orbF.
  - by rewrite !mem_cat !mem_rcons !inE /= !orbF.
  - by rewrite !mem_cat !mem_rcons !inE /= !orbF.
  by rewrite Hp EI.
have [//|r2 [aux2 [E2 I2]]] := inv_step M HJ HS n0 (ds := ds) (kw := kw) I (o := SCov).
have Ev : r_pred_cov r = None by have := i_cov I; rewrite Hp.
have EE : rcons (rcons ops SMean) SCov = ops ++ [:: SMean; SCov] by rewrite -!cats1 -catA.
rewrite EE in I2.
have := i_cov I2; rewrite EI => -[c Er _]; exists r2, c; split=> //; first by rewrite /n get_sizeE; exact: (inv_report I2).
by rewrite /= Ev; move: E2; rewrite /stat_fn => -> /=; rewrite Er /=; case: (pf _ _).
Qed.

(** A name in neither table is a KeyError at evaluation time. *)
Theorem C39_special_unknown : lin_ready -> (size s <= 1)%N \/ no_var_after_cov ops ->
  vp method = None -> cp method = None ->
  exists predict, pushforward = Ok predict /\ predict x = Raise KeyError.
Proof.
by move=> Hr Ho Hv Hc; have [predict [ds [r [aux [smp [E I Ep]]]]]] := special_start Hr Ho; exists predict; rewrite Ep Hv Hc.
Qed.
End Special.
Print Assumptions C39_special_variance.
Print Assumptions C39_special_covariance.
Print Assumptions C39_special_unknown.

(** Non-vacuity: a request for nothing else, one variance table and one covariance table. *)
Example C39_special_example (R : rcfType) :
  let out := Arr [:: 2%N] [:: 3%:R; 4%:R : R] in
  let ps := PosteriorState (fun u => Ok u) (fun u : tree (arr R) => Ok u) in
  exists predict r,
    [/\ set_lin_pushforward (fun (k : unit) n => nseq n k) (fun _ s => nseq (prodn s) 0) tt
          (fun (_ : unit) p => Ok out) (fun _ u => Ok u) (fun _ u => Ok u) (Leaf out) ps None
          [:: @lin_setup R unit; @lin_special_pred_act R unit (fun _ => Some (fun m v _ => Ok v)) (fun _ => None)] (kw0 None) = Ok predict,
        r_pred_mean r = Some out & predict tt = Ok (special_added (Arr [:: 2%N] [:: 1; 1]) r)].
Proof.
have H := @C39_special_variance R unit unit (fun k n => nseq n k) (fun _ s => nseq (prodn s) 0) tt
  (fun _ p => Ok (Arr [:: 2%N] [:: 3%:R; 4%:R : R])) (fun _ u => Ok u) (fun _ u => Ok u)
  (Leaf (Arr [:: 2%N] [:: 3%:R; 4%:R : R])) (PosteriorState (fun u => Ok u) (fun u => Ok u)) None (kw0 None)
  [::] (fun _ => Some (fun m v _ => Ok v)) (fun _ => None) tt (Arr [:: 2%N] [:: 3%:R; 4%:R : R]) (@ident R) (@ident R)
  (fun m v _ => Ok v).
have [||//|predict [r [E L Ep]]] := H.
- by split=> //; split; [exact: is_jacobian_ident | exact: acts_as_ident].
- by left.
exists predict, r; split; first exact: E.
  by have [_ -> _ _ _] := L.
rewrite Ep /=; congr (Ok (special_added (Arr _ _) _)); rewrite /cov_entry /=.
by rewrite !big_nat_recl // !big_nil /ident /= ?(mulr0, mul0r, mulr1, mul1r, addr0, add0r).
Qed.
