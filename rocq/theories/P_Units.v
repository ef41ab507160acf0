(** Property C36, continued: the regression metrics under a change of units. *)
From Coq Require Import Reals Lra.
From mathcomp Require Import all_ssreflect all_algebra.
From Verif Require Import Base PyTree RealStruct RealSums Metrics MetricsSpec MetricsProofs Normal CrpsProofs Gauss P_Regression.
Set Implicit Arguments.
Unset Strict Implicit.
Unset Printing Implicit Defensive.
Import GRing.Theory Num.Theory Order.TTheory.
Local Open Scope ring_scope.

(** Every entry multiplied by [a] and shifted by [b]. *)
Definition in_units (a b : R) (x : arr R) : arr R := Arr (ashape x) [seq a * u + b | u <- adata x].

Lemma wf_in_units a b x : wf_arr x -> wf_arr (in_units a b x).
Proof. by rewrite /wf_arr /= size_map. Qed.
Lemma zip_maps (A B C D : Type) (f : A -> C) (g : B -> D) s t :
  zip (map f s) (map g t) = [seq (f p.1, g p.2) | p <- zip s t].
Proof. by elim: s t => [|x s IH] [|y t] //=; rewrite IH. Qed.
Lemma triples_in_units a b m s y : triples (in_units a b m) (in_units a 0 s) (in_units a b y) =
  [seq ((a * t.1.1 + b, a * t.1.2 + 0), a * t.2 + b) | t <- triples m s y].
Proof. by rewrite /triples /= zip_maps zip_maps. Qed.

Lemma mem_triples (A B C : seq R) t : t \in zip (zip A B) C -> t.1.2 \in B.
Proof.
elim: A B C => [|a A IH] [|b B] [|c C] //=; rewrite !inE => /orP [/eqP -> /=|/IH ->]; first by rewrite eqxx.
by rewrite orbT.
Qed.
Lemma density_in_units (a b m s y : R) : 0 < a -> 0 < s ->
  ln (gauss_density (a * m + b) (a * s) (a * y + b)) = ln (gauss_density m s y) - ln a.
Proof.
move=> a0 s0; have as0 : 0 < a * s by rewrite mulr_gt0.
rewrite !gauss_densityE; try exact/RltP.
have -> : Rdiv (Rminus (a * y + b) (a * m + b)) (a * s) = Rdiv (Rminus y m) s.
  by toR; field; split; apply: Rgt_not_eq; apply/RltP.
have P0 u : Rlt 0 (norm_pdf u) := norm_pdf_pos u.
have A0 : Rlt 0 a by apply/RltP.
have S0 : Rlt 0 s by apply/RltP.
have AS0 : Rlt 0 (Rmult a s) by apply/RltP.
toR; set p := norm_pdf _.
have I1 : Rlt 0 (Rinv (Rmult a s)) by apply: Rinv_0_lt_compat.
have I2 : Rlt 0 (Rinv s) by apply: Rinv_0_lt_compat.
have Pp : Rlt 0 p := P0 _.
rewrite (ln_mult _ _ I1 Pp) (ln_mult _ _ I2 Pp) ln_Rinv // ln_Rinv // (ln_mult _ _ A0 S0); ring.
Qed.

(** C36.  Targets and predictions given in other units ([a x + b], deviations [a s], [a > 0]): the root
    mean squared error and the CRPS are multiplied by [a], chi-squared does not change, and the negative
    log density grows by [ln a] per entry. *)
Theorem C36_change_of_units :
  forall (a b : R) (m s y : arr R), 0 < a -> ashape m = ashape s -> ashape s = ashape y ->
  wf_arr m -> wf_arr s -> wf_arr y -> (forall x, x \in adata s -> 0 < x) ->
  let m' := in_units a b m in let s' := in_units a 0 s in let y' := in_units a b y in
  exists rmse crps nll,
    [/\ estimate_rmse m y = Ok rmse /\ estimate_rmse m' y' = Ok (a * rmse),
        chi_squared m' s' y' false = chi_squared m s y false /\ chi_squared m' s' y' true = chi_squared m s y true,
        crps_gaussian m s y false = Ok crps /\ crps_gaussian m' s' y' false = Ok (a * crps) &
        nll_gaussian m s y false = Ok nll /\ nll_gaussian m' s' y' false = Ok (nll + (prodn (ashape m))%:R * ln a)].
Proof.
move=> a b m s y a0 E1 E2 Wm Ws Wy Hs m' s' y'.
have an : a != 0 by rewrite gt_eqF.
have Wm' := wf_in_units a b Wm; have Ws' := wf_in_units a 0 Ws; have Wy' := wf_in_units a b Wy.
have E1' : ashape m' = ashape s' by []. 
have E2' : ashape s' = ashape y' by [].
have E3 : ashape m = ashape y by rewrite E1.
have Hs' x : x \in adata s' -> 0 < x.
  by move=> /mapP [u /Hs Hu ->]; rewrite addr0 mulr_gt0.
have D u v : a * u + b - (a * v + b) = a * (u - v) by rewrite opprD addrACA subrr addr0 mulrBr.
have Ht t : t \in triples m s y -> 0 < t.1.2.
  by move=> H; apply: Hs; apply: mem_triples H.
eexists; eexists; eexists; split.
- rewrite (C36_rmse E3 Wm Wy); split; first reflexivity.
  rewrite (C36_rmse (E3 : ashape m' = ashape y') Wm' Wy') /= zip_maps big_map; congr Ok.
  rewrite (eq_bigr (fun t => a ^+ 2 * (t.1 - t.2) ^+ 2)) => [|t _]; last by rewrite /= D exprMn.
  rewrite -mulr_sumr -mulrA; set q := _ / _.
  have q0 : 0 <= q by rewrite divr_ge0 ?ler0n // sumr_ge0 // => t _; rewrite sqr_ge0.
  have -> : a ^+ 2 * q = Rmult (Rmult a a) q by rewrite expr2.
  rewrite sqrt_mult; [|by apply/RleP; rewrite -[Rmult a a]/(a * a) mulr_ge0 // ltW|exact/RleP].
  by rewrite sqrt_square //; apply/RleP; rewrite ltW.
- have [C1 [C2 _]] := C36_chi_squared E1 E2 Wm Ws Wy.
  have [C1' [C2' _]] := C36_chi_squared E1' E2' Wm' Ws' Wy'.
  rewrite C1 C2 C1' C2' triples_in_units big_map.
  rewrite (eq_bigr (fun t => (t.1.1 - t.2) ^+ 2 / t.1.2 ^+ 2)) // => t _.
  by rewrite /= D addr0 !exprMn -mulf_div divff ?mul1r // expf_neq0.
- have [C1 _] := C36_crps_value E1 E2 Wm Ws Wy.
  have [C1' _] := C36_crps_value E1' E2' Wm' Ws' Wy'.
  rewrite C1; split; first reflexivity.
  rewrite C1' triples_in_units big_map mulr_sumr; congr Ok; apply: eq_big_seq => t /Ht t0.
  rewrite /= addr0 mulrA; congr (_ * crps_std _).
  rewrite !RdivE ?mulf_neq0 ?(gt_eqF t0) //.
  by rewrite D -mulf_div divff ?mul1r.
- have [C1 _] := C36_nll_value E1 E2 Hs.
  have [C1' _] := C36_nll_value E1' E2' Hs'.
  rewrite C1; split; first reflexivity.
  rewrite C1' triples_in_units big_map; congr Ok.
  have Sz : prodn (ashape m) = size (triples m s y).
    by rewrite !size_zip -(size_zipwf E2 Ws Wy) -(size_zipwf E1 Wm Ws) !minnn (eqP Wm).
  rewrite Sz -[X in _ = _ + X]opprK -opprD; congr (- _).
  elim: (triples m s y) Ht => [|t l IH] Ht; first by rewrite !big_nil mul0r subr0.
  rewrite !big_cons IH => [|u Hu]; last by apply: Ht; rewrite inE Hu orbT.
  rewrite /= addr0 density_in_units ?Ht ?mem_head //.
  by rewrite addrACA -opprD -[in RHS]addn1 natrD mulrDl mul1r [ln a + _]addrC.
Qed.
Print Assumptions C36_change_of_units.

(** Non-vacuity: one prediction in metres and in centimetres. *)
Example C36_units_example (m y : R) :
  let x u : arr R := Arr [:: 1%N] [:: u] in
  exists c, crps_gaussian (x m) (x 1) (x y) false = Ok c /\
    crps_gaussian (in_units 100%:R 0 (x m)) (in_units 100%:R 0 (x 1)) (in_units 100%:R 0 (x y)) false = Ok (100%:R * c).
Proof.
move=> x; have [|||||||_ [c [_ [_ _ C _]]]] := @C36_change_of_units 100%:R 0 (x m) (x 1) (x y) => //.
- by rewrite ltr0n.
- by move=> u; rewrite inE => /eqP ->; exact: ltr01.
by exists c.
Qed.
