(** C31, C32: the calibration grid search. *)
From Coq Require Import ZArith Lia SpecFloat Reals Lra.
From Flocq Require Import Core.Raux IEEE754.BinarySingleNaN.
From mathcomp Require Import all_ssreflect.
From Verif Require Import Base GridSearch GridSpec GridProofs.
Set Implicit Arguments.
Unset Strict Implicit.
Unset Printing Implicit Defensive.

Lemma grid_search_spec (G : Type) (objective : nat -> G -> res spec_float) grid patience max_iterations calls out :
  grid_search objective grid patience max_iterations = (calls, out) ->
  [/\ calls = take (size calls) grid,
      (forall i, i.+1 < size calls -> ~ stop_after objective grid patience max_iterations i /\
                                      value objective grid i <> None)
    & (exists e, [/\ out = Raise e, 0 < size calls & exists p,
         [/\ List.nth_error grid (size calls).-1 = Some p,
             objective (size calls).-1 p = Raise e & e <> ValueError]]) \/
      ([/\ (forall i, i < size calls -> value objective grid i <> None),
         (size calls < size grid ->
            0 < size calls /\ stop_after objective grid patience max_iterations (size calls).-1)
       & (calls = [::] /\ out = Raise ValueError) \/
         exists i p, [/\ out = Ok p, List.nth_error calls i = Some p,
           forall j, j < size calls -> lt_score (value objective grid j) (value objective grid i) = false
         & forall j, j < i -> lt_score (value objective grid i) (value objective grid j)]])].
Proof.
rewrite /grid_search.
case E: (grid_loop _ _ _ _ _ _ _ _ _) => [calls' out'] [<- <-] {calls out}.
have [] // := grid_loop_spec (pre := [::]) (erefl grid) _ _ _ _ E.
rewrite /= add0n => E1 E2 E3; split=> //; first by move=> i; apply: E2.
case: E3 => [[e [-> H1 H2]]|[rs [-> H1 H2 H3]]]; first by left; exists e.
right; split=> //; first by move=> i /H2 [].
have Hn i y : List.nth_error rs i = Some y -> i < size calls'.
  move=> H; rewrite -H1; apply/ltP/List.nth_error_Some; by rewrite H.
case: (posnP (size calls')) => Hc.
  left; split; first exact: size0nil.
  by move: H1; rewrite Hc => /size0nil ->.
have Nrs : all (fun x => ~~ sf_isnan x) rs.
  have G0 : forall x, List.In x rs -> ~~ sf_isnan x.
    move=> x /(@List.In_nth_error _ _ _) [i Hi]; have [Ei _] := H2 i (Hn _ _ Hi).
    by rewrite (@value_nnan G objective grid i x) // -Ei.
  elim: (rs) G0 => //= x l IH G0; rewrite G0 /=; last by left.
  by apply: IH => y Hy; apply: G0; right.
have Em : map (fun x => if sf_isnan x then sf_inf else x) rs = rs.
  by elim: (rs) Nrs => //= x l IH /andP [/negbTE -> /IH ->].
have Ne : all sf_isnan rs = false.
  by case: (rs) Nrs H1 => [_ /= H|x l /= /andP [/negbTE -> _]] //; rewrite -H in Hc.
have [i [y Ey]] : exists i y, argmin rs = Some (i, y).
  by apply: argmin_some => Er; rewrite Er /= in H1; rewrite -H1 in Hc.
rewrite /bind /nanargmin Ne Em Ey /=.
have [A1 A2 A3] := argmin_spec Nrs Ey.
have Hi := Hn _ _ A1.
right; exists i.
have [Ei _] := H2 i Hi.
case Ep: (List.nth_error calls' i) => [p|]; last first.
  by move/List.nth_error_None: Ep => /leP; rewrite leqNgt Hi.
exists p; split=> //.
- move=> j /H2 [Ej _]; rewrite -Ei -Ej A1 /lt_score.
  by case Ez: (List.nth_error rs j) => [z|] //; apply: A2 Ez.
- move=> j Hj; have [Ej Nj] := H2 j (ltn_trans Hj Hi).
  rewrite -Ei -Ej A1 /lt_score; case Ez: (List.nth_error rs j) => [z|]; first exact: A3 Hj Ez.
  by rewrite -Ej Ez in Nj.
Qed.

(** The search evaluates the objective on a prefix of the grid, in order, and returns an evaluated
    point of least score; among those of least score, the earliest one. *)
Theorem C31_first_minimiser :
  forall (G : Type) (objective : nat -> G -> res spec_float) (grid : seq G)
    (patience max_iterations : option Z) calls p,
  grid_search objective grid patience max_iterations = (calls, Ok p) ->
  calls = take (size calls) grid /\
  exists i, List.nth_error calls i = Some p /\
    (forall j, j < size calls ->
       lt_score (value objective grid j) (value objective grid i) = false) /\
    (forall j, j < i -> lt_score (value objective grid i) (value objective grid j)).
Proof.
move=> G objective grid pat mi calls p /grid_search_spec [E1 _ [[e [//]]|[_ _ [[_ //]|[i [q [[<-] H1 H2 H3]]]]]]].
by split=> //; exists i.
Qed.
Print Assumptions C31_first_minimiser.

(** When it returns and when it raises: an empty grid is a ValueError; otherwise the only exceptions
    are those of the last evaluation made, and they are never ValueErrors. *)
Theorem C31_outcome :
  forall (G : Type) (objective : nat -> G -> res spec_float) (grid : seq G)
    (patience max_iterations : option Z),
  let calls := (grid_search objective grid patience max_iterations).1 in
  let out := (grid_search objective grid patience max_iterations).2 in
  (grid = [::] -> calls = [::] /\ out = Raise ValueError) /\
  (grid <> [::] -> (forall i, i < size calls -> ~ escapes objective grid i) -> exists p, out = Ok p) /\
  (grid <> [::] -> forall e, out = Raise e ->
     0 < size calls /\ e <> ValueError /\
     (exists p, List.nth_error grid (size calls).-1 = Some p /\ objective (size calls).-1 p = Raise e) /\
     forall i, i < (size calls).-1 -> ~ escapes objective grid i).
Proof.
move=> G objective grid pat mi calls out.
have [E1 E2 E3] := grid_search_spec (surjective_pairing (grid_search objective grid pat mi)).
rewrite -/calls -/out in E1 E2 E3.
have vn i : escapes objective grid i -> value objective grid i = None.
  case=> p [e [Ep Ee Ne]]; rewrite /value Ep Ee /=; by case: e Ne {Ee}.
have ne : grid <> [::] -> calls <> [::].
  move=> Hg Hc; case: E3 => [[e [_]]|[_ H _]]; first by rewrite Hc.
  by move: H; rewrite Hc; case: (grid) Hg => //= g gs _ [].
split; first by move=> Hg; rewrite /calls /out Hg.
split=> [Hg Hesc|Hg e He].
  case: E3 => [[e [_ Hs [p [H1 H2 H3]]]]|[_ _ [[Hc _]|[i [p [-> _ _ _]]]]]]; [|by case: (ne Hg)|by exists p].
  exfalso; apply: (Hesc (size calls).-1); first by rewrite prednK.
  by exists p, e.
case: E3 => [[e' [Ee Hs [p [H1 H2 H3]]]]|[_ _ [[Hc _]|[i [p []]]]]]; [|by case: (ne Hg)|by rewrite He].
move: Ee H2 H3; rewrite He => -[<-] H2 H3; split=> //; split=> //; split; first by exists p.
move=> i Hi /vn; apply: (proj2 (E2 i _)); by rewrite -ltnS prednK in Hi.
Qed.
Print Assumptions C31_outcome.

(** If every evaluated score is +inf (for example every evaluation raises ValueError or gives NaN),
    the first grid point is returned. *)
Theorem C31_all_failed :
  forall (G : Type) (objective : nat -> G -> res spec_float) (g : G) (gs : seq G)
    (patience max_iterations : option Z),
  (forall i, i <= size gs -> value objective (g :: gs) i = Some (S754_infinity false)) ->
  (grid_search objective (g :: gs) patience max_iterations).2 = Ok g.
Proof.
move=> G objective g gs pat mi Hinf.
have [E1 E2 E3] := grid_search_spec (surjective_pairing (grid_search objective (g :: gs) pat mi)).
set calls := (grid_search _ _ _ _).1 in E1 E2 E3; set out := (grid_search _ _ _ _).2 in E3 *.
have Hsz : size calls <= (size gs).+1 by rewrite E1 size_take /=; case: ltnP => // /ltnW.
case: E3 => [[e [_ Hs [p [H1 H2 H3]]]]|[_ H [[Hc _]|[i [p [-> H1 H2 H3]]]]]].
- have := Hinf (size calls).-1; rewrite /value H1 H2 /=; case: e H3 {H2} => //= _;
    by rewrite -ltnS prednK // => /(_ Hsz).
- by move: H; rewrite Hc /= => -[].
- have Hi : i < size calls by apply/ltP/List.nth_error_Some; rewrite H1.
  have Ei := Hinf i (leq_trans Hi Hsz).
  case: i H1 H3 {H2} Hi Ei => [|i] H1 H3 Hi Ei.
    by move: H1; rewrite E1; case: (size calls) => //= n [<-].
  have := H3 0 isT; by rewrite Ei Hinf.
Qed.
Print Assumptions C31_all_failed.

(** For an objective returning finite doubles, least score means least real value. *)
Theorem C31_least_real_value :
  forall (prec emax : Z) (G : Type) (f : nat -> G -> binary_float prec emax) (grid : seq G)
    (patience max_iterations : option Z) calls p,
  (forall i g, is_finite (f i g) = true) ->
  grid_search (fun i g => Ok (B2SF (f i g))) grid patience max_iterations = (calls, Ok p) ->
  exists i, List.nth_error calls i = Some p /\
    forall j g, List.nth_error calls j = Some g -> (B2R (f i p) <= B2R (f j g))%R.
Proof.
move=> prec emax G f grid pat mi calls p Hf Hgs; have [Ec [i [Hi [H1 H2]]]] := C31_first_minimiser Hgs.
have P k g : List.nth_error calls k = Some g -> List.nth_error grid k = Some g.
  move=> H; rewrite -(cat_take_drop (size calls) grid) -Ec nth_error_catl //.
  by apply/ltP/List.nth_error_Some; rewrite H.
exists i; split=> // j g Hj.
have Hjs : j < size calls by apply/ltP/List.nth_error_Some; rewrite Hj.
have := H1 j Hjs; rewrite /value (P _ _ Hj) (P _ _ Hi).
have S k q : score (Ok (B2SF (f k q))) = Some (B2SF (f k q)).
  by have := Hf k q; case: (f k q).
rewrite !S /lt_score /SFltb.
have := Bcompare_correct prec emax (f j g) (f i p) (Hf _ _) (Hf _ _).
rewrite /Bcompare => ->.
by case: (Rcompare_spec (B2R (f j g)) (B2R (f i p))) => // H _; lra.
Qed.
Print Assumptions C31_least_real_value.

(** The result of optimize_prior_prec is one of the points [10^(min + i (max - min) / (n - 1))],
    so it is positive and lies between [10^min] and [10^max]. *)
Theorem C31_log_grid :
  forall (objective : nat -> R -> res spec_float) (lo hi : R) (n : nat)
    (patience max_iterations : option Z) calls p,
  (lo <= hi)%R ->
  optimize_prior_prec objective lo hi n patience max_iterations = (calls, Ok p) ->
  (0 < n) /\ (Rpower 10 lo <= p <= Rpower 10 hi)%R /\
  exists i, i < n /\ p = Rpower 10 (if n == 1%N then lo else lo + INR i * ((hi - lo) / INR n.-1))%R.
Proof.
move=> objective lo hi n pat mi calls p Hle Hgs; have [Ec [k [Hk _]]] := C31_first_minimiser Hgs.
have : List.In p (logspace lo hi n).
  apply: (@List.nth_error_In _ _ k).
  rewrite -(cat_take_drop (size calls) (logspace lo hi n)) -Ec nth_error_catl //.
  by apply/ltP/List.nth_error_Some; rewrite Hk.
have H10 : (1 < 10)%R by lra.
have InM (f : nat -> R) s : List.In p (map f s) -> exists i, f i = p /\ i \in s.
  elim: s => //= a s IH [<-|/IH [i [H1 H2]]]; first by exists a; rewrite mem_head.
  by exists i; rewrite in_cons H2 orbT.
move=> Hin; have [i [<-]] := InM _ _ Hin; rewrite mem_iota add0n => /= Hi.
split; first by apply: leq_trans Hi.
split; last by exists i.
have mono a b : (a <= b)%R -> (Rpower 10 a <= Rpower 10 b)%R by move=> H; apply: Rle_Rpower => //; lra.
case: eqP Hi => [->|Hn] Hi; first by split; apply: mono; lra.
have Hn1 : (0 < INR n.-1)%R by apply: lt_0_INR; case: (n) Hn Hi => [|[|m]] // _ _; apply/ltP.
have H0 : (0 <= INR i)%R by apply: pos_INR.
have Hii : (INR i <= INR n.-1)%R by apply: le_INR; apply/leP; rewrite -ltnS prednK // (leq_trans _ Hi).
have Hd : (0 <= (hi - lo) / INR n.-1)%R by apply: Rmult_le_pos; [lra | apply: Rlt_le; apply: Rinv_0_lt_compat].
have Hu : (INR i * ((hi - lo) / INR n.-1) <= hi - lo)%R.
  set d := ((hi - lo) / INR n.-1)%R in Hd *.
  have -> : (hi - lo = INR n.-1 * d)%R by rewrite /d; field; lra.
  exact: Rmult_le_compat_r.
by split; apply: mono; [have := Rmult_le_pos _ _ H0 Hd; lra | lra].
Qed.
Print Assumptions C31_log_grid.

(** Where the search stops, for every objective, patience and max_iterations: right after the first
    evaluated point at which a reason to stop holds (or an exception escapes), otherwise at the end
    of the grid. *)
Theorem C32_stopping_point :
  forall (G : Type) (objective : nat -> G -> res spec_float) (grid : seq G)
    (patience max_iterations : option Z),
  let calls := (grid_search objective grid patience max_iterations).1 in
  calls = take (size calls) grid /\
  (forall i, i.+1 < size calls ->
     ~ stop_after objective grid patience max_iterations i /\ ~ escapes objective grid i) /\
  (size calls < size grid -> 0 < size calls /\
     (stop_after objective grid patience max_iterations (size calls).-1 \/
      escapes objective grid (size calls).-1)).
Proof.
move=> G objective grid pat mi calls.
have [E1 E2 E3] := grid_search_spec (surjective_pairing (grid_search objective grid pat mi)).
rewrite -/calls in E1 E2 E3; split=> //; split.
  move=> i /E2 [H1 H2]; split=> // -[p [e [Ep Ee Ne]]]; apply: H2; rewrite /value Ep Ee.
  by case: e Ne {Ee}.
move=> Hlt; case: E3 => [[e [_ Hs [p H]]]|[_ H _]].
  by split=> //; right; exists p, e.
by have [Hs Hst] := H Hlt; split=> //; left.
Qed.
Print Assumptions C32_stopping_point.

(** Without patience and max_iterations every point is evaluated. *)
Theorem C32_visits_all :
  forall (G : Type) (objective : nat -> G -> res spec_float) (grid : seq G),
  (forall i, ~ escapes objective grid i) ->
  (grid_search objective grid None None).1 = grid.
Proof.
move=> G objective grid H.
have [E1 [_ E3]] := C32_stopping_point objective grid None None.
case: (leqP (size grid) (size (grid_search objective grid None None).1)) => Hs.
  by rewrite E1 take_oversize.
by have [_ [[[p []//]|[m []//]]|/H]] := E3 Hs.
Qed.
Print Assumptions C32_visits_all.

(** Documented: at most max_iterations evaluations.  Actual: max_iterations + 1 of them. *)
Theorem C32_max_iterations_off_by_one :
  forall (G : Type) (objective : nat -> G -> res spec_float) (grid : seq G) (m : nat),
  (forall i, ~ escapes objective grid i) ->
  size (grid_search objective grid None (Some (Z.of_nat m))).1 = minn m.+1 (size grid).
Proof.
move=> G objective grid m H.
have [E1 [E2 E3]] := C32_stopping_point objective grid None (Some (Z.of_nat m)).
set n := size _ in E1 E2 E3 *.
have Hn : n <= size grid by rewrite /n E1 size_take -/n; case: ltnP => // /ltnW.
have Hm : n <= m.+1.
  rewrite leqNgt; apply/negP => Hm; have [Ns _] := E2 m Hm; apply: Ns; right.
  by exists (Z.of_nat m); split=> //; lia.
case: (ltnP n (size grid)) => Hg; last first.
  by have -> : n = size grid by [apply/eqP; rewrite eqn_leq Hn Hg]; rewrite (minn_idPr _) // (leq_trans Hg).
have [Hp [[[p []//]|[m' [[<-] Hm']]]|/H //]] := E3 Hg.
have Hmn : m.+1 <= n by rewrite -(prednK Hp) ltnS; apply/leP; lia.
have En : n = m.+1 by apply/eqP; rewrite eqn_leq Hm Hmn.
by rewrite En (minn_idPl _) // -En ltnW.
Qed.
Print Assumptions C32_max_iterations_off_by_one.
Theorem C32_max_iterations_refuted :
  ~ (forall (objective : nat -> nat -> res spec_float) (grid : seq nat) (m : nat),
     size (grid_search objective grid None (Some (Z.of_nat m))).1 <= m).
Proof. by move/(_ (fun _ _ => Ok (S754_zero false)) [:: 1; 2] 0). Qed.
Print Assumptions C32_max_iterations_refuted.

(** Patience [p >= 1] with non-failing objective: if some [p] consecutive steps within the grid
    increase, the search stops, and it never evaluates past the first such run. *)
Theorem C32_patience :
  forall (G : Type) (objective : nat -> G -> res spec_float) (grid : seq G) (p : nat),
  0 < p -> (forall i, ~ escapes objective grid i) ->
  let run i := p <= i /\ forall j, i - p <= j < i ->
                 lt_score (value objective grid j) (value objective grid j.+1) in
  let n := size (grid_search objective grid (Some (Z.of_nat p)) None).1 in
  (forall i, i.+1 < n -> ~ run i) /\ (n < size grid -> 0 < n /\ run n.-1).
Proof.
move=> G objective grid p Hp H run n.
have Hrun i : run i <-> stop_after objective grid (Some (Z.of_nat p)) None i.
  split=> [[H1 H2]|[[q [[<-] H1 H2 H3]]|[m []//]]].
    left; exists (Z.of_nat p); split=> //; first exact: leq_trans H1.
      by move/leP: H1; lia.
    move=> j Hj Hz; apply: H2; rewrite Hj andbT; apply/leP; rewrite -minusE.
    by move/ltP: Hj; lia.
  split; first by apply/leP; lia.
  move=> j /andP [Hj1 Hj2]; apply: H3 => //.
  by move/leP: Hj1; rewrite -minusE; lia.
have [_ [E2 E3]] := C32_stopping_point objective grid (Some (Z.of_nat p)) None.
rewrite -/n in E2 E3; split.
  by move=> i /E2 [Ns _] /Hrun.
by move=> /E3 [Hn [/Hrun|/H]].
Qed.
Print Assumptions C32_patience.

(** The same for optimize_prior_prec on its grid of [n] points: without patience a limit [m] lets
    [m + 1] points be evaluated; without a limit, [p] increases in a row are what stops it early. *)
Theorem C32_optimize_prior_prec :
  forall (objective : nat -> R -> res spec_float) (lo hi : R) (n m p : nat),
  (forall i, ~ escapes objective (logspace lo hi n) i) -> 0 < p ->
  size (optimize_prior_prec objective lo hi n None (Some (Z.of_nat m))).1 = minn m.+1 n /\
  let k := size (optimize_prior_prec objective lo hi n (Some (Z.of_nat p)) None).1 in
  k < n -> p < k /\
    forall j, k.-1 - p <= j < k.-1 ->
      lt_score (value objective (logspace lo hi n) j) (value objective (logspace lo hi n) j.+1).
Proof.
move=> objective lo hi n m p H Hp.
have Es : size (logspace lo hi n) = n by rewrite /logspace size_map size_iota.
rewrite /optimize_prior_prec C32_max_iterations_off_by_one // Es; split=> // Hk.
have [_ HH] := C32_patience Hp H; set k := size _ in Hk HH *; rewrite Es in HH; have {HH} [K0 [K1 K2]] := HH Hk.
by split=> //; move: K0 K1; case: (k).
Qed.
Print Assumptions C32_optimize_prior_prec.

(** Patience does no harm for objectives with a single valley (never increasing up to some point [k] of
    the grid, never decreasing from there on): the search with patience returns what the search of the
    whole grid returns. *)
Theorem C32_patience_harmless :
  forall (G : Type) (objective : nat -> G -> res spec_float) (grid : seq G) (p k : nat),
  let v := value objective grid in
  0 < p -> (forall i, ~ escapes objective grid i) ->
  (forall i, i < k -> lt_score (v i) (v i.+1) = false) ->
  (forall i, k <= i -> i.+1 < size grid -> lt_score (v i.+1) (v i) = false) ->
  (grid_search objective grid (Some (Z.of_nat p)) None).2 = (grid_search objective grid None None).2.
Proof.
move=> G objective grid p k v p0 Hesc Hdown Hup.
case: (posnP (size grid)) => [/size0nil ->//|g0].
have Hg : grid <> [::] by move=> E; rewrite E in g0.
have vS i : i < size grid -> exists x, v i = Some x /\ sf_isnan x = false.
  move=> Hi; case E: (v i) => [x|]; first by exists x; split=> //; apply: value_nnan E.
  case: (Hesc i); move: E; rewrite /v /value.
  case Eg: (List.nth_error grid i) => [g|]; last by move/List.nth_error_None: Eg => /leP; rewrite leqNgt Hi.
  by case Eo: (objective i g) => [[]|[]] //= _; exists g; eexists; (split; [exact: Eg | exact: Eo | discriminate]).
have nt i j l : i < size grid -> j < size grid -> l < size grid ->
    lt_score (v i) (v j) = false -> lt_score (v j) (v l) = false -> lt_score (v i) (v l) = false.
  move=> /vS [x [-> nx]] /vS [y [-> ny]] /vS [z [-> nz]] /= H1 H2; apply/negP => H.
  by case: (SFltb_ntrans nx ny nz H); rewrite ?H1 ?H2.
have irr i : lt_score (v i) (v i) = false by case: (v i) => //= x; apply: SFltb_irr.
have up i j : k <= i -> i <= j -> j < size grid -> lt_score (v j) (v i) = false.
  move=> ki; elim: j => [|j IH] ij Hj; first by move: ij; rewrite leqn0 => /eqP ->.
  move: ij; rewrite leq_eqVlt => /orP[/eqP ->//|ij].
  apply: (nt _ j) => //; [exact: ltnW | exact: leq_trans (ltnW Hj) | apply: Hup => // | apply: IH => //; exact: ltnW].
  exact: leq_trans ki ij.
have [_ [P1 _]] := C31_outcome objective grid (Some (Z.of_nat p)) None.
have [_ [Q1 _]] := C31_outcome objective grid None None.
have [a Ea] := P1 Hg (fun i _ => Hesc i); have [b Eb] := Q1 Hg (fun i _ => Hesc i).
rewrite Ea Eb; congr Ok.
have Pp := surjective_pairing (grid_search objective grid (Some (Z.of_nat p)) None); rewrite Ea in Pp.
have Pq := surjective_pairing (grid_search objective grid None None); rewrite Eb C32_visits_all // in Pq.
have [Ec [i [Hi [Mi Fi]]]] := C31_first_minimiser Pp.
have [_ [j [Hj [Mj Fj]]]] := C31_first_minimiser Pq.
have [_ HP] := C32_patience p0 Hesc.
move: Ec Hi Mi Fi HP; set calls := (grid_search objective grid (Some (Z.of_nat p)) None).1; set n := size calls => Ec Hi Mi Fi HP.
have Hin : i < n by apply/ltP/List.nth_error_Some; rewrite Hi.
have Hn : n <= size grid by rewrite /n Ec size_take -/n; case: ltnP => // /ltnW.
have Hig : List.nth_error grid i = Some a.
  by rewrite -(cat_take_drop n grid) -Ec nth_error_catl.
have Hjg : j < size grid by apply/ltP/List.nth_error_Some; rewrite Hj.
have All m : m < size grid -> lt_score (v m) (v i) = false.
  move=> Hm; case: (ltnP m n) => [/Mi //|nm].
  have [n0 [pn run]] := HP (leq_ltn_trans nm Hm).
  have kn : k <= n.-1.-1.
    rewrite leqNgt; apply/negP => kn; have := run n.-1.-1; rewrite [lt_score _ _](Hdown _ kn).
    suff Hc : n.-1 - p <= n.-1.-1 < n.-1 by move/(_ Hc).
    move: pn p0; case: (n.-1) => [|m1]; first by case: (p).
    by rewrite /= ltnSn andbT; case: (p) => // q _ _; rewrite subSS leq_subr.
  apply: (nt _ n.-1.-1) => //.
  - by apply: leq_trans Hn; case: (n) n0 => // n' _ /=; rewrite ltnS leq_pred.
  - exact: leq_trans Hin Hn.
  - by apply: up => //; apply: leq_trans nm; apply: leq_trans (leq_pred _) (leq_pred _).
  by apply: Mi; case: (n) n0 => // n' _ /=; rewrite ltnS leq_pred.
have E : i = j.
  case: (ltngtP i j) => // ij.
  - by have := Fj i ij; rewrite [lt_score _ _](All j Hjg).
  - by have := Fi j ij; rewrite -/v Mj //; exact: leq_trans Hin Hn.
by move: Hj; rewrite -E Hig => -[].
Qed.
Print Assumptions C32_patience_harmless.

(** Non-vacuity: scores 5, 3, NaN, ValueError, 3, 1 over six points.  Without stopping the last
    point wins; with patience 1 the search stops at the NaN and returns the second point. *)
Definition ex_objective (i : nat) (_ : nat) : res spec_float :=
  nth (Raise TypeError)
    [:: Ok (S754_finite false 5 0); Ok (S754_finite false 3 0); Ok S754_nan; Raise ValueError;
        Ok (S754_finite false 3 0); Ok (S754_finite false 1 0)] i.
Example C31_example :
  grid_search ex_objective [:: 10; 20; 30; 40; 50; 60] None None = ([:: 10; 20; 30; 40; 50; 60], Ok 60) /\
  grid_search ex_objective [:: 10; 20; 30; 40; 50; 60] (Some 1%Z) None = ([:: 10; 20; 30], Ok 20) /\
  grid_search ex_objective [:: 10; 20; 30; 40; 50; 60] (Some 2%Z) (Some 4%Z) =
    ([:: 10; 20; 30; 40; 50], Ok 20).
Proof. by []. Qed.
(** One valley: 5, 3, 3, 4, inf, inf; patience 1 stops after the fourth point. *)
Definition ex_valley (i : nat) (_ : nat) : res spec_float :=
  nth (Raise TypeError)
    [:: Ok (S754_finite false 5 0); Ok (S754_finite false 3 0); Ok (S754_finite false 3 0);
        Ok (S754_finite false 1 2); Ok S754_nan; Raise ValueError] i.
Example C32_patience_example :
  let v := value ex_valley [:: 10; 20; 30; 40; 50; 60] in
  [/\ forall i, ~ escapes ex_valley [:: 10; 20; 30; 40; 50; 60] i,
      forall i, i < 2 -> lt_score (v i) (v i.+1) = false,
      forall i, 2 <= i -> i.+1 < 6 -> lt_score (v i.+1) (v i) = false
    & grid_search ex_valley [:: 10; 20; 30; 40; 50; 60] (Some 1%Z) None = ([:: 10; 20; 30; 40], Ok 20)].
Proof.
move=> v; split=> //.
- by do 5 (case=> [[g [e []]] //|]); case=> [[g [e [_ [<-]]]]//|i [g [e []]]]; case: i.
- by do 2 case=> //.
by do 5 (case=> //).
Qed.
