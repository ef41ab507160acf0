(** Lemmas about the grid search. *)
From Coq Require Import ZArith Lia SpecFloat.
From mathcomp Require Import all_ssreflect.
From Verif Require Import Base GridSearch GridSpec.
Set Implicit Arguments.
Unset Strict Implicit.
Unset Printing Implicit Defensive.

Ltac slia := repeat match goal with
  | H : is_true (leq _ _) |- _ => apply (elimT leP) in H
  | |- is_true (leq _ _) => apply (introT leP)
  end; change addn with Nat.add in *; change subn with Nat.sub in *; lia.

(** The IEEE order on non-NaN values, via a lexicographic key. *)
Definition key (x : spec_float) : Z * Z * Z :=
  match x with
  | S754_zero _ => (0, 0, 0)
  | S754_infinity false => (2, 0, 0)
  | S754_infinity true => (-2, 0, 0)
  | S754_nan => (0, 0, 0)
  | S754_finite false m e => (1, e, Zpos m)
  | S754_finite true m e => (-1, - e, Zneg m)
  end%Z.
Definition lex (a b : Z * Z * Z) : Prop :=
  (a.1.1 < b.1.1 \/ a.1.1 = b.1.1 /\ (a.1.2 < b.1.2 \/ a.1.2 = b.1.2 /\ a.2 < b.2))%Z.
Lemma SFltb_key x y : sf_isnan x = false -> sf_isnan y = false ->
  SFltb x y = true <-> lex (key x) (key y).
Proof.
rewrite /SFltb /lex.
case: x => [sx|sx||sx m e]; case: y => [sy|sy||sy m' e'] // _ _; case: sx; try case: sy => //=;
  rewrite /=; try (split=> //; lia).
all: case: (Z.compare_spec e e') => H /=; try (split=> //; lia).
all: change (Pos.compare_cont Eq m m') with (Pos.compare m m'); case: (Pos.compare_spec m m') => H' /=;
     split=> //; lia.
Qed.

Lemma SFltb_irr x : SFltb x x = false.
Proof.
case E: (sf_isnan x); first by case: x E.
by apply/negP => /(SFltb_key E E); rewrite /lex; lia.
Qed.
Lemma SFltb_asym x y : sf_isnan x = false -> sf_isnan y = false -> SFltb x y -> SFltb y x = false.
Proof.
move=> nx ny /(SFltb_key nx ny) H; apply/negP => /(SFltb_key ny nx).
by move: H; rewrite /lex; lia.
Qed.
(** Negative transitivity. *)
Lemma SFltb_ntrans x y z : sf_isnan x = false -> sf_isnan y = false -> sf_isnan z = false ->
  SFltb x z -> SFltb x y \/ SFltb y z.
Proof.
move=> nx ny nz /(SFltb_key nx nz) H.
case: (boolP (SFltb x y)) => [|/negP H1]; first by left.
case: (boolP (SFltb y z)) => [|/negP H2]; first by right.
have {}H1 : ~ lex (key x) (key y) by move/(SFltb_key nx ny).
have {}H2 : ~ lex (key y) (key z) by move/(SFltb_key ny nz).
by exfalso; move: H1 H2 H; rewrite /lex; lia.
Qed.

Lemma argmin_spec xs i y : all (fun x => ~~ sf_isnan x) xs -> argmin xs = Some (i, y) ->
  [/\ List.nth_error xs i = Some y,
      forall j x, List.nth_error xs j = Some x -> SFltb x y = false
    & forall j x, j < i -> List.nth_error xs j = Some x -> SFltb y x].
Proof.
elim: xs i y => [|x xs IH] i y //= /andP [nx nxs].
case E: (argmin xs) => [[i' y']|].
  have [H1 H2 H3] := IH _ _ nxs E.
  have ny' : sf_isnan y' = false.
    have := List.nth_error_In _ _ H1.
    elim: (xs) nxs => //= z zs IHz /andP [/negbTE nz nzs] [<-//|]; exact: IHz.
  have nX j z : List.nth_error xs j = Some z -> sf_isnan z = false.
    move=> Hz; have := List.nth_error_In _ _ Hz; elim: (xs) nxs => //= w zs IHz /andP [/negbTE nz nzs] [<-//|].
    exact: IHz.
  case: ifP => L [<- <-].
    split=> //.
    - case=> [|j] z /=; last exact: H2.
      by move=> [<-]; apply: SFltb_asym => //; apply/negbTE.
    - case=> [|j] z //=; first by move=> _ [<-].
      by rewrite ltnS; apply: H3.
  split=> // -[|j] z /=; first by move=> [<-]; rewrite SFltb_irr.
  move=> Hz; apply/negP => Hlt.
  have [|] := SFltb_ntrans (nX _ _ Hz) ny' (negbTE nx) Hlt; last by rewrite L.
  by rewrite (H2 _ _ Hz).
move=> [<- <-]; split=> // -[|j] z /=; first by move=> [<-]; rewrite SFltb_irr.
by case: xs E {IH nxs} => [_|a b /=]; [case: j | case: (argmin b) => [[? ?]|]; first case: ifP].
Qed.

Lemma argmin_some xs : xs <> [::] -> exists i y, argmin xs = Some (i, y).
Proof.
case: xs => [//|x xs] _ /=; case: (argmin xs) => [[i y]|]; last by exists 0, x.
by case: ifP => _; [exists i.+1, y | exists 0, x].
Qed.

Section Loop.
Variables (G : Type) (objective : nat -> G -> res spec_float) (grid : seq G).
Notation value := (value objective grid).

Lemma evaluateE i p : List.nth_error grid i = Some p ->
  evaluate objective i p = (if value i is Some x then Ok x else objective i p).
Proof.
rewrite /evaluate /value => ->; rewrite /score.
by case: (objective i p) => [[]|[]] //=.
Qed.
Lemma value_nnan i x : value i = Some x -> sf_isnan x = false.
Proof.
by rewrite /value /score; case: (List.nth_error grid i) => // p; case: (objective i p) => [[s|s||s m e]|[]] //= [<-].
Qed.

(** What [increasing_count] means after evaluating point [i]. *)
Definition counts (c : Z) (i : nat) : Prop := forall p : Z, (p <= c)%Z <->
  (p <= Z.of_nat i)%Z /\
  forall j, j < i -> (Z.of_nat i - p <= Z.of_nat j)%Z -> lt_score (value j) (value j.+1).

Lemma counts_step c i x y : counts c i -> value i = Some x -> value i.+1 = Some y ->
  counts (if SFltb x y then c + 1 else 0)%Z i.+1.
Proof.
move=> H Hx Hy p; case: ifP => L.
  have -> : (p <= c + 1)%Z <-> (p - 1 <= c)%Z by slia.
  rewrite H; split=> -[H1 H2]; split; try slia.
    move=> j Hj Hp; have : j < i \/ j = i by move: Hj; rewrite ltnS leq_eqVlt => /orP [/eqP|]; [right|left].
    case=> Hji; last by rewrite Hji Hx Hy.
    by apply: H2 => //; slia.
  by move=> j Hj Hp; apply: H2; slia.
split=> [Hp|[Hp H2]]; first by split; [slia | move=> j Hj Hj'; slia].
case: (Z.leb_spec p 0) => // Hp0.
have F : lt_score (value i) (value i.+1) by apply: H2 => //; slia.
by move: F; rewrite Hx Hy /lt_score L.
Qed.

Lemma counts0 : counts 0 0.
Proof. by move=> p; split=> [Hp|[Hp _]]; [split=> // j|]. Qed.

Variables patience max_iterations : option Z.
Notation stop := (stop_after objective grid patience max_iterations).

Lemma nth_error_cat (T : Type) (a b : seq T) i : List.nth_error (a ++ b) (size a + i) = List.nth_error b i.
Proof. by elim: a => //= x a IH. Qed.
Lemma nth_error_catl (T : Type) (a b : seq T) i : i < size a -> List.nth_error (a ++ b) i = List.nth_error a i.
Proof. by elim: a i => [|x a IH] [|i] //= H; apply: IH. Qed.

Lemma grid_loop_spec interval pre results c prev calls out :
  grid = pre ++ interval ->
  (forall i, i < size pre -> List.nth_error results i = value i /\ value i <> None) ->
  size results = size pre ->
  prev = (if size pre is i.+1 then value i else None) ->
  (if size pre is i.+1 then patience <> None -> counts c i else c = 0%Z) ->
  grid_loop objective patience max_iterations interval (size pre) results pre c prev = (calls, out) ->
  [/\ calls = take (size calls) interval,
      (forall i, size pre <= i -> i.+1 < size pre + size calls -> ~ stop i /\ value i <> None)
    & (exists e, [/\ out = Raise e, 0 < size calls &
         let n := (size pre + size calls).-1 in exists p,
         [/\ List.nth_error grid n = Some p, objective n p = Raise e & e <> ValueError]]) \/
      (exists rs, [/\ out = Ok (rs, pre ++ calls), size rs = size pre + size calls,
         forall i, i < size pre + size calls -> List.nth_error rs i = value i /\ value i <> None
       & (size calls < size interval -> 0 < size calls /\ stop (size pre + size calls).-1)])].
Proof.
elim: interval pre results c prev calls out => [|p interval IH] pre results c prev calls out Eg Hr Es Ep Hc /=.
  move=> [<- <-]; split=> // [i H1 H2|]; first by move: H2; rewrite addn0 ltnNge (leq_trans H1).
  right; exists results; rewrite cats0 addn0; split=> //.
have Hp : List.nth_error grid (size pre) = Some p.
  by rewrite Eg -[size pre]addn0 nth_error_cat.
rewrite (evaluateE Hp).
case Ev: (value (size pre)) => [x|]; last first.
  have [e [Ee Ne]] : exists e, objective (size pre) p = Raise e /\ e <> ValueError.
    by move: Ev; rewrite /value Hp /score; case: (objective (size pre) p) => [[]|e] //= He; exists e; split=> // E; rewrite E in He.
  rewrite Ee => -[<- <-]; split=> //=; first by rewrite take0.
    by move=> i H1; rewrite addn1 ltnS ltnNge H1.
  by left; exists e; split=> //; rewrite addn1 /=; exists p.
case Ec: (check_patience patience prev c x) => [c' stp].
have Hc' : patience <> None -> counts c' (size pre).
  move=> Np; move: Ec Hc; rewrite /check_patience Ep.
  case Epat: patience Np => [q|] // _.
  case Esz: (size pre) => [|i] /=; first by move=> [<- _] ->; exact: counts0.
  have Hi : i < size pre by rewrite Esz.
  case Evi: (value i) => [y|]; last by have [_] := Hr i Hi.
  by move=> [<- _] Hcnt; apply: (counts_step (Hcnt _) Evi) => //; rewrite -Esz.
have Hstp : stp <-> exists q, [/\ patience = Some q, 1 <= size pre, (q <= Z.of_nat (size pre))%Z &
     forall j, j < size pre -> (Z.of_nat (size pre) - q <= Z.of_nat j)%Z -> lt_score (value j) (value j.+1)].
  move: Ec Hc'; rewrite /check_patience Ep.
  case Epat: patience => [q|]; last by move=> [_ <-] _; split=> // -[q []].
  case Esz: (size pre) => [|i] /=; first by move=> [_ <-] _; split=> // -[q' []].
  have Hi : i < size pre by rewrite Esz.
  case Evi: (value i) => [y|]; last by have [_] := Hr i Hi.
  move=> [<- <-] Hcnt'; have {Hcnt'} Hcnt := Hcnt' (ltac:(by [])); split.
    by move=> /Z.leb_spec0 /Hcnt [H1 H2]; exists q; split.
  by move=> [q' [[<-] _ H1 H2]]; apply/Z.leb_spec0/Hcnt; split.
have HrS i : i < (size pre).+1 -> List.nth_error (rcons results x) i = value i /\ value i <> None.
  rewrite ltnS leq_eqVlt => /orP [/eqP ->|Hi].
    rewrite -cats1 -Es -[size results]addn0 nth_error_cat /= addn0 Es.
    by rewrite Ev.
  by rewrite -cats1 nth_error_catl ?Es //; apply: Hr.
have stopped : stop (size pre) -> ([:: p], Ok (rcons results x, rcons pre p)) = (calls, out) ->
  [/\ calls = take (size calls) (p :: interval),
      (forall i, size pre <= i -> i.+1 < size pre + size calls -> ~ stop i /\ value i <> None)
    & (exists e, [/\ out = Raise e, 0 < size calls &
         let n := (size pre + size calls).-1 in exists p,
         [/\ List.nth_error grid n = Some p, objective n p = Raise e & e <> ValueError]]) \/
      (exists rs, [/\ out = Ok (rs, pre ++ calls), size rs = size pre + size calls,
         forall i, i < size pre + size calls -> List.nth_error rs i = value i /\ value i <> None
       & (size calls < (size interval).+1 -> 0 < size calls /\ stop (size pre + size calls).-1)])].
  move=> Hs [<- <-]; rewrite /= take0 addn1; split=> //.
    by move=> i H1 H2; exfalso; slia.
  by right; exists (rcons results x); rewrite size_rcons Es cats1.
case: stp Hstp {Ec} => Hstp; first by apply: stopped; left; apply/Hstp.
case Em: (match max_iterations with Some m => _ | None => false end).
  apply: stopped; right; case: max_iterations Em => // m Hm; exists m; split=> //; exact/Z.leb_spec0.
case Eg': (grid_loop _ _ _ _ _ _ _ _ _) => [calls' out'] [Ecalls Eout]; subst calls out.
have Nstop : ~ stop (size pre).
  case=> [/Hstp //|[m [Em' Hm]]]; move: Em; rewrite Em'; move/negP; apply; exact/Z.leb_spec0.
have := IH (rcons pre p) (rcons results x) c' (Some x) calls' out'.
rewrite size_rcons => /(_ _ _ _ _ _ Eg') [].
- by rewrite Eg cat_rcons.
- exact: HrS.
- by rewrite size_rcons Es.
- by rewrite Ev.
- exact: Hc'.
move=> E1 E2 E3; split.
- by rewrite /= -E1.
- move=> i Hi; rewrite /= addnS -addSn => Hi'.
  move: Hi; rewrite leq_eqVlt => /orP [/eqP <-|Hi]; first by rewrite Ev.
  exact: E2.
- case: E3 => [[e [-> H1 H2]]|[rs [-> H1 H2 H3]]]; [left; exists e|right; exists rs].
    by split=> //=; rewrite addnS -addSn.
  rewrite /= addnS -addSn cat_rcons; split=> // H.
  by split=> //; apply: (proj2 (H3 _)).
Qed.
End Loop.
