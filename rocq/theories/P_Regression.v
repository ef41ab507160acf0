(** C34 (cross entropy) and C36: metrics over the real numbers. *)
From Coq Require Import Reals Lra.
From Coquelicot Require Import Coquelicot.
From mathcomp Require Import all_ssreflect all_algebra.
From Verif Require Import Base PyTree RealStruct RealSums Metrics MetricsSpec MetricsProofs Normal CrpsProofs.
Set Implicit Arguments.
Unset Strict Implicit.
Unset Printing Implicit Defensive.
Import GRing.Theory Num.Theory Order.TTheory.
Local Open Scope ring_scope.

Lemma ln_le_sub1 (x : R) : 0 < x -> ln x <= x - 1.
Proof.
move=> /RltP H; apply/RleP; toR.
have := exp_ineq1_le (ln x); rewrite exp_ln //; toR; move=> H1; lra.
Qed.

(** Gibbs' inequality: against a distribution [p], the cross entropy is least at [q = p]. *)
Theorem C34_cross_entropy_minimal :
  forall (p q : seq R), size p = size q ->
  (forall x, x \in p -> 0 <= x) -> (forall x, x \in q -> 0 <= x) ->
  (forall i, (i < size p)%N -> 0 < nth 0 p i -> 0 < nth 0 q i) ->
  \sum_(x <- p) x = 1 -> \sum_(x <- q) x <= 1 ->
  cross_entropy p p <= cross_entropy p q.
Proof.
move=> p q Hs Hp Hq Hpq Sp Sq; rewrite /cross_entropy !jsumE ler_oppl opprK !big_map.
rewrite -subr_ge0.
have G (a b : seq R) : size a = size b -> (forall x, x \in a -> 0 <= x) -> (forall x, x \in b -> 0 <= x) ->
   (forall i, (i < size a)%N -> 0 < nth 0 a i -> 0 < nth 0 b i) ->
   \sum_(x <- a) x - \sum_(x <- b) x <=
   \sum_(x <- zip a a) xlogy x.1 x.2 - \sum_(x <- zip a b) xlogy x.1 x.2.
  elim: a b => [|x a IH] [|y b] //=; first by move=> *; rewrite !big_nil !subr0.
  move=> [Eab] Ha Hb Hab; rewrite !big_cons /= !opprD addrACA [X in _ <= X]addrACA; apply: ler_add; last first.
    apply: IH => // [z Hz|z Hz|i Hi]; [by apply: Ha; rewrite inE Hz orbT|by apply: Hb; rewrite inE Hz orbT|].
    exact: (Hab i.+1).
  rewrite /xlogy; case: eqP => [->|/eqP Hx0]; first by rewrite subr0 sub0r oppr_le0 Hb // mem_head.
  have Hx : 0 < x by rewrite lt_neqAle eq_sym Hx0 Ha // mem_head.
  have Hy : 0 < y := Hab 0%N isT Hx.
  rewrite -mulrBr.
  have El : ln x - ln y = - ln (y / x).
    rewrite -RdivE // /Rdiv ln_mult; [|exact/RltP|by apply: Rinv_0_lt_compat; apply/RltP].
    by rewrite ln_Rinv; [toR; lra|apply/RltP].
  rewrite El mulrN.
  have : x * ln (y / x) <= x * (y / x - 1) by rewrite ler_pmul2l // ln_le_sub1 // divr_gt0.
  by rewrite mulrBr mulr1 mulrCA mulfV // mulr1 => H; rewrite ler_oppr opprB.
apply: le_trans (G p q Hs Hp Hq Hpq); by rewrite Sp subr_ge0.
Qed.
Print Assumptions C34_cross_entropy_minimal.

(** Against a one-hot target it is the negative log probability of the class. *)
Theorem C34_cross_entropy_one_hot :
  forall (q : seq R) (l : nat), (l < size q)%N ->
  cross_entropy (one_hot _ (size q) l) q = - ln (nth 0 q l).
Proof.
move=> q l Hl; rewrite /cross_entropy jsumE; congr (- _).
rewrite -{2}(mkseq_nth 0 q) /mkseq /one_hot zip_map -map_comp big_map.
rewrite (eq_bigr (fun c => if c == l then ln (nth 0 q c) else 0)); last first.
  by move=> c _ /=; case: (c == l); rewrite /xlogy ?eqxx ?oner_eq0 ?mul1r.
by rewrite -big_mkcond -big_filter filter_pred1_uniq ?iota_uniq ?mem_iota // big_seq1.
Qed.
Print Assumptions C34_cross_entropy_one_hot.

(** ** Broadcasting of equal shapes does nothing. *)
Lemma bexpand_id (A : Type) (s : seq nat) (d : seq A) : size d = prodn s -> bexpand s s d = d.
Proof.
elim: s d => //= n s IH d Hd; rewrite eqxx.
have Hsz : sumn (nseq n (prodn s)) = size d by rewrite sumn_nseq Hd mulnC.
have -> : map (bexpand s s) (reshape (nseq n (prodn s)) d) = reshape (nseq n (prodn s)) d.
  elim: n d Hd Hsz => //= n IHn d Hd Hsz; congr (_ :: _).
    apply: IH; rewrite size_take; case: ltnP => // H.
    by apply/eqP; rewrite eqn_leq H Hd leq_addr.
  apply: IHn; rewrite size_drop Hd ?mulSn addKn // sumn_nseq mulnC //.
by rewrite reshapeKr // Hsz.
Qed.
Lemma broadcast2_same (A B D : Type) (f : A -> B -> D) (a : arr A) (b : arr B) :
  ashape a = ashape b -> wf_arr a -> wf_arr b ->
  broadcast2 f a b = Ok (Arr (ashape a) [seq f xy.1 xy.2 | xy <- zip (adata a) (adata b)]).
Proof.
move=> Es /eqP Ha /eqP Hb; rewrite /broadcast2 Es maxnn /pad_shape subnn /=.
have -> : merge_shapes (ashape b) (ashape b) = Some (ashape b).
  by elim: (ashape b) => //= n s ->; rewrite eqxx.
by rewrite !bexpand_id // Ha Es.
Qed.

(** Data of the three arrays, sample by sample. *)
Definition triples (m s y : arr R) := zip (zip (adata m) (adata s)) (adata y).

Lemma size_zipwf (A B : Type) (a : arr A) (b : arr B) : ashape a = ashape b -> wf_arr a -> wf_arr b ->
  size (adata a) = size (adata b).
Proof. by move=> E /eqP -> /eqP ->; rewrite E. Qed.

Theorem C36_chi_squared :
  forall (m s y : arr R), ashape m = ashape s -> ashape s = ashape y ->
  wf_arr m -> wf_arr s -> wf_arr y ->
  let total := \sum_(t <- triples m s y) (t.1.1 - t.2) ^+ 2 / t.1.2 ^+ 2 in
  chi_squared m s y false = Ok total /\
  chi_squared m s y true = Ok (total / (prodn (ashape m))%:R) /\
  chi_squared_zero m s y = Ok `| total / (prodn (ashape m))%:R - 1 |.
Proof.
move=> m s y E1 E2 Wm Ws Wy total.
have Z1 := size_zipwf E1 Wm Ws; have Z2 := size_zipwf E2 Ws Wy.
rewrite /chi_squared_zero /chi_squared broadcast2_same //=; last by rewrite E1.
rewrite broadcast2_same //=; last first.
  by rewrite /wf_arr /= size_map size_zip Z1 Z2 minnn -Z2 -Z1; move: Wm.
set l := map _ _.
have El : l = [seq (t.1.1 - t.2) ^+ 2 / t.1.2 ^+ 2 | t <- triples m s y].
  rewrite /l /triples; elim: (adata m) (adata s) (adata y) Z1 Z2 => [|a A IH] [|b B] [|c C] //= [Z1] [Z2].
  by rewrite IH.
have Esz : size l = prodn (ashape m).
  by rewrite El size_map !size_zip -Z2 -Z1 !minnn; apply/eqP.
by rewrite /jmean Esz jsumE El big_map.
Qed.
Print Assumptions C36_chi_squared.

Theorem C36_rmse :
  forall (m y : arr R), ashape m = ashape y -> wf_arr m -> wf_arr y ->
  estimate_rmse m y =
  Ok (sqrt ((\sum_(t <- zip (adata m) (adata y)) (t.1 - t.2) ^+ 2) / (prodn (ashape m))%:R)).
Proof.
move=> m y E Wm Wy; rewrite /estimate_rmse broadcast2_same //= /jmean !size_map size_zip.
rewrite -(size_zipwf E Wm Wy) minnn (eqP Wm) jsumE !big_map; congr (Ok (sqrt (_ / _))).
Qed.
Print Assumptions C36_rmse.

(** ** CRPS and NLL check their shapes, and are what their docstrings say. *)
Theorem C36_shape_check :
  forall (m s y : arr R) (scaled : bool),
  ~ (ashape m = ashape s /\ ashape s = ashape y) ->
  crps_gaussian m s y scaled = Raise ValueError /\ nll_gaussian m s y scaled = Raise ValueError.
Proof.
move=> m s y scaled H; rewrite /crps_gaussian /nll_gaussian.
suff -> : shape_eq3 m s y = false by [].
by apply/negP => /andP [/eqP A /eqP B]; apply: H.
Qed.
Print Assumptions C36_shape_check.

Lemma shape_eq3T (m s y : arr R) : ashape m = ashape s -> ashape s = ashape y -> shape_eq3 m s y.
Proof. by move=> A B; rewrite /shape_eq3 A B !eqxx. Qed.

(** [crps_std z = 2 phi(z) + z (2 Phi(z) - 1) - 1/sqrt pi]. *)
Theorem C36_crps_value :
  forall (m s y : arr R), ashape m = ashape s -> ashape s = ashape y ->
  wf_arr m -> wf_arr s -> wf_arr y ->
  let total := \sum_(t <- triples m s y) t.1.2 * crps_std (Rdiv (t.2 - t.1.1) t.1.2) in
  crps_gaussian m s y false = Ok total /\
  crps_gaussian m s y true = Ok (total / (prodn (ashape m))%:R).
Proof.
move=> m s y E1 E2 Wm Ws Wy total; rewrite /crps_gaussian shape_eq3T //= jsumE big_map.
have E : \sum_(j <- zip3 (adata m) (adata s) (adata y)) crps_term j.1.1 j.1.2 j.2 = total.
  by apply: eq_bigr => t _; rewrite crps_termE; toR.
rewrite E size_map !size_zip -(size_zipwf E2 Ws Wy) -(size_zipwf E1 Wm Ws) !minnn.
by move: Wm => /eqP ->.
Qed.
Print Assumptions C36_crps_value.

(** Never below [(sqrt 2 - 1)/sqrt pi] standard deviations per sample: the score cannot vanish. *)
Theorem C36_crps_positive :
  forall (m s y : arr R) c, (forall x, x \in adata s -> 0 < x) -> wf_arr s -> wf_arr m -> wf_arr y ->
  crps_gaussian m s y false = Ok c ->
  (\sum_(x <- adata s) x) * Rdiv (Rminus (sqrt (IZR 2)) (IZR 1)) (sqrt PI) <= c.
Proof.
move=> m s y c Hs Ws Wm Wy; rewrite /crps_gaussian; case: ifP => // /negbFE /andP [/eqP A /eqP B] [<-].
have Z1 := size_zipwf A Wm Ws; have Z2 := size_zipwf B Ws Wy.
rewrite jsumE big_map mulr_suml {A B Ws Wm Wy}.
elim: (adata s) (adata m) (adata y) Hs Z1 Z2 => [|s0 S0 IH] [|m0 M] [|y0 Y] //= Hs; first by rewrite !big_nil.
move=> [Z1] [Z2]; rewrite !big_cons; apply: ler_add; last first.
  by apply: IH => // x Hx; apply: Hs; rewrite inE Hx orbT.
rewrite crps_termE; toR; apply/RleP; apply: Rmult_le_compat_l; last exact: crps_std_lower.
by apply: Rlt_le; apply/RltP; apply: Hs; rewrite mem_head.
Qed.
Print Assumptions C36_crps_positive.

Lemma Rabs_div (a b : R) : 0 < b -> Rabs (Rdiv a b) = Rdiv (Rabs a) b.
Proof.
move=> /RltP Hb; rewrite /Rdiv Rabs_mult Rabs_Rinv; last by move=> E; move: Hb; rewrite E; apply: Rlt_irrefl.
by rewrite (Rabs_pos_eq b) //; apply: Rlt_le.
Qed.
(** With the predicted deviations fixed, the score only depends on the absolute errors and grows with
    them. *)
Theorem C36_crps_monotone :
  forall (m1 y1 m2 y2 s : arr R) c1 c2,
  (forall x, x \in adata s -> 0 < x) -> wf_arr m1 -> wf_arr y1 -> wf_arr m2 -> wf_arr y2 -> wf_arr s ->
  (forall i, (i < size (adata s))%N ->
     `|nth 0 (adata m1) i - nth 0 (adata y1) i| <= `|nth 0 (adata m2) i - nth 0 (adata y2) i|) ->
  crps_gaussian m1 s y1 false = Ok c1 -> crps_gaussian m2 s y2 false = Ok c2 -> c1 <= c2.
Proof.
move=> m1 y1 m2 y2 s c1 c2 Hs W1 W2 W3 W4 Ws H; rewrite /crps_gaussian.
case: ifP => // /negbFE /andP [/eqP A /eqP B] [<-].
case: ifP => // /negbFE /andP [/eqP A' /eqP B'] [<-].
have Z1 := size_zipwf A W1 Ws; have Z2 := size_zipwf B Ws W2.
have Z3 := size_zipwf A' W3 Ws; have Z4 := size_zipwf B' Ws W4.
rewrite !jsumE !big_map {A B A' B' W1 W2 W3 W4 Ws}.
elim: (adata s) (adata m1) (adata y1) (adata m2) (adata y2) Hs Z1 Z2 Z3 Z4 H =>
   [|s0 S0 IH] [|a M] [|b Y] [|a' M'] [|b' Y'] //= Hs.
move=> [Z1] [Z2] [Z3] [Z4] H; rewrite !big_cons; apply: ler_add; last first.
  apply: IH => // [x Hx|i Hi]; first by apply: Hs; rewrite inE Hx orbT.
  exact: (H i.+1).
have {IH H} H0 := H 0%N isT; have {Hs} Hs : 0 < s0 by apply: Hs; rewrite mem_head.
have Hs' : Rlt 0 s0 by apply/RltP.
rewrite /= in H0 *.
rewrite !crps_termE -(crps_std_abs (Rdiv (Rminus b a) s0)) -(crps_std_abs (Rdiv (Rminus b' a') s0)).
apply/RleP; apply: Rmult_le_compat_l; first exact: Rlt_le.
apply: crps_std_mono; split; first exact: Rabs_pos.
rewrite !Rabs_div // !(Rabs_minus_sym b) !(Rabs_minus_sym b'); apply: Rmult_le_compat_r.
  by apply: Rlt_le; apply: Rinv_0_lt_compat.
by move/RleP: H0.
Qed.
Print Assumptions C36_crps_monotone.

(** [gauss_density m s y = exp (-(y-m)^2 / (2 s^2)) / sqrt (2 pi s^2)]. *)
Theorem C36_nll_value :
  forall (m s y : arr R), ashape m = ashape s -> ashape s = ashape y ->
  (forall x, x \in adata s -> 0 < x) ->
  let total := - \sum_(t <- triples m s y) ln (gauss_density t.1.1 t.1.2 t.2) in
  nll_gaussian m s y false = Ok total /\
  nll_gaussian m s y true = Ok (total / (prodn (ashape m))%:R).
Proof.
move=> m s y E1 E2 Hs total; rewrite /nll_gaussian shape_eq3T //= jsumE big_map.
suff -> : \sum_(j <- zip3 (adata m) (adata s) (adata y)) norm_logpdf (j.1.1 - j.2) j.1.2 =
          \sum_(t <- triples m s y) ln (gauss_density t.1.1 t.1.2 t.2) by [].
rewrite /triples /zip3 {total E1 E2}.
elim: (adata s) (adata m) (adata y) Hs => [|s0 S0 IH] [|m0 M] [|y0 Y] //= Hs; rewrite ?big_nil //.
rewrite !big_cons /= IH; last by move=> x Hx; apply: Hs; rewrite inE Hx orbT.
by rewrite -norm_logpdfE //; apply/RltP; apply: Hs; rewrite mem_head.
Qed.
Print Assumptions C36_nll_value.

(** The best constant deviation for a given non-zero error is its absolute value. *)
Theorem C36_nll_best_std :
  forall (m y : R) (s : R), m != y -> 0 < s ->
  exists a b, nll_gaussian (Arr [:: 1%N] [:: m]) (Arr [:: 1%N] [:: `|m - y|]) (Arr [:: 1%N] [:: y]) false = Ok a /\
    nll_gaussian (Arr [:: 1%N] [:: m]) (Arr [:: 1%N] [:: s]) (Arr [:: 1%N] [:: y]) false = Ok b /\ a <= b.
Proof.
move=> m y s Hmy Hs; do 2 eexists; split; first reflexivity; split; first reflexivity.
rewrite /= !addr0 ler_opp2; apply/RleP; apply: norm_logpdf_best; last exact/RltP.
by move/eqP: Hmy => H E; apply: H; move/eqP: E; rewrite subr_eq0 => /eqP.
Qed.
Print Assumptions C36_nll_best_std.

(** ** [chi_squared] and [estimate_rmse] do not check shapes: a column of predictions [(2, 1)] against
    a vector of targets [(2,)] is silently expanded to a 2 x 2 table, so that perfect predictions get
    a non-zero error. *)
Theorem C36_no_shape_check_refuted :
  exists (m s y : arr R), adata m = adata y /\ ashape m <> ashape y /\
    wf_arr m /\ wf_arr s /\ wf_arr y /\
    estimate_rmse m y = Ok (sqrt (Rdiv 1 (IZR 2))) /\
    chi_squared m s y false = Ok (IZR 2).
Proof.
exists (Arr [:: 2%N; 1%N] [:: 0; 1]), (Arr [:: 1%N] [:: 1]), (Arr [:: 2%N] [:: 0; 1]).
split=> //; split=> //; split=> //; split=> //; split=> //.
split.
  rewrite /estimate_rmse /broadcast2 /=; congr (Ok (sqrt _)); rewrite /jmean /=.
  rewrite !subrr !expr0n !sub0r subr0 sqrrN !expr1n !addr0 !add0r.
  numR; field.
rewrite /chi_squared /broadcast2 /=; congr (Ok _).
rewrite !subrr !expr0n !sub0r subr0 sqrrN !expr1n !mul0r !divr1 !addr0 !add0r.
by toR; rewrite /=; lra.
Qed.
Print Assumptions C36_no_shape_check_refuted.

Example C36_example :
  let a := Arr [:: 2%N] [:: 0; 1 : R] in let s := Arr [:: 2%N] [:: 1; 1 : R] in let y := Arr [:: 2%N] [:: 1; 1 : R] in
  wf_arr a /\ wf_arr s /\ wf_arr y /\ (forall x, x \in adata s -> 0 < x) /\
  estimate_rmse a y = Ok (sqrt (Rdiv 1 (IZR 2))) /\ chi_squared a s y true = Ok (Rdiv 1 (IZR 2)).
Proof.
split=> //; split=> //; split=> //; split; first by move=> x; rewrite !inE => /orP [] /eqP ->; rewrite ltr01.
split.
  rewrite /estimate_rmse /broadcast2 /=; congr (Ok (sqrt _)); rewrite /jmean /=.
  rewrite !subrr !expr0n !sub0r sqrrN !expr1n !addr0.
  numR; field.
rewrite /chi_squared /broadcast2 /=; congr (Ok _); rewrite /jmean /=.
rewrite !subrr !expr0n !sub0r sqrrN !expr1n !mul0r !divr1 !addr0.
numR; field.
Qed.
