(** Properties C26-C30: low-rank solvers, the global 64-bit flag, registration. *)
From Coq Require Import String.
From mathcomp Require Import all_ssreflect all_algebra.
From Verif Require Import Base PyTree TreeSpec Mv GgnSpec GgnProofs Posterior PosteriorSpec PosteriorProofs
  PosteriorTree LowRankSolvers LowRankSpec LanczosProofs LobpcgProofs Registry.
Set Implicit Arguments.
Unset Strict Implicit.
Unset Printing Implicit Defensive.
Import GRing.Theory Num.Theory Order.TTheory.
Local Open Scope ring_scope.

(** C26.  The iteration always finishes, with arrays of the documented lengths. *)
Theorem C26_lanczos_total :
  forall (R : rcfType) (n : nat) (A : 'M[R]_n) (b : 'cV[R]_n) (m : nat) (tol : R), b != 0 ->
  exists alpha beta V,
    [/\ lanczos_iterations (fun v => Ok (A *m v)) b m tol true = Ok (alpha, beta, V),
        size alpha = m, size beta = m & size V = m.+1].
Proof.
move=> R n A b m tol b0; have [s [-> [[Sa Sb SV] _ _ _ _]]] := lanczosE A m tol b0.
by exists (ls_alpha s), (ls_beta s), (ls_V s).
Qed.
Print Assumptions C26_lanczos_total.

(** With reorthogonalisation, as long as no off-diagonal entry before the last is zero, the rows
    are orthonormal, and for a symmetric operator they compress it to the returned
    tridiagonal matrix. *)
Theorem C26_lanczos_orthonormal_tridiagonal :
  forall (R : rcfType) (n : nat) (A : 'M[R]_n) (b : 'cV[R]_n) (m : nat) (tol : R) alpha beta V,
  b != 0 ->
  lanczos_iterations (fun v => Ok (A *m v)) b m tol true = Ok (alpha, beta, V) ->
  (forall j, (j.+1 < m)%N -> nth 0 beta j != 0) ->
  (forall i j, (i < m)%N -> (j < m)%N -> dotv (nth 0 V i) (nth 0 V j) = (i == j)%:R) /\
  (symmetric A -> forall i j, (i < m)%N -> (j < m)%N ->
     dotv (nth 0 V i) (A *m nth 0 V j) =
       (if i == j then nth 0 alpha i
        else if j == i.+1 then nth 0 beta i
        else if i == j.+1 then nth 0 beta j else 0)).
Proof.
move=> R n A b m tol alpha beta V b0 E H.
have [s [E' I]] := lanczosE A m tol b0; move: E; rewrite E' => -[Ea Eb EV]; subst.
split; last by move=> SA; exact: (lanczos_entries SA I H).
move=> i j Hi Hj; have [_ _ _ _ Ho] := I.
have m0 : (0 < m)%N := leq_ltn_trans (leq0n i) Hi.
have [|O _ _] := Ho m.-1 (leq_pred m).
  by move=> x Hx; apply: H; rewrite -ltn_predRL.
by apply: O; rewrite -ltnS prednK.
Qed.
Print Assumptions C26_lanczos_orthonormal_tridiagonal.

Section Entry.
Variable R : rcfType.
Variable eigh : forall k : nat, 'M[R]_k -> 'cV[R]_k * 'M[R]_k.
Variables (Key : Type) (normal : Key -> nat -> seq R).

Lemma lowrank_run op key b l rank tol mvd calc ret x64 (A : 'M[R]_(size b)) :
  cv_of (size b) b != 0 -> represents op l A -> exists s : lanczos_state R (size b),
  [/\ linv A rank tol rank s, lbreak rank s,
   lanczos_iterations (fun v => Ok (A *m v)) (cv_of (size b) b) rank tol true = Ok (ls_alpha s, ls_beta s, ls_V s)
   & lanczos_lowrank eigh normal op key (Some b) l rank tol mvd calc ret true x64 =
     (x64, Ok (LowRankResult (LowRankTerms
        (basis_mx rank (ls_V s) *m (eigh (construct_tridiagonal rank (ls_alpha s) (ls_beta s))).2)
        (eigh (construct_tridiagonal rank (ls_alpha s) (ls_beta s))).1 0)
        (asarray_dtype (dtype_eqb calc Float64) (default_dtype x64 ret))))].
Proof.
move=> b0 Hr; have [s [E I B]] := lanczosE_break A rank tol b0.
exists s; split=> //.
have := @lanczos_lowrankE _ eigh Key normal op key b l rank tol mvd calc ret x64 A _ _ _ Hr E.
by rewrite /compute_eigendecomposition; case: (eigh _).
Qed.
End Entry.

(** [lanczos_lowrank]: for a symmetric operator, given a correct symmetric eigensolver and absent
    breakdown, [U] is orthonormal, [(S, U)] are Ritz pairs, non-negative for positive semi-definite
    operators, each is an eigenpair up to the last off-diagonal entry (or the tolerance), and at
    full rank the operator is reproduced exactly. *)
Theorem C26_lanczos_lowrank :
  forall (R : rcfType) (eigh : forall k : nat, 'M[R]_k -> 'cV[R]_k * 'M[R]_k)
    (Key : Type) (normal : Key -> nat -> seq R)
    (op : operand R) (l : layout R) (key : option Key) (b : seq R) (rank : nat) (tol : R)
    mv_dtype calc_dtype return_dtype (x64 : bool)
    (A : 'M[R]_(size b)) alpha beta V,
  symmetric A -> represents op l A -> cv_of (size b) b != 0 ->
  lanczos_iterations (fun v => Ok (A *m v)) (cv_of (size b) b) rank tol true = Ok (alpha, beta, V) ->
  (forall j, (j.+1 < rank)%N -> nth 0 beta j != 0) ->
  eigh_correct (construct_tridiagonal rank alpha beta) (eigh rank (construct_tridiagonal rank alpha beta)) ->
  exists (U : 'M[R]_(size b, rank)) (S : 'cV[R]_rank) d,
    lanczos_lowrank eigh normal op key (Some b) l rank tol mv_dtype calc_dtype return_dtype true x64 =
      (x64, Ok (LowRankResult (LowRankTerms U S 0) d)) /\
    [/\ orthonormal U,
        U^T *m (A *m U) = diag_mx S^T,
        psd A -> forall j, 0 <= S j ord0,
        forall j, norm2 (A *m col j U - S j ord0 *: col j U) <= Num.max (nth 0 beta rank.-1) tol
      & rank = size b -> low_rank_dense U S 0 = A].
Proof.
move=> R eigh Key normal op l key b rank tol mvd calc ret x64 A alpha beta V SA Hr b0 E H.
have [s [I _ E' EL]] := @lowrank_run R eigh Key normal op key b l rank tol mvd calc ret x64 A b0 Hr.
move: E; rewrite E' => -[Ea Eb EV]; subst alpha beta V.
set T := construct_tridiagonal _ _ _ in EL *.
move: EL; case: (eigh rank T) => [S Q] EL [/= OQ TQ].
set B := basis_mx _ _ in EL.
have OB : orthonormal B by exact: (basis_ortho I H).
have CT : B^T *m (A *m B) = T by exact: (basis_compress SA I H).
exists (B *m Q), S, (asarray_dtype (dtype_eqb calc Float64) (default_dtype x64 ret)); split=> //.
have D := ritz_diag OQ TQ CT.
split=> //.
- exact: ritz_ortho.
- case=> _ Hp j; have -> : S j ord0 = ((B *m Q)^T *m (A *m (B *m Q))) j j.
    by rewrite D mxE eqxx mulr1n mxE.
  by rewrite mulmx_entry [col j (A *m _)]col_mulE; apply: Hp.
- move=> j; have m0 : (0 < rank)%N := leq_ltn_trans (leq0n j) (ltn_ord j).
  have [w [EAB Eb]] := basis_residual SA I m0 H.
  have [o Eo] : exists o : 'I_rank, o = rank.-1 :> nat.
    have Hm : (rank.-1 < rank)%N by rewrite prednK.
    by exists (Ordinal Hm).
  have EAU : A *m (B *m Q) = B *m Q *m diag_mx S^T + w *m row o Q.
    rewrite mulmxA EAB mulmxDl -/B -/T -[B *m T *m Q]mulmxA TQ mulmxA; congr (_ + _).
    rewrite -mulmxA; congr (_ *m _); apply/rowP => k; rewrite !mxE (bigD1 o) //= mxE Eo eqxx mul1r.
    rewrite big1 ?addr0 // => x Hx; rewrite mxE.
    have /negPf -> : (x : nat) != rank.-1 by rewrite -Eo; apply: contra Hx => /eqP /val_inj ->.
    by rewrite mul0r.
  have -> : A *m col j (B *m Q) - S j ord0 *: col j (B *m Q) = Q o j *: w.
    rewrite -col_mulE EAU mul_mx_diag; set BQ := B *m Q; apply/colP => x.
    rewrite !mxE big_ord1 !mxE.
    by rewrite addrAC [S j ord0 * _]mulrC subrr add0r mulrC.
  have c1 : Q o j ^+ 2 <= 1.
    have := congr1 (fun M : 'M[R]_rank => M j j) OQ; rewrite !mxE eqxx mulr1n => <-.
    rewrite (bigD1 o) //= !mxE -expr2 ler_addl sumr_ge0 // => x _.
    by rewrite mxE -expr2 sqr_ge0.
  have le_w : norm2 (Q o j *: w) <= norm2 w.
    rewrite /norm2 !jdotE dotvZ dotvZl mulrA -expr2 ler_wsqrtr //.
    by rewrite -[X in _ <= X]mul1r ler_wpmul2r ?dotvv_ge0.
  apply: le_trans le_w _; rewrite Eb; case: ifP => Ht.
    by rewrite le_maxr (ltW Ht) orbT.
  by rewrite le_maxr lexx.
- move=> En; rewrite (ritz_dense OQ TQ CT).
  have BB : B *m B^T = 1%:M.
    move: (B) OB; rewrite En => B' OB'; exact: mulmx1C.
  by rewrite BB mul1mx mulmx1.
Qed.
Print Assumptions C26_lanczos_lowrank.

(** A case that meets the hypotheses: the operator with rows (16, 12), (12, 9), started at the
    first basis vector, rank 2; it has eigenvalues 0 and 25. *)
Section Example26.
Variable R : rcfType.
Definition ex_A : 'M[R]_2 := \matrix_(i, j) (nth 0 (nth [::] [:: [:: 16%:R; 12%:R]; [:: 12%:R; 9%:R]] i) j).
Definition ex_e (i : 'I_2) : 'cV[R]_2 := delta_mx i ord0.
Lemma ex_dot i j : dotv (ex_e i) (ex_e j) = (i == j)%:R.
Proof. by rewrite /ex_e dotv_delta mxE eq_sym andbT. Qed.
Definition o0 : 'I_2 := ord0.
Definition o1 : 'I_2 := lift ord0 ord0.
Lemma ex_A0 : ex_A *m ex_e o0 = 16%:R *: ex_e o0 + 12%:R *: ex_e o1.
Proof.
rewrite -colE; apply/colP => i; rewrite !mxE.
by case: i => [[|[|//]] Hi]; rewrite /= ?eqxx ?mulr0n ?mulr1n ?mulr1 ?mulr0 ?addr0 ?add0r.
Qed.
Lemma ex_A1 : ex_A *m ex_e o1 = 12%:R *: ex_e o0 + 9%:R *: ex_e o1.
Proof.
rewrite -colE; apply/colP => i; rewrite !mxE.
by case: i => [[|[|//]] Hi]; rewrite /= ?eqxx ?mulr0n ?mulr1n ?mulr1 ?mulr0 ?addr0 ?add0r.
Qed.
Lemma ex_norm (c : R) i : 0 <= c -> norm2 (c *: ex_e i) = c.
Proof.
by move=> c0; rewrite /norm2 jdotE dotvZ dotvZl ex_dot eqxx mulr1 -expr2 sqrtr_sqr ger0_norm.
Qed.
Lemma norm2_0 n : norm2 (0 : 'cV[R]_n) = 0.
Proof. by apply/eqP; rewrite norm2_eq0. Qed.

Example C26_example (tol : R) : 0 < tol <= 12%:R ->
  lanczos_iterations (fun v => Ok (ex_A *m v)) (ex_e o0) 2 tol true =
    Ok ([:: 16%:R; 9%:R], [:: 12%:R; 0], [:: ex_e o0; ex_e o1; ex_e o1]) /\
  symmetric ex_A /\ (forall j, (j.+1 < 2)%N -> nth 0 [:: 12%:R; 0 : R] j != 0).
Proof.
move=> /andP [t0 t12]; split; last first.
  split; last by case=> // _; rewrite /= pnatr_eq0.
  by apply/matrixP => i j; rewrite !mxE; case: i => [[|[|//]] Hi]; case: j => [[|[|//]] Hj].
have E0 : (norm2 (ex_e o0))^-1 *: ex_e o0 = ex_e o0.
  by have := @ex_norm 1 o0 ler01; rewrite scale1r => ->; rewrite invr1 scale1r.
have T12 : (12%:R < tol) = false by rewrite ltNge t12.
have P12 : 0 < 12%:R :> R by rewrite ltr0n.
rewrite /lanczos_iterations E0 /= /lanczos_body /= /iteration_step /=.
rewrite ex_A0 !jdotE dotvD !dotvZ !ex_dot !eqxx mulr1.
have N01 : (o0 == o1) = false by [].
rewrite N01 mulr0 addr0 addrAC subrr add0r /reorthogonalize /= ex_norm ?ler0n // T12 P12.
rewrite scalerA mulVf ?pnatr_eq0 // scale1r.
rewrite ex_A1 !jdotE dotvD !dotvZ !ex_dot (eq_sym o1) N01 eqxx mulr0 mulr1 add0r addrK.
rewrite !dotvZ !ex_dot !eqxx mulr1 subrr.
by rewrite !dotv0 scale0r subr0 norm2_0 t0 ltxx.
Qed.
End Example26.

(** C27.  Once an off-diagonal entry is zero (residual below the tolerance), the iteration repeats
    the same vector, the same diagonal entry and zero off-diagonal entries until the end. *)
Theorem C27_breakdown_repeats :
  forall (R : rcfType) (n : nat) (A : 'M[R]_n) (b : 'cV[R]_n) (m : nat) (tol : R) alpha beta V i,
  b != 0 ->
  lanczos_iterations (fun v => Ok (A *m v)) b m tol true = Ok (alpha, beta, V) ->
  (i < m)%N -> (forall j, (j < i)%N -> nth 0 beta j != 0) -> nth 0 beta i = 0 ->
  (forall l, (i <= l <= m)%N -> nth 0 V l = nth 0 V i) /\
  (forall l, (i <= l < m)%N -> nth 0 alpha l = nth 0 alpha i /\ nth 0 beta l = 0).
Proof.
move=> R n A b m tol alpha beta V i b0 E Hi Hn H0.
have [s [E' _ B]] := lanczosE_break A m tol b0; move: E; rewrite E' => -[Ea Eb EV]; subst.
exact: B.
Qed.
Print Assumptions C27_breakdown_repeats.

(** More iterations than dimensions always break down. *)
Theorem C27_rank_above_dimension_breaks_down :
  forall (R : rcfType) (n : nat) (A : 'M[R]_n) (b : 'cV[R]_n) (m : nat) (tol : R) alpha beta V,
  b != 0 -> (n < m)%N ->
  lanczos_iterations (fun v => Ok (A *m v)) b m tol true = Ok (alpha, beta, V) ->
  exists i, [/\ (i < n)%N, forall j, (j < i)%N -> nth 0 beta j != 0 & nth 0 beta i = 0].
Proof.
move=> R n A b m tol alpha beta V b0 Hm E.
have [s [E' I]] := lanczosE A m tol b0; move: E; rewrite E' => -[Ea Eb EV]; subst.
have [[Sa Sb SV] _ _ _ Ho] := I.
have Hex : exists i, (i < n)%N && (nth 0 (ls_beta s) i == 0).
  case Hall: [exists i : 'I_n, nth 0 (ls_beta s) i == 0].
    by move/existsP: Hall => [i Hi]; exists i; rewrite ltn_ord.
  have Hn0 : forall j, (j < n)%N -> nth 0 (ls_beta s) j != 0.
    by move=> j Hj; have /existsPn /(_ (Ordinal Hj)) := negbT Hall.
  have [O _ _] := Ho n (ltnW Hm) Hn0.
  pose B : 'M[R]_(n, n.+1) := \matrix_(x, j) nth 0 (ls_V s) j x ord0.
  have OB : B^T *m B = 1%:M.
    apply/matrixP => x y; rewrite mulmx_entry.
    have c (k : 'I_n.+1) : col k B = nth 0 (ls_V s) k by apply/colP => z; rewrite !mxE.
    by rewrite !c O ?mxE // -ltnS.
  have := mxrankS (submxMl B^T B); rewrite OB mxrank1 => H1.
  by have := leq_trans H1 (rank_leq_row B); rewrite ltnn.
case: (ex_minnP Hex) => i /andP [Hi /eqP H0] Hmin.
exists i; split=> // j Hj; apply/negP => Hz.
by have := Hmin j; rewrite Hz (ltn_trans Hj Hi) leqNgt Hj => /(_ isT).
Qed.
Print Assumptions C27_rank_above_dimension_breaks_down.

(** What [lanczos_lowrank] returns after a breakdown at step [i]: the compression to the first
    [i + 1] directions (orthonormal), plus the last direction counted [rank - (i + 1)] more
    times. *)
Theorem C27_breakdown_overcounts :
  forall (R : rcfType) (eigh : forall k : nat, 'M[R]_k -> 'cV[R]_k * 'M[R]_k)
    (Key : Type) (normal : Key -> nat -> seq R)
    (op : operand R) (l : layout R) (key : option Key) (b : seq R) (rank : nat) (tol : R)
    mv_dtype calc_dtype return_dtype (x64 : bool)
    (A : 'M[R]_(size b)) alpha beta V i,
  symmetric A -> represents op l A -> cv_of (size b) b != 0 ->
  lanczos_iterations (fun v => Ok (A *m v)) (cv_of (size b) b) rank tol true = Ok (alpha, beta, V) ->
  (i < rank)%N -> (forall j, (j < i)%N -> nth 0 beta j != 0) -> nth 0 beta i = 0 ->
  eigh_correct (construct_tridiagonal rank alpha beta) (eigh rank (construct_tridiagonal rank alpha beta)) ->
  let W : 'M[R]_(size b, i.+1) := \matrix_(x, j) nth 0 V j x ord0 in
  let v := nth 0 V i in
  exists (U : 'M[R]_(size b, rank)) (S : 'cV[R]_rank) d,
    [/\ lanczos_lowrank eigh normal op key (Some b) l rank tol mv_dtype calc_dtype return_dtype true x64 =
          (x64, Ok (LowRankResult (LowRankTerms U S 0) d)),
        orthonormal W,
        low_rank_dense U S 0 =
          (W *m W^T) *m A *m (W *m W^T) + ((rank - i.+1)%:R * dotv v (A *m v)) *: (v *m v^T)
      & (i.+1 = size b -> low_rank_dense U S 0 = A + ((rank - size b)%:R * dotv v (A *m v)) *: (v *m v^T))].
Proof.
move=> R eigh Key normal op l key b rank tol mvd calc ret x64 A alpha beta V i SA Hr b0 E Hi Hn H0.
have [s [I HB E' EL]] := @lowrank_run R eigh Key normal op key b l rank tol mvd calc ret x64 A b0 Hr.
move: E; rewrite E' => -[Ea Eb EV]; subst alpha beta V.
have D := breakdown_dense SA I HB Hi Hn H0.
have [_ _ Ha _ Ho] := I.
set T := construct_tridiagonal _ _ _ in EL D *.
move: EL; case: (eigh rank T) => [S Q] EL [OQ TQ] W v; rewrite /= in OQ TQ EL.
set B := basis_mx _ _ in EL D.
exists (B *m Q), S, (asarray_dtype (dtype_eqb calc Float64) (default_dtype x64 ret)).
have QQ : Q *m Q^T = 1%:M by apply: mulmx1C.
have ED : low_rank_dense (B *m Q) S 0 = B *m T *m B^T.
  rewrite /low_rank_dense raddf0 addr0 trmx_mul !mulmxA -(mulmxA B Q) -TQ -!mulmxA.
  by rewrite (mulmxA Q) QQ mul1mx.
have OW : orthonormal W.
  have [O _ _] := Ho i (ltnW Hi) Hn.
  apply/matrixP => x y; rewrite mulmx_entry.
  have c k : col k W = nth 0 (ls_V s) k by apply/colP => z; rewrite !mxE.
  by rewrite !c O ?mxE // -ltnS.
have F : low_rank_dense (B *m Q) S 0 =
    (W *m W^T) *m A *m (W *m W^T) + ((rank - i.+1)%:R * dotv v (A *m v)) *: (v *m v^T).
  by rewrite ED D -Ha.
split=> //.
move=> En; rewrite F.
have WW : W *m W^T = 1%:M.
  clear - OW En; move: W OW; rewrite En => W OW; exact: mulmx1C.
have -> : (rank - size b = rank - i.+1)%N by rewrite En.
by rewrite WW mul1mx mulmx1.
Qed.
Print Assumptions C27_breakdown_overcounts.

(** The claim "a rank at least the dimension reproduces the operator" is false: the 1x1 operator
    (1) with rank 2 comes back as (2), whatever (correct) eigensolver, start vector 1 and
    positive tolerance. *)
Theorem C27_rank_at_least_dimension_refuted :
  forall (R : rcfType) (eigh : forall k : nat, 'M[R]_k -> 'cV[R]_k * 'M[R]_k)
    (Key : Type) (normal : Key -> nat -> seq R) (tol : R) mv_dtype calc_dtype return_dtype (x64 : bool),
  0 < tol -> eigh_correct 1%:M (eigh 2%N 1%:M) ->
  exists (U : 'M[R]_(1, 2)) (S : 'cV[R]_2) d,
    lanczos_lowrank eigh normal (Dense (Arr [:: 1; 1]%N [:: 1])) None (Some [:: 1]) (LNone R) 2%N tol
        mv_dtype calc_dtype return_dtype true x64 =
      (x64, Ok (LowRankResult (LowRankTerms U S 0 : low_rank_terms R 1 2) d)) /\
    low_rank_dense U S 0 = 2%:R%:M /\ low_rank_dense U S 0 <> 1%:M.
Proof.
move=> R eigh Key normal tol mvd calc ret x64 t0 HE.
pose b : seq R := [:: 1]; pose A : 'M[R]_(size b) := 1%:M.
have b0 : cv_of (size b) b != 0.
  apply/eqP => /matrixP /(_ ord0 ord0); rewrite !mxE /=; exact/eqP/oner_neq0.
have Hr : represents (Dense (Arr [:: 1; 1]%N [:: 1])) (LNone R) A.
  do 2 split=> //; apply/matrixP => i j; rewrite !mxE !ord1 /=; by [].
have [alpha [beta [V [E _ _ _]]]] := C26_lanczos_total A 2 tol b0.
have [i [Hi Hn H0]] := C27_rank_above_dimension_breaks_down b0 (isT : (1 < 2)%N) E.
have i0 : i = 0%N by case: i Hi {Hn H0}.
subst i.
have [HV Hab] := C27_breakdown_repeats b0 E (isT : (0 < 2)%N) Hn H0.
have [s [E' I]] := lanczosE A 2 tol b0.
move: (E); rewrite E' => -[Ea Eb EV].
have [_ _ Ha _ Ho] := I; have [|O _ _] := Ho 0%N isT; first by [].
have a1 : nth 0 alpha 0 = 1.
  by rewrite -Ea Ha // mul1mx O.
have ET : construct_tridiagonal 2 alpha beta = 1%:M.
  have [A1 B1] := Hab 1%N isT.
  apply/matrixP => x y; rewrite !mxE.
  by case: x => [[|[|//]] Hx]; case: y => [[|[|//]] Hy]; rewrite /= ?A1 ?a1 ?H0.
have [|U [S [d [EL OW ED _]]]] := @C27_breakdown_overcounts R eigh Key normal _ _ None b 2 tol mvd calc ret x64
  A alpha beta V 0 (tr_scalar_mx _ _) Hr b0 E isT Hn H0; first by rewrite ET.
exists U, S, d; split; first exact: EL.
have E2 : low_rank_dense U S 0 = 2%:R%:M.
  rewrite ED mulmx1.
  set W := (\matrix_(x, j) _ : 'M_(1, 1)) in OW *.
  have WW : W *m W^T = 1%:M by apply: mulmx1C.
  rewrite WW mul1mx mul1mx.
  have Ev : nth 0 V 0 = W by apply/matrixP => x y; rewrite mxE !ord1.
  rewrite Ev WW subSS subn0.
  have -> : dotv W W = 1 by rewrite dotvE OW mxE.
  by rewrite mul1r scale1r -[RHS]/((1 + 1)%:M) raddfD.
split=> //; rewrite E2 => /matrixP /(_ ord0 ord0); rewrite !mxE /= => /eqP.
by rewrite !mulr1n -subr_eq0 (_ : 2%:R - 1 = 1 :> R) ?oner_eq0 // -[2%:R]/(1 + 1) addrK.
Qed.
Print Assumptions C27_rank_at_least_dimension_refuted.

(** C28.  On a normal return the 64-bit flag is what it was before the call; any exception leaves
    it at [calc_dtype == float64], whatever it was before. *)
Theorem C28_flag_after_lanczos :
  forall (R : rcfType) (eigh : forall k : nat, 'M[R]_k -> 'cV[R]_k * 'M[R]_k)
    (Key : Type) (normal : Key -> nat -> seq R) op l key b rank tol mv_dtype calc_dtype return_dtype full
    (x64 x64' : bool) out,
  lanczos_lowrank eigh normal op key b l rank tol mv_dtype calc_dtype return_dtype full x64 = (x64', out) ->
  x64' = if is_ok out then x64 else dtype_eqb calc_dtype Float64.
Proof.
move=> R eigh Key normal op l key b rank tol mvd calc ret full x64 x64' out.
rewrite /lanczos_lowrank /fbind /config_read /config_update /flift.
case: (get_matvec op l) => [[f n]|e]; last by case=> <- <-.
case: (match b with Some _ => _ | _ => _ end) => [b'|e]; last by case=> <- <-.
case: (lanczos_iterations _ _ _ _ _) => [[[alpha beta] V]|e]; last by case=> <- <-.
case: (compute_eigendecomposition _ _ _ _ _) => [S U].
by rewrite /return_terms /fbind /config_read /fret; case=> <- <-.
Qed.
Print Assumptions C28_flag_after_lanczos.

Theorem C28_flag_after_lobpcg :
  forall (R : rcfType) (eigh : forall k : nat, 'M[R]_k -> 'cV[R]_k * 'M[R]_k)
    (Key : Type) (normal2 : Key -> forall n r, 'M[R]_(n, r)) (key0 : Key) eps
    (qr : forall a c, 'M[R]_(a, c) -> 'M[R]_(a, c)) svd jax_lobpcg
    op l key rank tol mv_dtype calc_dtype return_dtype mv_jit (x64 x64' : bool) out,
  lobpcg_lowrank eigh normal2 key0 eps qr svd jax_lobpcg op key l rank tol mv_dtype calc_dtype
    return_dtype mv_jit x64 = (x64', out) ->
  x64' = if is_ok out then x64 else dtype_eqb calc_dtype Float64.
Proof.
move=> R eigh Key normal2 key0 eps qr eb jl op l key rank tol mvd calc ret jit x64 x64' out.
rewrite /lobpcg_lowrank /fbind /config_read /config_update /flift.
case: (get_matvec op l) => [[f n]|e]; last by case=> <- <-.
case: (clip_rank n rank) => [|k']; first by case=> <- <-.
case: (lobpcg_call _ _ _ _ _ _ _ _ _ _) => [[[w U] i]|e]; last by case=> <- <-.
by rewrite /return_terms /fbind /config_read /fret; case=> <- <-.
Qed.
Print Assumptions C28_flag_after_lobpcg.

(** Hence a failing call changes the process-wide flag.  With the default [calc_dtype] and 64-bit
    mode off, forgetting both [key] and [b], forgetting the layout of a callable, or an operator
    that raises, all leave 64-bit mode on. *)
Theorem C28_restored_on_exception_refuted :
  forall (R : rcfType) (eigh : forall k : nat, 'M[R]_k -> 'cV[R]_k * 'M[R]_k)
    (Key : Type) (normal : Key -> nat -> seq R) l rank (tol : R) mv_dtype return_dtype full,
  (forall a n m, ashape a = [:: n; m] ->
   lanczos_lowrank eigh normal (Dense a) None None l rank tol mv_dtype Float64 return_dtype full false
   = (true, Raise ValueError)) /\
  (forall mv key b,
   lanczos_lowrank eigh normal (Callable mv) key b (LNone R) rank tol mv_dtype Float64 return_dtype full false
   = (true, Raise TypeError)) /\
  (forall e key b n, (0 < rank)%N ->
   lanczos_lowrank eigh normal (Callable (fun _ => Raise e)) key (Some b) (LInt R n) rank tol mv_dtype Float64
     return_dtype full false = (true, Raise e)).
Proof.
move=> R eigh Key normal l rank tol mvd ret full; split=> [a n m E|]; last split=> [mv key b|e key b n].
- by rewrite /lanczos_lowrank /fbind /config_read /config_update /flift /= E.
- by [].
by case: rank.
Qed.
Print Assumptions C28_restored_on_exception_refuted.

(** The precision of the result: double exactly if the calculation is double, and double is asked
    for or, with no [return_dtype], 64-bit mode was on. *)
Theorem C28_return_precision :
  forall (R : rcfType) (eigh : forall k : nat, 'M[R]_k -> 'cV[R]_k * 'M[R]_k)
    (Key : Type) (normal : Key -> nat -> seq R) op l key b rank tol mv_dtype calc_dtype return_dtype full
    (x64 x64' : bool) r,
  lanczos_lowrank eigh normal op key b l rank tol mv_dtype calc_dtype return_dtype full x64 = (x64', Ok r) ->
  (res_dtype r = Float64 <->
   calc_dtype = Float64 /\ (return_dtype = Some Float64 \/ (return_dtype = None /\ x64 = true))).
Proof.
move=> R eigh Key normal op l key b rank tol mvd calc ret full x64 x64' r.
rewrite /lanczos_lowrank /fbind /config_read /config_update /flift.
case: (get_matvec op l) => [[f n]|e] //.
case: (match b with Some _ => _ | _ => _ end) => [b'|e] //.
case: (lanczos_iterations _ _ _ _ _) => [[[alpha beta] V]|e] //.
case: (compute_eigendecomposition _ _ _ _ _) => [S U].
rewrite /return_terms /fbind /config_read /fret => -[_ <-] /=.
by case: calc; case: ret => [[]|]; case: x64; split=> //; intuition.
Qed.
Print Assumptions C28_return_precision.

(** C29.  The rank used by [lobpcg_lowrank] for an operator of the given size. *)
Theorem C29_rank_clipping :
  forall size rank : nat, (0 < rank)%N ->
  [/\ (0 < clip_rank size rank)%N, (clip_rank size rank <= rank)%N,
      (rank * 5 <= size)%N -> clip_rank size rank = rank
    & (size < rank * 5)%N -> clip_rank size rank = maxn 1 (size %/ 5 - 1)].
Proof.
move=> size rank Hr; rewrite /clip_rank; case: (ltnP size (rank * 5)) => H; split=> //.
- by rewrite leq_max.
- rewrite geq_max Hr /= -subn1 leq_subLR (leq_trans (leq_div2r 5 (ltnW H))) // mulnK // leqnSn.
- by rewrite subn1.
Qed.
Print Assumptions C29_rank_clipping.

(** jax's solver insists on [5 * rank < size].  The clipped rank satisfies this exactly when the
    operator has at least six rows and not exactly [5 * rank]: the boundary case is not clipped. *)
Theorem C29_clipped_rank_admissible :
  forall size rank : nat, (0 < rank)%N ->
  (clip_rank size rank * 5 < size)%N = (5 < size)%N && (size != rank * 5)%N.
Proof.
move=> size rank Hr; rewrite /clip_rank; case: (ltnP size (rank * 5)) => H; last first.
  rewrite [RHS]andbC eq_sym ltn_neqAle H andbT; case: eqP => //= /eqP Hne.
  symmetry; have H' : (rank * 5 < size)%N by rewrite ltn_neqAle Hne H.
  by apply: leq_ltn_trans H'; rewrite leq_pmull.
rewrite [size != _]neq_ltn H andbT.
case: (leqP (size %/ 5) 2) => H2.
  have -> : maxn 1 (size %/ 5).-1 = 1%N by apply/maxn_idPl; rewrite -subn1 leq_subLR.
  by rewrite mul1n.
have -> : maxn 1 (size %/ 5).-1 = (size %/ 5).-1.
  by apply/maxn_idPr; rewrite -subn1 ltn_subRL addn0 // ltnW.
have Hs := leq_trunc_div size 5.
have H3 : (15 <= size)%N by apply: leq_trans Hs; rewrite (@leq_mul 3 5).
have -> : (5 < size)%N by apply: leq_trans H3.
apply: leq_trans Hs; rewrite ltn_mul2r /= prednK //; exact: leq_trans H2.
Qed.
Print Assumptions C29_clipped_rank_admissible.

(** In the other cases [lobpcg_lowrank] raises ValueError (and leaves 64-bit mode changed). *)
Theorem C29_inadmissible_size_raises :
  forall (R : rcfType) (eigh : forall k : nat, 'M[R]_k -> 'cV[R]_k * 'M[R]_k)
    (Key : Type) (normal2 : Key -> forall n r, 'M[R]_(n, r)) (key0 : Key) eps
    (qr : forall a c, 'M[R]_(a, c) -> 'M[R]_(a, c)) svd jax_lobpcg
    op l key rank tol mv_dtype calc_dtype return_dtype mv_jit (x64 : bool) n (A : 'M[R]_n),
  represents op l A -> (0 < rank)%N -> (n <= 5)%N \/ n = (rank * 5)%N ->
  lobpcg_lowrank eigh normal2 key0 eps qr svd jax_lobpcg op key l rank tol mv_dtype calc_dtype
    return_dtype mv_jit x64 = (dtype_eqb calc_dtype Float64, Raise ValueError).
Proof.
move=> R eigh Key normal2 key0 eps qr eb jl op l key rank tol mvd calc ret jit x64 n A Hr Hk Hn.
have [f [Ef _]] := get_matvec_ok Hr.
rewrite /lobpcg_lowrank /fbind /config_read /config_update /flift Ef.
have := C29_clipped_rank_admissible n Hk.
have [] := C29_rank_clipping n Hk.
case: (clip_rank n rank) => // k' _ _ _ _.
have -> : (5 < n)%N && (n != rank * 5)%N = false.
  by case: Hn => [H|->]; rewrite ?eqxx ?andbF // ltnNge H.
move/negbT; rewrite -leqNgt => H.
by rewrite /lobpcg_call /lobpcg_standard /check_inputs; case: jit; rewrite H.
Qed.
Print Assumptions C29_inadmissible_size_raises.

(** The iteration (operators that cannot be jitted): it runs [i <= m] rounds, each on the result of
    the one before, never starts a round with all columns converged, and stops before [m] rounds
    only when all columns have converged. *)
Theorem C29_iteration_count :
  forall (R : rcfType) (eigh : forall k : nat, 'M[R]_k -> 'cV[R]_k * 'M[R]_k) eps
    (qr : forall a c, 'M[R]_(a, c) -> 'M[R]_(a, c)) (n k' : nat)
    (A : forall c, 'M[R]_(n, c) -> res 'M[R]_(n, c)) tol m (s s' : lobpcg_state R n k') i,
  lobpcg_loop eigh eps qr A tol m s 0 0 = Ok (s', i) ->
  exists t : nat -> lobpcg_state R n k' * nat,
    [/\ t 0%N = (s, 0%N) /\ (t i).1 = s', (i <= m)%N,
        forall j, (j < i)%N -> lobpcg_body eigh eps qr A tol (t j).1 = Ok (t j.+1),
        forall j, (j < i)%N -> ((t j).2 < k'.+1)%N
      & (i < m)%N -> (k'.+1 <= (t i).2)%N].
Proof.
move=> R eigh eps qr n k' A tol m s s' i.
have G : forall m s c i0 i s', lobpcg_loop eigh eps qr A tol m s c i0 = Ok (s', i) ->
  exists t : nat -> lobpcg_state R n k' * nat,
    [/\ t 0%N = (s, c) /\ (t (i - i0)%N).1 = s', (i0 <= i <= i0 + m)%N,
        forall j, (j < i - i0)%N -> lobpcg_body eigh eps qr A tol (t j).1 = Ok (t j.+1),
        forall j, (j < i - i0)%N -> ((t j).2 < k'.+1)%N
      & (i < i0 + m)%N -> (k'.+1 <= (t (i - i0)%N).2)%N].
  elim=> [|m' IH] {}s c i0 {}i {}s' /=.
    move=> [<- <-]; exists (fun _ => (s, c)); rewrite subnn addn0 leqnn; split=> //.
    by rewrite ltnn.
  case: (ltnP c k'.+1) => Hc; last first.
    move=> [<- <-]; exists (fun _ => (s, c)); rewrite subnn leqnn leq_addr; split=> //.
  case E: (lobpcg_body eigh eps qr A tol s) => [[s1 c1]|//] /= /IH [t [[t0 ti] /andP [H1 H2] Hb Hlt Hst]].
  have Ei : (i - i0 = (i - i0.+1).+1)%N by rewrite -subSn // subSS.
  exists (fun j => if j is j'.+1 then t j' else (s, c)); split.
  - by rewrite Ei.
  - by rewrite (ltnW H1) addnS -addSn.
  - by rewrite Ei => -[|j] Hj //=; [rewrite E t0 | apply: Hb].
  - by rewrite Ei => -[|j] Hj //=; apply: Hlt.
  - by rewrite Ei addnS -addSn; apply: Hst.
by move/G => [t]; rewrite subn0 add0n => H; exists t; case: H => [H1 /andP [_ H2] H3 H4 H5].
Qed.
Print Assumptions C29_iteration_count.

(** The solver makes at most [m] rounds ([lobpcg_lowrank] passes the clipped rank as [m]). *)
Theorem C29_round_limit :
  forall (R : rcfType) (eigh : forall k : nat, 'M[R]_k -> 'cV[R]_k * 'M[R]_k) eps
    (qr : forall a c, 'M[R]_(a, c) -> 'M[R]_(a, c)) svd (n k' : nat)
    (A : forall c, 'M[R]_(n, c) -> res 'M[R]_(n, c)) (X : 'M[R]_(n, k'.+1)) m tol theta U i,
  lobpcg_standard eigh eps qr svd A X m tol = Ok (theta, U, i) -> (i <= m)%N.
Proof.
move=> R eigh eps qr eb n k' A X m tol theta U i; rewrite /lobpcg_standard.
case: (check_inputs _ _) => //= _; case: (A _ _) => //= AX.
case E: (lobpcg_loop _ _ _ _ _ _ _ _ _) => [[s j]|//] /= [_ _ <-].
by have [t [_ H _ _ _]] := C29_iteration_count E.
Qed.
Print Assumptions C29_round_limit.

Lemma fbind_ext (A B : Type) (m : flagged A) (f g : A -> flagged B) (x : bool) :
  (forall a y, f a y = g a y) -> fbind m f x = fbind m g x.
Proof. by move=> H; rewrite /fbind; case: (m x) => y [a|e]; [apply: H | reflexivity]. Qed.

(** The key enters only through the random starting block, and defaults to a fixed one. *)
Theorem C29_key :
  forall (R : rcfType) (eigh : forall k : nat, 'M[R]_k -> 'cV[R]_k * 'M[R]_k)
    (Key Key' : Type) (normal2 : Key -> forall n r, 'M[R]_(n, r)) (normal2' : Key' -> forall n r, 'M[R]_(n, r))
    (key0 key : Key) (key0' key' : Key') eps
    (qr : forall a c, 'M[R]_(a, c) -> 'M[R]_(a, c)) svd jax_lobpcg
    op l rank tol mv_dtype calc_dtype return_dtype mv_jit (x64 : bool),
  let run := lobpcg_lowrank eigh normal2 key0 eps qr svd jax_lobpcg op in
  let run' := lobpcg_lowrank eigh normal2' key0' eps qr svd jax_lobpcg op in
  run None l rank tol mv_dtype calc_dtype return_dtype mv_jit x64 =
    run (Some key0) l rank tol mv_dtype calc_dtype return_dtype mv_jit x64 /\
  ((forall n r, normal2 key n r = normal2' key' n r) ->
   run (Some key) l rank tol mv_dtype calc_dtype return_dtype mv_jit x64 =
   run' (Some key') l rank tol mv_dtype calc_dtype return_dtype mv_jit x64).
Proof.
move=> R eigh Key Key' normal2 normal2' key0 key key0' key' eps qr eb jl op l rank tol mvd calc ret jit x64 run run'.
split; first by rewrite /run; reflexivity.
move=> H; rewrite /run /run' /lobpcg_lowrank.
apply: fbind_ext => o f; apply: fbind_ext => _ f1; apply: fbind_ext => -[mv sz] f2.
case: (clip_rank sz rank) => [|k']; first reflexivity.
by cbv zeta; rewrite H.
Qed.
Print Assumptions C29_key.

Lemma matmatE (R : rcfType) n (A : 'M[R]_n) c (X : 'M[R]_(n, c)) :
  matmat (fun v => Ok (A *m v)) X = Ok (A *m X).
Proof.
rewrite /matmat (@mapM_ok _ _ _ (fun j => A *m col j X)) //=; congr Ok.
apply/matrixP => i j; rewrite mxE (nth_map j) ?size_enum_ord // nth_ord_enum -col_mulE.
by rewrite [LHS]mxE.
Qed.

(** [mv_jit] selects the solver: without it the result does not depend on jax's solver, with it not on
    the one that laplax carries itself (nor on its factorisations), and an exception of jax's solver is
    the exception of the call. *)
Theorem C29_solver_choice :
  forall (R : rcfType) (eigh eigh' : forall k : nat, 'M[R]_k -> 'cV[R]_k * 'M[R]_k)
    (Key : Type) (normal2 : Key -> forall n r, 'M[R]_(n, r)) (key0 : Key) eps eps'
    (qr qr' : forall a c, 'M[R]_(a, c) -> 'M[R]_(a, c)) svd svd' jax_lobpcg jax_lobpcg'
    op l key rank tol mv_dtype calc_dtype return_dtype (x64 : bool),
  lobpcg_lowrank eigh normal2 key0 eps qr svd jax_lobpcg op key l rank tol mv_dtype calc_dtype return_dtype false x64 =
  lobpcg_lowrank eigh normal2 key0 eps qr svd jax_lobpcg' op key l rank tol mv_dtype calc_dtype return_dtype false x64 /\
  lobpcg_lowrank eigh normal2 key0 eps qr svd jax_lobpcg op key l rank tol mv_dtype calc_dtype return_dtype true x64 =
  lobpcg_lowrank eigh' normal2 key0 eps' qr' svd' jax_lobpcg op key l rank tol mv_dtype calc_dtype return_dtype true x64 /\
  (forall n (A : 'M[R]_n) e, represents op l A -> (0 < rank)%N -> (5 < n)%N -> n != (rank * 5)%N ->
    (forall n k f X m tol, jax_lobpcg n k f X m tol = Raise e) ->
    lobpcg_lowrank eigh normal2 key0 eps qr svd jax_lobpcg op key l rank tol mv_dtype calc_dtype return_dtype true x64 =
      (dtype_eqb calc_dtype Float64, Raise e)).
Proof.
move=> R eigh eigh' Key normal2 key0 eps eps' qr qr' svd svd' jl jl' op l key rank tol mvd calc ret x64.
split=> //; split=> // n A e Hr Hk H5 Hn He.
have [f [Ef Hf]] := get_matvec_ok Hr.
rewrite /lobpcg_lowrank /fbind /config_read /config_update /flift Ef.
have := C29_clipped_rank_admissible n Hk; rewrite H5 Hn => /=.
have [] := C29_rank_clipping n Hk.
case: (clip_rank n rank) => // k' _ _ _ _ Hc.
have [Z EZ] : exists Z, matmat (on_vectors f) (0 : 'M[R]_(n, 1)) = Ok Z.
  by rewrite /matmat (@mapM_ok _ _ _ (fun j => A *m col j (0 : 'M[R]_(n, 1)))) //=; eexists.
by rewrite /lobpcg_call /check_inputs leqNgt Hc EZ /= He.
Qed.
Print Assumptions C29_solver_choice.

(** One round on a symmetric operator: if the current block and search directions are orthonormal
    and the projected residual kept full rank, and eigh and qr are correct, then the new block and
    directions are orthonormal again, the new values are the Ritz values of the new block, and the
    new residual is [A X - X diag(theta)]. *)
Theorem C29_round_keeps_orthonormal :
  forall (R : rcfType) (eigh : forall k : nat, 'M[R]_k -> 'cV[R]_k * 'M[R]_k) eps
    (qr : forall a c, 'M[R]_(a, c) -> 'M[R]_(a, c)) (n k' : nat) (A : 'M[R]_n) tol
    (s : lobpcg_state R n k'),
  let R1 := project_out eigh eps (row_mx (lo_X s) (lo_P s)) (lo_R s) in
  let S := row_mx (lo_X s) (row_mx (lo_P s) R1) in
  orthonormal (row_mx (lo_X s) (lo_P s)) -> orthonormal R1 ->
  eigh_correct (S^T *m (A *m S)) (eigh _ (S^T *m (A *m S))) ->
  (forall M : 'M[R]_(k'.+1 + k'.+1, k'.+1), orthonormal (qr _ _ M)) ->
  exists s' c,
    lobpcg_body eigh eps qr (@matmat R n (fun v => Ok (A *m v))) tol s = Ok (s', c) /\
    [/\ orthonormal (row_mx (lo_X s') (lo_P s')),
        (lo_X s')^T *m (A *m lo_X s') = diag_mx (lo_theta s')^T,
        lo_R s' = A *m lo_X s' - lo_X s' *m diag_mx (lo_theta s')^T
      & (c = k'.+1 -> forall j, norm2 (col j (lo_R s')) <
           tol * ((norm2 (A *m col j (lo_X s')) + lo_theta s' j ord0) * n%:R * 10%:R))].
Proof.
move=> R eigh eps qr n k' A tol s R1 S O O1 He Hq.
have OS : orthonormal S.
  by apply: row_mxAE => //; apply: project_out_perp.
rewrite /lobpcg_body -/R1 -/S matmatE /=.
case E: (iteration_first_step eigh qr S (A *m S)) => [[X P] th].
have [OXP Ri _] := first_step_ritz OS He Hq E.
rewrite matmatE /=.
exists (LobState X P (A *m X - mul_cols X (fun j => usubmx th j ord0)) (usubmx th)).
eexists; split; first by [].
split=> //=.
- rewrite mul_cols_diag; congr (_ - _ *m diag_mx _).
  by apply/rowP => j; rewrite !mxE.
- move=> Hc j.
  have /allP Ha : all (fun j : 'I_k'.+1 => norm2 (col j (A *m X - mul_cols X (fun j => usubmx th j ord0)))
      < tol * ((col_norm (A *m X) j + usubmx th j ord0) * n%:R * 10%:R)) (enum 'I_k'.+1).
    by rewrite all_count size_enum_ord; apply/eqP.
  by have := Ha j; rewrite mem_enum /col_norm col_mulE => /(_ isT).
Qed.
Print Assumptions C29_round_keeps_orthonormal.

(** The orthonormalisation used before each round does its job on columns of full rank (all
    eigenvalues of the normalised Gram matrix above the relative threshold), and the projected
    residual is orthogonal to the current block and directions in every case. *)
Theorem C29_orthonormalise_and_project :
  forall (R : rcfType) (eigh : forall k : nat, 'M[R]_k -> 'cV[R]_k * 'M[R]_k) eps (n c : nat),
  (forall X : 'M[R]_(n, c.+1),
     let Y := div_cols X (fun j => if col_norm X j == 0 then 1 else col_norm X j) in
     let w := (eigh_ascending eigh (Y^T *m Y)).1 in
     eigh_correct (Y^T *m Y) (eigh _ (Y^T *m Y)) ->
     0 < eps -> (forall j, eps * w ord0 ord0 < w j ord0) -> (forall j, col j X != 0) ->
     orthonormal (svqb eigh eps X)) /\
  (forall a (B : 'M[R]_(n, a)) (U : 'M[R]_(n, c.+1)), orthonormal B ->
     B^T *m project_out eigh eps B U = 0).
Proof.
move=> R eigh eps n c; split; first by move=> X Y w; apply: svqb_ortho.
by move=> a B U; apply: project_out_perp.
Qed.
Print Assumptions C29_orthonormalise_and_project.

(** The states the loop on [A] goes through from [s0], with the number of rounds done and of columns
    found converged. *)
Inductive lobpcg_visits (R : rcfType) (eigh : forall k : nat, 'M[R]_k -> 'cV[R]_k * 'M[R]_k) eps
    (qr : forall a c, 'M[R]_(a, c) -> 'M[R]_(a, c)) (n k' : nat) (A : 'M[R]_n) tol (s0 : lobpcg_state R n k') :
    nat -> lobpcg_state R n k' -> nat -> Prop :=
  | VisitStart : lobpcg_visits eigh eps qr A tol s0 0 s0 0
  | VisitNext i s c s' c' : lobpcg_visits eigh eps qr A tol s0 i s c -> (c < k'.+1)%N ->
      lobpcg_body eigh eps qr (@matmat R n (fun v => Ok (A *m v))) tol s = Ok (s', c') ->
      lobpcg_visits eigh eps qr A tol s0 i.+1 s' c'.

(** The starting block and directions: orthonormalising a starting block whose normalised Gram matrix
    is well conditioned (eigenvalues above [eps] times the largest) gives an orthonormal block, and the
    initial search directions extend it to an orthonormal family of twice as many vectors. *)
Theorem C29_starting_basis :
  forall (R : rcfType) (eigh : forall k : nat, 'M[R]_k -> 'cV[R]_k * 'M[R]_k) eps
    (svd : forall k, 'M[R]_k -> 'M[R]_k * 'cV[R]_k * 'M[R]_k) (n k' : nat)
    (X0 : 'M[R]_(n, k'.+1)),
  let Y := div_cols X0 (fun j => if col_norm X0 j == 0 then 1 else col_norm X0 j) in
  let w := (eigh_ascending eigh (Y^T *m Y)).1 in
  let X := orthonormalize eigh eps X0 in
  (k'.+1 * 2 <= n)%N ->
  eigh_correct (Y^T *m Y) (eigh _ (Y^T *m Y)) -> eigh_correct 1%:M (eigh k'.+1 1%:M) ->
  svd_correct (extend_upper X) (svd _ (extend_upper X)) ->
  0 < eps < 1 -> (forall j, eps * w ord0 ord0 < w j ord0) -> (forall j, col j X0 != 0) ->
  orthonormal X /\ orthonormal (row_mx X (extend_basis svd X)).
Proof.
move=> R eigh eps svd n k' X0 Y w X Hn He He1 Hs Hp Hw Hc.
have OX : orthonormal X by apply: orthonormalize_ortho.
by split=> //; apply: extend_basis_ortho => //; rewrite addnn -muln2.
Qed.
Print Assumptions C29_starting_basis.

(** A whole run ([mv_jit=False]) of at least one round on a symmetric matrix, from a well-conditioned
    starting block, in which the projected residual keeps full rank in every round (and [eigh], [svd]
    and [qr] are correct): the vectors returned are orthonormal, the values are their Ritz values (so
    not negative for a positive semidefinite matrix), after at most [m] rounds; fewer only when every
    column met its tolerance. *)
Theorem C29_run_ritz_pairs :
  forall (R : rcfType) (eigh : forall k : nat, 'M[R]_k -> 'cV[R]_k * 'M[R]_k) eps
    (qr : forall a c, 'M[R]_(a, c) -> 'M[R]_(a, c))
    (svd : forall k, 'M[R]_k -> 'M[R]_k * 'cV[R]_k * 'M[R]_k) (n k' : nat) (A : 'M[R]_n)
    (X0 : 'M[R]_(n, k'.+1)) m tol,
  let Y := div_cols X0 (fun j => if col_norm X0 j == 0 then 1 else col_norm X0 j) in
  let w0 := (eigh_ascending eigh (Y^T *m Y)).1 in
  let X := orthonormalize eigh eps X0 in
  let theta := \col_j (X^T *m (A *m X)) j j in
  let s0 := LobState X (extend_basis svd X) (A *m X - mul_cols X (fun j => theta j ord0)) theta in
  let tol' := odflt eps tol in
  (k'.+1 * 5 < n)%N -> (0 < m)%N ->
  eigh_correct (Y^T *m Y) (eigh _ (Y^T *m Y)) -> eigh_correct 1%:M (eigh k'.+1 1%:M) ->
  svd_correct (extend_upper X) (svd _ (extend_upper X)) ->
  (forall M : 'M[R]_(k'.+1 + k'.+1, k'.+1), orthonormal (qr _ _ M)) ->
  0 < eps < 1 -> (forall j, eps * w0 ord0 ord0 < w0 j ord0) -> (forall j, col j X0 != 0) ->
  (forall i s c, (i < m)%N -> lobpcg_visits eigh eps qr A tol' s0 i s c -> (c < k'.+1)%N ->
     let R1 := project_out eigh eps (row_mx (lo_X s) (lo_P s)) (lo_R s) in
     let S := row_mx (lo_X s) (row_mx (lo_P s) R1) in
     orthonormal R1 /\ eigh_correct (S^T *m (A *m S)) (eigh _ (S^T *m (A *m S)))) ->
  exists w U i,
    lobpcg_standard eigh eps qr svd (@matmat R n (fun v => Ok (A *m v))) X0 m tol = Ok (w, U, i) /\
    [/\ orthonormal U, U^T *m (A *m U) = diag_mx w^T, psd A -> forall j, 0 <= w j ord0, (i <= m)%N
      & (i < m)%N -> forall j, norm2 (A *m col j U - w j ord0 *: col j U) <
           tol' * ((norm2 (A *m col j U) + w j ord0) * n%:R * 10%:R)].
Proof.
move=> R eigh eps qr svd n k' A X0 m tol Y w0 X theta s0 tol' Hn Hm HeY He1 Hsvd Hq Heps Hw0 Hc0 Hreg.
have Hn2 : (k'.+1 * 2 <= n)%N by apply: leq_trans (ltnW Hn); rewrite leq_mul2l orbT.
have [_ O0] := C29_starting_basis Hn2 HeY He1 Hsvd Heps Hw0 Hc0.
pose body (s : lobpcg_state R n k') := lobpcg_body eigh eps qr (@matmat R n (fun v => Ok (A *m v))) tol' s.
(* what every state but the first satisfies *)
pose good (s : lobpcg_state R n k') (c : nat) :=
  [/\ (lo_X s)^T *m (A *m lo_X s) = diag_mx (lo_theta s)^T,
      lo_R s = A *m lo_X s - lo_X s *m diag_mx (lo_theta s)^T, (c <= k'.+1)%N
    & (c = k'.+1 -> forall j, norm2 (col j (lo_R s)) <
           tol' * ((norm2 (A *m col j (lo_X s)) + lo_theta s j ord0) * n%:R * 10%:R))].
have step i s c : (i < m)%N -> lobpcg_visits eigh eps qr A tol' s0 i s c -> (c < k'.+1)%N ->
    orthonormal (row_mx (lo_X s) (lo_P s)) ->
    exists s' c', [/\ body s = Ok (s', c'), orthonormal (row_mx (lo_X s') (lo_P s')) & good s' c'].
  move=> Hi Hv Hc O; have [O1 He] := Hreg i s c Hi Hv Hc.
  have [s' [c' [E [O' G1 G2 G3]]]] := C29_round_keeps_orthonormal tol' O O1 He Hq.
  exists s', c'; split=> //; split=> //.
  move: E; rewrite /lobpcg_body; case: (matmat _ _) => //= AS; case: (iteration_first_step _ _ _ _) => [[X1 P1] th].
  case: (matmat _ _) => //= AX [_ <-]; apply: leq_trans (count_size _ _) _; by rewrite size_enum_ord.
have loop fuel : forall i s c, (i + fuel = m)%N -> lobpcg_visits eigh eps qr A tol' s0 i s c ->
    orthonormal (row_mx (lo_X s) (lo_P s)) -> (0 < i)%N -> good s c ->
    exists s' i' c', [/\ lobpcg_loop eigh eps qr (@matmat R n (fun v => Ok (A *m v))) tol' fuel s c i = Ok (s', i'),
      orthonormal (row_mx (lo_X s') (lo_P s')), good s' c', (i' <= m)%N & (i' < m)%N -> c' = k'.+1].
  elim: fuel => [|fuel IH] i s c Hi Hv O Hp Hg.
    by exists s, i, c; split=> //; rewrite -Hi addn0 // ltnn.
  rewrite /=; case: ltnP => Hc; last first.
    exists s, i, c; split=> //; first by rewrite -Hi leq_addr.
    by have [_ _ H _] := Hg => _; apply/eqP; rewrite eqn_leq H.
  have Hi' : (i < m)%N by rewrite -Hi -addSnnS leq_addr.
  have [s' [c' [E O' G]]] := step i s c Hi' Hv Hc O.
  rewrite -/(body s) E /=; apply: IH => //; first by rewrite addSnnS.
  exact: VisitNext Hv Hc E.
have [s1 [c1 [E1 O1 G1]]] := step 0%N s0 0%N Hm (VisitStart _ _ _ _ _ _) (ltn0Sn _) O0.
have Hv1 : lobpcg_visits eigh eps qr A tol' s0 1 s1 c1 by apply: VisitNext (VisitStart _ _ _ _ _ _) _ E1.
have [s' [i' [c' [E2 O2 [G2 G3 _ G4] Hi' Hc']]]] := loop m.-1 1%N s1 c1 (prednK Hm) Hv1 O1 isT G1.
have OX : orthonormal (lo_X s').
  have := O2; rewrite /orthonormal tr_row_mx mul_col_row => /(congr1 ulsubmx).
  by rewrite block_mxKul scalar_mx_block block_mxKul.
exists (lo_theta s'), (lo_X s'), i'; split; last first.
  split=> //.
    move=> [_ HA] j; have := HA (col j (lo_X s')).
    move: G2 => /matrixP /(_ j j); rewrite [RHS]mxE eqxx mulr1n [RHS]mxE => <-.
    rewrite /dotv [X in _ -> 0 <= X]mxE; congr (0 <= _); apply: eq_bigr => i _.
    by rewrite -col_mulE !mxE.
  move=> /Hc' Ec j; have := G4 Ec j; congr (norm2 _ < _).
  rewrite G3; apply/colP => i; rewrite -col_mulE mul_mx_diag !mxE; congr (_ - _).
  by rewrite mulrC.
have E0 : check_inputs k' (@matmat R n (fun v => Ok (A *m v))) = Ok tt.
  by rewrite /check_inputs leqNgt Hn /= matmatE.
rewrite /lobpcg_standard E0 /= matmatE /= -/X -/theta.
have -> : (if tol is Some t then t else eps) = tol' by rewrite /tol'; case: (tol).
rewrite -/s0; case: (m) Hm E2 => [//|m'] _ E2 /=.
by rewrite -/(body s0) E1 /= E2.
Qed.
Print Assumptions C29_run_ritz_pairs.

(** Non-vacuity of the round theorem: on [diag (3, 2, 1)] with block e0, direction e1 and residual
    e2 (and the eigh oracle that reads off a diagonal matrix), every hypothesis holds. *)
Section C29Example.
Variable R : rcfType.
Let eighd (k : nat) (M : 'M[R]_k) : 'cV[R]_k * 'M[R]_k := (\col_i M i i, 1%:M).
Let qre0 a c (M : 'M[R]_(a, c)) : 'M[R]_(a, c) := \matrix_(i, j) ((i : nat) == (j : nat))%:R.
Let A : 'M[R]_3 := diag_mx (\row_j (3 - j)%:R).
Let s : lobpcg_state R 3 0 :=
  LobState (delta_mx ord0 ord0) (delta_mx (inord 1) ord0) (delta_mx (inord 2) ord0) 0.

Lemma svqb_unit n (X : 'M[R]_(n, 1)) : orthonormal X -> svqb eighd (2%:R^-1) X = X.
Proof.
move=> O; have N : forall j, col_norm X j = 1 by move=> j; apply: ortho_col_norm.
have D1 : div_cols X (fun j => if col_norm X j == 0 then 1 else col_norm X j) = X.
  by apply: div_cols1 => j; rewrite N oner_eq0.
have EE : eigh_ascending eighd (1%:M : 'M[R]_1) = (const_mx 1, 1%:M).
  by congr (_, _); apply/matrixP => i j; rewrite !mxE ?(ord1 i) ?(ord1 j) ?eqxx.
rewrite /svqb D1 O EE.
set w := const_mx 1; set V := (1%:M : 'M[R]_1) in EE *.
have Ew j : w j ord0 = 1 by rewrite !mxE.
have EV : V = 1%:M by [].
have h1 : (0 : R) < 2%:R^-1 by rewrite invr_gt0 ltr0n.
have h2 : (2%:R^-1 : R) < 1 by rewrite invf_lt1 ?ltr0n // ltr1n.
have K : mul_cols (X *m mul_cols V (fun j => (Num.sqrt (if 0 < 2%:R^-1 * w ord0 ord0
    then Num.max (w j ord0) (2%:R^-1 * w ord0 ord0) else 1))^-1))
    (fun j => b2R R ((2%:R^-1 * w ord0 ord0 < w j ord0) && (0 < V j j))) = X.
  apply/matrixP => i j; rewrite mxE !Ew mulr1 h2 [V j j]mxE eqxx ltr01 /= mulr1.
  rewrite mxE big_ord1 !mxE h1 max_l ?ltW // sqrtr1 invr1 mulr1 (ord1 j).
  by rewrite eqxx mulr1.
rewrite K; apply: div_cols1 => j; rewrite N ltr01 andbT.
by case: ifP.
Qed.

Example C29_example :
  let R1 := project_out eighd (2%:R^-1) (row_mx (lo_X s) (lo_P s)) (lo_R s) in
  let Sm := row_mx (lo_X s) (row_mx (lo_P s) R1) in
  [/\ orthonormal (row_mx (lo_X s) (lo_P s)), orthonormal R1,
      eigh_correct (Sm^T *m (A *m Sm)) (eighd (Sm^T *m (A *m Sm))),
      (forall M : 'M[R]_(1 + 1, 1), orthonormal (qre0 M)) & A *m lo_X s != 0].
Proof.
have i1 : ((inord 1 : 'I_3) : nat) = 1%N by rewrite inordK.
have i2 : ((inord 2 : 'I_3) : nat) = 2%N by rewrite inordK.
have dd (i j : 'I_3) : (delta_mx i ord0 : 'M[R]_(3, 1))^T *m delta_mx j ord0 = (i == j)%:R%:M.
  rewrite trmx_delta mul_delta_mx_cond; apply/matrixP => a b.
  by rewrite !ord1; case: (i == j); rewrite ?mulr1n ?mulr0n !mxE.
set B := row_mx _ _.
have OB : orthonormal B.
  apply: ortho_row_mx; rewrite /orthonormal /= dd ?eqxx //.
  have -> : (ord0 == inord 1 :> 'I_3) = false by rewrite -val_eqE /= i1.
  by apply/matrixP => a b; rewrite !mxE mul0rn.
have PB : B^T *m lo_R s = 0.
  rewrite /B tr_row_mx mul_col_mx !dd.
  have -> : (ord0 == inord 2 :> 'I_3) = false by rewrite -val_eqE /= i2.
  have -> : (inord 1 == inord 2 :> 'I_3) = false by rewrite -val_eqE /= i1 i2.
  by apply/matrixP => a b; rewrite !mxE; case: (split a) => ?; rewrite !mxE mul0rn.
have OR : orthonormal (lo_R s) by rewrite /orthonormal dd eqxx.
have E1 : project_out eighd (2%:R^-1) B (lo_R s) = lo_R s.
  have P0 : lo_R s - B *m (B^T *m lo_R s) = lo_R s by rewrite PB mulmx0 subr0.
  rewrite /project_out /orthonormalize !(P0, svqb_unit OR).
  apply/matrixP => i j; rewrite mxE ortho_col_norm // /b2R.
  by rewrite ler_pdivr_mulr ?ltr0n // mul1r ler_nat mulr1.
move=> R1; have -> : R1 = lo_R s by [].
move=> Sm; split=> //.
- have D : Sm^T *m (A *m Sm) = A :> 'M[R]_3.
    have ES : Sm = 1%:M :> 'M[R]_3.
      apply/matrixP => i j; rewrite mxE.
      case: splitP => [j'|j'] Ej; [|rewrite mxE; case: splitP => j'' Ej'']; rewrite !mxE !ord1 eqxx andbT.
      + by rewrite -!val_eqE /= Ej ord1.
      + by rewrite -!val_eqE /= i1 Ej Ej'' ord1.
      + by rewrite -!val_eqE /= i2 Ej Ej'' ord1.
    by rewrite ES trmx1 mulmx1 mul1mx.
  rewrite D; split; rewrite /= ?/orthonormal ?trmx1 ?mulmx1 ?mul1mx //.
  apply/matrixP => i j; rewrite !mxE; case: eqP => // ->. by rewrite eqxx !mulr1n.
- move=> M; apply/matrixP => i j; rewrite mxE !big_ord_recl big_ord0 !ord1 !mxE /=.
  by rewrite mulr1 mul0r !addr0.
- apply/eqP => /matrixP /(_ ord0 ord0); rewrite mul_diag_mx !mxE eqxx mulr1 => /eqP.
  by rewrite pnatr_eq0.
Qed.
End C29Example.

(** Non-vacuity of the theorem about whole runs: one round on the 6-by-6 matrix with ones at (0,0), (0,2),
    (2,0) and (2,2), from e0 (for which the initial search direction is e1); the residual is e2, and the round finds the
    eigenvector (e0 + e2)/sqrt 2 of the eigenvalue 2. *)
Section C29RunExample.
Variable R : rcfType.
Let h : R := Num.sqrt (2%:R^-1).
Let V3 : 'M[R]_3 := \matrix_(i, j)
  nth 0 (nth [::] [:: [:: 0; h; h]; [:: 1; 0; 0]; [:: 0; - h; h]] i) j.
Let w3 : 'cV[R]_3 := \col_i nth 0 [:: 0; 0; 2%:R] i.
Let eg (k : nat) : 'M[R]_k -> 'cV[R]_k * 'M[R]_k :=
  match k with 3 => fun _ => (w3, V3) | _ => fun M => (\col_i M i i, 1%:M) end.
Let qre0 a c (M : 'M[R]_(a, c)) : 'M[R]_(a, c) := \matrix_(i, j) ((i : nat) == (j : nat))%:R.
Let unit_col (n k p : nat) : 'M[R]_(n, k) := \matrix_(i, j) ((i : nat) == p)%:R.
Let A : 'M[R]_6 := \matrix_(i, j) (((i : nat) \in [:: 0; 2]) && ((j : nat) \in [:: 0; 2]))%N%:R.
Let eb k (M : 'M[R]_k) : 'M[R]_k * 'cV[R]_k * 'M[R]_k := (1%:M, \col_i M i i, 1%:M).
Let ep : R := 2%:R^-1.

Lemma svqb_unit' n (X : 'M[R]_(n, 1)) : orthonormal X -> svqb eg ep X = X.
Proof. exact: svqb_unit. Qed.

Lemma unit_ortho (p : nat) : (p < 6)%N -> orthonormal (unit_col 6 1 p).
Proof.
move=> Hp; apply/matrixP => i j; rewrite !ord1 mxE (bigD1 (Ordinal Hp)) //= big1 => [|k Hk].
  by rewrite !mxE /= eqxx mulr1 addr0.
by rewrite !mxE (negbTE (Hk : k != p :> nat)) mul0r.
Qed.
Lemma unit_perp (p q : nat) : p <> q -> (unit_col 6 1 p)^T *m unit_col 6 1 q = 0.
Proof.
move=> Hpq; apply/matrixP => i j; rewrite !mxE big1 // => k _; rewrite !mxE.
case: eqP => [->|_]; rewrite ?mul0r //; by case: eqP => // _; rewrite mulr0.
Qed.

Lemma h2 : h * h = 2%:R^-1.
Proof. by rewrite -expr2 sqr_sqrtr // invr_ge0 ler0n. Qed.
Lemma hh : h * h + h * h = 1.
Proof. by rewrite h2 -mulr2n -[LHS]mulr_natr mulVf // pnatr_eq0. Qed.

Example C29_run_example : exists w U i,
  lobpcg_standard eg ep qre0 eb (@matmat R 6 (fun v => Ok (A *m v))) (unit_col 6 1 0) 1 None = Ok (w, U, i) /\
  [/\ orthonormal U, U^T *m (A *m U) = diag_mx w^T, A != 0 & A^T = A].
Proof.
have O0 : orthonormalize eg ep (unit_col 6 1 0) = unit_col 6 1 0.
  by rewrite /orthonormalize !(svqb_unit' (unit_ortho _)).
have AE : A *m unit_col 6 1 0 = unit_col 6 1 0 + unit_col 6 1 2.
  apply/matrixP => i j; rewrite !mxE (bigD1 ord0) //= big1 => [|k Hk].
    rewrite !mxE /= mulr1 addr0 !inE andbT; case: eqP => [->|_]; rewrite ?addr0 //= add0r //.
  by rewrite !mxE (negbTE (Hk : k != 0%N :> nat)) mulr0.
have ET : forall j : 'I_1, ((unit_col 6 1 0)^T *m (A *m unit_col 6 1 0)) j j = 1.
  by move=> j; rewrite AE mulmxDr (unit_ortho _) // unit_perp // addr0 mxE eqxx.
have ER : A *m unit_col 6 1 0 - mul_cols (unit_col 6 1 0)
    (fun j => (\col_j ((unit_col 6 1 0)^T *m (A *m unit_col 6 1 0)) j j : 'cV[R]_1) j ord0) = unit_col 6 1 2.
  have EC : \col_j ((unit_col 6 1 0)^T *m (A *m unit_col 6 1 0)) j j = const_mx 1 :> 'cV[R]_1.
    by apply/colP => j; rewrite mxE ET mxE.
  by rewrite EC AE; apply/matrixP => i j; rewrite !mxE mulr1 addrAC subrr add0r.
have OB : orthonormal (row_mx (unit_col 6 1 0) (unit_col 6 1 1)).
  by apply: ortho_row_mx; [exact: unit_ortho|exact: unit_ortho|exact: unit_perp].
have PO : project_out eg ep (row_mx (unit_col 6 1 0) (unit_col 6 1 1)) (unit_col 6 1 2) = unit_col 6 1 2.
  have P0 : unit_col 6 1 2 - row_mx (unit_col 6 1 0) (unit_col 6 1 1) *m
      ((row_mx (unit_col 6 1 0) (unit_col 6 1 1))^T *m unit_col 6 1 2) = unit_col 6 1 2.
    by rewrite tr_row_mx mul_col_mx !unit_perp // col_mx0 mulmx0 subr0.
  have OR : orthonormal (unit_col 6 1 2) by exact: unit_ortho.
  rewrite /project_out /orthonormalize !(P0, svqb_unit' OR).
  apply/matrixP => i j; rewrite mxE ortho_col_norm // /b2R.
  by rewrite ler_pdivr_mulr ?ltr0n // mul1r ler_nat mulr1.
have EU : extend_upper (unit_col 6 1 0) = 1%:M.
  by apply/matrixP => i j; rewrite !ord1 !mxE /row_at; case: insubP => // i' _ Ei; rewrite mxE Ei !eqxx.
have EB : extend_basis eb (unit_col 6 1 0) = unit_col 6 1 1.
  rewrite /extend_basis /extend_with /eb EU.
  have -> : (\matrix_(i, j) (unit_col 6 1 0 i j + row_at (1%:M *m 1%:M : 'M[R]_1) i j) : 'M[R]_(6, 1)) =
      2%:R *: unit_col 6 1 0.
    apply/matrixP => i j; rewrite mulmx1 !mxE /row_at; case: insubP => [i' _ Ei|].
      by rewrite -Ei !ord1 mxE !eqxx mulr1 -[RHS]mulr1 mulr_natl.
    by rewrite ltnS leqn0 => /negbTE ->; rewrite addr0 mulr0.
  have -> : mul_cols (1%:M : 'M[R]_1)^T (fun j => (Num.sqrt (2%:R * (1 + (\col_i (1%:M : 'M[R]_1) i i) j ord0)))^-1) =
      2%:R^-1%:M.
    apply/matrixP => i j; rewrite !ord1 !mxE !eqxx mul1r mulr1n -[1 + 1]/(2%:R) -expr2 sqrtr_sqr ger0_norm ?ler0n //.
  rewrite mul_mx_scalar scalerA mulVf ?pnatr_eq0 // scale1r.
  have -> : (\matrix_(i, j) row_at (unit_col 6 1 0) (1 + i) j : 'M[R]_(6 - 1, 1)) = 0.
    apply/matrixP => i j; rewrite !mxE /row_at; case: insubP => // i' _ Ei.
    by rewrite mxE Ei.
  rewrite trmx0 mulmx0 mul0mx scaler0.
  apply/matrixP => i j; rewrite !mxE add0r; case: i => [[|i] Hi] //=.
  rewrite /row_at; case: insubP => [i' _|]; last by rewrite subn1 /= -ltnS Hi.
  by move=> Ei; rewrite mxE Ei ord1 /b2R [X in (X == _ :> nat)]subn1 /= eqSS; case: (_ == _).
have C1 : eigh_correct (1%:M : 'M[R]_1) (eg 1%:M).
  split; first by rewrite /orthonormal /= trmx1 mulmx1.
  by rewrite /= !mul1mx; apply/matrixP => i j; rewrite !ord1 !mxE eqxx.
have D0 : div_cols (unit_col 6 1 0) (fun j => if col_norm (unit_col 6 1 0) j == 0 then 1 else col_norm (unit_col 6 1 0) j) = unit_col 6 1 0.
  by apply: div_cols1 => j; rewrite ortho_col_norm ?oner_eq0 //; apply: unit_ortho.
have G0 : (unit_col 6 1 0)^T *m unit_col 6 1 0 = 1%:M by apply: unit_ortho.
have [|||||||j|j|i s c|w [U [i [E [H1 H2 _ _ _]]]]] := @C29_run_ritz_pairs R eg ep qre0 eb 6 0 A (unit_col 6 1 0) 1 None.
- by [].
- by [].
- by rewrite D0 G0.
- by [].
- rewrite O0 EU; split=> [||j|]; [by rewrite /orthonormal trmx1 mulmx1 | by rewrite /orthonormal trmx1 mulmx1 | |].
    by rewrite !mxE eqxx ler01.
  by rewrite mul1mx mulmx1; apply/matrixP => i j; rewrite !ord1 !mxE eqxx.
- move=> M; apply/matrixP => i j; rewrite mxE !big_ord_recl big_ord0 !ord1 !mxE /=.
  by rewrite mulr1 mul0r !addr0.
- by rewrite invr_gt0 ltr0n invf_lt1 ?ltr0n // ltr1n.
- by rewrite D0 G0 /= !mxE eqxx mulr1 invf_lt1 ?ltr0n // ltr1n.
- apply/eqP => /matrixP /(_ ord0 ord0); rewrite !mxE => /eqP; by rewrite oner_eq0.
- case: i => [_ Hv _|//]; inversion Hv; subst => /=; rewrite !O0 EB ER PO; split; first exact: unit_ortho.
  set S := row_mx _ _.
  have ES : S = \matrix_(i, j) ((i : nat) == j)%:R.
    apply/matrixP => i j; rewrite mxE.
    case: splitP => [j'|j'] Ej; [|rewrite mxE; case: splitP => j'' Ej'']; rewrite !mxE.
    + by rewrite Ej ord1.
    + by rewrite Ej Ej'' ord1.
    + by rewrite Ej Ej'' ord1.
  have EM : S^T *m (A *m S) = \matrix_(i, j) (((i : nat) != 1%N) && ((j : nat) != 1%N))%:R :> 'M[R]_3.
    apply/matrixP => i j; rewrite ES mxE.
    have wi : (i < 6)%N by apply: leq_trans (ltn_ord i) _.
    have wj : (j < 6)%N by apply: leq_trans (ltn_ord j) _.
    rewrite (bigD1 (Ordinal wi)) //= big1 => [|k Hk]; last first.
      by rewrite [X in X * _]mxE mxE (negbTE (Hk : k != i :> nat)) mul0r.
    rewrite [X in X * _]mxE mxE eqxx mul1r addr0 [(A *m _) _ _]mxE (bigD1 (Ordinal wj)) //= big1 => [|k Hk]; last first.
      by rewrite [X in _ * X]mxE (negbTE (Hk : k != j :> nat)) mulr0.
    rewrite !mxE eqxx mulr1 addr0 /= !inE.
    by clear; case: i => [[|[|[|]]]] //; case: j => [[|[|[|]]]].
  rewrite [S^T *m _]EM; split; rewrite /=; clear -h.
  + apply/matrixP => i j; rewrite !mxE !big_ord_recl big_ord0 !mxE.
    by case: i => [[|[|[|]]]] //= ?; case: j => [[|[|[|]]]] //= ?; rewrite -?val_eqE /= ?mulr1 ?mulr0 ?mul0r ?mulrN ?mulNr ?opprK ?addr0 ?add0r ?subrr ?hh ?addNr //.
  + apply/matrixP => i j; rewrite mul_mx_diag !mxE !big_ord_recl big_ord0 !mxE.
    by case: i => [[|[|[|]]]] //= ?; case: j => [[|[|[|]]]] //= ?; rewrite ?mulr1 ?mulr0 ?mul0r ?mulrN ?mulNr ?opprK ?addr0 ?add0r ?subrr ?addNr ?mul1r ?mulr_natr //.
exists w, U, i; split; first exact: E.
split=> //.
- apply/eqP => /matrixP /(_ ord0 ord0); rewrite !mxE => /eqP; by rewrite oner_eq0.
- by apply/matrixP => a b; rewrite !mxE andbC.
Qed.
End C29RunExample.
