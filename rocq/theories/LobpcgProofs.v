(** Proofs about LOBPCG, [get_matvec] and the global 64-bit flag. *)
From mathcomp Require Import all_ssreflect all_algebra.
From Verif Require Import Base PyTree TreeSpec Mv PyTreeProofs TreeOpsProofs GgnSpec GgnProofs Posterior
  PosteriorSpec PosteriorProofs PosteriorTree LowRankSolvers LowRankSpec LanczosProofs.
Set Implicit Arguments.
Unset Strict Implicit.
Unset Printing Implicit Defensive.
Import GRing.Theory Num.Theory Order.TTheory.
Local Open Scope ring_scope.

Section Lobpcg.
Variable R : rcfType.

Lemma col_norm_sqr n c (X : 'M[R]_(n, c)) j : col_norm X j * col_norm X j = (X^T *m X) j j.
Proof. by rewrite /col_norm norm2_sqr mulmx_entry. Qed.
Lemma col_norm_ge0 n c (X : 'M[R]_(n, c)) j : 0 <= col_norm X j.
Proof. exact: norm2_ge0. Qed.
Lemma col_norm1 n c (X : 'M[R]_(n, c)) j : (X^T *m X) j j = 1 -> col_norm X j = 1.
Proof.
rewrite -col_norm_sqr -expr2 => /eqP; rewrite -[1 in X in X -> _](expr1n _ 2) eqr_expn2 ?col_norm_ge0 ?ler01 //.
by move/eqP.
Qed.
Lemma div_cols1 n c (X : 'M[R]_(n, c)) s : (forall j, s j = 1) -> div_cols X s = X.
Proof. by move=> H; apply/matrixP => i j; rewrite mxE H divr1. Qed.
Lemma mul_cols_diag n c (X : 'M[R]_(n, c)) s : mul_cols X s = X *m diag_mx (\row_j s j).
Proof. by apply/matrixP => i j; rewrite mul_mx_diag !mxE. Qed.
Lemma ortho_col_norm n c (X : 'M[R]_(n, c)) j : orthonormal X -> col_norm X j = 1.
Proof. by move=> O; apply: col_norm1; rewrite O mxE eqxx. Qed.

Variable eigh : forall k : nat, 'M[R]_k -> 'cV[R]_k * 'M[R]_k.
Variables (eps : R) (qr : forall a c, 'M[R]_(a, c) -> 'M[R]_(a, c)).

Lemma rev_diag k (w : 'cV[R]_k) (Q M : 'M[R]_k) : eigh_correct M (w, Q) ->
  eigh_correct M (\col_i w (rev_ord i) ord0, \matrix_(i, j) Q i (rev_ord j)).
Proof.
case=> /= O E; split=> /=.
  apply/matrixP => i j; rewrite mulmx_entry.
  have -> : col i (\matrix_(i0, j0) Q i0 (rev_ord j0)) = col (rev_ord i) Q by apply/colP => x; rewrite !mxE.
  have -> : col j (\matrix_(i0, j0) Q i0 (rev_ord j0)) = col (rev_ord j) Q by apply/colP => x; rewrite !mxE.
  by rewrite -mulmx_entry O !mxE (inj_eq rev_ord_inj).
apply/matrixP => i j; rewrite mul_mx_diag !mxE.
have := congr1 (fun X : 'M_k => X i (rev_ord j)) E; rewrite mul_mx_diag !mxE => <-.
by apply: eq_bigr => x _; rewrite mxE.
Qed.

Lemma eigh_ascending_correct k (M : 'M[R]_k) : eigh_correct M (eigh M) -> eigh_correct M (eigh_ascending eigh M).
Proof. by rewrite /eigh_ascending; case: (eigh M) => w Q; apply: rev_diag. Qed.

(** One round of SVQB orthonormalises columns of full rank. *)
Lemma svqb_ortho n c (X : 'M[R]_(n, c.+1)) :
  let Y := div_cols X (fun j => if col_norm X j == 0 then 1 else col_norm X j) in
  let w := (eigh_ascending eigh (Y^T *m Y)).1 in
  eigh_correct (Y^T *m Y) (eigh (Y^T *m Y)) ->
  0 < eps -> (forall j, eps * w ord0 ord0 < w j ord0) -> (forall j, col j X != 0) ->
  orthonormal (svqb eigh eps X).
Proof.
move=> Y w /eigh_ascending_correct; rewrite /svqb -/Y.
move: @w; case E: (eigh_ascending eigh (Y^T *m Y)) => [w V] /= [/= OV EV] e0 Hw HX.
set tau := eps * w ord0 ord0 in Hw *.
have quad j : w j ord0 = dotv (Y *m col j V) (Y *m col j V).
  have : (V^T *m (Y^T *m Y *m V)) j j = w j ord0.
    by rewrite EV mulmxA OV mul1mx mxE eqxx mulr1n mxE.
  by rewrite -mulmxA mulmxA -trmx_mul mulmx_entry !col_mulE.
have w0 : 0 <= w ord0 ord0 by rewrite quad dotvv_ge0.
have wpos j : 0 < w j ord0.
  apply: le_lt_trans (Hw j); exact: mulr_ge0 (ltW e0) w0.
have t0 : 0 < tau by rewrite mulr_gt0.
rewrite t0.
have Emax j : Num.max (w j ord0) tau = w j ord0 by apply/max_idPl/ltW.
have inner1 j : (Y^T *m Y) j j = 1.
  rewrite mulmx_entry /Y.
  have cj : col_norm X j != 0 by rewrite /col_norm norm2_eq0.
  have -> : col j (div_cols X (fun j0 => if col_norm X j0 == 0 then 1 else col_norm X j0)) =
            (col_norm X j)^-1 *: col j X.
    by apply/colP => i; rewrite !mxE (negPf cj) mulrC.
  exact: norm2_unit.
set O1 := Y *m mul_cols V _.
have OO : orthonormal O1.
  apply/matrixP => i j; rewrite mulmx_entry /O1 !col_mulE.
  have cV x : col x (mul_cols V (fun j0 => (Num.sqrt (Num.max (w j0 ord0) tau))^-1)) =
              (Num.sqrt (w x ord0))^-1 *: col x V.
    by apply/colP => y; rewrite !mxE Emax mulrC.
  rewrite !cV -!scalemxAr dotvZ dotvZl.
  have -> : dotv (Y *m col i V) (Y *m col j V) = (V^T *m (Y^T *m Y *m V)) i j.
    by rewrite -mulmxA mulmxA -trmx_mul mulmx_entry !col_mulE.
  rewrite EV mulmxA OV mul1mx !mxE; case: eqP => [->|_]; last by rewrite mulr0n !mulr0.
  have s0 : Num.sqrt (w j ord0) != 0 by rewrite sqrtr_eq0 -ltNge.
  have : w j ord0 = Num.sqrt (w j ord0) * Num.sqrt (w j ord0) by rewrite -expr2 sqr_sqrtr ?ltW.
  move: s0; set s := Num.sqrt _ => s0 Es.
  by rewrite mulr1n Es mulKf // mulVf.
have -> : mul_cols O1 (fun j => b2R R ((tau < w j ord0) && (0 < (Y^T *m Y) j j))) = O1.
  by apply/matrixP => i j; rewrite mxE Hw inner1 ltr01 /= mulr1.
rewrite div_cols1 // => j; rewrite ortho_col_norm //.
by case: ifP.
Qed.

(** The part projected out is orthogonal to an orthonormal basis. *)
(** On columns that are orthonormal already [_svqb] finds the identity as Gram matrix, so a second
    pass is always regular. *)
Lemma eigh_id k (w : 'cV[R]_k) (Q : 'M[R]_k) : eigh_correct 1%:M (w, Q) -> forall j, w j ord0 = 1.
Proof.
move=> [/= O]; rewrite mul1mx => E j.
have : Q^T *m Q = diag_mx w^T by rewrite {2}E mulmxA O mul1mx.
by rewrite O => /matrixP /(_ j j); rewrite !mxE eqxx mulr1n.
Qed.

Lemma orthonormalize_ortho n c (X : 'M[R]_(n, c.+1)) :
  let Y := div_cols X (fun j => if col_norm X j == 0 then 1 else col_norm X j) in
  let w := (eigh_ascending eigh (Y^T *m Y)).1 in
  eigh_correct (Y^T *m Y) (eigh (Y^T *m Y)) -> eigh_correct (1%:M : 'M[R]_c.+1) (eigh 1%:M) ->
  0 < eps < 1 -> (forall j, eps * w ord0 ord0 < w j ord0) -> (forall j, col j X != 0) ->
  orthonormal (orthonormalize eigh eps X).
Proof.
move=> Y w He He1 /andP [e0 e1] Hw Hc.
have O1 : orthonormal (svqb eigh eps X).
  by apply: svqb_ortho.
rewrite /orthonormalize; set Z := svqb eigh eps X in O1 *; clearbody Z.
have N j : col_norm Z j = 1 by apply: ortho_col_norm.
have D1 : div_cols Z (fun j => if col_norm Z j == 0 then 1 else col_norm Z j) = Z.
  by apply: div_cols1 => j; rewrite N oner_eq0.
have Hw1 j : (eigh_ascending eigh (1%:M : 'M[R]_c.+1)).1 j ord0 = 1.
  have := eigh_ascending_correct He1; case: (eigh_ascending _ _) => w1 Q1 /eigh_id; exact.
apply: svqb_ortho => //.
- by rewrite D1 O1.
- by move=> j; rewrite D1 O1 !Hw1 mulr1.
- move=> j; apply/eqP => E; have := N j; rewrite /col_norm E.
  by have /eqP -> : norm2 (0 : 'cV[R]_n) == 0; [rewrite norm2_eq0 | move/esym/eqP; rewrite oner_eq0].
Qed.

Lemma project_out_perp n a c (B : 'M[R]_(n, a)) (U : 'M[R]_(n, c.+1)) : orthonormal B ->
  B^T *m project_out eigh eps B U = 0.
Proof.
move=> O; rewrite /project_out mul_cols_diag mulmxA.
set W := _ - B *m (B^T *m _).
have P (Z : 'M[R]_(n, c.+1)) : B^T *m (Z - B *m (B^T *m Z)) = 0.
  by rewrite mulmxBr (mulmxA B^T) O mul1mx subrr.
by rewrite P mul0mx.
Qed.

Lemma ortho_row_mx n a c (X : 'M[R]_(n, a)) (Y : 'M[R]_(n, c)) :
  orthonormal X -> orthonormal Y -> X^T *m Y = 0 -> orthonormal (row_mx X Y).
Proof.
move=> OX OY XY; rewrite /orthonormal tr_row_mx mul_col_row OX OY XY.
by rewrite -[Y^T *m X]trmxK trmx_mul trmxK XY trmx0 -scalar_mx_block.
Qed.
Lemma ortho_row_mxE n a c (X : 'M[R]_(n, a)) (Y : 'M[R]_(n, c)) : orthonormal (row_mx X Y) ->
  [/\ orthonormal X, orthonormal Y & X^T *m Y = 0].
Proof.
rewrite /orthonormal tr_row_mx mul_col_row => /esym; rewrite scalar_mx_block => /eq_block_mx [<- H1 H2 <-].
by rewrite -H1.
Qed.

(** [_extend_basis] is the last block of a Householder reflection that maps the first unit vectors
    to [X] up to a rotation. *)
Variable svd : forall k, 'M[R]_k -> 'M[R]_k * 'cV[R]_k * 'M[R]_k.

Lemma row_at_l n k q c (X : 'M[R]_(n, c)) (E : n = (k + q)%N) (i : 'I_k) j :
  row_at X i j = usubmx (castmx (E, erefl c) X) i j.
Proof.
subst n; rewrite castmx_id mxE /row_at.
case: insubP => [i' _ Ei|]; first by congr (X _ _); apply: val_inj.
by rewrite ltn_addr.
Qed.

Lemma extend_with_ortho q k (X : 'M[R]_(k + q, k)) : (k <= q)%N -> orthonormal X ->
  svd_correct (extend_upper X) (svd (extend_upper X)) -> orthonormal (row_mx X (extend_with svd q X)).
Proof.
move=> Hkq OX.
have EU : extend_upper X = usubmx X.
  by apply/matrixP => i j; rewrite mxE (@row_at_l _ k q _ X erefl) castmx_id.
rewrite /extend_with EU; case: (svd _) => [[u s] vt] [Ou Ov Hs HX].
set y := (\matrix_(i, j) (X i j + _) : 'M_(k + q, k)).
set other := (\matrix_(i, j) b2R R _ : 'M_(q, k)).
set w := y *m _.
set wlow := (\matrix_(i, j) row_at w _ j : 'M_(q, k)).
set h := _ *: _.
set P := (\matrix_(i, j) _ : 'M_(k + q, k)).
pose E : 'M[R]_(k + q, k) := col_mx 1%:M 0.
pose F : 'M[R]_(k + q, k) := col_mx 0 other.
pose H : 'M[R]_(k + q) := 1%:M - 2%:R *: (w *m w^T).
have Elow : wlow = dsubmx w.
  apply/matrixP => i j; rewrite [LHS]mxE [RHS]mxE /row_at.
  case: insubP => [i' _ Ei|]; first by congr (w _ _); apply: val_inj.
  by rewrite ltn_add2l ltn_ord.
have EP : P = H *m F.
  have -> : H *m F = F + h.
    rewrite mulmxBl mul1mx -scalemxAl -mulmxA /h scaleNr; congr (_ - _ *: _).
    rewrite -mulmxA; congr (_ *m _).
    by rewrite -[in w^T](vsubmxK w) tr_col_mx mul_row_col mulmx0 add0r Elow.
  apply/matrixP => i j; rewrite [LHS]mxE [RHS]mxE addrC; congr (_ + _).
  case: (split_ordP i) => i' ->.
    by rewrite /F col_mxEu mxE /= leqNgt ltn_ord.
  rewrite /F col_mxEd /= leq_addr addKn /row_at; case: insubP => [i2 _ Ei|].
    by congr (other _ _); apply: val_inj.
  by rewrite ltn_ord.
have Of : F^T *m F = 1%:M.
  rewrite /F tr_col_mx mul_row_col trmx0 mul0mx add0r; apply/matrixP => a b.
  rewrite !mxE (bigD1 (widen_ord Hkq a)) //= !mxE /= eqxx mul1r big1 ?addr0.
    by rewrite -val_eqE /b2R; case: (_ == _).
  move=> l Hl; rewrite !mxE /b2R; case: eqP => [El|]; last by rewrite mul0r.
  by case/eqP: Hl; apply: val_inj.
have EF : E^T *m F = 0.
  by rewrite /E /F tr_col_mx mul_row_col mulmx0 add0r trmx0 mul0mx.
pose D : 'M[R]_k := diag_mx (\row_j (Num.sqrt (2%:R * (1 + s j ord0)))^-1).
pose S1 : 'M[R]_k := diag_mx (\row_j (1 + s j ord0)).
pose S : 'M[R]_k := diag_mx s^T.
have Ov' : vt *m vt^T = 1%:M by apply: mulmx1C.
have Ou' : u *m u^T = 1%:M by apply: mulmx1C.
have S1E : S1 = 1%:M + S.
  apply/matrixP => i j; rewrite !mxE; case: eqP => [->|_]; rewrite ?mulr1n // !mulr0n addr0 //.
have DE : 2%:R *: (D *m D *m S1) = 1%:M.
  rewrite !mulmx_diag; apply/matrixP => i j; rewrite !mxE; case: eqP => [->|_]; last by rewrite !mulr0n mulr0.
  rewrite !mulr1n.
  have h1 : 0 < 1 + s j ord0 by rewrite ltr_paddr ?ltr01.
  have h2 : 0 < 2%:R * (1 + s j ord0) by rewrite mulr_gt0 ?ltr0n.
  have h3 : Num.sqrt (2%:R * (1 + s j ord0)) != 0 by rewrite sqrtr_eq0 -ltNge.
  by rewrite -invfM -expr2 sqr_sqrtr ?(ltW h2) // mulrCA mulVf // (gt_eqF h2).
pose Z : 'M[R]_(k + q, k) := col_mx (u *m S1) (dsubmx X *m vt^T).
have wE : w = Z *m D.
  rewrite /w mul_cols_diag mulmxA; congr (_ *m _).
  have -> : y = col_mx (usubmx X + u *m vt) (dsubmx X).
    apply/matrixP => i j; rewrite mxE; case: (split_ordP i) => i' ->.
      rewrite col_mxEu [RHS]mxE [usubmx X _ _]mxE; congr (_ + _).
      rewrite /row_at /=; case: insubP => [i2 _ Ei|]; last by rewrite ltn_ord.
      by congr ((u *m vt) _ _); apply: val_inj.
    rewrite col_mxEd [RHS]mxE /row_at /=; case: insubP => [i2|]; last by rewrite addr0.
    by rewrite ltnNge leq_addr.
  rewrite mul_col_mx /Z; congr col_mx.
  rewrite mulmxDl HX -!mulmxA Ov' !mulmx1 S1E mulmxDr mulmx1 addrC.
  by [].
have Xlow : (dsubmx X)^T *m dsubmx X = 1%:M - vt^T *m S *m S *m vt.
  have := OX; rewrite /orthonormal -[in LHS](vsubmxK X) tr_col_mx mul_row_col HX.
  rewrite !trmx_mul tr_diag_mx -/S !mulmxA -(mulmxA _ u^T u) Ou mulmx1 => <-.
  by rewrite addrAC subrr add0r.
have ZZ : Z^T *m Z = 2%:R *: S1.
  rewrite /Z tr_col_mx mul_row_col !trmx_mul trmxK tr_diag_mx -/S1 !mulmxA.
  rewrite -(mulmxA S1 u^T) Ou mulmx1 -(mulmxA vt _ (dsubmx X)) Xlow.
  rewrite mulmxBr mulmx1 mulmxBl Ov' !mulmxA Ov' mul1mx -(mulmxA (S *m S)) Ov' mulmx1 S1E.
  rewrite mulmxDl !mulmxDr !mul1mx !mulmx1 scalerDr !scaler_nat !mulr2n.
  by rewrite [LHS]addrACA addrK [1%:M + S + _]addrAC -addrA.
have Dc : D *m S1 = S1 *m D by rewrite /D /S1 !mulmx_diag; congr diag_mx; apply/rowP => j; rewrite !mxE mulrC.
have ww : w^T *m w = 1%:M.
  rewrite wE trmx_mul tr_diag_mx -/D mulmxA -(mulmxA D) ZZ -scalemxAr -scalemxAl.
  by rewrite -mulmxA -Dc mulmxA.
have HH : H^T *m H = 1%:M.
  have -> : H^T = H.
    by rewrite /H !linearB /= linearZ /= trmx1 trmx_mul trmxK.
  rewrite /H mulmxBl mul1mx mulmxBr mulmx1 -scalemxAl -!scalemxAr -(mulmxA w) (mulmxA w^T) ww mul1mx.
  set a := 2%:R *: (w *m w^T); have -> : 2%:R *: a = a + a by rewrite scaler_nat mulr2n.
  by rewrite opprB addrK subrK.
have HE : H *m E = - (X *m (vt^T *m u^T)).
  rewrite /H mulmxBl mul1mx -scalemxAl -mulmxA.
  have -> : w^T *m E = D *m S1 *m u^T.
    rewrite -[in LHS](vsubmxK w) tr_col_mx mul_row_col mulmx0 addr0 mulmx1 wE.
    by rewrite /Z mul_col_mx col_mxKu !trmx_mul !tr_diag_mx mulmxA.
  rewrite wE -!mulmxA scalemxAr (mulmxA D D) (mulmxA (D *m D)) scalemxAl DE mul1mx.
  rewrite /Z mul_col_mx -[in RHS](vsubmxK X) mul_col_mx opp_col_mx /E opp_col_mx add_col_mx.
  congr col_mx; last by rewrite add0r mulmxA.
  rewrite HX -(mulmxA (u *m _)) (mulmxA vt) Ov' mul1mx S1E mulmxDr mulmx1 mulmxDl Ou' opprD.
  by rewrite addrA subrr add0r.
have OP : P^T *m P = 1%:M by rewrite EP trmx_mul -mulmxA (mulmxA H^T) HH mul1mx.
have XP : X^T *m P = 0.
  have : (H *m E)^T *m P = 0 by rewrite EP trmx_mul -mulmxA (mulmxA H^T) HH mul1mx.
  rewrite HE linearN /= mulNmx => /eqP; rewrite oppr_eq0 => /eqP.
  rewrite !trmx_mul !trmxK -mulmxA => /(congr1 (mulmx (vt^T *m u^T))).
  by rewrite mulmx0 !mulmxA -(mulmxA vt^T) Ou mulmx1 Ov mul1mx.
exact: ortho_row_mx.
Qed.

Lemma extend_basis_ortho n k (X : 'M[R]_(n, k)) : (k + k <= n)%N -> orthonormal X ->
  svd_correct (extend_upper X) (svd (extend_upper X)) -> orthonormal (row_mx X (extend_basis svd X)).
Proof.
move=> Hn; have Hk : (k <= n)%N by apply: leq_trans Hn; rewrite leq_addr.
have Hq : (k <= n - k)%N by rewrite leq_subRL.
rewrite /extend_basis; move: (subnKC Hk) Hq; move: (n - k)%N => q E Hq; move: X {Hn Hk}.
by case: n / E => X; apply: extend_with_ortho.
Qed.

Lemma row_mxAE n a b c (X : 'M[R]_(n, a)) (Y : 'M[R]_(n, b)) (Z : 'M[R]_(n, c)) :
  orthonormal (row_mx X Y) -> orthonormal Z -> (row_mx X Y)^T *m Z = 0 ->
  orthonormal (row_mx X (row_mx Y Z)).
Proof.
move=> /ortho_row_mxE [OX OY XY] OZ.
rewrite tr_row_mx mul_col_mx -[0]vsubmxK => /eq_col_mx [X0 Y0].
apply: ortho_row_mx => //; first apply: ortho_row_mx => //.
  by rewrite Y0 linear0.
by rewrite mul_mx_row XY X0 linear0 row_mx0.
Qed.

Section Step.
Variables (n k' : nat).
Notation k := k'.+1.
Variable A : 'M[R]_n.

(** The Rayleigh-Ritz step on an orthonormal search space. *)
Lemma first_step_ritz (S : 'M[R]_(n, k + (k + k))) X P theta :
  orthonormal S -> eigh_correct (S^T *m (A *m S)) (eigh (S^T *m (A *m S))) ->
  (forall M : 'M[R]_(k + k, k), orthonormal (qr M)) ->
  iteration_first_step eigh qr S (A *m S) = (X, P, theta) ->
  [/\ orthonormal (row_mx X P), X^T *m (A *m X) = diag_mx (usubmx theta)^T &
      P^T *m (A *m X) = 0].
Proof.
move=> OS /eigh_ascending_correct; rewrite /iteration_first_step.
case: (eigh_ascending eigh _) => [w Q] [/= OQ EQ] Oqr [EX EP <-].
have := OQ; rewrite -{1}[Q]hsubmxK => /ortho_row_mxE [O1 O2 O12].
have E1 : div_cols (lsubmx Q) (col_norm (lsubmx Q)) = lsubmx Q.
  by apply: div_cols1 => j; apply: ortho_col_norm.
have OSQ c (Z : 'M[R]_(k + (k + k), c)) : orthonormal Z -> orthonormal (S *m Z).
  by move=> OZ; rewrite /orthonormal trmx_mul -mulmxA (mulmxA S^T) OS mul1mx.
have OX : orthonormal (S *m lsubmx Q) by apply: OSQ.
have Eq : X = S *m lsubmx Q.
  by rewrite -EX E1 div_cols1 // => j; apply: ortho_col_norm.
set q := qr _ in EP.
have Oq : orthonormal (rsubmx Q *m q).
  by rewrite /orthonormal trmx_mul -mulmxA (mulmxA (rsubmx Q)^T) O2 mul1mx Oqr.
have EPq : P = S *m (rsubmx Q *m q).
  rewrite -EP div_cols1 // => j; rewrite ortho_col_norm ?oner_eq0 //; exact: OSQ.
have EL : S^T *m (A *m S) *m lsubmx Q = lsubmx Q *m diag_mx (usubmx w)^T.
  move: EQ; rewrite -{1 2}[Q]hsubmxK mul_mx_row.
  have -> : diag_mx w^T = block_mx (diag_mx (usubmx w)^T) 0 0 (diag_mx (dsubmx w)^T).
    by rewrite -[w in LHS]vsubmxK tr_col_mx diag_mx_row.
  by rewrite mul_row_block !mulmx0 addr0 add0r => /eq_row_mx [].
split.
- rewrite Eq EPq; apply: ortho_row_mx => //; first exact: OSQ.
  by rewrite trmx_mul -mulmxA (mulmxA S^T) OS mul1mx mulmxA O12 mul0mx.
- rewrite Eq trmx_mul -mulmxA (mulmxA A) (mulmxA S^T) EL mulmxA.
  by move: O1; rewrite /orthonormal => ->; rewrite mul1mx.
rewrite Eq EPq trmx_mul -mulmxA (mulmxA A) (mulmxA S^T) EL trmx_mul -mulmxA (mulmxA (rsubmx Q)^T).
by rewrite -[(rsubmx Q)^T *m _]trmxK trmx_mul trmxK O12 trmx0 mul0mx mulmx0.
Qed.
End Step.

(** [get_matvec] yields the operator. *)
Lemma get_matvec_ok (op : operand R) l n (A : 'M[R]_n) : represents op l A ->
  exists f, get_matvec op l = Ok (f, n) /\ forall v : 'cV[R]_n, on_vectors f v = Ok (A *m v).
Proof.
case: op => [mv|a] /=; last first.
  case=> Es [W EA]; rewrite Es; eexists; split; first by [].
  move=> v; rewrite /on_vectors /matvec_rows.
  have Wa : size (adata a) = (n * n)%N by move: W; rewrite /wf_arr Es /= muln1 => /eqP.
  have Hr i : (i < n)%N -> size (slice (i * n) (i.+1 * n) (adata a)) = n.
    by move=> Hi; rewrite size_slice ?Wa ?leq_mul2r ?Hi ?orbT // mulSn addnK.
  have -> /= : all (fun row : seq R => size row == size (of_cv v)) (rows_of n n (adata a)).
    rewrite /rows_of all_map; apply/allP => i; rewrite mem_iota add0n => /andP [_ Hi] /=.
    by rewrite Hr // size_of_cv.
  rewrite !size_map size_iota eqxx; congr Ok; apply/colP => i.
  rewrite mxE -map_comp (nth_map 0%N) ?size_iota // nth_iota // add0n /=.
  rewrite (@dot_nth _ _ _ n) ?Hr ?size_of_cv // mxE -EA.
  rewrite big_mkord; apply: eq_bigr => j _; rewrite mxE nth_of_cv; congr (_ * _).
  rewrite /slice nth_take ?nth_drop //.
  by rewrite mulSn addnK.
case: l => [n'|t|//] /=.
  case=> -> H; eexists; split; first by [].
  by move=> v; rewrite /on_vectors size_of_cv H /= size_of_cv eqxx of_cvK.
case=> En; subst n; case=> [L0 H]; eexists; split; first by [].
move=> v; rewrite /on_vectors /flatten_function.
have [|u [-> S W E]] := @unflatten_ok R R t (of_cv v) L0; first by rewrite size_of_cv.
have [w [Ew S' W' E']] := H u W S; rewrite /= Ew.
have Lw : leaves w <> [::] by move=> E0; move: L0; case: S' => _; rewrite E0; case: (leaves t).
rewrite /= full_flattenE //= size_entries // -(nentries_same S') eqxx E' E of_cvK //.
Qed.

Lemma foldM_ext (T I : Type) (f g : T -> I -> res T) s xs : (forall s x, f s x = g s x) -> foldM f s xs = foldM g s xs.
Proof. by move=> H; elim: xs s => //= x xs IH s; rewrite H; case: (g s x) => //=. Qed.
Lemma lanczos_ext n (f g : 'cV[R]_n -> res 'cV[R]_n) b m tol full : (forall v, f v = g v) ->
  lanczos_iterations f b m tol full = lanczos_iterations g b m tol full.
Proof.
move=> H; rewrite /lanczos_iterations.
by rewrite (@foldM_ext _ _ _ (lanczos_body g full tol)) // => s i; rewrite /lanczos_body H.
Qed.

(** The terms returned by [lanczos_lowrank], as a function of the iteration's output. *)
Lemma lanczos_lowrankE (Key : Type) (normal : Key -> nat -> seq R) op key b l rank tol mvd calc ret x64
    (A : 'M[R]_(size b)) alpha beta V :
  represents op l A ->
  lanczos_iterations (fun v => Ok (A *m v)) (cv_of _ b) rank tol true = Ok (alpha, beta, V) ->
  let: (Sv, U) := compute_eigendecomposition eigh rank alpha beta V in
  lanczos_lowrank eigh normal op key (Some b) l rank tol mvd calc ret true x64 =
  (x64, Ok (LowRankResult (LowRankTerms U Sv 0)
              (asarray_dtype (dtype_eqb calc Float64) (default_dtype x64 ret)))).
Proof.
move=> Hr E.
case EE: (compute_eigendecomposition eigh rank alpha beta V) => [S U].
have [f [Ef Hf]] := get_matvec_ok Hr.
rewrite /lanczos_lowrank /fbind /config_read /config_update /flift Ef.
rewrite (lanczos_ext _ _ _ _ Hf) E EE /return_terms /fbind /config_read /fret //.
Qed.
End Lobpcg.
