(** Proofs about the Lanczos iteration. *)
From mathcomp Require Import all_ssreflect all_algebra.
From Verif Require Import Base PyTree Mv GgnSpec GgnProofs Posterior PosteriorSpec PosteriorProofs
  LowRankSolvers LowRankSpec.
Set Implicit Arguments.
Unset Strict Implicit.
Unset Printing Implicit Defensive.
Import GRing.Theory Num.Theory Order.TTheory.
Local Open Scope ring_scope.

Section Lanczos.
Variable R : rcfType.

Lemma jdotE n (u v : 'cV[R]_n) : jdot u v = dotv u v.
Proof. by rewrite dotvE. Qed.
Lemma dotvv_ge0 n (v : 'cV[R]_n) : 0 <= dotv v v.
Proof. by apply: sumr_ge0 => i _; rewrite -expr2 sqr_ge0. Qed.
Lemma norm2_sqr n (v : 'cV[R]_n) : norm2 v * norm2 v = dotv v v.
Proof. by rewrite /norm2 -expr2 sqr_sqrtr jdotE ?dotvv_ge0. Qed.
Lemma norm2_ge0 n (v : 'cV[R]_n) : 0 <= norm2 v.
Proof. exact: sqrtr_ge0. Qed.
Lemma norm2_eq0 n (v : 'cV[R]_n) : (norm2 v == 0) = (v == 0).
Proof.
apply/eqP/eqP => [E|->]; last by rewrite /norm2 jdotE dotv0 sqrtr0.
apply/eqP; apply/negPn/negP => /sqr_norm_gt0; rewrite -norm2_sqr E mul0r; rewrite ltxx //.
Qed.
Lemma norm2_unit n (v : 'cV[R]_n) c : norm2 v = c -> c != 0 -> dotv (c^-1 *: v) (c^-1 *: v) = 1.
Proof.
by move=> E c0; rewrite dotvZ dotvZl -norm2_sqr E mulKf // mulVf.
Qed.

Section Fixed.
Variable n : nat.
Implicit Types (V : seq 'cV[R]_n) (w v : 'cV[R]_n).

(** Rows 0 .. p of [V] are orthonormal. *)
Definition ortho_upto V p := forall i j, (i <= p)%N -> (j <= p)%N ->
  dotv (nth 0 V i) (nth 0 V j) = (i == j)%:R.

Lemma reorthE V i w : (forall p q, (p < i)%N -> (q < i)%N -> dotv (nth 0 V p) (nth 0 V q) = (p == q)%:R) ->
  reorthogonalize w V i = w - \sum_(j < i) dotv (nth 0 V j) w *: nth 0 V j.
Proof.
elim: i => [|i IH] H; first by rewrite /reorthogonalize /= big_ord0 subr0.
rewrite /reorthogonalize (_ : iota 0 i.+1 = iota 0 i ++ iota (0 + i) 1); last by rewrite -iotaD addn1.
rewrite foldl_cat add0n -/(reorthogonalize w V i) /= IH; last first.
  by move=> p q Hp Hq; apply: H; apply: ltnW.
rewrite big_ord_recr /= jdotE dotvB dotv_sum [\sum_(_ < _) dotv _ _]big1 ?subr0.
  by rewrite opprD addrA.
move=> j _; rewrite dotvZ H ?ltnS ?leqnn //; last by rewrite ltnW.
by rewrite gtn_eqF ?ltn_ord ?mulr0.
Qed.

(** Subtracting the projection gives a vector orthogonal to rows 0 .. i-1. *)
Lemma proj_out_ortho V i w p : (p < i)%N ->
  (forall p q, (p < i)%N -> (q < i)%N -> dotv (nth 0 V p) (nth 0 V q) = (p == q)%:R) ->
  dotv (nth 0 V p) (w - \sum_(j < i) dotv (nth 0 V j) w *: nth 0 V j) = 0.
Proof.
move=> Hp H; rewrite dotvB dotv_sum (bigD1 (Ordinal Hp)) //= dotvZ H // eqxx mulr1 big1 ?addr0 ?subrr //.
move=> j Hj; rewrite dotvZ H //; have /negPf -> : p != j :> nat; last by rewrite mulr0.
by apply: contraNneq Hj => E; apply/eqP/val_inj.
Qed.

Lemma nth_at_set (T : Type) (x : T) i y s j : (i < size s)%N ->
  nth x (at_set i y s) j = if j == i then y else nth x s j.
Proof.
rewrite /at_set => H; rewrite H.
elim: s i j H => // z s IH [|i] [|j] //= H.
by rewrite IH.
Qed.
Lemma size_at_set (T : Type) i (y : T) s : size (at_set i y s) = size s.
Proof. by rewrite /at_set; case: ltnP => // H; rewrite size_set_nth; apply/maxn_idPr. Qed.

Variable A : 'M[R]_n.
Variables (m : nat) (tol : R).

(** The recurrence for the first [p] rows. *)
Definition lrec V (beta : seq R) p := forall j, (j < p)%N ->
  A *m nth 0 V j = nth 0 beta j *: nth 0 V j.+1
                   + \sum_(l < j.+1) dotv (nth 0 V l) (A *m nth 0 V j) *: nth 0 V l.
(** The residual of row [p]. *)
Definition lres V (beta : seq R) p := exists w : 'cV[R]_n,
  A *m nth 0 V p = w + \sum_(l < p.+1) dotv (nth 0 V l) (A *m nth 0 V p) *: nth 0 V l
  /\ nth 0 beta p = (if norm2 w < tol then 0 else norm2 w).
(** Invariant after [i] iterations. *)
Definition linv (i : nat) (s : lanczos_state R n) : Prop :=
  let V := ls_V s in
  [/\ [/\ size (ls_alpha s) = m, size (ls_beta s) = m & size V = m.+1],
      ls_v s = nth 0 V i,
      forall j, (j < i)%N -> nth 0 (ls_alpha s) j = dotv (nth 0 V j) (A *m nth 0 V j),
      forall j, (j < i)%N -> 0 <= nth 0 (ls_beta s) j
    & forall p, (p <= i)%N -> (forall j, (j < p)%N -> nth 0 (ls_beta s) j != 0) ->
        [/\ ortho_upto V p, lrec V (ls_beta s) p & (p < i)%N -> lres V (ls_beta s) p]].

Lemma lstep_inv i s : (i < m)%N -> linv i s -> linv i.+1 (iteration_step true tol (A *m ls_v s) s i).
Proof.
move=> Hi [[Sa Sb SV] Ev Ha Hb Ho].
rewrite /iteration_step /=.
set w1 := A *m _ - _ *: _; set w2 := reorthogonalize _ _ _.
set b := if norm2 w2 < tol then 0 else norm2 w2; set v' := if 0 < b then _ else _.
have HV p : (p <= i)%N -> nth 0 (at_set i.+1 v' (ls_V s)) p = nth 0 (ls_V s) p.
  by move=> Hp; rewrite nth_at_set ?SV ?ltnS // ltn_eqF.
have HV' : nth 0 (at_set i.+1 v' (ls_V s)) i.+1 = v' by rewrite nth_at_set ?SV ?ltnS // eqxx.
have Hβ j : (j < i)%N -> nth 0 (at_set i b (ls_beta s)) j = nth 0 (ls_beta s) j.
  by move=> Hj; rewrite nth_at_set ?Sb // ltn_eqF.
have Hβi : nth 0 (at_set i b (ls_beta s)) i = b by rewrite nth_at_set ?Sb // eqxx.
have Hα j : (j < i)%N -> nth 0 (at_set i (jdot (ls_v s) (A *m ls_v s)) (ls_alpha s)) j = nth 0 (ls_alpha s) j.
  by move=> Hj; rewrite nth_at_set ?Sa // ltn_eqF.
have b0 : 0 <= b by rewrite /b; case: ifP; rewrite ?lexx ?norm2_ge0.
have res_eq : ortho_upto (ls_V s) i ->
    w2 = A *m nth 0 (ls_V s) i
         - \sum_(j < i.+1) dotv (nth 0 (ls_V s) j) (A *m nth 0 (ls_V s) i) *: nth 0 (ls_V s) j.
  move=> O.
  have Ov : forall p q, (p < i)%N -> (q < i)%N -> dotv (nth 0 (ls_V s) p) (nth 0 (ls_V s) q) = (p == q)%:R.
    by move=> x y Hx Hy; apply: O; apply: ltnW.
  rewrite /w2 reorthE // reorthE //.
  rewrite [X in _ - _ - X]big1 ?subr0; last by move=> j _; rewrite proj_out_ortho ?scale0r.
  rewrite big_ord_recr /= opprD addrA addrAC /w1 Ev jdotE; congr (_ - _ - _).
  apply: eq_bigr => j _; congr (_ *: _); rewrite dotvB dotvZ O ?(ltnW (ltn_ord j)) //.
  by rewrite ltn_eqF // mulr0 subr0.
split=> /=.
- by rewrite !size_at_set Sa Sb SV.
- by rewrite HV'.
- move=> j; rewrite ltnS leq_eqVlt => /orP [/eqP ->|Hj].
    by rewrite nth_at_set ?Sa // eqxx HV // jdotE Ev.
  by rewrite Hα // HV ?(ltnW Hj) // Ha.
- move=> j; rewrite ltnS leq_eqVlt => /orP [/eqP ->|Hj]; first by rewrite Hβi.
  by rewrite Hβ // Hb.
move=> p; rewrite leq_eqVlt => /orP [/eqP ->|]; last first.
  rewrite ltnS => Hp H; have [|O Rc Rs] := Ho p Hp.
    by move=> j Hj; have := H j Hj; rewrite Hβ // (leq_trans Hj).
  split=> [x y Hx Hy|j Hj|_]; last first.
  - move: Hp; rewrite leq_eqVlt => /orP [/eqP Ep|Hp].
      subst p; exists w2; rewrite Hβi; split=> //.
      have Hi' : (i <= i)%N := leqnn i.
      rewrite (eq_bigr (fun l : 'I_i.+1 => dotv (nth 0 (ls_V s) l) (A *m nth 0 (ls_V s) i) *: nth 0 (ls_V s) l)).
        by rewrite HV // (res_eq O) subrK.
      by move=> l _; rewrite !HV // -ltnS.
    have [w [E1 Eb]] := Rs Hp; exists w; rewrite Hβ // -Eb; split=> //.
    rewrite HV ?(ltnW Hp) // {1}E1; congr (_ + _).
    by apply: eq_bigr => l _; rewrite !HV // (leq_trans _ (ltnW Hp)) // -ltnS.
  - have Hji := leq_trans Hj Hp.
    rewrite [in LHS]HV ?(ltnW Hji) // Rc // Hβ // HV //; congr (_ + _).
    apply: eq_bigr => l _; rewrite !HV ?(ltnW Hji) //.
    by rewrite (leq_trans _ (ltnW Hji)) // -ltnS.
  - by rewrite !HV ?O // ?(leq_trans Hx) ?(leq_trans Hy).
move=> H; have [|O Rc _] := Ho i (leqnn i).
  by move=> j Hj; have := H j (ltnW Hj); rewrite Hβ.
have bN : b != 0 by rewrite -Hβi H.
have bP : 0 < b by rewrite lt_def bN b0.
have Eb : norm2 w2 = b by rewrite /b; move: bN; rewrite /b; case: ifP => //; rewrite eqxx.
have Ov1 : forall p q, (p < i.+1)%N -> (q < i.+1)%N -> dotv (nth 0 (ls_V s) p) (nth 0 (ls_V s) q) = (p == q)%:R.
  by move=> x y Hx Hy; apply: O.
have E2 := res_eq O.
have Ev' : v' = b^-1 *: w2 by rewrite /v' bP.
have Oi x : (x <= i)%N -> dotv (nth 0 (ls_V s) x) v' = 0.
  by move=> Hx; rewrite Ev' dotvZ E2 proj_out_ortho ?mulr0.
have Nv : dotv v' v' = 1 by rewrite Ev' norm2_unit.
split=> [x y|j|]; last by rewrite ltnn.
  rewrite leq_eqVlt ltnS => /orP [/eqP ->|Hx]; rewrite leq_eqVlt ltnS => /orP [/eqP ->|Hy].
  - by rewrite HV' Nv eqxx.
  - by rewrite HV' HV // dotvC Oi // gtn_eqF.
  - by rewrite HV' HV // Oi // ltn_eqF.
  - by rewrite !HV // O.
rewrite ltnS leq_eqVlt => /orP [/eqP ->|Hj]; last first.
  rewrite [in LHS]HV ?(ltnW Hj) // Rc // Hβ // HV //; congr (_ + _).
  apply: eq_bigr => l _; rewrite !HV ?(ltnW Hj) //.
  by rewrite (leq_trans _ (ltnW Hj)) // -ltnS.
have -> : \sum_(l < i.+1) dotv (nth 0 (at_set i.+1 v' (ls_V s)) l) (A *m nth 0 (at_set i.+1 v' (ls_V s)) i)
            *: nth 0 (at_set i.+1 v' (ls_V s)) l =
          \sum_(l < i.+1) dotv (nth 0 (ls_V s) l) (A *m nth 0 (ls_V s) i) *: nth 0 (ls_V s) l.
  by apply: eq_bigr => l _; rewrite !HV // -ltnS.
by rewrite Hβi HV' HV // Ev' scalerA mulfV // scale1r E2 subrK.
Qed.

Lemma linv0 b : b != 0 ->
  let v0 := (norm2 b)^-1 *: b in
  linv 0 (LState v0 (nseq m 0) (nseq m 0) (at_set 0 v0 (nseq m.+1 0))).
Proof.
move=> b0 v0; split=> //=; first by rewrite !size_nseq.
by case=> // _ _; split=> //; move=> [|i] [|j] //= _ _; rewrite norm2_unit // norm2_eq0.
Qed.

Lemma lanczos_run (f : 'cV[R]_n -> res 'cV[R]_n) (full : bool) (P : nat -> lanczos_state R n -> Prop) i k s :
  P i s -> (forall j t, (i <= j < i + k)%N -> P j t ->
    exists2 u, lanczos_body f full tol t j = Ok u & P j.+1 u) ->
  exists2 t, foldM (lanczos_body f full tol) s (iota i k) = Ok t & P (i + k)%N t.
Proof.
elim: k i s => [|k IH] i s Hs H; first by exists s; rewrite ?addn0.
have [|u E Pu] := H i s _ Hs; first by rewrite leqnn addnS ltnS leq_addr.
have [|t E' Pt] := IH i.+1 u Pu.
  by move=> j t /andP [Hj Hj2]; apply: H; rewrite (ltnW Hj) addnS -addSn.
by exists t; rewrite ?addnS -?addSn //= E.
Qed.

Lemma lanczosE b : b != 0 -> exists s : lanczos_state R n,
  lanczos_iterations (fun v => Ok (A *m v)) b m tol true = Ok (ls_alpha s, ls_beta s, ls_V s) /\ linv m s.
Proof.
move=> b0; rewrite /lanczos_iterations.
have [|s -> Hs] := @lanczos_run (fun v => Ok (A *m v)) true linv 0 m _ (linv0 b0).
  move=> j t /andP [_ Hj] Ht; rewrite /lanczos_body /=; eexists; first by [].
  exact: lstep_inv.
by exists s.
Qed.

(** Entries of the compression for a symmetric operator, up to the first breakdown. *)
Definition trid (alpha beta : seq R) (i j : nat) : R :=
  if i == j then nth 0 alpha i
  else if j == i.+1 then nth 0 beta i
  else if i == j.+1 then nth 0 beta j else 0.
Lemma lanczos_entries_upto s p : symmetric A -> linv m s -> (p < m)%N ->
  (forall j, (j < p)%N -> nth 0 (ls_beta s) j != 0) ->
  forall i j : nat, (i <= p)%N -> (j <= p)%N ->
  dotv (nth 0 (ls_V s) i) (A *m nth 0 (ls_V s) j) = trid (ls_alpha s) (ls_beta s) i j.
Proof.
move=> SA [[Sa Sb SV] Ev Ha Hb Ho] Hp Hn i j Hi Hj; rewrite /trid.
have [O Rc _] := Ho p (ltnW Hp) Hn.
have low x y : (x <= p)%N -> (y < x)%N ->
    dotv (nth 0 (ls_V s) x) (A *m nth 0 (ls_V s) y) = if x == y.+1 then nth 0 (ls_beta s) y else 0.
  move=> Hx Hxy; have Hy : (y < p)%N by rewrite (leq_trans Hxy).
  rewrite Rc // dotvD dotvZ O // dotv_sum big1 ?addr0.
    by case: eqP; rewrite ?mulr1 ?mulr0.
  move=> l _; have Hl : (l <= y)%N by rewrite -ltnS.
  rewrite dotvZ O //; last by rewrite (leq_trans Hl) // ltnW.
  by rewrite gtn_eqF ?mulr0 // (leq_ltn_trans Hl).
case: (ltngtP i j) => [Hij|Hij|<-].
- rewrite dotvC -dotv_tr SA low //; case: eqP => // _.
  by rewrite ltn_eqF // ltnS ltnW.
- by rewrite low // [j == i.+1]ltn_eqF // ltnS ltnW.
- by rewrite Ha // (leq_ltn_trans Hi).
Qed.
Lemma lanczos_entries s : symmetric A -> linv m s ->
  (forall j, (j.+1 < m)%N -> nth 0 (ls_beta s) j != 0) ->
  forall i j : nat, (i < m)%N -> (j < m)%N ->
  dotv (nth 0 (ls_V s) i) (A *m nth 0 (ls_V s) j) =
    (if i == j then nth 0 (ls_alpha s) i
     else if j == i.+1 then nth 0 (ls_beta s) i
     else if i == j.+1 then nth 0 (ls_beta s) j else 0).
Proof.
move=> SA I Hn i j Hi Hj.
have m0 : (0 < m)%N := leq_ltn_trans (leq0n i) Hi.
apply: (@lanczos_entries_upto s m.-1) => //.
- by rewrite prednK.
- by move=> x Hx; apply: Hn; rewrite -ltn_predRL.
- by rewrite -ltnS prednK.
- by rewrite -ltnS prednK.
Qed.

(** The basis as a matrix with columns V_0 .. V_{m-1}. *)
Definition basis_mx V : 'M[R]_(n, m) := \matrix_(i < n, j < m) nth 0 (butlast V) j i ord0.
Lemma basis_col V (j : 'I_m) : size V = m.+1 -> col j (basis_mx V) = nth 0 V j.
Proof.
move=> SV; apply/colP => i; rewrite !mxE /butlast SV /= nth_take //.
Qed.
Lemma mulmx_entry (p q r : nat) (B : 'M[R]_(q, p)) (C : 'M[R]_(q, r)) i j :
  (B^T *m C) i j = dotv (col i B) (col j C).
Proof. by rewrite mxE; apply: eq_bigr => k _; rewrite !mxE. Qed.
Lemma col_mulE (p q r : nat) (B : 'M[R]_(p, q)) (C : 'M[R]_(q, r)) j : col j (B *m C) = B *m col j C.
Proof. by rewrite !colE mulmxA. Qed.
Lemma basis_ortho s : linv m s -> (forall j, (j.+1 < m)%N -> nth 0 (ls_beta s) j != 0) ->
  orthonormal (basis_mx (ls_V s)).
Proof.
move=> [[Sa Sb SV] Ev Ha Hb Ho] Hn; apply/matrixP => i j.
have [|O _ _] := Ho m.-1 (leq_pred m).
  by move=> x Hx; apply: Hn; rewrite -ltn_predRL.
have m0 : (0 < m)%N := leq_ltn_trans (leq0n i) (ltn_ord i).
have le1 (x : 'I_m) : (x <= m.-1)%N by rewrite -ltnS prednK.
by rewrite mulmx_entry !basis_col // O // mxE.
Qed.
Lemma basis_compress s : symmetric A -> linv m s ->
  (forall j, (j.+1 < m)%N -> nth 0 (ls_beta s) j != 0) ->
  (basis_mx (ls_V s))^T *m (A *m basis_mx (ls_V s)) = construct_tridiagonal m (ls_alpha s) (ls_beta s).
Proof.
move=> SA I Hn; have [[Sa Sb SV] _ _ _ _] := I; apply/matrixP => i j.
by rewrite mulmx_entry col_mulE !basis_col // (lanczos_entries SA I) // mxE.
Qed.

(** Away from the last column the basis satisfies the three-term relation; the last column
    leaves the residual. *)
Lemma basis_residual s : symmetric A -> linv m s -> (0 < m)%N ->
  (forall j, (j.+1 < m)%N -> nth 0 (ls_beta s) j != 0) ->
  exists w : 'cV[R]_n,
    A *m basis_mx (ls_V s) =
      basis_mx (ls_V s) *m construct_tridiagonal m (ls_alpha s) (ls_beta s)
      + w *m (\row_(j < m) (j == m.-1 :> nat)%:R)
    /\ nth 0 (ls_beta s) m.-1 = (if norm2 w < tol then 0 else norm2 w).
Proof.
move=> SA I m0 Hn; have [[Sa Sb SV] Ev Ha Hb Ho] := I.
have [|O Rc [|w [Ew Eb]]] := Ho m.-1 (leq_pred m).
- by move=> x Hx; apply: Hn; rewrite -ltn_predRL.
- by rewrite prednK.
exists w; split=> //; apply/matrixP => i j.
set B := basis_mx _; set T := construct_tridiagonal _ _ _.
have ET x y : T x y = dotv (nth 0 (ls_V s) x) (A *m nth 0 (ls_V s) y).
  by rewrite (lanczos_entries SA I) // mxE.
have C x : col x B = nth 0 (ls_V s) x by rewrite basis_col.
have Bx x y : B x y = nth 0 (ls_V s) y x ord0 by rewrite -C [RHS]mxE.
have -> : (A *m B) i j = (A *m nth 0 (ls_V s) j) i ord0.
  by rewrite -C -col_mulE [RHS]mxE.
rewrite [RHS]mxE [(w *m _) i j]mxE big_ord1 [(\row__ _) _ _]mxE.
have EBT : (B *m T) i j = \sum_(l < m) dotv (nth 0 (ls_V s) l) (A *m nth 0 (ls_V s) j) * nth 0 (ls_V s) l i ord0.
  by rewrite mxE; apply: eq_bigr => l _; rewrite ET Bx mulrC.
rewrite EBT.
have [Ej|Nj] := eqVneq (j : nat) m.-1.
  rewrite mulr1 Ej {1}Ew [in LHS]mxE addrC; congr (_ + _).
  rewrite summxE; move: (prednK m0) => Em.
  rewrite -(big_mkord xpredT (fun l => (dotv (nth 0 (ls_V s) l) (A *m nth 0 (ls_V s) m.-1) *: nth 0 (ls_V s) l) i ord0)).
  rewrite -(big_mkord xpredT (fun l => dotv (nth 0 (ls_V s) l) (A *m nth 0 (ls_V s) m.-1) * nth 0 (ls_V s) l i ord0)) Em.
  by apply: eq_bigr => l _; rewrite mxE.
rewrite mulr0 addr0.
have Hj : (j < m.-1)%N by rewrite ltn_neqAle Nj -ltnS prednK ?ltn_ord.
have Hj1 : (j.+1 < m)%N by rewrite -ltn_predRL.
rewrite {1}(Rc j Hj) mxE summxE.
rewrite -(big_mkord xpredT (fun l => (dotv (nth 0 (ls_V s) l) (A *m nth 0 (ls_V s) j) *: nth 0 (ls_V s) l) i ord0)).
rewrite -(big_mkord xpredT (fun l => dotv (nth 0 (ls_V s) l) (A *m nth 0 (ls_V s) j) * nth 0 (ls_V s) l i ord0)).
rewrite [RHS](@big_cat_nat _ _ _ j.+1) //= 1?ltnW // addrC; congr (_ + _).
  by apply: eq_bigr => l _; rewrite mxE.
rewrite big_ltn // big_nat_cond big1 ?addr0.
  rewrite (lanczos_entries SA I) //.
  have -> : (j.+1 == j) = false by rewrite gtn_eqF.
  have -> : (j == j.+2 :> nat) = false by rewrite ltn_eqF // ltnS leqnSn.
  by rewrite eqxx [in LHS]mxE.
move=> l; rewrite andbT => /andP [Hl1 Hl2].
have Hlj : (j < l)%N by apply: ltnW.
rewrite (lanczos_entries SA I) // (gtn_eqF Hlj) (gtn_eqF Hl1).
have -> : (j == l.+1 :> nat) = false by rewrite ltn_eqF // ltnS ltnW.
by rewrite mul0r.
Qed.

(** ** Breakdown: once [beta_i = 0] the last vector is repeated for ever. *)
Lemma foldl_dup V v w l : (forall j, j \in l -> nth 0 V j = v) -> dotv v w = 0 ->
  foldl (fun w_acc j => w_acc - jdot (nth 0 V j) w_acc *: nth 0 V j) w l = w.
Proof.
elim: l w => //= j l IH w H Hw.
by rewrite H ?mem_head // jdotE Hw scale0r subr0 IH // => x Hx; apply: H; rewrite inE Hx orbT.
Qed.

Lemma reorth_dup V i j w : (i < j)%N -> ortho_upto V i -> (forall l, (i <= l <= j)%N -> nth 0 V l = nth 0 V i) ->
  reorthogonalize w V j = w - \sum_(l < i.+1) dotv (nth 0 V l) w *: nth 0 V l.
Proof.
move=> Hij O Hd; rewrite /reorthogonalize -(subnKC Hij) iotaD foldl_cat add0n.
have O' : forall p q, (p < i.+1)%N -> (q < i.+1)%N -> dotv (nth 0 V p) (nth 0 V q) = (p == q)%:R.
  by move=> p q; rewrite !ltnS; apply: O.
rewrite -/(reorthogonalize w V i.+1) (reorthE _ O') (@foldl_dup _ (nth 0 V i)) //.
- move=> l; rewrite mem_iota subnKC // => /andP [H1 H2]; apply: Hd.
  by rewrite (ltnW H1) ltnW.
- exact: proj_out_ortho.
Qed.

Definition lbreak (j : nat) (s : lanczos_state R n) : Prop :=
  forall i, (i < j)%N -> (forall l, (l < i)%N -> nth 0 (ls_beta s) l != 0) -> nth 0 (ls_beta s) i = 0 ->
  (forall l, (i <= l <= j)%N -> nth 0 (ls_V s) l = nth 0 (ls_V s) i) /\
  (forall l, (i <= l < j)%N -> nth 0 (ls_alpha s) l = nth 0 (ls_alpha s) i /\ nth 0 (ls_beta s) l = 0).

Lemma lstep_break j s : (j < m)%N -> linv j s -> lbreak j s ->
  lbreak j.+1 (iteration_step true tol (A *m ls_v s) s j).
Proof.
move=> Hj I HB; have [[Sa Sb SV] Ev Ha Hb Ho] := I.
rewrite /iteration_step /=.
set w1 := A *m _ - _ *: _; set w2 := reorthogonalize _ _ _.
set b := if norm2 w2 < tol then 0 else norm2 w2; set v' := if 0 < b then _ else _.
have HV p : (p <= j)%N -> nth 0 (at_set j.+1 v' (ls_V s)) p = nth 0 (ls_V s) p.
  by move=> Hp; rewrite nth_at_set ?SV ?ltnS // ltn_eqF.
have HV' : nth 0 (at_set j.+1 v' (ls_V s)) j.+1 = v' by rewrite nth_at_set ?SV ?ltnS // eqxx.
have Hβ l : (l < j)%N -> nth 0 (at_set j b (ls_beta s)) l = nth 0 (ls_beta s) l.
  by move=> Hl; rewrite nth_at_set ?Sb // ltn_eqF.
have Hβi : nth 0 (at_set j b (ls_beta s)) j = b by rewrite nth_at_set ?Sb // eqxx.
have Hα l : (l < j)%N -> nth 0 (at_set j (jdot (ls_v s) (A *m ls_v s)) (ls_alpha s)) l = nth 0 (ls_alpha s) l.
  by move=> Hl; rewrite nth_at_set ?Sa // ltn_eqF.
have Hαi : nth 0 (at_set j (jdot (ls_v s) (A *m ls_v s)) (ls_alpha s)) j = jdot (ls_v s) (A *m ls_v s).
  by rewrite nth_at_set ?Sa // eqxx.
move=> i; rewrite /= ltnS leq_eqVlt => /orP [/eqP ->|Hij] Hn H0.
  have Ev' : v' = nth 0 (ls_V s) j by rewrite /v' -Hβi H0 ltxx.
  split=> l.
    rewrite leq_eqVlt => /andP [/orP [/eqP <- //|Hjl] Hl].
    have -> : l = j.+1 by apply/eqP; rewrite eqn_leq Hl Hjl.
    by rewrite HV' HV // Ev'.
  by rewrite ltnS -eqn_leq => /eqP <-.
have Hn' : forall l, (l < i)%N -> nth 0 (ls_beta s) l != 0.
  by move=> l Hl; have := Hn l Hl; rewrite Hβ // (ltn_trans Hl).
have H0' : nth 0 (ls_beta s) i = 0 by rewrite -(Hβ i Hij).
have [DV Dab] := HB i Hij Hn' H0'.
have [O _ /(_ Hij) [w [Ew Eb]]] := Ho i (ltnW Hij) Hn'.
have Evi : ls_v s = nth 0 (ls_V s) i by rewrite Ev DV // leqnn (ltnW Hij).
have O1 : forall p q, (p < i.+1)%N -> (q < i.+1)%N -> dotv (nth 0 (ls_V s) p) (nth 0 (ls_V s) q) = (p == q)%:R.
  by move=> p q; rewrite !ltnS; apply: O.
have E2 : w2 = w.
  rewrite /w2 !(@reorth_dup _ i) //.
  rewrite [X in _ - _ - X]big1 ?subr0; last by move=> l _; rewrite proj_out_ortho ?scale0r.
  rewrite /w1 Evi jdotE.
  rewrite big_ord_recr /= dotvB dotvZ (O i i) // eqxx mulr1 subrr scale0r addr0.
  move: Ew; rewrite big_ord_recr /= => Ew.
  rewrite (eq_bigr (fun l : 'I_i => dotv (nth 0 (ls_V s) l) (A *m nth 0 (ls_V s) i) *: nth 0 (ls_V s) l)).
    by rewrite {1}Ew addrA addrK addrK.
  by move=> l _; rewrite dotvB dotvZ O // ?(ltnW (ltn_ord l)) // ltn_eqF // mulr0 subr0.
have b0 : b = 0 by rewrite /b E2 -Eb H0'.
have Ev' : v' = nth 0 (ls_V s) i by rewrite /v' b0 ltxx Evi.
split=> l /andP [Hl1]; rewrite leq_eqVlt => /orP [/eqP El|Hl2].
- by rewrite El HV' HV ?(ltnW Hij).
- by rewrite !HV ?(ltnW Hij) // DV // Hl1.
- have -> : l = j by case: El.
  by rewrite Hβi Hαi Hα // Evi jdotE Ha.
- by rewrite !Hα // Hβ //; apply: Dab; rewrite Hl1.
Qed.

Lemma lanczosE_break b : b != 0 -> exists s : lanczos_state R n,
  [/\ lanczos_iterations (fun v => Ok (A *m v)) b m tol true = Ok (ls_alpha s, ls_beta s, ls_V s),
      linv m s & lbreak m s].
Proof.
move=> b0; rewrite /lanczos_iterations.
pose v0 := (norm2 b)^-1 *: b.
have [||s -> [Hs Hs']] := @lanczos_run (fun v => Ok (A *m v)) true (fun j s => linv j s /\ lbreak j s) 0 m
  (LState v0 (nseq m 0) (nseq m 0) (at_set 0 v0 (nseq m.+1 0))).
- by split; first exact: linv0 b0.
- move=> j t /andP [_ Hj] [Ht Ht']; rewrite /lanczos_body /=; eexists; first by [].
  by split; [apply: lstep_inv | apply: lstep_break].
by exists s.
Qed.

(** After a breakdown at [i], the matrix [B T B^T] counts the last direction again and again. *)
Lemma breakdown_dense s i : symmetric A -> linv m s -> lbreak m s -> (i < m)%N ->
  (forall l, (l < i)%N -> nth 0 (ls_beta s) l != 0) -> nth 0 (ls_beta s) i = 0 ->
  let W : 'M[R]_(n, i.+1) := \matrix_(x, j) nth 0 (ls_V s) j x ord0 in
  basis_mx (ls_V s) *m construct_tridiagonal m (ls_alpha s) (ls_beta s) *m (basis_mx (ls_V s))^T
  = (W *m W^T) *m A *m (W *m W^T)
    + ((m - i.+1)%:R * nth 0 (ls_alpha s) i) *: (nth 0 (ls_V s) i *m (nth 0 (ls_V s) i)^T).
Proof.
move=> SA I HB Hi Hn H0 W; have [[Sa Sb SV] Ev Ha Hb Ho] := I.
have [DV Dab] := HB i Hi Hn H0.
set al := ls_alpha s; set be := ls_beta s; set V := ls_V s.
have EB x (j : 'I_m) : basis_mx V x j = nth 0 V j x ord0.
  by have := @basis_col V j SV => /(congr1 (fun c : 'cV_n => c x ord0)); rewrite mxE.
have low : W^T *m (A *m W) = \matrix_(j, l) trid al be j l.
  apply/matrixP => j l; rewrite mulmx_entry col_mulE mxE.
  have cW k : col k W = nth 0 V k by apply/colP => x; rewrite !mxE.
  by rewrite !cW (@lanczos_entries_upto s i) // -ltnS.
have -> : (W *m W^T) *m A *m (W *m W^T) = W *m (\matrix_(j, l) trid al be j l) *m W^T.
  by rewrite -low !mulmxA.
apply/matrixP => x y.
have sumE (k : nat) (C : 'M[R]_(n, k)) (T : 'M[R]_k) : (forall z j, C z j = nth 0 V j z ord0) ->
   (forall j l, T j l = trid al be j l) ->
   (C *m T *m C^T) x y = \sum_(0 <= j < k) \sum_(0 <= l < k) nth 0 V j x ord0 * trid al be j l * nth 0 V l y ord0.
  move=> HC HT; rewrite mxE big_mkord.
  rewrite (eq_bigr (fun l : 'I_k => \sum_(j < k) nth 0 V j x ord0 * trid al be j l * nth 0 V l y ord0)).
    by rewrite exchange_big /=; apply: eq_bigr => j _; rewrite big_mkord.
  move=> l _; rewrite !mxE big_distrl /=; apply: eq_bigr => j _.
  by rewrite HC HC HT.
rewrite sumE //; last by move=> j l; rewrite mxE.
rewrite [RHS]mxE sumE; [|by move=> z j; rewrite mxE|by move=> j l; rewrite mxE].
rewrite !mxE big_ord1 mxE.
have offz j l : (j <= i)%N -> (i < l < m)%N -> trid al be j l = 0 /\ trid al be l j = 0.
  move=> Hj /andP [Hl1 Hl2]; have Hjl := leq_ltn_trans Hj Hl1.
  have bz : l = j.+1 -> nth 0 be j = 0.
    move=> El; have -> : j = i; last exact: H0.
    by apply/eqP; rewrite eqn_leq Hj -ltnS -El.
  rewrite /trid (ltn_eqF Hjl) (gtn_eqF Hjl) (@ltn_eqF j l.+1) ?ltnS 1?ltnW //.
  by case: eqP => // /bz ->.
have diag j l : (i < j < m)%N -> (i < l < m)%N -> trid al be j l = if j == l then nth 0 al i else 0.
  move=> /andP [Hj1 Hj2] /andP [Hl1 Hl2]; rewrite /trid.
  case: eqP => [_|_]; first by have [|-> _] := Dab j; rewrite // Hj2 ltnW.
  case: eqP => [_|_]; first by have [|_ ->] := Dab j; rewrite // Hj2 ltnW.
  by case: eqP => [_|//]; have [|_ ->] := Dab l; rewrite // Hl2 ltnW.
rewrite (@big_cat_nat _ _ _ i.+1) //=; congr (_ + _).
  apply: eq_big_nat => j /andP [_ Hj].
  rewrite (@big_cat_nat _ _ _ i.+1) //= [X in _ + X]big_nat_cond [X in _ + X]big1 ?addr0 //.
  move=> l; rewrite andbT => Hl; have [-> _] := @offz j l Hj Hl.
  by rewrite mulr0 mul0r.
rewrite (eq_big_nat _ _ (F2 := fun _ => nth 0 al i * (nth 0 V i x ord0 * nth 0 V i y ord0))).
  by rewrite big_const_nat iter_addr addr0 -mulr_natl mulrA.
move=> j /andP [Hj1 Hj2].
rewrite (@big_cat_nat _ _ _ i.+1) //= big_nat_cond big1 ?add0r; last first.
  move=> l /andP [/andP [_ Hl] _]; have [|_ ->] := @offz l j Hl; first by rewrite Hj1.
  by rewrite mulr0 mul0r.
rewrite (big_cat_nat _ _ _ Hj1) ?(ltnW Hj2) //=.
rewrite big_nat_cond big1 ?add0r; last first.
  move=> l /andP [/andP [Hl1 Hl2] _]; rewrite diag ?Hj1 ?Hl1 ?(ltn_trans Hl2) //.
  by rewrite gtn_eqF // mulr0 mul0r.
rewrite big_ltn // diag ?Hj1 // eqxx big_nat_cond big1 ?addr0; last first.
  move=> l /andP [/andP [Hl1 Hl2] _]; rewrite diag ?Hj1 ?(ltn_trans Hj1) //.
  by rewrite ltn_eqF // mulr0 mul0r.
have -> : nth 0 V j = nth 0 V i by apply: DV; rewrite (ltnW Hj1) ltnW.
by rewrite mulrAC [RHS]mulrA mulrC mulrA.
Qed.

(** ** The Ritz pairs *)
End Fixed.

Section Ritz.
Variables (n m : nat) (A : 'M[R]_n) (B : 'M[R]_(n, m)) (T Q : 'M[R]_m) (S : 'cV[R]_m).
Hypotheses (OB : orthonormal B) (OQ : orthonormal Q) (TQ : T *m Q = Q *m diag_mx S^T)
  (CT : B^T *m (A *m B) = T).
Lemma ritz_ortho : orthonormal (B *m Q).
Proof. by rewrite /orthonormal trmx_mul -mulmxA (mulmxA B^T) OB mul1mx OQ. Qed.
Lemma ritz_diag : (B *m Q)^T *m (A *m (B *m Q)) = diag_mx S^T.
Proof.
rewrite trmx_mul -mulmxA (mulmxA A) (mulmxA B^T) CT TQ mulmxA; move: OQ; rewrite /orthonormal => ->.
exact: mul1mx.
Qed.
Lemma QQt : Q *m Q^T = 1%:M.
Proof. exact: mulmx1C. Qed.
Lemma ritz_dense : low_rank_dense (B *m Q) S 0 = (B *m B^T) *m A *m (B *m B^T).
Proof.
rewrite /low_rank_dense raddf0 addr0 trmx_mul !mulmxA -(mulmxA B Q) -TQ -!mulmxA.
rewrite (mulmxA Q) QQt mul1mx -CT !mulmxA; by [].
Qed.
End Ritz.
End Lanczos.
