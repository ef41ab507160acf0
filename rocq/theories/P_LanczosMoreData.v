(** Property C50, continued: with a truncated Lanczos approximation more data can mean more uncertainty. *)
From Coq Require Import Reals Lra String.
From mathcomp Require Import all_ssreflect all_algebra.
From Verif Require Import Base RealStruct RealSums PyTree TreeSpec Mv PyTreeProofs TreeOpsProofs GgnSpec Ggn GgnProofs Posterior PosteriorSpec PosteriorProofs
  PosteriorTree LowRankSolvers LowRankSpec LanczosProofs EvalUtils Pushforward PushforwardSpec PushforwardProofs PipelineSpec TreeGgn Pipeline PipelineProofs PipelineApprox.
From Verif Require Import P_Ggn P_Posterior P_LowRank P_Pushforward P_Pipeline P_Monotone P_PipelineApprox P_Invariance P_Evidence P_MonotoneLanczos OrderProofs.
Set Implicit Arguments.
Unset Strict Implicit.
Unset Printing Implicit Defensive.
Import GRing.Theory Num.Theory Order.TTheory.
Local Open Scope ring_scope.
Notation RR := [rcfType of R].

(** Vectors and matrices of size 3, in Coq's real operations. *)
Definition vec (a b c : R) : 'cV[R]_3 := \col_i nth 0 [:: a; b; c] i.
Definition mat (r : seq (seq R)) : 'M[R]_3 := \matrix_(i, j) nth 0 (nth [::] r i) j.

Lemma vec_dot a b c x y z : jdot (R := RR) (vec a b c) (vec x y z) = Rplus (Rmult a x) (Rplus (Rmult b y) (Rmult c z)).
Proof. by rewrite /jdot mxE !big_ord_recl big_ord0 !mxE /= addr0. Qed.
Lemma vec_sub a b c x y z : vec a b c - vec x y z = vec (Rminus a x) (Rminus b y) (Rminus c z).
Proof. by apply/colP => -[[|[|[|//]]] Hi]; rewrite !mxE. Qed.
Lemma vec_add a b c x y z : vec a b c + vec x y z = vec (Rplus a x) (Rplus b y) (Rplus c z).
Proof. by apply/colP => -[[|[|[|//]]] Hi]; rewrite !mxE. Qed.
Lemma vec_scale k a b c : k *: vec a b c = vec (Rmult k a) (Rmult k b) (Rmult k c).
Proof. by apply/colP => -[[|[|[|//]]] Hi]; rewrite !mxE. Qed.
Lemma vec_norm a b c k : 0 <= k -> Rplus (Rmult a a) (Rplus (Rmult b b) (Rmult c c)) = Rmult k k -> norm2 (R := RR) (vec a b c) = k.
Proof. by move=> k0 E; rewrite /norm2 vec_dot E -[Rmult k k]/(k * k) -expr2 sqrtr_sqr ger0_norm. Qed.
Lemma mat_vec a1 a2 a3 b1 b2 b3 c1 c2 c3 x y z :
  mat [:: [:: a1; a2; a3]; [:: b1; b2; b3]; [:: c1; c2; c3]] *m vec x y z =
  vec (Rplus (Rmult a1 x) (Rplus (Rmult a2 y) (Rmult a3 z))) (Rplus (Rmult b1 x) (Rplus (Rmult b2 y) (Rmult b3 z)))
      (Rplus (Rmult c1 x) (Rplus (Rmult c2 y) (Rmult c3 z))).
Proof. by apply/colP => -[[|[|[|//]]] Hi]; rewrite mxE !big_ord_recl big_ord0 !mxE /= addr0. Qed.

(** Two rounds of the iteration from a normalised start vector. *)
Lemma run2 (T : rcfType) (A : 'M[T]_3) (v0 v1 w0 w1 : 'cV[T]_3) a0 b0 a1 tol :
  norm2 v0 = 1 -> A *m v0 = w0 -> jdot v0 w0 = a0 -> norm2 (w0 - a0 *: v0) = b0 ->
  tol <= b0 -> 0 < b0 -> b0^-1 *: (w0 - a0 *: v0) = v1 -> A *m v1 = w1 -> jdot v1 w1 = a1 ->
  exists b1 v2, lanczos_iterations (fun v => Ok (A *m v)) v0 2 tol true =
    Ok ([:: a0; a1], [:: b0; b1], [:: v0; v1; v2]).
Proof.
move=> N0 E0 D0 B0 T0 P0 V1 E1 D1.
have T0' : (b0 < tol) = false by rewrite ltNge T0.
rewrite /lanczos_iterations N0 invr1 scale1r [iota _ _]/= [at_set _ _ _]/= [nseq _ _]/=.
cbn [foldM bind lanczos_body ls_v].
rewrite E0.
have -> : iteration_step true tol w0 (LState v0 [:: 0; 0] [:: 0; 0] (at_set 0 v0 [:: 0; 0; 0])) 0 =
    LState v1 [:: a0; 0] [:: b0; 0] [:: v0; v1; 0].
  by rewrite /iteration_step; cbn [ls_v ls_alpha ls_beta ls_V]; rewrite D0 /reorthogonalize [iota 0 0]/=; cbn [foldl]; rewrite B0 T0' P0 V1.
cbn [ls_v]; rewrite E1 /iteration_step; cbn [ls_v ls_alpha ls_beta ls_V]; rewrite D1.
by eexists; eexists; reflexivity.
Qed.

(** Every symmetric 2 x 2 matrix has an eigenvalue decomposition. *)
Definition eig2 (M : 'M[R]_2) : 'cV[R]_2 * 'M[R]_2 :=
  let o : 'I_2 := @Ordinal 2 0 isT in let i : 'I_2 := @Ordinal 2 1 isT in
  let a : R := M o o in let b : R := M o i in let c : R := M i i in
  if b == 0 then (\col_k nth 0 [:: a; c] k, 1%:M) else
  let s := R_sqrt.sqrt (Rplus (Rmult (Rminus a c) (Rminus a c)) (Rmult (Rmult (IZR 4) b) b)) in
  let p := Rplus s (Rminus a c) in let q := Rmult (IZR 2) b in
  let N := R_sqrt.sqrt (Rplus (Rmult p p) (Rmult q q)) in
  (\col_k nth 0 [:: Rdiv (Rplus (Rplus a c) s) (IZR 2); Rdiv (Rminus (Rplus a c) s) (IZR 2)] k,
   \matrix_(k, l) nth 0 (nth [::] [:: [:: Rdiv p N; Ropp (Rdiv q N)]; [:: Rdiv q N; Rdiv p N]] k) l).

Lemma eig2_correct (M : 'M[R]_2) : M^T = M -> eigh_correct (R := RR) M (eig2 M).
Proof.
move=> HM; rewrite /eig2; set o := Ordinal _; set i := Ordinal _.
have E10 : M i o = M o i by rewrite -[in LHS]HM mxE.
have two (P : 'I_2 -> Prop) : P o -> P i -> forall k, P k.
  by move=> Po Pi [[|[|//]] Hk]; [have -> : Ordinal Hk = o by exact: val_inj | have -> : Ordinal Hk = i by exact: val_inj].
case: eqP => [b0|/eqP b0].
  split=> /=; first by rewrite /orthonormal trmx1 mulmx1.
  rewrite mulmx1 mul1mx; apply/matrixP; apply: (two _); apply: (two _); rewrite !mxE //=.
  by rewrite E10 b0 mulr0n.
set a := M o o; set b := M o i in b0 E10 *; set c := M i i.
set s := R_sqrt.sqrt (Rplus (Rmult (Rminus a c) _) _); set p := Rplus s _; set q := Rmult (IZR 2) b; set N := R_sqrt.sqrt _.
have b0' : b <> IZR 0 by move/eqP: b0.
have ss : Rmult s s = Rplus (Rmult (Rminus a c) (Rminus a c)) (Rmult (Rmult (IZR 4) b) b).
  apply: R_sqrt.sqrt_sqrt; have h1 := Rle_0_sqr (Rminus a c); have h2 := Rle_0_sqr b; rewrite /Rsqr in h1 h2; lra.
have NN : Rmult N N = Rplus (Rmult p p) (Rmult q q).
  apply: R_sqrt.sqrt_sqrt; have h1 := Rle_0_sqr p; have h2 := Rle_0_sqr q; rewrite /Rsqr in h1 h2; lra.
have N0 : N <> IZR 0.
  move=> E; move: NN; rewrite E => E2.
  have h1 := Rle_0_sqr p; have h2 := Rle_0_sqr b; rewrite /Rsqr in h1 h2.
  have : Rmult b b = IZR 0 by rewrite /q in E2; lra.
  by move=> /Rmult_integral; case.
clearbody N s; rewrite {}/p {}/q in NN *.
set P := Rplus s _ in NN *; set Q := Rmult (IZR 2) b in NN *.
have EN : Rplus (Rmult (Rdiv P N) (Rdiv P N)) (Rmult (Rdiv Q N) (Rdiv Q N)) = R1.
  have -> : Rplus (Rmult (Rdiv P N) (Rdiv P N)) (Rmult (Rdiv Q N) (Rdiv Q N)) = Rdiv (Rplus (Rmult P P) (Rmult Q Q)) (Rmult N N) by field.
  by rewrite -NN; field.
split=> /=.
  rewrite /orthonormal; apply/matrixP; apply: (two _); apply: (two _); rewrite !mxE !big_ord_recl big_ord0 !mxE /= addr0 ?mulr1n ?mulr0n; eqR; toR.
  - exact: EN.
  - by field.
  - by field.
  - by rewrite -[X in _ = X]EN; field.
have two' (k : 'I_2) : (lift ord0 (ord0 : 'I_1) = i :> 'I_2) /\ (ord0 = o :> 'I_2) by split; exact: val_inj.
have [Ei Eo] := two' o.
have D0 : Rplus (Rmult a P) (Rmult b Q) = Rmult P (Rdiv (Rplus (Rplus a c) s) (IZR 2)).
  have -> : Rmult P (Rdiv (Rplus (Rplus a c) s) (IZR 2)) = Rdiv (Rplus (Rmult s s) (Rplus (Rmult (Rmult (IZR 2) a) s) (Rminus (Rmult a a) (Rmult c c)))) (IZR 2) by rewrite /P; field.
  by rewrite ss /P /Q; field.
have D1 : Rplus (Rmult b P) (Rmult c Q) = Rmult Q (Rdiv (Rplus (Rplus a c) s) (IZR 2)) by rewrite /P /Q; field.
have D2 : Rplus (Rmult a (Ropp Q)) (Rmult b P) = Rmult (Ropp Q) (Rdiv (Rminus (Rplus a c) s) (IZR 2)) by rewrite /P /Q; field.
have D3 : Rplus (Rmult b (Ropp Q)) (Rmult c P) = Rmult P (Rdiv (Rminus (Rplus a c) s) (IZR 2)).
  have -> : Rmult P (Rdiv (Rminus (Rplus a c) s) (IZR 2)) = Rdiv (Rplus (Ropp (Rmult s s)) (Rplus (Rmult (Rmult (IZR 2) c) s) (Rminus (Rmult a a) (Rmult c c)))) (IZR 2) by rewrite /P; field.
  by rewrite ss /P /Q; field.
rewrite mul_mx_diag; apply/matrixP; apply: (two _); apply: (two _); rewrite !mxE !big_ord_recl big_ord0 !mxE /= addr0 ?Ei ?Eo -/a -/b -/c ?E10; eqR; toR.
- by transitivity (Rdiv (Rplus (Rmult a P) (Rmult b Q)) N); [field | rewrite D0; field].
- by transitivity (Rdiv (Rplus (Rmult a (Ropp Q)) (Rmult b P)) N); [field | rewrite D2; field].
- by transitivity (Rdiv (Rplus (Rmult b P) (Rmult c Q)) N); [field | rewrite D1; field].
- by transitivity (Rdiv (Rplus (Rmult b (Ropp Q)) (Rmult c P)) N); [field | rewrite D3; field].
Qed.

Lemma eigh2_exists : exists eigh : forall k : nat, 'M[R]_k -> 'cV[R]_k * 'M[R]_k,
  forall M : 'M[R]_2, M^T = M -> eigh_correct (R := RR) M (eigh 2%N M).
Proof.
exists (fun k => match k return 'M[R]_k -> 'cV[R]_k * 'M[R]_k with 2%N => eig2 | _ => fun _ => (0, 0) end).
exact: eig2_correct.
Qed.

(** The action of a two-vector compression. *)
Lemma compress2 (v0 v1 v2 x : 'cV[R]_3) a0 a1 b0 b1 :
  let B : 'M[R]_(3, 2) := basis_mx 2 [:: v0; v1; v2] in
  let T := construct_tridiagonal (R := RR) 2 [:: a0; a1] [:: b0; b1] in
  let p := jdot (R := RR) v0 x in let q := jdot (R := RR) v1 x in
  B *m T *m B^T *m x = (a0 * p + b0 * q) *: v0 + (b0 * p + a1 * q) *: v1.
Proof.
move=> B T p q.
have EB (w : 'cV[R]_2) : B *m w = w ord0 ord0 *: v0 + w (lift ord0 ord0) ord0 *: v1.
  by apply/colP => k; rewrite mxE !big_ord_recl big_ord0 !mxE /= addr0 ![_ * w _ _]mulrC.
have ET (w : 'cV[R]_2) : T *m w = \col_k nth 0 [:: a0 * w ord0 ord0 + b0 * w (lift ord0 ord0) ord0; b0 * w ord0 ord0 + a1 * w (lift ord0 ord0) ord0] k.
  by apply/colP => -[[|[|//]] Hk]; rewrite mxE !big_ord_recl big_ord0 !mxE /= addr0.
have EX : B^T *m x = \col_k nth 0 [:: p; q] k.
  apply/colP => -[[|[|//]] Hk]; rewrite /p /q /jdot !mxE; by apply: eq_bigr => l _; rewrite !mxE.
by rewrite -!mulmxA EX ET EB !mxE.
Qed.

Section Counterexample.
(** A linear model with three weights and one output; its derivatives at the four inputs. *)
Let J (z : nat) (_ p : nat) : R := nth 0 (nth [::] [:: [:: IZR 1; IZR 3; IZR 0]; [:: IZR 2; IZR 0; IZR 2]; [:: IZR 0; IZR 1; IZR 0]] z) p.
Let w0 : tree (arr R) := Leaf (Arr [:: 3%N] [:: 0; 0; 0]).
Let out : arr R := Arr [:: 1%N] [:: 0].
Let jv (z : nat) := mat_op (J z) w0 (Leaf out).
Let vj (z : nat) := mat_op (fun p a => J z a p) (Leaf out) w0.
Let model (z : nat) (u : tree (arr R)) : res (arr R) :=
  let! y := jv z u in match y with Leaf a => Ok a | _ => Raise TypeError end.
Let args : lanczos_args unit := LanczosArgs None (Some [:: 1; 0; 0 : R]) 2 1 None Float64 None true.
Let first : seq (nat * arr R) := [:: (0%N, out)].
Let both : seq (nat * arr R) := [:: (0%N, out); (1%N, out)].

Lemma md_model z : model z w0 = Ok out.
Proof.
have [_ [H _]] : True /\ is_jacobian (R := RR) (J z) w0 out (jv z) (vj z) by split=> //; exact: mat_op_jacobian.
have [//|//|u [E [S1 S2] W2 Eu]] := H w0; rewrite /model E; cbn [bind].
case: u S1 S2 W2 Eu {E} => [a|//] _; rewrite /= => -[Sa] _; rewrite /entries /= cats0 => Ea; congr Ok.
case: a Sa Ea => sh d /= <- ->; congr Arr; rewrite /matvec /nentries /= /mkseq /=; congr cons.
by rewrite !big_nat_recl // big_nil /= !mulr0 !addr0.
Qed.

Lemma md_point z : test_point model jv vj w0 "mse" (fun _ => out) J (kw0 None) [:: SVar] z.
Proof.
split; last by left.
split=> //; [by left | exact: md_model | split=> //].
exact: mat_op_jacobian.
Qed.
Lemma md_data data : (forall d, List.In d data -> d.2 = out) -> data_ok 1 model jv vj w0 (fun _ => out) J data.
Proof. by move=> H d Hd; split=> //; [exact: md_model | exact: mat_op_jacobian]. Qed.

Lemma first_ggn : ggn_matrix 1 3 "mse" 1 (fun _ => out) J first =
  mat [:: [:: IZR 2; IZR 6; IZR 0]; [:: IZR 6; IZR 18; IZR 0]; [:: IZR 0; IZR 0; IZR 0]].
Proof.
rewrite /ggn_matrix scale1r /first big_cons big_nil addr0 /loss_hessian [String.eqb _ _]/= mul_mx_scalar.
apply/matrixP => -[[|[|[|//]]] Hi] -[[|[|[|//]]] Hj]; rewrite !mxE big_ord1 !mxE /J /=; numR; eqR; lra.
Qed.
Lemma both_ggn : ggn_matrix 1 3 "mse" 1 (fun _ => out) J both =
  mat [:: [:: IZR 10; IZR 6; IZR 8]; [:: IZR 6; IZR 18; IZR 0]; [:: IZR 8; IZR 0; IZR 8]].
Proof.
rewrite /ggn_matrix scale1r /both !big_cons big_nil addr0 /loss_hessian [String.eqb _ _]/= !mul_mx_scalar.
apply/matrixP => -[[|[|[|//]]] Hi] -[[|[|[|//]]] Hj]; rewrite !mxE !big_ord1 !mxE /J /=; numR; eqR; lra.
Qed.

(** A matrix whose products with three vectors are the unit vectors has them as inverse columns. *)
Lemma middle_inverse (P : 'M[R]_3) (c : seq 'cV[R]_3) (L : 'M[R]_(1, 3)) :
  P *m nth 0 c 0 = vec 1 0 0 -> P *m nth 0 c 1 = vec 0 1 0 -> P *m nth 0 c 2 = vec 0 0 1 ->
  (forall j, L ord0 j = vec 0 1 0 j ord0) ->
  (L *m invmx P *m L^T) ord0 ord0 = nth 0 c 1 (@Ordinal 3 1 isT) ord0.
Proof.
move=> H0 H1 H2 HL; pose C : 'M[R]_3 := \matrix_(i, j) nth 0 c j i ord0.
have HC j : col j C = nth 0 c j by apply/colP => k; rewrite !mxE.
have E : P *m C = 1%:M.
  apply/matrixP => i j; have -> : (P *m C) i j = (P *m col j C) i ord0 by rewrite !mxE; apply: eq_bigr => k _; rewrite !mxE.
  rewrite HC; case: j => -[|[|[|//]]] Hj; rewrite /= ?H0 ?H1 ?H2; case: i => -[|[|[|//]]] Hi; by rewrite !mxE /=.
have [U _] := mulmx1_unit E.
have -> : invmx P = C by rewrite -[LHS]mulmx1 -E mulmxA mulVmx // mul1mx.
by rewrite mxE !big_ord_recl big_ord0 !mxE !big_ord_recl !big_ord0 !HL !mxE /= !(mul0r, mul1r, mulr0, mulr1, addr0, add0r); congr (nth 0 c 1 _ _); apply: val_inj.
Qed.

(** The two runs and the variance each leads to. *)
Let zeros (Key : Type) (_ : Key) (k : nat) : seq R := nseq k 0.
Let report (eigh : forall k : nat, 'M[R]_k -> 'cV[R]_k * 'M[R]_k) (data : seq (nat * arr R)) :=
  let: (flag, ps) := laplace_posterior_lanczos 1 model jv vj eigh (@zeros unit) w0 data "mse" None None args
    (Some (Rdiv 1 (IZR 2))) 1 1 true in
  linearised_predictive (fun k n => nseq n k) (fun _ sh => nseq (prodn sh) 0) tt model jv vj w0 ps None
     (@lin_setup RR nat :: [seq stat_fn o | o <- [:: SVar]]) (kw0 None) 2%N.

Lemma md_run eigh data G a0 b0 a1 v0 v1 w0' w1 (c : seq 'cV[R]_3) w :
  (forall M : 'M[R]_2, M^T = M -> eigh_correct (R := RR) M (eigh 2%N M)) ->
  (forall d, List.In d data -> d.2 = out) -> curv_scaling_factor None None (size data) = Ok (1 : R) ->
  ggn_matrix 1 3 "mse" 1 (fun _ => out) J data = G ->
  v0 = vec 1 0 0 -> G *m v0 = w0' -> jdot (R := RR) v0 w0' = a0 -> norm2 (R := RR) (w0' - a0 *: v0) = b0 ->
  1 <= b0 -> b0^-1 *: (w0' - a0 *: v0) = v1 -> G *m v1 = w1 -> jdot (R := RR) v1 w1 = a1 ->
  (forall k, (k < 3)%N -> let x := nth 0 c k in
     (Rdiv 1 (IZR 2) : R) *: ((a0 * jdot (R := RR) v0 x + b0 * jdot (R := RR) v1 x) *: v0 +
       (b0 * jdot (R := RR) v0 x + a1 * jdot (R := RR) v1 x) *: v1) + x =
     nth 0 [:: vec 1 0 0; vec 0 1 0; vec 0 0 1] k) ->
  nth 0 c 1 (@Ordinal 3 1 isT) ord0 = w -> exists v, reports (report eigh data) v /\ adata v = [:: w].
Proof.
move=> He Hd Hf EG Ev0 E1 E2 E3 E4 E5 E6 E7 Hc <-.
have N0 : norm2 (R := RR) v0 = 1 by rewrite Ev0; apply: (vec_norm ler01); change (Rplus (Rmult R1 R1) (Rplus (Rmult R0 R0) (Rmult R0 R0)) = Rmult R1 R1); ring.
have [b1 [v2 EL]] := @run2 RR G v0 v1 w0' w1 a0 b0 a1 1 N0 E1 E2 E3 E4 (lt_le_trans ltr01 E4) E5 E6 E7.
have Ec : cv_of (get_size w0) [:: 1; 0; 0] = v0.
  by rewrite Ev0; apply/colP => -[[|[|[|//]]] Hi]; rewrite !mxE.
have v00 : cv_of (get_size w0) [:: 1; 0; 0] != 0 :> 'cV[R]_(get_size w0).
  rewrite Ec; apply/eqP => E; move: N0; rewrite E /norm2 /jdot mulmx0 mxE sqrtr0 => /eqP.
  by rewrite eq_sym oner_eq0.
pose P : 'M[R]_3 := (Rdiv 1 (IZR 2) : R) *: (basis_mx 2 [:: v0; v1; v2] *m construct_tridiagonal (R := RR) 2 [:: a0; a1] [:: b0; b1] *m (basis_mx 2 [:: v0; v1; v2])^T) + (1 / 1)%:M.
have [ps Eps HP] : exists2 ps, laplace_posterior_lanczos 1 model jv vj eigh (@zeros unit) w0 data "mse" None None args
    (Some (Rdiv 1 (IZR 2))) 1 1 true = (true, Ok ps) & @posterior_with w0 (invmx P) ps.
  apply: (@lanczos_operator nat unit 1 model jv vj eigh (@zeros unit) w0 data "mse" None None 1 (fun _ => out) J args
    [:: 1; 0; 0] (Some (Rdiv 1 (IZR 2))) 1 1 true [:: a0; a1] [:: b0; b1] [:: v0; v1; v2]) => //.
  - by left.
  - exact: md_data.
  - by apply/RleP; change (Rle R0 (Rdiv R1 (IZR 2))); lra.
  - by split=> //; left.
  - by rewrite Ec [ggn_matrix _ _ _ _ _ _ _]EG; exact: EL.
  - by move=> [|//] _; rewrite /=; apply: lt0r_neq0; exact: lt_le_trans E4.
  - apply: He; apply/matrixP => -[[|[|//]] Hi] -[[|[|//]] Hj]; by rewrite !mxE.
have [[n0 Hs Mx [P0 HJ N1 Hsm Hv]] Ho] := md_point 2%N.
have [r F1 R1] := @C54_predictive nat unit (fun k n => nseq n k) (fun _ sh => nseq (prodn sh) 0) tt model jv vj w0 (invmx P) ps
  (fun _ => out) J None (kw0 None) [:: SVar] 2%N HP Mx P0 HJ N1 Hsm Ho.
have [v [V1 _ S1 D1]] := report_var Hv R1.
exists v; split; first by rewrite /report Eps; exists r.
have S1' : size (adata v) = 1%N by rewrite S1.
apply: (@eq_from_nth _ 0); first by rewrite S1'.
rewrite S1' => -[|//] _; have := D1 (@Ordinal 1 0 isT) => ->.
have Pc (k : nat) : (k < 3)%N -> P *m nth 0 c k = nth 0 [:: vec 1 0 0; vec 0 1 0; vec 0 0 1] k.
  by move=> Hk; rewrite -(Hc k Hk) /P divr1 mulmxDl mul1mx -scalemxAl compress2.
have := @middle_inverse P c (of_entries 1 3 (J 2)) (Pc 0%N isT) (Pc 1%N isT) (Pc 2%N isT).
have HL j : of_entries 1 3 (J 2) ord0 j = vec 0 1 0 j ord0 by rewrite !mxE; case: j => -[|[|[|//]]] Hj.
by move=> /(_ HL) <-; congr (fun_of_matrix _ _ _); apply: val_inj.
Qed.

Lemma vecE a b c x y z : a = x -> b = y -> c = z -> vec a b c = vec x y z.
Proof. by move=> -> -> ->. Qed.

Lemma more_first eigh : (forall M : 'M[R]_2, M^T = M -> eigh_correct (R := RR) M (eigh 2%N M)) ->
  exists v, reports (report eigh first) v /\ adata v = [:: Rdiv (IZR 2) (IZR 11)].
Proof.
move=> He.
apply: (@md_run eigh first _ (IZR 2) (IZR 6) (IZR 18) (vec (IZR 1) (IZR 0) (IZR 0)) (vec (IZR 0) (IZR 1) (IZR 0))
  (vec (IZR 2) (IZR 6) (IZR 0)) (vec (IZR 6) (IZR 18) (IZR 0))
  [:: vec (Rdiv (IZR 10) (IZR 11)) (Ropp (Rdiv (IZR 3) (IZR 11))) (IZR 0);
      vec (Ropp (Rdiv (IZR 3) (IZR 11))) (Rdiv (IZR 2) (IZR 11)) (IZR 0); vec (IZR 0) (IZR 0) (IZR 1)] _ He).
- by move=> d [<-|].
- by rewrite /curv_scaling_factor divff ?pnatr_eq0.
- exact: first_ggn.
- by [].
- by rewrite mat_vec; apply: vecE; eqR; ring.
- by rewrite vec_dot; eqR; ring.
- rewrite vec_scale vec_sub; apply: vec_norm; last by eqR; ring.
  by apply/RleP; change (Rle (IZR 0) (IZR 6)); lra.
- by apply/RleP; change (Rle (IZR 1) (IZR 6)); lra.
- rewrite vec_scale vec_sub vec_scale -RinvE; last by apply/eqP; change (IZR 6 <> IZR 0); apply: not_0_IZR.
  by apply: vecE; eqR; field.
- by rewrite mat_vec; apply: vecE; eqR; ring.
- by rewrite vec_dot; eqR; ring.
- move=> [|[|[|//]]] _ /=; rewrite !vec_dot !vec_scale vec_add vec_scale vec_add; apply: vecE; eqR; toR; field.
- by rewrite mxE.
Qed.

Lemma more_both eigh : (forall M : 'M[R]_2, M^T = M -> eigh_correct (R := RR) M (eigh 2%N M)) ->
  exists v, reports (report eigh both) v /\ adata v = [:: Rdiv (IZR 1534) (IZR 1975)].
Proof.
move=> He.
apply: (@md_run eigh both _ (IZR 10) (IZR 10) (Rdiv (IZR 58) (IZR 5)) (vec (IZR 1) (IZR 0) (IZR 0))
  (vec (IZR 0) (Rdiv (IZR 3) (IZR 5)) (Rdiv (IZR 4) (IZR 5)))
  (vec (IZR 10) (IZR 6) (IZR 8)) (vec (IZR 10) (Rdiv (IZR 54) (IZR 5)) (Rdiv (IZR 32) (IZR 5)))
  [:: vec (Rdiv (IZR 34) (IZR 79)) (Ropp (Rdiv (IZR 15) (IZR 79))) (Ropp (Rdiv (IZR 20) (IZR 79)));
      vec (Ropp (Rdiv (IZR 15) (IZR 79))) (Rdiv (IZR 1534) (IZR 1975)) (Ropp (Rdiv (IZR 588) (IZR 1975)));
      vec (Ropp (Rdiv (IZR 20) (IZR 79))) (Ropp (Rdiv (IZR 588) (IZR 1975))) (Rdiv (IZR 1191) (IZR 1975))] _ He).
- by move=> d [<-|[<-|]].
- by rewrite /curv_scaling_factor divff ?pnatr_eq0.
- exact: both_ggn.
- by [].
- by rewrite mat_vec; apply: vecE; eqR; ring.
- by rewrite vec_dot; eqR; ring.
- rewrite vec_scale vec_sub; apply: vec_norm; last by eqR; ring.
  by apply/RleP; change (Rle (IZR 0) (IZR 10)); lra.
- by apply/RleP; change (Rle (IZR 1) (IZR 10)); lra.
- rewrite vec_scale vec_sub vec_scale -RinvE; last by apply/eqP; change (IZR 10 <> IZR 0); apply: not_0_IZR.
  by apply: vecE; eqR; field.
- by rewrite mat_vec; apply: vecE; eqR; field.
- by rewrite vec_dot; eqR; field.
- move=> [|[|[|//]]] _ /=; rewrite !vec_dot !vec_scale vec_add vec_scale vec_add; apply: vecE; eqR; toR; field.
- by rewrite mxE.
Qed.

(** With a Lanczos approximation of rank 2 and the same start vector, adding a data point can raise a
    reported variance, with every assumption of the pipeline met and every eigendecomposition exact:
    here from 2/11 to 1534/1975.  Monotonicity in the data ([C50_more_data]) is a property of the full
    and the diagonal approximation only. *)
Theorem C50_lanczos_more_data_refuted :
  exists (model : nat -> tree (arr R) -> res (arr R)) jv vj (t : tree (arr R)) (pred : nat -> arr R) J
    (args : lanczos_args unit) (data : seq (nat * arr R)) d x s2,
  [/\ test_point model jv vj t "mse" pred J (kw0 None) [:: SVar] x,
      data_ok 1 model jv vj t pred J (data ++ [:: d]), la_rank args = 2%N & 0 < odflt (1 : R) s2] /\
  forall eigh : forall k : nat, 'M[R]_k -> 'cV[R]_k * 'M[R]_k,
  (forall M : 'M[R]_2, M^T = M -> eigh_correct (R := RR) M (eigh 2%N M)) ->
  let report data :=
    let: (flag, ps) := laplace_posterior_lanczos 1 model jv vj eigh (fun _ k => nseq k 0) t data "mse" None None args s2 1 1 true in
    linearised_predictive (fun k n => nseq n k) (fun _ sh => nseq (prodn sh) 0) tt model jv vj t ps None
      (@lin_setup RR nat :: [seq stat_fn o | o <- [:: SVar]]) (kw0 None) x in
  exists v1 v2, [/\ reports (report data) v1, reports (report (data ++ [:: d])) v2 &
    nth 0 (adata v1) 0 < nth 0 (adata v2) 0].
Proof.
exists model, jv, vj, w0, (fun _ => out), J, args, first, (1%N, out), 2%N, (Some (Rdiv 1 (IZR 2))).
split; first split.
- exact: md_point.
- by apply: md_data => d [<-|[<-|]].
- by [].
- by apply/RltP; change (Rlt R0 (Rdiv R1 (IZR 2))); lra.
move=> eigh He report0.
have [v1 [R1 E1]] := more_first He; have [v2 [R2 E2]] := more_both He.
exists v1, v2; split; [exact: R1 | exact: R2 |].
rewrite E1 E2 /=; apply/RltP; lra.
Qed.
End Counterexample.
Print Assumptions C50_lanczos_more_data_refuted.
(** Such an [eigh] exists. *)
Check eigh2_exists.
