(** Properties C26 (operands) and C30 (calibration methods), continued. *)
From Coq Require Import String.
From mathcomp Require Import all_ssreflect all_algebra.
From Verif Require Import Base PyTree TreeSpec PyTreeProofs Mv Posterior LowRankSolvers Registry.
Set Implicit Arguments.
Unset Strict Implicit.
Unset Printing Implicit Defensive.
Import GRing.Theory Num.Theory.
Local Open Scope ring_scope.

Lemma dot_sum (R : ringType) (n : nat) (xs ys : seq R) : size xs = n -> size ys = n ->
  dot xs ys = \sum_(0 <= j < n) nth 0 xs j * nth 0 ys j.
Proof.
elim: n xs ys => [|n IH] [|x xs] [|y ys] //; first by rewrite big_nil.
by case=> Hx [Hy]; rewrite big_nat_recl // -IH.
Qed.

(** C26.  A 2-D array as operand: the dimension is the number of rows, the operator is the product with
    the array, and vectors of any length other than the number of columns raise. *)
Theorem C26_get_matvec_dense :
  forall (R : rcfType) (a : arr R) (l : layout R) n m, ashape a = [:: n; m] -> wf_arr a -> (0 < n)%N ->
  exists mv, [/\ get_matvec (Dense a) l = Ok (mv, n),
    forall x, size x = m -> mv x = Ok (mkseq (fun i => \sum_(0 <= j < m) aget a [:: i; j] * nth 0 x j) n) &
    forall x, size x <> m -> mv x = Raise TypeError].
Proof.
move=> R a l n m Hs W n0; rewrite /get_matvec Hs; eexists; split; first reflexivity.
all: have Wd : size (adata a) = (n * m)%N by move/eqP: W; rewrite Hs /= /prodn /= muln1.
all: have Sr i : (i < n)%N -> size (slice (i * m) (i.+1 * m) (adata a)) = m
  by move=> Hi; rewrite size_slice ?leq_mul2r ?leqnSn ?orbT // ?Wd ?leq_mul2r ?Hi ?orbT // mulSn addnK.
- move=> x Hx; rewrite /matvec_rows.
  rewrite (_ : all _ _ = true) /=; last first.
    by apply/allP => r /mapP [i]; rewrite mem_iota add0n => /andP [_ Hi] ->; rewrite Sr // Hx.
  congr Ok; rewrite -map_comp; apply: (@eq_from_nth _ 0); first by rewrite size_map size_iota size_mkseq.
  move=> i; rewrite size_map size_iota => Hi; rewrite nth_mkseq // (nth_map 0%N) ?size_iota // nth_iota // add0n /=.
  rewrite (@dot_sum _ m) ?Sr // !big_nat; apply: eq_bigr => j /= Hj; congr (_ * _).
  rewrite /aget Hs /slice nth_take; last by rewrite mulSn addnK.
  rewrite nth_drop.
  by congr nth; rewrite /ravel_idx /=; rewrite ?muln1 ?addn0.
- move=> x Hx; rewrite /matvec_rows; case: allP => [H|_] //=; case: Hx.
  have /H : slice (0 * m) (1 * m) (adata a) \in rows_of n m (adata a).
    by apply/mapP; exists 0%N => //; rewrite mem_iota.
  by rewrite Sr // => /eqP.
Qed.
Print Assumptions C26_get_matvec_dense.

(** C26.  A callable needs a layout. *)
Theorem C26_get_matvec_no_layout :
  forall (R : rcfType) (mv : tree (arr R) -> res (tree (arr R))), get_matvec (Callable mv) (LNone R) = Raise TypeError.
Proof. by []. Qed.
Print Assumptions C26_get_matvec_no_layout.

(** C30.  After any history of registrations of calibration methods a name stands for the function
    registered last under it, or for what it stood for before. *)
Theorem C30_calibration_methods :
  forall (F : Type) (h : seq (string * F)) (options : dict F) (name : string),
  let now := foldl (fun o c => register_calibration_method c.1 c.2 o) options h in
  ((forall c, List.In c h -> c.1 <> name) -> now name = options name) /\
  forall before f after, h = before ++ (name, f) :: after -> (forall c, List.In c after -> c.1 <> name) ->
    now name = Some f.
Proof.
move=> F h options name.
have K (r : seq (string * F)) o : (forall c, List.In c r -> c.1 <> name) ->
    foldl (fun o c => register_calibration_method c.1 c.2 o) o r name = o name.
  elim: r o => //= c r IH o H; rewrite IH => [|d Hd]; last by apply: H; right.
  rewrite /register_calibration_method /dict_set; case E: (String.eqb name c.1) => //.
  by move/String.eqb_eq: E => E; case: (H c); [left | rewrite E].
split; first exact: K.
move=> before f after -> H; rewrite foldl_cat /= K //.
by rewrite /register_calibration_method /dict_set String.eqb_refl.
Qed.
Print Assumptions C30_calibration_methods.

Example C30_calibration_example :
  foldl (fun o c => register_calibration_method c.1 c.2 o) (fun _ => None)
    [:: ("a"%string, 1%N); ("b"%string, 2%N); ("a"%string, 3%N)] "a"%string = Some 3%N.
Proof. by []. Qed.
Example C26_get_matvec_example (R : rcfType) :
  exists mv, get_matvec (Dense (Arr [:: 1; 2]%N [:: 2%:R; 3%:R : R])) (LNone R) = Ok (mv, 1%N) /\ mv [:: 1; 1] = Ok [:: 5%:R].
Proof.
eexists; split; first reflexivity.
by rewrite /matvec_rows /= /dot /=; congr Ok; rewrite !mulr1 addr0 -natrD.
Qed.
