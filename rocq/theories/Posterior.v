(** Model of laplax/curv/full.py, diagonal.py, low_rank.py (except the eigenvalue solvers)
    and of the posterior part of laplax/curv/cov.py, over an arbitrary real closed field. *)
From Coq Require Import String.
From mathcomp Require Import all_ssreflect all_algebra.
From Verif Require Import Base PyTree Mv.
Set Implicit Arguments.
Unset Strict Implicit.
Unset Printing Implicit Defensive.
Import GRing.Theory Num.Theory.
Local Open Scope ring_scope.

Section Linalg.
Variable R : rcfType.

(** [jnp.flip(A, axis=(-2, -1))]. *)
Definition flip (n : nat) (A : 'M[R]_n) : 'M[R]_n := \matrix_(i, j) A (rev_ord i) (rev_ord j).

(** The factorisation loop behind [jnp.linalg.cholesky] on a symmetric matrix: outer-product
    Cholesky, reading the lower triangle.  [None] stands for the NaN-filled result that jax
    returns when a pivot is not positive (LAPACK potrf). *)
Fixpoint potrf (n : nat) : 'M[R]_n -> option 'M[R]_n :=
  match n return 'M[R]_n -> option 'M[R]_n with
  | 0 => fun _ => Some 0
  | m.+1 => fun A : 'M[R]_(1 + m) =>
      let a := A ord0 ord0 in
      if a <= 0 then None
      else
        let l := Num.sqrt a in
        let c := l^-1 *: dlsubmx A in
        match potrf (drsubmx A - c *m c^T) with
        | None => None
        | Some L' => Some (block_mx l%:M 0 c L' : 'M[R]_(1 + m))
        end
  end.
(** [jnp.linalg.cholesky]: [symmetrize_input=True] by default. *)
Definition cholesky (n : nat) (A : 'M[R]_n) : option 'M[R]_n := potrf (2%:R^-1 *: (A + A^T)).

(** [jax.scipy.linalg.solve_triangular(a, b, trans="T")] with the default [lower=False]:
    reads the upper triangle of [a] and solves [a^T x = b]. *)
Definition triu (n : nat) (A : 'M[R]_n) : 'M[R]_n := \matrix_(i, j) (if (i <= j)%N then A i j else 0).
Definition solve_triangular_T (n : nat) (a b : 'M[R]_n) : 'M[R]_n := invmx (triu a)^T *m b.

(** [prior_arguments]: a dict of which only the two keys below are read. *)
Record prior_arguments := PriorArguments { prior_prec : option R; sigma_squared : option R }.
Definition get_prior_prec (pa : prior_arguments) : res R :=
  if prior_prec pa is Some t then Ok t else Raise KeyError.
Definition get_sigma_squared (pa : prior_arguments) : R :=
  if sigma_squared pa is Some s then s else 1.

(** ** full.py *)
Section Full.
Variable n : nat.
(** full.py:58-83 [full_curvature_to_precision].  (A zero loss_scaling_factor gives inf/nan
    entries in jax; the model divides as a field does, theorems assume it non-zero.) *)
Definition full_curvature_to_precision (curv : 'M[R]_n) (pa : prior_arguments) (lsf : R) :
    res 'M[R]_n :=
  let! tau := get_prior_prec pa in
  Ok (lsf^-1 *: (get_sigma_squared pa *: curv + tau *: 1%:M)).
(** full.py:86-105 [full_prec_to_scale].  [jnp.transpose(x, axes=(-2, -1))] of a matrix is
    the identity permutation of the axes, hence the name [L_inv] is misleading. *)
Definition full_prec_to_scale (prec : 'M[R]_n) : option 'M[R]_n :=
  match cholesky (flip prec) with
  | None => None
  | Some Lf => Some (solve_triangular_T (flip Lf) 1%:M)
  end.
(** full.py:108-125, 128-147, 150-171. *)
Definition full_prec_to_posterior_state (prec : 'M[R]_n) := full_prec_to_scale prec.
Definition full_posterior_state_to_scale (scale : 'M[R]_n) (vec : 'cV[R]_n) : 'cV[R]_n := scale *m vec.
Definition full_posterior_state_to_cov (scale : 'M[R]_n) (vec : 'cV[R]_n) : 'cV[R]_n :=
  let cov := scale *m scale^T in cov *m vec.
End Full.

(** ** diagonal.py *)
Section Diag.
Variable n : nat.
(** diagonal.py:41-66.  [jnp.ones_like(int)] is the scalar 1, which broadcasts. *)
Definition diagonal_curvature_to_precision (curv : 'cV[R]_n) (pa : prior_arguments) (lsf : R) :
    res 'cV[R]_n :=
  let! tau := get_prior_prec pa in
  Ok (\col_i ((get_sigma_squared pa * curv i ord0 + tau * 1) / lsf)).
(** diagonal.py:69-84.  Entries that are not positive give inf/nan in jax; as above. *)
Definition diagonal_prec_to_posterior_state (prec : 'cV[R]_n) : 'cV[R]_n :=
  \col_i Num.sqrt (prec i ord0)^-1.
(** diagonal.py:87-106, 109-128. *)
Definition diagonal_posterior_state_to_scale (scale vec : 'cV[R]_n) : 'cV[R]_n :=
  \col_i (scale i ord0 * vec i ord0).
Definition diagonal_posterior_state_to_cov (scale vec : 'cV[R]_n) : 'cV[R]_n :=
  \col_i ((scale i ord0) ^+ 2 * vec i ord0).
End Diag.

(** ** low_rank.py and [LowRankTerms] (curv/utils.py:28-45) *)
Section LowRank.
Variables n r : nat.
Record low_rank_terms := LowRankTerms { lr_U : 'M[R]_(n, r); lr_S : 'cV[R]_r; lr_scalar : R }.
(** low_rank.py:63-87 [create_low_rank_mv]. *)
Definition create_low_rank_mv (t : low_rank_terms) (vec : 'cV[R]_n) : 'cV[R]_n :=
  lr_scalar t *: vec + lr_U t *m (\col_i (lr_S t i ord0 * ((lr_U t)^T *m vec) i ord0)).
(** low_rank.py:90-116 [low_rank_square]. *)
Definition low_rank_square (t : low_rank_terms) : low_rank_terms :=
  let scalar_sq := lr_scalar t ^+ 2 in
  LowRankTerms (lr_U t) (\col_i ((lr_S t i ord0 + lr_scalar t) ^+ 2 - scalar_sq)) scalar_sq.
(** low_rank.py:119-148 [low_rank_curvature_to_precision]: the incoming scalar is dropped. *)
Definition low_rank_curvature_to_precision (curv : low_rank_terms) (pa : prior_arguments) (lsf : R) :
    res low_rank_terms :=
  let! tau := get_prior_prec pa in
  Ok (LowRankTerms (lr_U curv) (get_sigma_squared pa *: lr_S curv) (tau / lsf)).
(** low_rank.py:151-176 [low_rank_prec_to_posterior_state]. *)
Definition low_rank_prec_to_posterior_state (prec : low_rank_terms) : low_rank_terms :=
  let scalar_sqrt_inv := (Num.sqrt (lr_scalar prec))^-1 in
  LowRankTerms (lr_U prec)
    (\col_i ((Num.sqrt (lr_S prec i ord0 + lr_scalar prec))^-1 - scalar_sqrt_inv))
    scalar_sqrt_inv.
(** low_rank.py:179-195, 198-213. *)
Definition low_rank_posterior_state_to_scale (state : low_rank_terms) := create_low_rank_mv state.
Definition low_rank_posterior_state_to_cov (state : low_rank_terms) :=
  create_low_rank_mv (low_rank_square state).
End LowRank.

(** ** cov.py *)

(** The four per-method tables of cov.py:60-86 at one key.  [to_state] yields [None] where
    jax yields NaNs. *)
Record curv_method (n : nat) (Curv Prec State : Type) := CurvMethod {
  to_precision : Curv -> prior_arguments -> R -> res Prec;
  to_state : Prec -> option State;
  to_scale : State -> 'cV[R]_n -> 'cV[R]_n;
  to_cov : State -> 'cV[R]_n -> 'cV[R]_n }.
Definition full_method n := CurvMethod (@full_curvature_to_precision n)
  (@full_prec_to_posterior_state n) (@full_posterior_state_to_scale n) (@full_posterior_state_to_cov n).
Definition diagonal_method n := CurvMethod (@diagonal_curvature_to_precision n)
  (fun p => Some (diagonal_prec_to_posterior_state p))
  (@diagonal_posterior_state_to_scale n) (@diagonal_posterior_state_to_cov n).
Definition low_rank_method n r := CurvMethod (@low_rank_curvature_to_precision n r)
  (fun p => Some (low_rank_prec_to_posterior_state p))
  (@low_rank_posterior_state_to_scale n r) (@low_rank_posterior_state_to_cov n r).

(** 1-D arrays as vectors. *)
Definition cv_of (n : nat) (s : seq R) : 'cV[R]_n := \col_i nth 0 s i.
Definition of_cv (n : nat) (v : 'cV[R]_n) : seq R := [seq v i ord0 | i <- enum 'I_n].

Notation ptree := (tree (arr R)).
(** A flat operator as a Python function of one 1-D array; other arguments are left out. *)
Definition py_flat_fn (n : nat) (f : 'cV[R]_n -> 'cV[R]_n) (args : seq ptree) (_ : unit) : res ptree :=
  match args with
  | [:: Leaf (Arr [:: m] d)] =>
      if (m == n) && (size d == n) then Ok (Leaf (Arr [:: n] (of_cv (f (cv_of n d)))))
      else Raise TypeError
  | _ => Raise Unmodelled
  end.

(** cov.py:161-167: [flatten], [unflatten] of the layout as functions between PyTrees (a 1-D
    array is a leaf), absent for None and integers. *)
Definition layout_flatten (l : layout R) : option (ptree -> res ptree) :=
  if l is LTree t then Some (fun u => let! d := full_flatten u in Ok (Leaf (Arr [:: size d] d)))
  else None.
Definition layout_unflatten (l : layout R) : option (ptree -> res ptree) :=
  if l is LTree t then
    Some (fun u => if u is Leaf (Arr [:: _] d) then pytree_unflatten t d else Raise Unmodelled)
  else None.

Record posterior (State : Type) := Posterior {
  post_state : State;
  cov_mv : State -> res (seq ptree -> unit -> res ptree);
  scale_mv : State -> res (seq ptree -> unit -> res ptree) }.

(** cov.py:133-207 [set_posterior_fn]; the inner result is [None] where the state is NaN. *)
Definition set_posterior_fn (n : nat) (Curv Prec State : Type) (m : curv_method n Curv Prec State)
    (curv : Curv) (l : layout R) (pa : prior_arguments) (lsf : R) : res (option (posterior State)) :=
  let! prec := to_precision m curv pa lsf in
  match to_state m prec with
  | None => Ok None
  | Some st => Ok (Some (Posterior st
      (wrap_factory (fun s => Ok (py_flat_fn (to_cov m s))) (layout_flatten l) (layout_unflatten l))
      (wrap_factory (fun s => Ok (py_flat_fn (to_scale m s))) (layout_flatten l) (layout_unflatten l))))
  end.

(** full.py:23-55 [create_full_curvature]: for a PyTree layout the operator is wrapped with
    [unflatten]/[flatten] and densified on flat vectors; None is a PyTree without leaves, on which
    the strict zip of [unflatten] fails; an integer layout reaches
    [get_size(layout)], which fails on a Python int (no attribute [shape]). *)
Definition create_full_curvature (mv : ptree -> res ptree) (l : layout R) : res ptree :=
  match l with
  | LInt _ => Raise AttributeError
  | LNone => Raise ValueError
  | LTree t =>
      to_dense (fun u => if u is Leaf (Arr [:: _] d)
                         then let! v := flatten_function mv t d in Ok (Leaf (Arr [:: size v] v))
                         else Raise Unmodelled) (LInt R (get_size t)) None
  end.
(** diagonal.py:17-38. *)
Definition create_diagonal_curvature (mv : ptree -> res ptree) (l : layout R) : res (seq R) :=
  diagonal (Callable mv) l None.
(** A dense 2-D array as a matrix. *)
Definition mx_of (n : nat) (s : seq R) : 'M[R]_n := \matrix_(i, j) nth 0 s (i * n + j).

(** cov.py:210-252 [create_posterior_fn] for the full and the diagonal method. *)
Definition create_posterior_fn_full (mv : ptree -> res ptree) (l : layout R) (pa : prior_arguments)
    (lsf : R) (n : nat) : res (option (posterior 'M[R]_n)) :=
  let! c := create_full_curvature mv l in
  if c is Leaf (Arr _ d) then set_posterior_fn (full_method n) (mx_of n d) l pa lsf
  else Raise Unmodelled.
Definition create_posterior_fn_diagonal (mv : ptree -> res ptree) (l : layout R) (pa : prior_arguments)
    (lsf : R) (n : nat) : res (option (posterior 'cV[R]_n)) :=
  let! d := create_diagonal_curvature mv l in
  set_posterior_fn (diagonal_method n) (cv_of n d) l pa lsf.
End Linalg.
