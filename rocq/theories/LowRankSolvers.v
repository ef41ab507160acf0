(** Model of laplax/curv/lanczos.py, laplax/curv/lobpcg.py and [get_matvec]
    (laplax/curv/utils.py), in exact arithmetic over a real closed field.  Conversions between
    float32 and float64 are identities on values; only the precision they leave is tracked. *)
From mathcomp Require Import all_ssreflect all_algebra.
From Verif Require Import Base PyTree Mv Posterior.
Set Implicit Arguments.
Unset Strict Implicit.
Unset Printing Implicit Defensive.
Import GRing.Theory Num.Theory.
Local Open Scope ring_scope.

(** A Python [for] loop whose body may raise. *)
Fixpoint foldM (S I : Type) (f : S -> I -> res S) (s : S) (xs : seq I) : res S :=
  match xs with
  | [::] => Ok s
  | x :: xs' => let! s' := f s x in foldM f s' xs'
  end.

Section Solvers.
Variable R : rcfType.
Notation ptree := (tree (arr R)).

(** [jnp.dot] and [jnp.linalg.norm(_, 2)] of 1-D arrays. *)
Definition jdot (n : nat) (u v : 'cV[R]_n) : R := (u^T *m v) ord0 ord0.
Definition norm2 (n : nat) (v : 'cV[R]_n) : R := Num.sqrt (jdot v v).

(** utils.py:53-100 [get_matvec]; [jit] does not change values.  A dense [A] must be 2-D. *)
Definition get_matvec (A : operand R) (l : layout R) : res ((seq R -> res (seq R)) * nat) :=
  match A with
  | Dense a =>
      match ashape a with
      | [::] => Raise IndexError
      | [:: n; m] =>
          Ok (fun x => let! y := matvec_rows [:: n] (rows_of n m (adata a)) x in Ok (adata y), n)
      | _ => Raise Unmodelled
      end
  | Callable mv =>
      match l with
      | LNone => Raise TypeError
      | LInt n => Ok (fun x => let! u := mv (Leaf (Arr [:: size x] x)) in
                               if u is Leaf (Arr [:: _] d) then Ok d else Raise Unmodelled, n)
      | LTree t => Ok (flatten_function mv t, get_size t)
      end
  end.

(** A function on 1-D arrays seen on vectors of length [n]; a result of another length does not
    broadcast against the vectors of the iteration (TypeError; length-1 results are left out). *)
Definition on_vectors (n : nat) (f : seq R -> res (seq R)) (v : 'cV[R]_n) : res 'cV[R]_n :=
  let! d := f (of_cv v) in
  if size d == n then Ok (cv_of n d) else Raise TypeError.

(** ** lanczos.py *)
Section Lanczos.
Variable n : nat.
Variable matvec : 'cV[R]_n -> res 'cV[R]_n.

(** lanczos.py:48-53 [reorthogonalize]: one sweep of modified Gram-Schmidt against rows
    0 .. i-1. *)
Definition reorthogonalize (w : 'cV[R]_n) (V : seq 'cV[R]_n) (i : nat) : 'cV[R]_n :=
  foldl (fun w_acc j => let coeff := jdot (nth 0 V j) w_acc in w_acc - coeff *: nth 0 V j)
        w (iota 0 i).

Record lanczos_state := LState {
  ls_v : 'cV[R]_n; ls_alpha : seq R; ls_beta : seq R; ls_V : seq 'cV[R]_n }.

(** lanczos.py:56-75 [iteration_step]. *)
Definition iteration_step (full_reorthogonalize : bool) (tol : R) (w : 'cV[R]_n)
    (s : lanczos_state) (i : nat) : lanczos_state :=
  let v := ls_v s in
  let a := jdot v w in
  let w := w - a *: v in
  let w := if full_reorthogonalize
           then reorthogonalize (reorthogonalize w (ls_V s) i) (ls_V s) i else w in
  let b_val := norm2 w in
  let b_val := if b_val < tol then 0 else b_val in
  let v_next := if 0 < b_val then b_val^-1 *: w else v in
  LState v_next (at_set i a (ls_alpha s)) (at_set i b_val (ls_beta s)) (at_set i.+1 v_next (ls_V s)).

(** lanczos.py:77-81 [_body_fn]. *)
Definition lanczos_body (full : bool) (tol : R) (s : lanczos_state) (i : nat) : res lanczos_state :=
  let! w := matvec (ls_v s) in Ok (iteration_step full tol w s i).

(** lanczos.py:9-95 [lanczos_iterations]: the scan ([mv_jit=True]) and the Python loop compute
    the same.  A zero start vector divides 0 by 0 (NaN in jax, 0 in the model; theorems exclude
    it). *)
Definition lanczos_iterations (b : 'cV[R]_n) (maxiter : nat) (tol : R) (full : bool) :
    res (seq R * seq R * seq 'cV[R]_n) :=
  let v0 := (norm2 b)^-1 *: b in
  let init := LState v0 (nseq maxiter 0) (nseq maxiter 0) (at_set 0 v0 (nseq maxiter.+1 0)) in
  let! s := foldM (lanczos_body full tol) init (iota 0 maxiter) in
  Ok (ls_alpha s, ls_beta s, ls_V s).
End Lanczos.

(** lanczos.py:98-117 [construct_tridiagonal] for [k = alpha.shape[0]]. *)
Definition construct_tridiagonal (k : nat) (alpha beta : seq R) : 'M[R]_k :=
  \matrix_(i, j) (if (i == j :> nat) then nth 0 alpha i
                  else if (j == i.+1 :> nat) then nth 0 beta i
                  else if (i == j.+1 :> nat) then nth 0 beta j else 0).

(** [jnp.linalg.eigh]: eigenvalues (ascending) and eigenvectors, as an oracle. *)
Variable eigh : forall k : nat, 'M[R]_k -> 'cV[R]_k * 'M[R]_k.

(** lanczos.py:120-143 [compute_eigendecomposition] with [compute_vectors=True]; [V[:-1].T]. *)
Definition compute_eigendecomposition (n k : nat) (alpha beta : seq R) (V : seq 'cV[R]_n) :
    'cV[R]_k * 'M[R]_(n, k) :=
  let T := construct_tridiagonal k alpha beta in
  let: (eigvals, eigvecs) := eigh T in
  let V_matrix := \matrix_(i < n, j < k) nth 0 (butlast V) j i ord0 in
  (eigvals, V_matrix *m eigvecs).

(** Precisions, and what [jnp.asarray(x, dtype=d)] leaves under the global flag
    [jax_enable_x64]: without it float64 is truncated to float32. *)
Inductive dtype := Float32 | Float64.
Definition dtype_eqb (a b : dtype) : bool :=
  match a, b with Float32, Float32 | Float64, Float64 => true | _, _ => false end.
Definition asarray_dtype (x64 : bool) (d : dtype) : dtype := if x64 then d else Float32.
Definition default_dtype (x64 : bool) (d : option dtype) : dtype :=
  if d is Some d' then d' else if x64 then Float64 else Float32.

(** Computations that may raise and that read and write the global flag [jax_enable_x64]; an
    exception leaves the flag as it is at that point. *)
Definition flagged (A : Type) : Type := bool -> bool * res A.
Definition fret (A : Type) (a : A) : flagged A := fun x64 => (x64, Ok a).
Definition fbind (A B : Type) (m : flagged A) (f : A -> flagged B) : flagged B :=
  fun x64 => match m x64 with
             | (x64', Ok a) => f a x64'
             | (x64', Raise e) => (x64', Raise e)
             end.
Definition flift (A : Type) (r : res A) : flagged A := fun x64 => (x64, r).
(** [jax.config.read("jax_enable_x64")], [jax.config.update("jax_enable_x64", v)]. *)
Definition config_read : flagged bool := fun x64 => (x64, Ok x64).
Definition config_update (v : bool) : flagged unit := fun _ => (v, Ok tt).
Notation "'do!' x '<-' m ';' k" := (fbind m (fun x => k))
  (at level 200, x name, m at level 100, k at level 200).

(** The returned dataclass: terms of some size and rank, and the precision of its arrays. *)
Record low_rank_result := LowRankResult {
  res_n : nat; res_r : nat; res_terms : low_rank_terms R res_n res_r; res_dtype : dtype }.
Arguments LowRankResult {res_n res_r} _ _.

Section LowRankCalls.
(** [jax.random.normal(key, (size,))] and [jax.random.normal(key, (size, rank))]. *)
Variables (Key : Type) (normal : Key -> nat -> seq R) (normal2 : Key -> forall n r, 'M[R]_(n, r)).
Variable key0 : Key.

(** [jnp.asarray(x, dtype=d)] of the returned terms. *)
Definition return_terms (n r : nat) (t : low_rank_terms R n r) (d : dtype) : flagged low_rank_result :=
  do! x64 <- config_read; fret (LowRankResult t (asarray_dtype x64 d)).

(** lanczos.py:146-244 [lanczos_lowrank].  The flag is written before [get_matvec] and before the
    argument check, and restored only at the end.  ([mv_dtype] only casts.) *)
Definition lanczos_lowrank (A : operand R) (key : option Key) (b : option (seq R)) (l : layout R)
    (rank : nat) (tol : R) (mv_dtype : option dtype) (calc_dtype : dtype)
    (return_dtype : option dtype) (full : bool) : flagged low_rank_result :=
  do! original <- config_read;
  do! _ <- config_update (dtype_eqb calc_dtype Float64);
  do! ms <- flift (get_matvec A l);
  let: (matvec, sz) := ms in
  do! b <- flift (match b, key with
                  | Some b, _ => Ok b
                  | None, Some key => Ok (normal key sz)
                  | None, None => Raise ValueError
                  end);
  let n := size b in
  do! abV <- flift (lanczos_iterations (on_vectors matvec) (cv_of n b) rank tol full);
  let: (alpha, beta, V) := abV in
  let: (eigvals, eigvecs) := compute_eigendecomposition rank alpha beta V in
  do! result <- return_terms (LowRankTerms eigvecs eigvals 0) (default_dtype original return_dtype);
  do! _ <- config_update original;
  fret result.

(** ** lobpcg.py *)

(** [jax.vmap(matvec, in_axes=-1, out_axes=-1)]. *)
Definition matmat (n : nat) (matvec : 'cV[R]_n -> res 'cV[R]_n) (c : nat) (X : 'M[R]_(n, c)) :
    res 'M[R]_(n, c) :=
  let! cols := mapM (fun j => matvec (col j X)) (enum 'I_c) in
  Ok (\matrix_(i, j) nth 0 cols j i ord0).

(** [X / s[newaxis, :]], [X * s[newaxis, :]] and column norms. *)
Definition div_cols (n c : nat) (X : 'M[R]_(n, c)) (s : 'I_c -> R) : 'M[R]_(n, c) :=
  \matrix_(i, j) (X i j / s j).
Definition mul_cols (n c : nat) (X : 'M[R]_(n, c)) (s : 'I_c -> R) : 'M[R]_(n, c) :=
  \matrix_(i, j) (X i j * s j).
Definition col_norm (n c : nat) (X : 'M[R]_(n, c)) (j : 'I_c) : R := norm2 (col j X).
Definition b2R (b : bool) : R := if b then 1 else 0.

(** jax's [_eigh_ascending] returns the eigenvalues in descending order. *)
Definition eigh_ascending (k : nat) (M : 'M[R]_k) : 'cV[R]_k * 'M[R]_k :=
  let: (w, V) := eigh M in (\col_i w (rev_ord i) ord0, \matrix_(i, j) V i (rev_ord j)).

(** Oracles: [jnp.finfo(dtype).eps], the [q] of [jnp.linalg.qr], and [jnp.linalg.svd] of a square
    matrix ([u], [s], [vt]). *)
Variables (eps : R) (qr : forall a c, 'M[R]_(a, c) -> 'M[R]_(a, c))
  (svd : forall k, 'M[R]_k -> 'M[R]_k * 'cV[R]_k * 'M[R]_k).

(** Row [i] of an array, by a number; 0 beyond the end. *)
Definition row_at (n c : nat) (X : 'M[R]_(n, c)) (i : nat) (j : 'I_c) : R :=
  if insub i is Some i' then X i' j else 0.

(** lobpcg.py:229-240 [_extend_basis] with [m = k], the only call (lobpcg.py:124), on an array with
    [k + q] rows: [X[:k]] is [Xupper], [X[k:]] is [Xlower]; [other] has the shape [(q, k)] with the
    identity on top ([n - k - m >= 0] is guaranteed by [_check_inputs]). *)
Definition extend_upper (n k : nat) (X : 'M[R]_(n, k)) : 'M[R]_k := \matrix_(i, j) row_at X i j.
Definition extend_with (q n k : nat) (X : 'M[R]_(n, k)) : 'M[R]_(n, k) :=
  let: (u, s, vt) := svd (extend_upper X) in
  let y : 'M[R]_(n, k) := \matrix_(i, j) (X i j + row_at (u *m vt) i j) in
  let other : 'M[R]_(q, k) := \matrix_(i, j) b2R ((i : nat) == (j : nat)) in
  let w := y *m mul_cols vt^T (fun j => (Num.sqrt (2%:R * (1 + s j ord0)))^-1) in
  let wlow : 'M[R]_(q, k) := \matrix_(i, j) row_at w (k + i) j in
  let h := - 2%:R *: (w *m wlow^T *m other) in
  \matrix_(i, j) (h i j + if (k <= i)%N then row_at other (i - k) j else 0).
Definition extend_basis (n k : nat) (X : 'M[R]_(n, k)) : 'M[R]_(n, k) := extend_with (n - k) X.

(** lobpcg.py:208-226 [_svqb]; [inner] of a matrix without columns has no [w[0]] (left out). *)
Definition svqb (n c : nat) (X : 'M[R]_(n, c.+1)) : 'M[R]_(n, c.+1) :=
  let X := div_cols X (fun j => if col_norm X j == 0 then 1 else col_norm X j) in
  let inner := X^T *m X in
  let: (w, V) := eigh_ascending inner in
  let tau := eps * w ord0 ord0 in
  let padded j := Num.max (w j ord0) tau in
  let sqrted j := (Num.sqrt (if 0 < tau then padded j else 1))^-1 in
  let scaledV := mul_cols V sqrted in
  let orthoX := X *m scaledV in
  let keep j := (tau < w j ord0) && (0 < inner j j) in
  let orthoX := mul_cols orthoX (fun j => b2R (keep j)) in
  let keep j := keep j && (0 < col_norm orthoX j) in
  div_cols orthoX (fun j => if keep j then col_norm orthoX j else 1).

(** lobpcg.py:201-205 [_orthonormalize]. *)
Definition orthonormalize (n c : nat) (X : 'M[R]_(n, c.+1)) : 'M[R]_(n, c.+1) := svqb (svqb X).

(** lobpcg.py:243-260 [_project_out]. *)
Definition project_out (n a c : nat) (basis : 'M[R]_(n, a)) (U : 'M[R]_(n, c.+1)) : 'M[R]_(n, c.+1) :=
  let proj (U : 'M[R]_(n, c.+1)) := U - basis *m (basis^T *m U) in
  let U := orthonormalize (proj U) in
  let U := orthonormalize (proj U) in
  let U := proj (proj U) in
  mul_cols U (fun j => b2R (99%:R / 100%:R <= col_norm U j)).

Section Iteration.
Variables (n k' : nat).
Notation k := k'.+1.
Variable A : forall c, 'M[R]_(n, c) -> res 'M[R]_(n, c).

Record lobpcg_state := LobState {
  lo_X : 'M[R]_(n, k); lo_P : 'M[R]_(n, k); lo_R : 'M[R]_(n, k); lo_theta : 'cV[R]_k }.

(** lobpcg.py:133-154 [_iteration_first_step] on [XPR] and [AS] (with [_rayleigh_ritz_orth],
    lobpcg.py:263-278). *)
Definition iteration_first_step (S AS : 'M[R]_(n, k + (k + k))) :
    'M[R]_(n, k) * 'M[R]_(n, k) * 'cV[R]_(k + (k + k)) :=
  let: (theta, Q) := eigh_ascending (S^T *m AS) in
  let B := lsubmx Q in
  let B := div_cols B (col_norm B) in
  let X := S *m B in
  let X := div_cols X (col_norm X) in
  let q := qr (ursubmx Q)^T in
  let P := S *m (rsubmx Q *m q) in
  let P := div_cols P (fun j => if col_norm P j == 0 then 1 else col_norm P j) in
  (X, P, theta).

(** lobpcg.py:156-171 [_iteration_second_step]: new residuals and the number of converged
    columns. *)
Definition iteration_second_step (tol : R) (X AX : 'M[R]_(n, k)) (theta : 'cV[R]_k) :
    'M[R]_(n, k) * nat :=
  let Rs := AX - mul_cols X (fun j => theta j ord0) in
  let reltol j := (col_norm AX j + theta j ord0) * n%:R * 10%:R in
  (Rs, count (fun j => col_norm Rs j < tol * reltol j) (enum 'I_k)).

(** lobpcg.py:173-176 and the loop body, lobpcg.py:180-196. *)
Definition lobpcg_body (tol : R) (s : lobpcg_state) : res (lobpcg_state * nat) :=
  let R1 := project_out (row_mx (lo_X s) (lo_P s)) (lo_R s) in
  let S := row_mx (lo_X s) (row_mx (lo_P s) R1) in
  let! AS := A S in
  let: (X, P, theta) := iteration_first_step S AS in
  let theta := usubmx theta in
  let! AX := A X in
  let: (Rs, converged) := iteration_second_step tol X AX theta in
  Ok (LobState X P Rs theta, converged).

(** lobpcg.py:178-196: [while i < m and converged < k]; [fuel] is [m - i]. *)
Fixpoint lobpcg_loop (tol : R) (fuel : nat) (s : lobpcg_state) (converged i : nat) :
    res (lobpcg_state * nat) :=
  match fuel with
  | 0 => Ok (s, i)
  | fuel'.+1 =>
      if (converged < k)%N then
        let! sc := lobpcg_body tol s in
        lobpcg_loop tol fuel' sc.1 sc.2 i.+1
      else Ok (s, i)
  end.

(** jax.experimental.sparse.linalg._check_inputs: search dimension times five below the
    matrix dimension, and one application of [A] to a zero column. *)
Definition check_inputs : res unit :=
  if (n <= k * 5)%N then Raise ValueError
  else let! _ := A (0 : 'M[R]_(n, 1)) in Ok tt.

(** lobpcg.py:82-198 [lobpcg_standard] with [A_jit=False]. *)
Definition lobpcg_standard (X : 'M[R]_(n, k)) (m : nat) (tol : option R) :
    res ('cV[R]_k * 'M[R]_(n, k) * nat) :=
  let! _ := check_inputs in
  let tol := if tol is Some t then t else eps in
  let X := orthonormalize X in
  let P := extend_basis X in
  let! AX := A X in
  let theta := \col_j (X^T *m AX) j j in
  let Rs := AX - mul_cols X (fun j => theta j ord0) in
  let! si := lobpcg_loop tol m (LobState X P Rs theta) 0 0 in
  Ok (lo_theta si.1, lo_X si.1, si.2).
End Iteration.

(** [jax.experimental.sparse.linalg.lobpcg_standard], used when [A_jit=True]: an oracle that
    starts with the same input check. *)
Variable jax_lobpcg : forall n k : nat, (forall c, 'M[R]_(n, c) -> res 'M[R]_(n, c)) ->
  'M[R]_(n, k) -> nat -> option R -> res ('cV[R]_k * 'M[R]_(n, k) * nat).
Definition lobpcg_call (A_jit : bool) (n k' : nat) (A : forall c, 'M[R]_(n, c) -> res 'M[R]_(n, c))
    (X : 'M[R]_(n, k'.+1)) (m : nat) (tol : option R) :=
  if A_jit then
    let! _ := check_inputs k' A in jax_lobpcg A X m tol
  else lobpcg_standard A X m tol.

(** lobpcg.py:367-371: the adjusted rank. *)
Definition clip_rank (size rank : nat) : nat :=
  if (size < rank * 5)%N then maxn 1 (size %/ 5).-1 else rank.

(** lobpcg.py:281-407 [lobpcg_lowrank] ([rank >= 1]). *)
Definition lobpcg_lowrank (A : operand R) (key : option Key) (l : layout R) (rank : nat)
    (tol : option R) (mv_dtype : option dtype) (calc_dtype : dtype) (return_dtype : option dtype)
    (mv_jit : bool) : flagged low_rank_result :=
  do! original <- config_read;
  do! _ <- config_update (dtype_eqb calc_dtype Float64);
  do! ms <- flift (get_matvec A l);
  let: (matvec, sz) := ms in
  let rank := clip_rank sz rank in
  match rank with
  | 0 => flift (Raise Unmodelled)
  | k'.+1 =>
      let key := if key is Some key then key else key0 in
      let X : 'M[R]_(sz, k'.+1) := normal2 key sz k'.+1 in
      do! r <- flift (lobpcg_call mv_jit (@matmat sz (@on_vectors sz matvec)) X rank tol);
      let: (eigenvals, eigenvecs, _) := r in
      do! result <- return_terms (LowRankTerms eigenvecs eigenvals 0)
                                 (default_dtype original return_dtype);
      do! _ <- config_update original;
      fret result
  end.
End LowRankCalls.
End Solvers.
