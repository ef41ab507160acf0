(** Properties C49-C50: the whole pipeline, from data to predictive distribution. *)
From Coq Require Import Reals String.
From mathcomp Require Import all_ssreflect all_algebra.
From Verif Require Import Base RealStruct PyTree TreeSpec Mv PyTreeProofs MvProofs
  TreeOpsProofs GgnSpec Ggn GgnProofs Posterior PosteriorSpec PosteriorProofs PosteriorTree
  EvalUtils Pushforward PushforwardSpec PushforwardProofs PipelineSpec TreeGgn Pipeline PipelineProofs.
From Verif Require Import P_Ggn P_Posterior P_Pushforward.
Set Implicit Arguments.
Unset Strict Implicit.
Unset Printing Implicit Defensive.
Import GRing.Theory Num.Theory Order.TTheory.
Local Open Scope ring_scope.

(** The GGN matrix [f * sum_d J_d^T H_d J_d] of a data set, [H_d] the Hessian of the named loss at the
    prediction. *)
Definition ggn_matrix (X : Type) (K n : nat) (s : string) (f : R) (pred : X -> arr R)
    (J : X -> nat -> nat -> R) (data : seq (X * arr R)) : 'M[R]_n :=
  f *: \sum_(d <- data) ((of_entries K n (J d.1))^T *m loss_hessian s (cv_of K (adata (pred d.1)))
                         *m of_entries K n (J d.1)).

(** C49.  On PyTrees of parameters the GGN operator is multiplication of the entries with that
    matrix. *)
Theorem C49_tree_ggn :
  forall (X : Type) (K : nat) model_fn ad_jvp ad_vjp (t : tree (arr R)) (data : seq (X * arr R))
    (s : string) nc nt f pred J,
  List.In s ggn_losses -> curv_scaling_factor nc nt (size data) = Ok f ->
  (forall d, List.In d data -> sample_ok K model_fn ad_jvp ad_vjp t pred J d) ->
  exists mv, tree_create_ggn_mv model_fn ad_jvp ad_vjp t data (@LossStr K s) nc nt = Ok mv /\
    acts_mx (ggn_matrix K (get_size t) s f pred J data) mv.
Proof.
move=> X K model_fn ad_jvp ad_vjp t data s nc nt f pred J Hs Hf Hd.
rewrite /tree_create_ggn_mv Hf /= /tree_create_ggn_mv_without_data.
have [h [-> Hh]] := loss_hessianE K Hs; eexists; split; first by [].
move=> u W S; have [w [E Sw Ww Ew]] := tree_ggn_mvP h f Hd W S.
exists w; split=> //; rewrite Ew /ggn_matrix -scalemxAl mulmx_suml; congr (_ *: _).
by apply: eq_bigr => d _; rewrite Hh !mulmxA.
Qed.
Print Assumptions C49_tree_ggn.

(** Without a loss nothing is computed, whatever the data. *)
Theorem C49_missing_loss (X : Type) (K : nat) model_fn ad_jvp ad_vjp (t : tree (arr R)) (data : seq (X * arr R)) nc nt :
  tree_create_ggn_mv model_fn ad_jvp ad_vjp t data (@LossMissing K) nc nt = Raise ValueError.
Proof. by []. Qed.
Print Assumptions C49_missing_loss.

(** With a built-in loss the targets do not matter, neither their values nor their shapes (class
    labels, one-hot vectors): data sets with the same inputs give the same operator. *)
Theorem C49_targets_ignored :
  forall (X : Type) (K : nat) model_fn ad_jvp ad_vjp (t : tree (arr R)) (data data' : seq (X * arr R)) (s : string) nc nt mv,
  List.In s ggn_losses -> [seq d.1 | d <- data] = [seq d.1 | d <- data'] ->
  tree_create_ggn_mv model_fn ad_jvp ad_vjp t data (@LossStr K s) nc nt = Ok mv ->
  exists mv', tree_create_ggn_mv model_fn ad_jvp ad_vjp t data' (@LossStr K s) nc nt = Ok mv' /\
    forall u, mv' u = mv u.
Proof.
move=> X K model_fn ad_jvp ad_vjp t data data' s nc nt mv Hs Ed.
have Es : size data = size data' by rewrite -(size_map fst) Ed size_map.
rewrite /tree_create_ggn_mv Es; case: (curv_scaling_factor _ _ _) => [f|//] /=.
rewrite /tree_create_ggn_mv_without_data; have [h [-> Hh]] := loss_hessianE K Hs; cbn [bind] => -[<-].
eexists; split; first by [].
move=> u; rewrite /tree_ggn_mv; congr (bind _ _).
elim: data data' Ed {Es} => [[|//]|[x y] data IH [//|[x' y'] data']] //= [<-] /IH ->; congr (bind _ _).
rewrite /ggn_sample /=; case: (model_fn x t) => //= z; case: (ad_jvp x u) => //= jv.
congr (bind _ _); rewrite /hessian_on_arrays; case: jv => [[[|k [|? ?]] e]|] //.
by rewrite !orTb !Hh.
Qed.
Print Assumptions C49_targets_ignored.

Lemma op_psd (T : rcfType) n (A : 'M[T]_n) :
  symmetric_op (mulmx A : 'cV[T]_n -> 'cV[T]_n) -> psd_op (mulmx A : 'cV[T]_n -> 'cV[T]_n) -> psd A.
Proof.
move=> H1 H2; split; last exact: H2.
apply/matrixP => i j; rewrite mxE.
have := H1 (delta_mx j ord0) (delta_mx i ord0).
by rewrite dotvC !dotv_delta -!colE !mxE.
Qed.

Lemma loss_hessian_psd K s (z : 'cV[R]_K) : List.In s ggn_losses -> psd (loss_hessian s z).
Proof.
move=> Hs; have [h [E Hh]] := loss_hessianE K Hs.
have [_ H2 H3] := builtin_good E z z.
by apply: op_psd => [u v|v]; rewrite /= -!(Hh _ z z); [apply: H2|apply: H3].
Qed.

Lemma psd_congr (T : rcfType) m n (A : 'M[T]_m) (B : 'M[T]_(m, n)) : psd A -> psd (B^T *m A *m B).
Proof.
move=> [S P]; split; first by rewrite /symmetric !trmx_mul trmxK S mulmxA.
by move=> v; rewrite -!mulmxA dotv_mul trmxK; apply: P.
Qed.
Lemma psd_add (T : rcfType) n (A B : 'M[T]_n) : psd A -> psd B -> psd (A + B).
Proof.
move=> [S1 P1] [S2 P2]; split; first by rewrite /symmetric linearD /= S1 S2.
by move=> v; rewrite mulmxDl dotvD addr_ge0.
Qed.
Lemma psd_scale (T : rcfType) n (A : 'M[T]_n) c : 0 <= c -> psd A -> psd (c *: A).
Proof.
move=> Hc [S P]; split; first by rewrite /symmetric linearZ /= S.
by move=> v; rewrite -scalemxAl dotvZ mulr_ge0.
Qed.
Lemma psd0 (T : rcfType) n : psd (0 : 'M[T]_n).
Proof. by split=> [|v]; rewrite /symmetric ?trmx0 // mul0mx dotv0. Qed.
Lemma psd_sum (T : rcfType) n (I : Type) (r : seq I) (F : I -> 'M[T]_n) :
  (forall i, psd (F i)) -> psd (\sum_(i <- r) F i).
Proof.
move=> H; elim: r => [|i r IH]; first by rewrite big_nil; apply: psd0.
by rewrite big_cons; apply: psd_add.
Qed.

Lemma ggn_matrix_psd (X : Type) K n s f pred J (data : seq (X * arr R)) :
  List.In s ggn_losses -> 0 <= f -> psd (ggn_matrix K n s f pred J data).
Proof.
move=> Hs Hf; apply: psd_scale => //; apply: psd_sum => d; apply: psd_congr.
exact: loss_hessian_psd.
Qed.

Lemma factor_ge0 nc nt k (f : R) : curv_scaling_factor nc nt k = Ok f -> 0 <= f.
Proof.
rewrite /curv_scaling_factor; case: (match nc with Some _ => _ | None => _ end) => [//|m] [<-].
by apply: divr_ge0; apply: ler0n.
Qed.

(** Full posterior of an operator given by a matrix. *)
Lemma full_posteriorP (T : rcfType) (t : tree (arr T)) (A : 'M[T]_(get_size t)) mv s2 tau lsf :
  (0 < get_size t)%N -> acts_mx A mv -> psd A -> 0 <= odflt 1 s2 -> 0 < tau -> 0 < lsf ->
  exists p cov scale L,
    [/\ create_posterior_fn_full mv (LTree t) (PriorArguments (Some tau) s2) lsf (get_size t) = Ok (Some p),
        cov_mv p (post_state p) = Ok cov /\ scale_mv p (post_state p) = Ok scale,
        acts_mx (invmx (posterior_precision A (odflt 1 s2) tau lsf)) (fun u => cov [:: u] tt),
        acts_mx L (fun u => scale [:: u] tt) &
        L *m L^T = invmx (posterior_precision A (odflt 1 s2) tau lsf)].
Proof.
move=> H0 Ha HC Hs Ht Hl.
have L0 : leaves t <> [::] by move=> E; move: H0; rewrite /get_size E.
have S := spd_precision HC Hs Ht Hl.
have [L E] := full_scale_exists S; have [HS _] := S; have [_ _ _ P] := full_scale_spec HS E.
rewrite /create_posterior_fn_full (full_curvatureE L0 H0 (acts_mx_as Ha)) /= mx_ofE.
have -> : \matrix_(i, j) entry A i j = A by exact: of_entriesK.
have E1 : full_curvature_to_precision A (PriorArguments (Some tau) s2) lsf =
    Ok (posterior_precision A (odflt 1 s2) tau lsf) by rewrite /full_curvature_to_precision sigma_default.
have [p Ep0] : exists p, set_posterior_fn (full_method T (get_size t)) A (LTree t)
    (PriorArguments (Some tau) s2) lsf = Ok (Some p).
  rewrite /set_posterior_fn [to_precision _ _ _ _]E1 /= [full_prec_to_posterior_state _]E; by eexists.
have [prec' [cov [scale [F1 F2 F3 F4 F5]]]] := C25_posterior_over_pytree L0 Ep0.
have EL : post_state p = L.
  move: F1 F2; rewrite [to_precision _ _ _ _]E1 => -[<-]; rewrite [to_state _ _]E; by case.
exists p, cov, scale, L; split=> // u W Su; have [[w [G1 G2 G3 G4]] [w' [K1 K2 K3 K4]]] := F5 u W Su.
- exists w; split=> //; rewrite G4 EL /= /full_posterior_state_to_cov P; by [].
- by exists w'; split=> //; rewrite K4 EL.
Qed.

(** Predictive covariances in matrix form. *)
Lemma cov_entryE (T : rcfType) n m (J1 J2 : nat -> nat -> T) (S : 'M[T]_n) (i j : 'I_m) :
  cov_entry n J1 (entry S) J2 i j = (of_entries m n J1 *m S *m (of_entries m n J2)^T) i j.
Proof.
rewrite /cov_entry big_mkord.
transitivity (\sum_(p < n) \sum_(q < n) J1 i p * S p q * J2 j q).
  by apply: eq_bigr => p _; rewrite big_mkord; apply: eq_bigr => q _; rewrite entryE.
rewrite exchange_big mxE; apply: eq_bigr => q _; rewrite !mxE big_distrl.
by apply: eq_bigr => p _; rewrite !mxE.
Qed.

(** C49.  The posterior as a function of the prior precision. *)
Theorem C49_laplace_posterior :
  forall (X : Type) (K : nat) model_fn ad_jvp ad_vjp (t : tree (arr R))
    (data : seq (X * arr R)) (s : string) nc nt f pred J s2 tau lsf,
  let prec := posterior_precision (ggn_matrix K (get_size t) s f pred J data) (odflt 1 s2) tau lsf in
  (0 < get_size t)%N -> List.In s ggn_losses -> curv_scaling_factor nc nt (size data) = Ok f ->
  (forall d, List.In d data -> sample_ok K model_fn ad_jvp ad_vjp t pred J d) ->
  0 <= odflt 1 s2 -> 0 < tau -> 0 < lsf ->
  exists ps L,
    [/\ laplace_posterior K model_fn ad_jvp ad_vjp t data s nc nt s2 lsf tau = Ok ps,
        acts_mx (invmx prec) (ps_cov_mv ps), acts_mx L (ps_scale_mv ps),
        L *m L^T = invmx prec & spd prec].
Proof.
move=> X K model_fn ad_jvp ad_vjp t data s nc nt f pred J s2 tau lsf prec n0 Hs Hf Hd Hs2 Ht Hl.
have [mv [Emv Hmv]] := C49_tree_ggn Hs Hf Hd.
have HP := ggn_matrix_psd K (get_size t) pred J data Hs (factor_ge0 Hf).
have [p [cov [scale [L [E1 [E2 E2'] E3 E4 E5]]]]] := full_posteriorP n0 Hmv HP Hs2 Ht Hl.
exists (PosteriorState (fun u => cov [:: u] tt) (fun u => scale [:: u] tt)), L; split=> //.
  by rewrite /laplace_posterior Emv [bind _ _]/= [X in bind X _]E1 [bind _ _]/= E2 [bind _ _]/= E2' [bind _ _]/=.
exact: spd_precision.
Qed.
Print Assumptions C49_laplace_posterior.

(** The full Laplace approximation end to end: GGN over the data, full posterior, linearised
    pushforward.  At every test point the reported distribution has the prediction of the trained
    model as mean and [J (lsf^-1 (sigma^2 G + tau I))^-1 J^T] as covariance, in whatever selection and
    order of statistics. *)
Theorem C49_laplace_predictive :
  forall (X Key : Type) (K : nat) split normal key0 model_fn ad_jvp ad_vjp (t : tree (arr R))
    (data : seq (X * arr R)) (s : string) nc nt f pred J s2 tau lsf (key : option Key) kw ops x,
  let n := get_size t in
  let prec := posterior_precision (ggn_matrix K n s f pred J data) (odflt 1 s2) tau lsf in
  (0 < n)%N -> List.In s ggn_losses -> curv_scaling_factor nc nt (size data) = Ok f ->
  (forall d, List.In d data -> sample_ok K model_fn ad_jvp ad_vjp t pred J d) ->
  0 <= odflt 1 s2 -> 0 < tau -> 0 < lsf ->
  model_fn x t = Ok (pred x) -> (0 < prodn (ashape (pred x)))%N ->
  is_jacobian (J x) t (pred x) (ad_jvp x) (ad_vjp x) ->
  odflt 0%N (kw_num_samples kw) = 0%N -> SSamples \notin ops ->
  (size (ashape (pred x)) <= 1)%N \/ no_var_after_cov ops ->
  exists2 r,
    laplace_predictive K split normal key0 model_fn ad_jvp ad_vjp t data s nc nt s2 tau lsf key
      (@lin_setup [rcfType of R] X :: [seq stat_fn o | o <- ops]) kw x = Ok r
    & lin_report n (pred x) (J x) (entry (invmx prec)) ops r.
Proof.
move=> X Key K split normal key0 model_fn ad_jvp ad_vjp t data s nc nt f pred J s2 tau lsf key kw ops x n prec
  n0 Hs Hf Hd Hs2 Ht Hl Mx P0 HJ N0 Hsm Ho.
have [ps [L [E1 E3 E4 E5 _]]] := @C49_laplace_posterior X K model_fn ad_jvp ad_vjp t data s nc nt f pred J s2 tau lsf
  n0 Hs Hf Hd Hs2 Ht Hl.
have [predict [r [F1 F2 F3]]] :=
  @C39_lin_statistics _ X Key split normal key0 model_fn ad_jvp ad_vjp t
    ps key kw ops x (pred x) (J x) _
    N0 Hsm Mx P0 HJ (acts_mx_as E3) Ho.
by exists r => //; rewrite /laplace_predictive E1; cbn [bind]; rewrite [X in bind X _]F1.
Qed.
Print Assumptions C49_laplace_predictive.

(** With samples: each one is the prediction plus [J L eps] for a standard-normal draw [eps], and
    [L L^T] is the posterior covariance. *)
Theorem C49_laplace_samples :
  forall (X Key : Type) (K : nat) split normal key0 model_fn ad_jvp ad_vjp (t : tree (arr R))
    (data : seq (X * arr R)) (s : string) nc nt f pred J s2 tau lsf (key : option Key) kw ops x N,
  let n := get_size t in
  let prec := posterior_precision (ggn_matrix K n s f pred J data) (odflt 1 s2) tau lsf in
  (forall k m, size (split k m) = m) -> (forall k sh, size (normal k sh) = prodn sh) ->
  (0 < n)%N -> List.In s ggn_losses -> curv_scaling_factor nc nt (size data) = Ok f ->
  (forall d, List.In d data -> sample_ok K model_fn ad_jvp ad_vjp t pred J d) ->
  0 <= odflt 1 s2 -> 0 < tau -> 0 < lsf ->
  model_fn x t = Ok (pred x) -> wf_arr (pred x) -> (0 < prodn (ashape (pred x)))%N ->
  is_jacobian (J x) t (pred x) (ad_jvp x) (ad_vjp x) ->
  kw_num_samples kw = Some N -> (0 < N)%N ->
  (size (ashape (pred x)) <= 1)%N \/ no_var_after_cov ops ->
  exists r L eps,
    [/\ laplace_predictive K split normal key0 model_fn ad_jvp ad_vjp t data s nc nt s2 tau lsf key
          (@lin_setup [rcfType of R] X :: [seq stat_fn o | o <- ops]) kw x = Ok r,
        lin_report n (pred x) (J x) (entry (invmx prec)) ops r,
        L *m L^T = invmx prec,
        (forall i, (i < N)%N -> randn_like split normal (nth key0 (split (odflt key0 key) N) i) t = Ok (eps i)) &
        if SSamples \in ops then
          exists2 a, r_samples r = Some a & sample_report n N (pred x) (J x) (entry (L : 'M_n)) eps a
        else r_samples r = None].
Proof.
move=> X Key K split normal key0 model_fn ad_jvp ad_vjp t data s nc nt f pred J s2 tau lsf key kw ops x N n prec
  Hsp Hno n0 Hs Hf Hd Hs2 Ht Hl Mx Wx P0 HJ EN N0 Ho.
have [ps [L [E1 E3 E4 E5 _]]] := @C49_laplace_posterior X K model_fn ad_jvp ad_vjp t data s nc nt f pred J s2 tau lsf
  n0 Hs Hf Hd Hs2 Ht Hl.
have [predict [r [eps [F1 F2 F3 F4 F5]]]] :=
  @C40_lin_samples _ X Key split normal key0 model_fn ad_jvp ad_vjp t
    ps key kw ops x (pred x) (J x) _ _ N
    Hsp Hno EN N0 Wx Mx P0 HJ (acts_mx_as E3) (acts_mx_as E4) Ho.
exists r, L, eps; split=> //.
by rewrite /laplace_predictive E1; cbn [bind]; rewrite [X in bind X _]F1.
Qed.
Print Assumptions C49_laplace_samples.

(** The reported variances and covariances are the entries of the matrix [J Sigma J^T]. *)
Theorem C49_matrix_form :
  forall (n m : nat) (J : nat -> nat -> R) (S : 'M[R]_n) (i j : 'I_m),
  cov_entry n J (entry S) J i j = (of_entries m n J *m S *m (of_entries m n J)^T) i j.
Proof. by move=> n m J S i j; apply: cov_entryE. Qed.
Print Assumptions C49_matrix_form.
