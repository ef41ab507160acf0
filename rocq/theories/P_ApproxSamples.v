(** Properties C54 and C60, continued: samples from the diagonal and the low-rank posterior. *)
From Coq Require Import Reals String.
From mathcomp Require Import all_ssreflect all_algebra.
From Verif Require Import Base PyTree TreeSpec PyTreeProofs BasisProofs StackProofs Mv MvProofs TreeOpsProofs.
From Verif Require Import EvalUtils Pushforward PushforwardSpec PushforwardProofs P_Pushforward P_MonteCarlo.
From Verif Require Import RealStruct GgnSpec Ggn Posterior PosteriorSpec PosteriorTree PipelineSpec TreeGgn Pipeline PipelineProofs PipelineApprox GgnProofs P_Ggn P_Posterior P_Pipeline P_Monotone P_PipelineApprox.
Set Implicit Arguments.
Unset Strict Implicit.
Unset Printing Implicit Defensive.
Import Order.TTheory GRing.Theory Num.Theory.
Local Open Scope ring_scope.
Notation RR := [rcfType of R].

(** Samples of a linearised model under any posterior: the prediction plus [J L eps], [L L^T] the
    posterior covariance. *)
Theorem C54_samples :
  forall (X Key : Type) split normal key0 model_fn ad_jvp ad_vjp (t : tree (arr R))
    (Sg : 'M[R]_(get_size t)) ps pred J (key : option Key) kw ops (x : X) N,
  (forall k m, size (split k m) = m) -> (forall k sh, size (normal k sh) = prodn sh) ->
  posterior_with Sg ps ->
  model_fn x t = Ok (pred x) -> wf_arr (pred x) -> (0 < prodn (ashape (pred x)))%N ->
  is_jacobian (J x) t (pred x) (ad_jvp x) (ad_vjp x) ->
  kw_num_samples kw = Some N -> (0 < N)%N ->
  (size (ashape (pred x)) <= 1)%N \/ no_var_after_cov ops ->
  exists r (L : 'M[R]_(get_size t)) eps,
    [/\ linearised_predictive split normal key0 model_fn ad_jvp ad_vjp t (Ok ps) key
          (@lin_setup RR X :: [seq stat_fn o | o <- ops]) kw x = Ok r,
        lin_report (get_size t) (pred x) (J x) (entry Sg) ops r,
        L *m L^T = Sg,
        (forall i, (i < N)%N -> randn_like split normal (nth key0 (split (odflt key0 key) N) i) t = Ok (eps i)) &
        if SSamples \in ops then
          exists2 a, r_samples r = Some a & sample_report (get_size t) N (pred x) (J x) (entry L) eps a
        else r_samples r = None].
Proof.
move=> X Key split normal key0 model_fn ad_jvp ad_vjp t Sg ps pred J key kw ops x N Hsp Hno [L [E3 E4 E5]]
  Mx Wx P0 HJ EN N0 Ho.
have [predict [r [eps [F1 F2 F3 F4 F5]]]] :=
  @C40_lin_samples _ X Key split normal key0 model_fn ad_jvp ad_vjp t
    ps key kw ops x (pred x) (J x) _ _ N
    Hsp Hno EN N0 Wx Mx P0 HJ (acts_mx_as E3) (acts_mx_as E4) Ho.
exists r, L, eps; split=> //.
by rewrite /linearised_predictive; cbn [bind]; rewrite [X in bind X _]F1.
Qed.
Print Assumptions C54_samples.

Section Moments.
Variables (X Key : Type) (split : Key -> nat -> seq Key) (normal : Key -> seq nat -> seq R) (key0 : Key).
Variables (model_fn : X -> tree (arr R) -> res (arr R)) (ad_jvp ad_vjp : X -> tree (arr R) -> res (tree (arr R))).
Variables (t : tree (arr R)) (pred : X -> arr R) (J : X -> nat -> nat -> R) (kw : kwargs) (ops : seq lin_stat).
Variables (N : nat) (E : (Key -> R) -> R) (samples : X -> Key -> arr R) (x1 x2 : X).
Let n := get_size t.
(** A random source, and a model that can be linearised at the two inputs. *)
Definition random_setting : Prop :=
  [/\ (forall k m, size (split k m) = m), (forall k sh, size (normal k sh) = prodn sh),
      kw_num_samples kw = Some N /\ (0 < N)%N,
      @expectation RR Key E /\ @standard_draws RR Key E split normal key0 N t &
      (forall x, x = x1 \/ x = x2 ->
         [/\ wf_arr (pred x), model_fn x t = Ok (pred x), (0 < prodn (ashape (pred x)))%N,
             is_jacobian (J x) t (pred x) (ad_jvp x) (ad_vjp x) &
             (size (ashape (pred x)) <= 1)%N \/ no_var_after_cov ops])].
(** [samples x key] are the samples reported at [x] under the posterior [ps] with this key. *)
Definition samples_of (ps : res (posterior_state RR)) : Prop :=
  forall x key, x = x1 \/ x = x2 -> exists2 r,
     linearised_predictive split normal key0 model_fn ad_jvp ad_vjp t ps (Some key)
       (@lin_setup RR X :: [seq stat_fn o | o <- ops]) kw x = Ok r & r_samples r = Some (samples x key).
(** Their mean is the prediction, their covariance across inputs and draws is [J1 Sg J2^T] or 0. *)
Definition moments (Sg : 'M[R]_n) : Prop :=
  let sample x i j key := nth 0 (adata (samples x key)) (i * prodn (ashape (pred x)) + j) in
  forall i i' (j : 'I_(prodn (ashape (pred x1)))) (l : 'I_(prodn (ashape (pred x2)))), (i < N)%N -> (i' < N)%N ->
  E (sample x1 i j) = nth 0 (adata (pred x1)) j /\
  E (fun key => (sample x1 i j key - nth 0 (adata (pred x1)) j) * (sample x2 i' l key - nth 0 (adata (pred x2)) l)) =
    (if i == i' then (of_entries _ n (J x1) *m Sg *m (of_entries _ n (J x2))^T) j l else 0).

Theorem C60_posterior_samples (Sg : 'M[R]_n) ps :
  random_setting -> posterior_with Sg ps -> samples_of (Ok ps) -> moments Sg.
Proof.
move=> [Hsp Hno [HN N0] [HE HZ] Hx] [L [E3 E4 E5]] Hsm sample i i' j l Hi Hi'.
have Hsq : is_sqrt_of n (entry L) (entry Sg).
  move=> a b Ha Hb; rewrite -E5.
  rewrite -[a]/(nat_of_ord (Ordinal Ha)) -[b]/(nat_of_ord (Ordinal Hb)) entryE mxE big_mkord.
  by apply: eq_bigr => k _; rewrite mxE !entryE.
have [|H1 H2] := @C60_linear_samples RR X Key split normal key0 model_fn ad_jvp ad_vjp t ps kw ops E
  pred J (entry Sg) (entry L) N samples x1 x2 Hsp Hno HN N0 (acts_mx_as E3) (acts_mx_as E4) Hsq HE HZ Hx
  _ i i' j l Hi Hi' (ltn_ord j) (ltn_ord l).
  move=> x key Ex; have [r] := Hsm x key Ex; rewrite /linearised_predictive; cbn [bind].
  by case E0: (set_lin_pushforward _ _ _ _ _ _ _ _ _ _ _) => [predict|//]; cbn [bind] => Er Es; exists predict, r.
split; first exact: H1.
rewrite [LHS]H2; case: ifP => // _.
rewrite /cov_entry big_mkord.
transitivity (\sum_(p < n) \sum_(q < n) J x1 j p * Sg p q * J x2 l q).
  by apply: eq_bigr => p _; rewrite big_mkord; apply: eq_bigr => q _; rewrite entryE.
rewrite exchange_big mxE; apply: eq_bigr => q _; rewrite !mxE big_distrl.
by apply: eq_bigr => p _; rewrite !mxE.
Qed.

(** End to end, diagonal approximation. *)
Theorem C60_diagonal_samples K (data : seq (X * arr R)) (s : string) nc nt f s2 tau lsf :
  random_setting -> (0 < n)%N -> List.In s ggn_losses -> curv_scaling_factor nc nt (size data) = Ok f ->
  (forall d, List.In d data -> sample_ok K model_fn ad_jvp ad_vjp t pred J d) ->
  0 <= odflt 1 s2 -> 0 < tau -> 0 < lsf ->
  samples_of (laplace_posterior_diagonal K model_fn ad_jvp ad_vjp t data s nc nt s2 lsf tau) ->
  moments (diagonal_cov (ggn_matrix K n s f pred J data) (odflt 1 s2) tau lsf).
Proof.
move=> HR n0 Hs Hf Hd Hs2 Ht Hl.
have [ps -> HP] := C54_diagonal_posterior n0 Hs Hf Hd Hs2 Ht Hl.
exact: C60_posterior_samples.
Qed.

(** End to end, Lanczos: the covariance is that of the compressed GGN matrix. *)
Theorem C60_lanczos_samples K eigh normal1 (data : seq (X * arr R)) (s : string) nc nt f (a : lanczos_args Key) b
    s2 tau lsf x64 alpha beta (V : seq 'cV[R]_n) :
  let G := ggn_matrix K n s f pred J data in
  random_setting -> (0 < n)%N -> List.In s ggn_losses -> curv_scaling_factor nc nt (size data) = Ok f ->
  (forall d, List.In d data -> sample_ok K model_fn ad_jvp ad_vjp t pred J d) ->
  0 <= odflt 1 s2 -> 0 < tau -> 0 < lsf ->
  lanczos_runs eigh normal1 a b alpha beta V G ->
  samples_of (laplace_posterior_lanczos K model_fn ad_jvp ad_vjp eigh normal1 t data s nc nt a s2 lsf tau x64).2 ->
  exists (U : 'M[R]_(n, la_rank a)) (S : 'cV[R]_(la_rank a)),
    [/\ orthonormal U, U^T *m (G *m U) = diag_mx S^T & moments (invmx (odflt 1 s2 *: low_rank_dense U S 0 + (tau / lsf)%:M))].
Proof.
move=> G HR n0 Hs Hf Hd Hs2 Ht Hl [H1 H2 H3 H4] Hsm.
have [ps [U [S [E1 HP [O1 O2 _] _ _]]]] := @C54_lanczos_posterior X Key K model_fn ad_jvp ad_vjp eigh normal1 t data s nc nt f pred J a b
  s2 tau lsf x64 alpha beta V n0 Hs Hf Hd Hs2 Ht Hl H1 H2 H3 H4.
exists U, S; split=> //; apply: (C60_posterior_samples HR HP).
by move: Hsm; rewrite E1.
Qed.
End Moments.
Print Assumptions C60_posterior_samples.
Print Assumptions C60_diagonal_samples.
Print Assumptions C60_lanczos_samples.

(** Hypotheses met: two draws of one parameter from fair coins, the identity model. *)
Example C60_setting_met :
  let out := Arr [:: 1%N] [:: 3%:R : R] in
  random_setting coin_split (@coin_normal RR) (true, true) (fun (_ : unit) _ => Ok out) (fun _ u => Ok u) (fun _ u => Ok u)
    (Leaf out) (fun _ => out) (fun _ => @ident RR) (kw0 (Some 2%N)) [:: SSamples] 2 (@coin_mean RR) tt tt.
Proof.
move=> out; have [H1 H2 H3 H4] := C60_hypotheses_met RR; split=> // x _; split=> //; last by left.
exact: is_jacobian_ident.
Qed.
