(** Property C55: the function laplace() for batches and loaders, all four approximations. *)
From Coq Require Import Reals String.
From Coq Require Import Permutation FunctionalExtensionality.
From mathcomp Require Import all_ssreflect all_algebra.
From Verif Require Import Base RealStruct PyTree TreeSpec Mv PyTreeProofs StackProofs MvProofs
  TreeOpsProofs Loader LoaderProofs Registry GgnSpec Ggn GgnProofs Posterior PosteriorSpec PosteriorProofs PosteriorTree
  LowRankSolvers LowRankSpec LanczosProofs LobpcgProofs
  EvalUtils Pushforward PushforwardSpec PushforwardProofs PipelineSpec TreeGgn Pipeline PipelineProofs
  PipelineApprox Api Laplace.
From Verif Require Import P_Ggn P_Loader P_Posterior P_LowRank P_Pushforward P_Pipeline P_Monotone P_PipelineApprox P_Api.
Set Implicit Arguments.
Unset Strict Implicit.
Unset Printing Implicit Defensive.
Import GRing.Theory Num.Theory Order.TTheory.
Local Open Scope ring_scope.

Section Laplace.
Variables (X Key : Type) (K : nat).
Variable model_fn : X -> tree (arr R) -> res (arr R).
Variables ad_jvp ad_vjp : X -> tree (arr R) -> res (tree (arr R)).
Variables (A : Type) (aitem : A -> nat -> res A) (points : A * A -> seq (X * arr R)).
Variable eigh : forall k : nat, 'M[R]_k -> 'cV[R]_k * 'M[R]_k.
Variables (normal1 : Key -> nat -> seq R) (normal2 : Key -> forall n r, 'M[R]_(n, r)) (key0 : Key).
Variables (eps : R) (qr : forall a c, 'M[R]_(a, c) -> 'M[R]_(a, c))
  (svd : forall k, 'M[R]_k -> 'M[R]_k * 'cV[R]_k * 'M[R]_k).
Variable jax_lobpcg : forall n k : nat, (forall c, 'M[R]_(n, c) -> res 'M[R]_(n, c)) ->
  'M[R]_(n, k) -> nat -> option R -> res ('cV[R]_k * 'M[R]_(n, k) * nat).
Variables (t : tree (arr R)) (s : string) (pred : X -> arr R) (J : X -> nat -> nat -> R).
Let n := get_size t.

(** The data argument [d] holds the pairs (inputs, targets) [xys]: a tuple or dict holds one, a
    re-iterable loader of pairs or dicts one per batch. *)
Definition holds (d : data_arg A) (xys : seq (A * A)) : Prop :=
  (exists x y, xys = [:: (x, y)] /\
     (d = DTuple [:: x; y] \/
      exists2 e, d = DDict e & sget e "input" = Some x /\ sget e "target" = Some y)) \/
  (exists bs, [/\ d = DIterable false bs, bs <> [::] & batches bs xys]).

(** All samples in them. *)
Definition samples (xys : seq (A * A)) : seq (X * arr R) := flatten (map points xys).

Notation lap := (laplace_call K model_fn ad_jvp ad_vjp aitem points eigh normal1 normal2 key0 eps qr svd
  jax_lobpcg t).

Hypothesis n0 : (0 < n)%N.
Hypothesis Wt : wf_tree t.
Hypothesis Hs : List.In s ggn_losses.

Lemma L0 : leaves t <> [::].
Proof. by move=> E; move: n0; rewrite /n /get_size E. Qed.

Let G (f : R) (data : seq (X * arr R)) : 'M[R]_n := ggn_matrix K n s f pred J data.

Lemma G_sum f xys : G f (samples xys) = \sum_(xy <- xys) G f (points xy).
Proof.
rewrite /G /ggn_matrix /samples; elim: xys => [|xy xys IH] /=; first by rewrite !big_nil scaler0.
by rewrite big_cat scalerDr big_cons -IH.
Qed.

Lemma batch_ggnP f : exists mv_fn, batch_ggn K model_fn ad_jvp ad_vjp points t s f = Ok mv_fn /\
  forall xy, (forall d, List.In d (points xy) -> sample_ok K model_fn ad_jvp ad_vjp t pred J d) ->
  acts_mx (G f (points xy)) (fun v => mv_fn v xy).
Proof.
rewrite /batch_ggn /tree_create_ggn_mv_without_data.
have [h [-> Hh]] := loss_hessianE K Hs; eexists; split; first by [].
move=> xy Hd u W S; have [w [E Sw Ww Ew]] := tree_ggn_mvP h f Hd W S.
exists w; split=> //; rewrite Ew /G /ggn_matrix -scalemxAl mulmx_suml; congr (_ *: _).
by apply: eq_bigr => d _; rewrite Hh !mulmxA.
Qed.

Lemma same_shapesP u : same_layout t u -> same_shapes u t.
Proof.
move=> [D1 D2]; rewrite /same_shapes.
have [ls E] : exists ls, map2M (fun a b : arr R => if ashape a == ashape b then Ok tt else Raise ValueError)
    (leaves u) (leaves t) = Ok ls.
  elim: (leaves t) (leaves u) D2 => [|a l IH] [|b l'] //=; first by exists [::].
  by case=> -> /IH [ls E]; rewrite eqxx E; eexists.
by have [w [-> _ _]] := tmap2_ok (esym D1) E.
Qed.

(** Operators over [xys]. *)
Inductive op_over : operator A -> seq (A * A) -> Prop :=
  | OverBatch xy : op_over (SingleBatch xy) [:: xy]
  | OverLoader bs tr xys : bs <> [::] -> mapM tr bs = Ok xys -> op_over (Streaming false bs tr) xys.

Lemma mapM_In (B C : Type) (f : B -> res C) bs ys b : mapM f bs = Ok ys -> List.In b bs ->
  exists y, f b = Ok y /\ List.In y ys.
Proof.
elim: bs ys => [//|c bs IH] ys /=; case E: (f c) => [y|//] /=; case E': (mapM f bs) => [ys'|//] [<-].
case=> [<-|/IH H]; first by exists y; split=> //; left.
by have [y' [H1 H2]] := H _ E'; exists y'; split=> //; right.
Qed.
Lemma mapM_sum (B C : Type) (V : zmodType) (f : B -> res C) (F : C -> V) bs ys : mapM f bs = Ok ys ->
  \sum_(b <- bs) (if f b is Ok y then F y else 0) = \sum_(y <- ys) F y.
Proof.
elim: bs ys => [|c bs IH] ys /=; first by case=> <-; rewrite !big_nil.
by case E: (f c) => [y|//] /=; case E': (mapM f bs) => [ys'|//] [<-]; rewrite !big_cons E (IH _ E').
Qed.

Section Op.
Variables (f : R) (mv_fn : tree (arr R) -> A * A -> res (tree (arr R))).
Hypothesis Hmv : forall xy, (forall d, List.In d (points xy) -> sample_ok K model_fn ad_jvp ad_vjp t pred J d) ->
  acts_mx (G f (points xy)) (fun v => mv_fn v xy).
Variables (xys : seq (A * A)) (op : operator A).
Hypothesis Hop : op_over op xys.
Hypothesis Hok : forall d, List.In d (samples xys) -> sample_ok K model_fn ad_jvp ad_vjp t pred J d.

Let Gb (b : res (A * A)) : 'M[R]_n := if b is Ok xy then G f (points xy) else 0.

Lemma points_ok xy : List.In xy xys -> forall d, List.In d (points xy) -> sample_ok K model_fn ad_jvp ad_vjp t pred J d.
Proof.
move=> Hxy d Hd; apply: Hok; rewrite /samples; elim: xys Hxy => //= x l IH [->|/IH H].
  by apply/List.in_app_iff; left.
by apply/List.in_app_iff; right.
Qed.

Lemma acts_eq (B B' : nat -> nat -> R) tin tout mv : acts_as B tin tout mv ->
  (forall i j, (i < nentries tout)%N -> (j < nentries tin)%N -> B i j = B' i j) -> acts_as B' tin tout mv.
Proof.
move=> H HB u W S; have [w [E S' W' Ew]] := H u W S; exists w; split=> //; rewrite Ew /matvec.
apply/eq_in_map => i; rewrite mem_iota => /andP [_ Hi].
by apply: eq_big_nat => j /andP [_ Hj]; rewrite HB.
Qed.

Lemma entry_sum (I : Type) (r : seq I) (F : I -> 'M[R]_n) i j :
  entry (\sum_(k <- r) F k) i j = \sum_(k <- r) entry (F k) i j.
Proof.
rewrite /entry; case: insubP => [i' _ _|_]; last by rewrite big1.
by case: insubP => [j' _ _|_]; [rewrite summxE | rewrite big1].
Qed.

Lemma loader_entries (tr : batch A -> res (A * A)) bs i j : mapM tr bs = Ok xys ->
  \sum_(b <- bs) entry (Gb (tr b)) i j = entry (G f (samples xys)) i j.
Proof.
move=> E; rewrite -entry_sum; congr (entry _ i j).
by rewrite G_sum -(mapM_sum (fun xy => G f (points xy)) E).
Qed.

Lemma operator_mvP : acts_mx (G f (samples xys)) (operator_mv mv_fn op).
Proof.
case: Hop Hok points_ok => [xy|bs tr xys' Hn Et] Hok' Hp.
  by rewrite /= /samples /= cats0; apply: Hmv => d Hd; apply: (Hp xy) => //; left.
have H : acts_as (fun i j => \sum_(b <- bs) entry (Gb (tr b)) i j) t t (operator_mv mv_fn (Streaming false bs tr)).
  apply: (@C13_call_is_sum _ _ _ mv_fn bs tr (fun b => entry (Gb (tr b)))) => // b Hb.
  have [xy [Exy Hxy]] := mapM_In Et Hb; exists xy; split=> //; rewrite Exy.
  exact: acts_mx_as (Hmv (Hp _ Hxy)).
move=> u W S; have [w [E S' W' Ew]] := acts_as_mx H W S; exists w; split=> //; rewrite [LHS]Ew; congr (_ *m _).
apply/matrixP => i j; rewrite mxE -[RHS]entryE G_sum -(mapM_sum (fun xy => G f (points xy)) Et).
by rewrite entry_sum.
Qed.

Definition dense_entries (M : 'M[R]_n) : seq R := flatten [seq [seq entry M j i | i <- iota 0 n] | j <- iota 0 n].

Lemma leaf_shape (u : tree (arr R)) m : wf_tree u -> same_layout (Leaf (Arr [:: m] (nseq m (0:R)))) u ->
  exists2 d, u = Leaf (Arr [:: m] d) & size d = m.
Proof.
case: u => [[sh d]|k ch]; last by move=> _ [].
rewrite /wf_tree /= andbT /wf_arr /= => /eqP Hd [_ [Es]].
by exists d; rewrite -?Es // Hd -Es /= muln1.
Qed.

(** One batch of the operator wrapped by [flatten] and [unflatten]. *)
Lemma flat_batch (M : 'M[R]_n) (mv : tree (arr R) -> res (tree (arr R))) : acts_mx M mv ->
  acts_as (entry M) (Leaf (Arr [:: n] (nseq n (0:R)))) (Leaf (Arr [:: n] (nseq n (0:R))))
    (fun v => let! v' := unflatten_leaf t v in let! r := mv v' in flatten_leaf r).
Proof.
move=> /acts_mx_as H u W S; have [d -> Hd] := leaf_shape W S.
have [x [Ex Sx Wx Dx]] := unflatten_ok L0 Hd.
rewrite /= Ex /=; have [y [-> Sy Wy Ey]] := H x Wx Sx; rewrite /flatten_leaf /=.
have Ly : leaves y <> [::] by move=> E; move: L0; case: Sy => _; rewrite E; case: (leaves t).
rewrite full_flattenE //=; eexists; split; first by [].
- by split=> //=; congr [:: [:: _]]; rewrite size_entries // -(nentries_same Sy).
- by rewrite /wf_tree /= andbT /wf_arr /= muln1.
- by rewrite /entries /= !cats0 -/(entries y) Ey Dx /= -!get_sizeE /get_size /= !muln1 !addn0.
Qed.

Lemma full_estimateP : full_estimate t mv_fn op = Ok (Leaf (Arr [:: n; n] (dense_entries (G f (samples xys))))).
Proof.
have Ha := acts_mx_as operator_mvP.
have Hl : forall (tr : batch A -> res (A * A)) bs i j, mapM tr bs = Ok xys ->
  \sum_(b <- bs) entry (Gb (tr b)) i j = entry (G f (samples xys)) i j := loader_entries.
case: Hop Ha Hl points_ok => [xy|bs tr xys' Hn Et] Ha Hl Hp; first exact: (full_curvatureE L0 n0 Ha).
rewrite /full_estimate.
rewrite (@C13_to_dense _ _ _ (wrap_loader (stream mv_fn bs tr) (Some (unflatten_leaf t)) (Some (@flatten_leaf)))
  (fun b => entry (Gb (tr b))) n n) //.
- congr (Ok (Leaf (Arr _ _))); congr flatten; apply: eq_map => j; apply: eq_map => i; exact: Hl.
- move=> b Hb; have [xy [Exy Hxy]] := mapM_In Et Hb; exists xy; split=> //; rewrite Exy.
  have H := flat_batch (Hmv (Hp _ Hxy)).
  move=> u W S; have [w [Ew ? ? ?]] := H u W S; exists w; split=> //; rewrite -Ew /=.
  case: (unflatten_leaf t u) => //= v; by case: (mv_fn v xy).
Qed.

Lemma diagonal_estimateP : diagonal_estimate t mv_fn op = Ok (mkseq (fun i => entry (G f (samples xys)) i i) n).
Proof.
have Ha := acts_mx_as operator_mvP.
have Hl : forall (tr : batch A -> res (A * A)) bs i j, mapM tr bs = Ok xys ->
  \sum_(b <- bs) entry (Gb (tr b)) i j = entry (G f (samples xys)) i j := loader_entries.
case: Hop Ha Hl points_ok => [xy|bs tr xys' Hn Et] Ha Hl Hp; first exact: (diagonal_acts _ Ha).
rewrite /diagonal_estimate (@C13_diagonal _ _ _ (stream mv_fn bs tr) (fun b => entry (Gb (tr b))) t) //=.
  by congr Ok; apply: eq_mkseq => i; exact: Hl.
move=> b Hb; have [xy [Exy Hxy]] := mapM_In Et Hb; exists xy; split=> //; rewrite Exy.
move=> u W S; have [w [Ew ? ? ?]] := acts_mx_as (Hmv (Hp _ Hxy)) W S; exists w; split=> //.
by rewrite /= Ew.
Qed.

Lemma operator_callP : exists w, operator_call (@reduce_add [rcfType of R]) mv_fn op t = Ok (w, op) /\ same_shapes w t.
Proof.
have [||w [E S _ _]] := operator_mvP (u := t) => //.
exists w; split; last exact: same_shapesP.
case: Hop E => [xy|bs tr xys' Hn Et] /=; first by move=> ->.
by rewrite /loader_call /=; case: process_batches => //= r [->].
Qed.
End Op.

Lemma wrapP d xys : holds d xys -> exists2 op, maybe_wrap_loader_or_batch aitem d None = Ok op & op_over op xys.
Proof.
case=> [[x [y [-> H]]]|[bs [-> Hn Hb]]].
  exists (SingleBatch (x, y)); last by constructor.
  case: H => [->//|[e -> [H1 H2]]].
  by rewrite /maybe_wrap_loader_or_batch /= /validate_and_get_transform /shas H1 H2 /= /sindex H1 H2.
case: bs Hn Hb => [//|b bs] Hn H.
have [xy [xys' Exy]] : exists xy xys', xys = xy :: xys'.
  by case: H => H; inversion H; eexists; eexists; reflexivity.
subst xys; have [tr [Et Em]] := batches_transform aitem H.
by exists (Streaming false (b :: bs) tr); [rewrite /maybe_wrap_loader_or_batch /peek_transform; cbn [next_iter bind fst snd]; rewrite Et | constructor].
Qed.

Definition all_ok (xys : seq (A * A)) : Prop :=
  forall d, List.In d (samples xys) -> sample_ok K model_fn ad_jvp ad_vjp t pred J d.

(** What [laplace] hands to the estimator. *)
Lemma laplaceP d xys ct name nc nt la lo pa lsf :
  holds d xys -> all_ok xys -> (0 < nt)%N -> convert_to_enum CurvApprox ct false = Ok name ->
  exists mv_fn op, [/\ forall xy, (forall d, List.In d (points xy) -> sample_ok K model_fn ad_jvp ad_vjp t pred J d) ->
      acts_mx (G (nc%:R / nt%:R) (points xy)) (fun v => mv_fn v xy), op_over op xys &
    lap d s ct nc nt la lo pa lsf = fbind (flift (
      let! est := dict_get (posterior_methods eigh normal1 normal2 key0 eps qr svd jax_lobpcg t mv_fn la lo pa lsf) name in
      est op)) id].
Proof.
move=> Hd Hok Hnt Ec; have [mv_fn [E Hmv]] := batch_ggnP (nc%:R / nt%:R).
have [op Eop Hop] := wrapP Hd; have [w [Ew Sw]] := operator_callP Hmv Hop Hok.
exists mv_fn, op; split=> //.
rewrite /laplace_call E /laplace Ec; cbn [bind].
case: nt Hnt {E Hmv Hok} => [//|nt'] _.
rewrite /ggn Eop; cbn [bind]; rewrite Ew; cbn [bind fst snd]; by rewrite Sw.
Qed.

Lemma f_ge0 (nc nt : nat) : 0 <= nc%:R / nt%:R :> R.
Proof. by apply: divr_ge0; apply: ler0n. Qed.

Section Claims.
Variables (d : data_arg A) (xys : seq (A * A)) (ct : enum_arg) (nc nt : nat).
Variables (la : lanczos_args Key) (lo : lobpcg_args Key) (s2 : option R) (tau lsf : R) (x64 : bool).
Hypothesis Hd : holds d xys.
Hypothesis Hok : all_ok xys.
Hypothesis Hnt : (0 < nt)%N.
Hypothesis Hs2 : 0 <= odflt 1 s2.
Hypothesis Ht : 0 < tau.
Hypothesis Hl : 0 < lsf.
Let Gs : 'M[R]_n := ggn_matrix K n s (nc%:R / nt%:R) pred J (samples xys).
Notation posterior := (lap d s ct nc nt la lo (PriorArguments (Some tau) s2) lsf x64).

Lemma psdG : psd Gs.
Proof. by apply: ggn_matrix_psd => //; apply: f_ge0. Qed.

Theorem C55_full : convert_to_enum CurvApprox ct false = Ok "full"%string ->
  exists2 ps, posterior = (x64, Ok ps) &
    posterior_with (t := t) (invmx (posterior_precision Gs (odflt 1 s2) tau lsf)) ps.
Proof.
move=> Ec; have [mv_fn [op [Hmv Hop H]]] := laplaceP nc la lo (PriorArguments (Some tau) s2) lsf Hd Hok Hnt Ec.
rewrite H /dict_get; cbn [bind posterior_methods String.eqb Ascii.eqb Bool.eqb]; rewrite (full_estimateP Hmv Hop Hok); cbn [bind].
rewrite /fbind /flift mx_ofE.
have -> : \matrix_(i, j) entry (G (nc%:R / nt%:R) (samples xys)) i j = Gs by exact: of_entriesK.
have HP := psdG; clearbody Gs.
have Sp := spd_precision HP Hs2 Ht Hl.
have [L EL] := full_scale_exists Sp; have [HS _] := Sp; have [_ _ _ P] := full_scale_spec HS EL.
have E1 : full_curvature_to_precision Gs (PriorArguments (Some tau) s2) lsf =
    Ok (posterior_precision Gs (odflt 1 s2) tau lsf) by rewrite /full_curvature_to_precision sigma_default.
have [|ps [E Hps]] := @method_operators t _ _ _ (full_method _ n) Gs
  (PriorArguments (Some tau) s2) lsf _ _ _ L L0 E1 EL _ (fun _ => erefl) P; last by exists ps; rewrite ?E.
by move=> v; rewrite /= /full_posterior_state_to_cov P.
Qed.

Theorem C55_diagonal : convert_to_enum CurvApprox ct false = Ok "diagonal"%string ->
  exists2 ps, posterior = (x64, Ok ps) & posterior_with (t := t) (diagonal_cov Gs (odflt 1 s2) tau lsf) ps.
Proof.
move=> Ec; have [mv_fn [op [Hmv Hop H]]] := laplaceP nc la lo (PriorArguments (Some tau) s2) lsf Hd Hok Hnt Ec.
rewrite H /dict_get; cbn [bind posterior_methods String.eqb Ascii.eqb Bool.eqb]; rewrite (diagonal_estimateP Hmv Hop Hok); cbn [bind].
rewrite /fbind /flift -[G _ _]/Gs.
have HP := psdG; clearbody Gs.
have [ps E Hps] := diagonal_operators L0 HP Hs2 Ht Hl.
by exists ps => //; rewrite [X in (_, X)]E.
Qed.

(** Lanczos: Ritz pairs [(S, U)] of the GGN matrix from [b], as in C54. *)
Theorem C55_lanczos b alpha beta V : let rank := la_rank la in
  convert_to_enum CurvApprox ct false = Ok "lanczos"%string ->
  starts_from normal1 n la b ->
  lanczos_iterations (R := RR) (fun v => Ok (Gs *m v)) (cv_of n b) rank (la_tol la) true = Ok (alpha, beta, V) ->
  (forall j, (j.+1 < rank)%N -> nth 0 beta j != 0) ->
  eigh_correct (construct_tridiagonal rank alpha beta) (@eigh rank (construct_tridiagonal rank alpha beta)) ->
  exists ps (U : 'M[R]_(n, rank)) (S : 'cV[R]_rank),
    [/\ posterior = (x64, Ok ps),
        posterior_with (t := t) (invmx (odflt 1 s2 *: low_rank_dense U S 0 + (tau / lsf)%:M)) ps,
        [/\ orthonormal U, U^T *m (Gs *m U) = diag_mx S^T & forall j, 0 <= S j ord0],
        (forall j, norm2 (R := RR) (Gs *m col j U - S j ord0 *: col j U) <= Num.max (nth 0 beta rank.-1) (la_tol la))
      & rank = n -> low_rank_dense U S 0 = Gs].
Proof.
move=> rank Ec [Ha Hb b0 Hstart] EL Hbeta He.
have [mv_fn [op [Hmv Hop H]]] := laplaceP nc la lo (PriorArguments (Some tau) s2) lsf Hd Hok Hnt Ec.
rewrite H /dict_get; cbn [bind posterior_methods String.eqb Ascii.eqb Bool.eqb].
have Hr : represents (Callable (operator_mv mv_fn op)) (LTree t) Gs by split=> //; split=> [|u W Su]; [exact: L0|exact: (operator_mvP Hmv Hop Hok W Su)].
have HP := psdG; clearbody Gs.
have [U [S [d0 [E1 [O1 O2 O3 O4 O5]]]]] := @lanczos_n RR eigh Key normal1 _ (LTree t) (la_key la) b rank
  (la_tol la) (la_mv_dtype la) (la_calc_dtype la) (la_return_dtype la) x64 n Gs alpha beta V Hb (proj1 HP) Hr b0 EL Hbeta He.
have [ps [Eps Hps]] := @low_rank_operators t n rank U S 0 s2 tau lsf erefl L0 O1 Ht Hl Hs2 (O3 HP).
exists ps, U, S; split=> //.
- rewrite /fbind /flift.
  have -> : lanczos_lowrank (R := RR) eigh normal1 (Callable (operator_mv mv_fn op)) (la_key la) (la_b la) (LTree t)
      (la_rank la) (la_tol la) (la_mv_dtype la) (la_calc_dtype la) (la_return_dtype la) (la_full la) x64 =
      (x64, Ok (LowRankResult (LowRankTerms U S 0) d0)).
    rewrite Ha; case: Hstart => [->|[-> [k Ek Ek']]]; first exact: E1.
    by rewrite Ek lanczos_key -/n Ek' -Ek; exact: E1.
  by rewrite Eps.
- by apply: Hps => i i' j Ei; congr (U _ j); apply: val_inj.
- by split=> //; exact: O3.
Qed.

(** LOBPCG: whenever the solver, run on the GGN matrix from the drawn block, returns orthonormal vectors
    and values that are not negative. *)
Theorem C55_lobpcg r (w : 'cV[R]_r.+1) (U : 'M[R]_(n, r.+1)) iters :
  let X0 := normal2 (odflt key0 (lo_key lo)) n r.+1 in
  convert_to_enum CurvApprox ct false = Ok "lobpcg"%string ->
  clip_rank n (lo_rank lo) = r.+1 ->
  lobpcg_call (R := RR) eigh eps qr svd jax_lobpcg (lo_mv_jit lo) (@matmat RR n (fun v => Ok (Gs *m v)))
    X0 r.+1 (lo_tol lo) = Ok (w, U, iters) ->
  orthonormal U -> (forall j, 0 <= w j ord0) ->
  exists2 ps, posterior = (x64, Ok ps) &
    posterior_with (t := t) (invmx (odflt 1 s2 *: low_rank_dense U w 0 + (tau / lsf)%:M)) ps.
Proof.
move=> X0 Ec Er EL O1 O3.
have [mv_fn [op [Hmv Hop H]]] := laplaceP nc la lo (PriorArguments (Some tau) s2) lsf Hd Hok Hnt Ec.
rewrite H /dict_get; cbn [bind posterior_methods String.eqb Ascii.eqb Bool.eqb].
have Hr : represents (Callable (operator_mv mv_fn op)) (LTree t) Gs by split=> //; split=> [|u W Su]; [exact: L0|exact: (operator_mvP Hmv Hop Hok W Su)].
have HP := psdG; clearbody Gs.
have [ps [Eps Hps]] := @low_rank_operators t n _ U w 0 s2 tau lsf erefl L0 O1 Ht Hl Hs2 O3.
exists ps; last by apply: Hps => i i' j Ei; congr (U _ j); apply: val_inj.
have [fv [Ef Hf]] := get_matvec_ok Hr.
have Ef' : on_vectors (n := n) fv = (fun v => Ok (Gs *m v)) by apply: functional_extensionality.
rewrite /fbind /flift /lobpcg_lowrank /fbind /flift /config_read /config_update Ef Er Ef' [X in match X with Ok _ => _ | Raise _ => _ end]EL.
by rewrite /return_terms /fbind /fret /config_read [X in (_, X)]Eps.
Qed.
End Claims.

(** ** How the data is presented does not matter *)
Lemma entries_eq (u1 u2 : tree (arr R)) : same_layout t u1 -> wf_tree u1 -> same_layout t u2 -> wf_tree u2 ->
  cv_of n (entries u1) = cv_of n (entries u2) -> entries u1 = entries u2.
Proof.
move=> S1 W1 S2 W2 E; apply: (@eq_from_nth _ 0).
  by rewrite !size_entries // -(nentries_same S1) -(nentries_same S2).
move=> i; rewrite size_entries // -(nentries_same S1) => Hi.
by have /colP /(_ (Ordinal Hi)) := E; rewrite !mxE.
Qed.

Lemma flatten_function_eq (M : 'M[R]_n) mv1 mv2 : acts_mx M mv1 -> acts_mx M mv2 ->
  flatten_function mv1 t = flatten_function mv2 t.
Proof.
move=> H1 H2; apply: functional_extensionality => v; rewrite /flatten_function.
case E: (pytree_unflatten t v) => [x|//]; cbn [bind].
have [_ _ S W _] := unflatten_inv E.
have [w1 [-> S1 W1 E1]] := H1 x W S; have [w2 [-> S2 W2 E2]] := H2 x W S; cbn [bind].
have L u : same_layout t u -> leaves u <> [::] by move=> [_ Su] E0; move: L0 Su; rewrite E0; case: (leaves t).
by rewrite !full_flattenE; try exact: L; congr Ok; apply: entries_eq; rewrite ?E1.
Qed.

Lemma G_perm f data1 data2 : Permutation data1 data2 -> G f data1 = G f data2.
Proof.
move=> H; rewrite /G /ggn_matrix; congr (_ *: _); elim: H => [//|x l l' _ IH|x y l|l l' l'' _ -> _ ->//].
  by rewrite !big_cons IH.
by rewrite !big_cons addrCA.
Qed.

(** For the same samples -- in one batch or in any number of batches, in any order, given as pairs or as
    dicts -- [laplace] does the same thing: same result or exception, same 64-bit flag. *)
Theorem C55_batching_invisible d1 d2 xys1 xys2 ct nc nt la lo pa lsf :
  holds d1 xys1 -> holds d2 xys2 -> all_ok xys1 -> Permutation (samples xys1) (samples xys2) ->
  lap d1 s ct nc nt la lo pa lsf = lap d2 s ct nc nt la lo pa lsf.
Proof.
move=> Hd1 Hd2 Hok1 HP.
have Hok2 : all_ok xys2 by move=> d Hd; apply: Hok1; apply: Permutation_in Hd; apply: Permutation_sym.
case Ec: (convert_to_enum CurvApprox ct false) => [name|e]; last first.
  by rewrite /laplace_call /laplace Ec; case: batch_ggn.
case: (posnP nt) => [->|Hnt]; first by rewrite /laplace_call /laplace Ec; case: batch_ggn.
have [mv1 [op1 [Hmv1 Hop1 ->]]] := laplaceP nc la lo pa lsf Hd1 Hok1 Hnt Ec.
have [mv2 [op2 [Hmv2 Hop2 ->]]] := laplaceP nc la lo pa lsf Hd2 Hok2 Hnt Ec.
rewrite /dict_get /posterior_methods.
have Ef := full_estimateP Hmv1 Hop1 Hok1; have Ef2 := full_estimateP Hmv2 Hop2 Hok2.
have Ed := diagonal_estimateP Hmv1 Hop1 Hok1; have Ed2 := diagonal_estimateP Hmv2 Hop2 Hok2.
have Em := flatten_function_eq (operator_mvP Hmv1 Hop1 Hok1).
rewrite (G_perm _ HP) -Ef2 in Ef; rewrite (G_perm _ HP) -Ed2 in Ed; rewrite (G_perm _ HP) in Em.
have {}Em := Em _ (operator_mvP Hmv2 Hop2 Hok2).
case: String.eqb; first by cbn [bind]; rewrite Ef.
case: String.eqb; first by cbn [bind]; rewrite Ed.
case: String.eqb; first by cbn [bind]; rewrite /lanczos_lowrank /get_matvec Em.
case: String.eqb => //; by cbn [bind]; rewrite /lobpcg_lowrank /get_matvec Em.
Qed.

(** ** One-shot iterators *)
Definition start_ok (la : lanczos_args Key) : Prop :=
  (0 < la_rank la)%N /\
  match la_b la, la_key la with Some b, _ => size b = n | None, Some k => size (normal1 k n) = n | None, None => True end.

Lemma exhausted mv_fn (tr : batch_transform A) u : operator_mv mv_fn (Streaming true [::] tr) u = Raise ValueError.
Proof. by []. Qed.

(** A generator of batches is never usable: [laplace] raises ValueError for each approximation. *)
Theorem C55_iterator bs xys ct name nc nt la lo pa lsf x64 :
  bs <> [::] -> batches bs xys -> all_ok xys -> (0 < nt)%N -> convert_to_enum CurvApprox ct false = Ok name ->
  List.In name [:: "full"%string; "diagonal"%string; "lanczos"%string; "lobpcg"%string] -> start_ok la -> (0 < lo_rank lo)%N ->
  (lap (DIterable true bs) s ct nc nt la lo pa lsf x64).2 = Raise ValueError.
Proof.
case: bs => [//|b bs] _ H Hok Hnt Ec Hname [Hr Hb] Hlo.
have [xy [xys' Exy]] : exists xy xys', xys = xy :: xys'.
  by case: H => H; inversion H; eexists; eexists; reflexivity.
subst xys; have [tr [Et Em]] := batches_transform aitem H.
have Em' : mapM tr bs = Ok xys'.
  by move: Em => /=; case: (tr b) => //= d; case: (mapM tr bs) => //= ds [_ ->].
have [mv_fn [E Hmv]] := batch_ggnP (nc%:R / nt%:R).
rewrite /laplace_call E /laplace Ec; cbn [bind].
case: nt Hnt {E Hmv} (Hmv) => [//|nt'] _ Hmv.
rewrite /ggn /maybe_wrap_loader_or_batch /peek_transform; cbn [next_iter bind fst snd]; rewrite Et; cbn [bind fst snd].
have [Ebs|Hn] : bs = [::] \/ bs <> [::] by case: (bs) => [|? ?]; [left|right].
  by rewrite Ebs.
have Hop : op_over (Streaming false bs tr) xys' by constructor.
have Hok' : all_ok xys' by move=> d Hd; apply: Hok; apply/List.in_app_iff; right.
have [w [Ew Sw]] := operator_callP Hmv Hop Hok'.
have -> : operator_call (@reduce_add RR) mv_fn (Streaming true bs tr) t = Ok (w, Streaming true [::] tr).
  by move: Ew => /=; case: process_batches => //= r [->].
cbn [bind fst snd]; rewrite Sw; cbn [bind]; rewrite /dict_get.
case: Hname => [<-|[<-|[<-|[<-|//]]]]; cbn [bind posterior_methods String.eqb Ascii.eqb Bool.eqb].
- by [].
- by [].
- have Eb (b0 : seq R) : size b0 = n -> forall tol full, lanczos_iterations
    (on_vectors (n := size b0) (flatten_function (operator_mv mv_fn (Streaming true [::] tr)) t)) (cv_of (size b0) b0) (la_rank la) tol full
    = Raise ValueError.
    move=> Hb0 tol full; rewrite /lanczos_iterations; case: (la_rank la) Hr => [//|rk] _ /=.
    rewrite /lanczos_body /= /on_vectors /flatten_function.
    have [|x [-> _ _ _]] := @unflatten_ok R R t (of_cv ((norm2 (cv_of (size b0) b0))^-1 *: cv_of (size b0) b0)) L0; last by [].
    by rewrite size_of_cv Hb0.
  rewrite /fbind /flift /lanczos_lowrank /fbind /flift /config_read /config_update /get_matvec.
  case: (la_b la) Hb => [b0 Hb0|]; first by rewrite Eb.
  by case: (la_key la) => [k Hk|//]; rewrite Eb.
- rewrite /fbind /flift /lobpcg_lowrank /fbind /flift /config_read /config_update /get_matvec.
  have : (0 < clip_rank (get_size t) (lo_rank lo))%N by have [] := C29_rank_clipping (get_size t) Hlo.
  case: clip_rank => [//|k'] _.
  rewrite /lobpcg_call /lobpcg_standard /check_inputs.
  have Em1 c (X0 : 'M[R]_(get_size t, c.+1)) : matmat (R := RR) (on_vectors (flatten_function (operator_mv mv_fn (Streaming true [::] tr)) t)) X0 = Raise ValueError.
    rewrite /matmat enum_ordS /= /on_vectors /flatten_function.
    have [|x [-> _ _ _]] := @unflatten_ok R R t (of_cv (col ord0 X0)) L0; last by [].
    by rewrite size_of_cv.
  by rewrite Em1; case: (lo_mv_jit lo); case: (get_size t <= k'.+1 * 5)%N.
Qed.

(** ** Errors before any data is used *)
Theorem C55_zero_total d ct name nc la lo pa lsf x64 loss : convert_to_enum CurvApprox ct false = Ok name ->
  lap d loss ct nc 0 la lo pa lsf x64 = (x64, Raise ZeroDivisionError).
Proof. by move=> Ec; rewrite /laplace_call /laplace Ec; case: batch_ggn. Qed.

Theorem C55_unknown_approximation d ct e nc nt la lo pa lsf x64 loss : convert_to_enum CurvApprox ct false = Raise e ->
  lap d loss ct nc nt la lo pa lsf x64 = (x64, Raise e).
Proof. by move=> Ec; rewrite /laplace_call /laplace Ec; case: batch_ggn. Qed.

Theorem C55_unknown_loss d ct name nc nt la lo pa lsf x64 loss : convert_to_enum CurvApprox ct false = Ok name ->
  (0 < nt)%N -> ~ List.In loss ggn_losses -> lap d loss ct nc nt la lo pa lsf x64 = (x64, Raise ValueError).
Proof.
move=> Ec Hnt Hloss; have [_ [_ /(_ Hloss) E]] := C19_loss_names K loss.
by rewrite /laplace_call /batch_ggn /tree_create_ggn_mv_without_data E /= Ec; case: nt Hnt.
Qed.
End Laplace.
Print Assumptions C55_full.
Print Assumptions C55_diagonal.
Print Assumptions C55_lanczos.
Print Assumptions C55_lobpcg.
Print Assumptions C55_batching_invisible.
Print Assumptions C55_iterator.
Print Assumptions C55_zero_total.
Print Assumptions C55_unknown_approximation.
Print Assumptions C55_unknown_loss.

(** Non-vacuity: two weights and their identity Jacobian; two samples, as one pair, as two batches in the
    other order, or as two dicts.  An array is a list of targets here. *)
Definition ex_points (xy : seq (arr R) * seq (arr R)) : seq (unit * arr R) := [seq (tt, y) | y <- xy.2].
Definition ex_item (a : seq (arr R)) (i : nat) : res (seq (arr R)) := Raise Unmodelled.
Section Ex.
Variables a1 b1 a2 b2 : R.
Let y1 : arr R := Arr [:: 2%N] [:: a1; b1].
Let y2 : arr R := Arr [:: 2%N] [:: a2; b2].
Let all_in_one : data_arg (seq (arr R)) := DTuple [:: [::]; [:: y1; y2]].
Let as_loader : data_arg (seq (arr R)) := DIterable false [:: BTuple [:: [::]; [:: y2]]; BList [:: [::]; [:: y1]]].
Let as_dicts : data_arg (seq (arr R)) :=
  DIterable false [:: BDict [:: ("input"%string, [::]); ("target"%string, [:: y1])];
                      BDict [:: ("target"%string, [:: y2]); ("input"%string, [::])]].
Let xys0 : seq (seq (arr R) * seq (arr R)) := [:: ([::], [:: y1; y2])].
Let xys1 : seq (seq (arr R) * seq (arr R)) := [:: ([::], [:: y2]); ([::], [:: y1])].
Let xys2 : seq (seq (arr R) * seq (arr R)) := [:: ([::], [:: y1]); ([::], [:: y2])].
Lemma ex_holds : [/\ holds all_in_one xys0, holds as_loader xys1 & holds as_dicts xys2].
Proof.
split.
- by left; exists [::], [:: y1; y2]; split=> //; left.
- right; eexists; split; [by []|by []|left]; constructor; first by left.
  by constructor; [right|constructor].
- right; eexists; split; [by []|by []|right]; constructor; first by eexists.
  by constructor; [eexists|constructor].
Qed.
Lemma ex_all_ok xys : List.In xys [:: xys0; xys1; xys2] ->
  all_ok 2 (fun _ _ => Ok ex_out) (fun (_ : unit) u => Ok u) (fun _ u => Ok u) ex_points (Leaf ex_out) (fun _ => ex_out)
    (fun _ => @ident RR) xys.
Proof.
move=> Hx d Hd; have : d = (tt, y1) \/ d = (tt, y2).
  by case: Hx Hd => [<-|[<-|[<-|//]]] [<-|[<-|//]]; (by left) || (by right).
by case=> ->; split=> //; try exact: is_jacobian_ident.
Qed.

Section Calls.
Variables (eigh : forall k : nat, 'M[R]_k -> 'cV[R]_k * 'M[R]_k).
Variables (normal1 : unit -> nat -> seq R) (normal2 : unit -> forall n r, 'M[R]_(n, r)).
Variables (eps : R) (qr : forall a c, 'M[R]_(a, c) -> 'M[R]_(a, c))
  (svd : forall k, 'M[R]_k -> 'M[R]_k * 'cV[R]_k * 'M[R]_k).
Variable jax_lobpcg : forall n k : nat, (forall c, 'M[R]_(n, c) -> res 'M[R]_(n, c)) ->
  'M[R]_(n, k) -> nat -> option R -> res ('cV[R]_k * 'M[R]_(n, k) * nat).
Variable lo : lobpcg_args unit.
Notation lap := (laplace_call 2 (fun _ _ => Ok ex_out) (fun (_ : unit) u => Ok u) (fun _ u => Ok u) ex_item ex_points
  eigh normal1 normal2 tt eps qr svd jax_lobpcg (Leaf ex_out)).
Example C55_example x64 :
  (exists2 ps, lap as_loader "mse" (EStr "FULL") 2 2 ex_args lo (PriorArguments (Some 1) None) 1 x64 = (x64, Ok ps) &
     posterior_with (t := Leaf ex_out) (5%:R^-1)%:M ps) /\
  forall ct, lap all_in_one "mse" ct 2 2 ex_args lo (PriorArguments (Some 1) None) 1 =
             lap as_loader "mse" ct 2 2 ex_args lo (PriorArguments (Some 1) None) 1 /\
             lap all_in_one "mse" ct 2 2 ex_args lo (PriorArguments (Some 1) None) 1 =
             lap as_dicts "mse" ct 2 2 ex_args lo (PriorArguments (Some 1) None) 1.
Proof.
have [H0 H1 H2] := ex_holds; have mse : List.In "mse"%string ggn_losses by left.
have O0 := ex_all_ok (or_introl erefl); have O1 := ex_all_ok (or_intror (or_introl erefl)).
split.
  have Hn0 : (0 < get_size (Leaf ex_out))%N by [].
  have HWt : wf_tree (Leaf ex_out) by [].
  have Ec : convert_to_enum CurvApprox (EStr "FULL") false = Ok "full"%string by [].
  have [ps E Hps] := @C55_full unit unit 2 _ _ _ _ ex_item ex_points eigh normal1 normal2 tt eps qr svd
    jax_lobpcg _ _ _ _ Hn0 HWt mse _ _ (EStr "FULL") 2 2 ex_args lo None 1 1 x64 H1 O1 isT ler01 ltr01 ltr01 Ec.
  exists ps => //; move: Hps; congr posterior_with.
  rewrite /posterior_precision /ggn_matrix /samples /= !big_cons !big_nil /loss_hessian /= ident1 trmx1 !mul1mx !mulmx1 addr0.
  rewrite divff ?pnatr_eq0 // !scale1r invr1 scale1r.
  have -> : 2%:R%:M + 2%:R%:M + 1%:M = (5%:R)%:M :> 'M[R]_2 by apply/matrixP => i j; rewrite !mxE; case: (i == j); rewrite ?mulr0n ?mulr1n ?addr0 // -(natrD _ 2 2) -(natrD _ 4 1).
  by rewrite invmx_scalar.
have Hn0 : (0 < get_size (Leaf ex_out))%N by [].
have HWt : wf_tree (Leaf ex_out) by [].
have P1 : Permutation (samples ex_points xys0) (samples ex_points xys1) by exact: Permutation.perm_swap.
have P2 : Permutation (samples ex_points xys0) (samples ex_points xys2) by exact: Permutation.Permutation_refl.
move=> ct; split.
  exact: (C55_batching_invisible ex_item eigh normal1 normal2 tt eps qr svd jax_lobpcg Hn0 HWt mse ct 2 2
    ex_args lo (PriorArguments (Some 1) None) 1 H0 H1 O0 P1).
exact: (C55_batching_invisible ex_item eigh normal1 normal2 tt eps qr svd jax_lobpcg Hn0 HWt mse ct 2 2
  ex_args lo (PriorArguments (Some 1) None) 1 H0 H2 O0 P2).
Qed.
End Calls.
End Ex.
