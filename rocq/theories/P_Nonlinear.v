(** C62: the nonlinear (ensemble) route end to end, and its relation to the linearised one. *)
From Coq Require Import Reals String.
From mathcomp Require Import all_ssreflect all_algebra.
From Verif Require Import Base PyTree TreeSpec PyTreeProofs BasisProofs StackProofs Mv MvProofs TreeOpsProofs.
From Verif Require Import EvalUtils Pushforward PushforwardSpec PushforwardProofs P_Pushforward.
From Verif Require Import RealStruct GgnSpec Ggn Posterior PosteriorSpec PosteriorTree PipelineSpec TreeGgn Pipeline PipelineProofs GgnProofs P_Ggn P_Posterior P_Pipeline P_MonteCarlo.
Set Implicit Arguments.
Unset Strict Implicit.
Unset Printing Implicit Defensive.
Import Order.TTheory GRing.Theory Num.Theory.
Local Open Scope ring_scope.

(** A model that at [x] is the affine function [b + A w] of its parameters (listed leaf by leaf), with
    predictions of shape [s]; [f w] is its prediction at the parameters [w]. *)
Definition affine_at (R : rcfType) (X : Type) (model_fn : X -> tree (arr R) -> res (arr R)) (mean : tree (arr R)) (x : X)
    (f : tree (arr R) -> arr R) (s : seq nat) (A : nat -> nat -> R) (b : nat -> R) : Prop :=
  forall w, wf_tree w -> same_layout mean w ->
  [/\ model_fn x w = Ok (f w), ashape (f w) = s, wf_arr (f w) &
      forall j, (j < prodn s)%N ->
      nth 0 (adata (f w)) j = b j + \sum_(0 <= p < get_size mean) A j p * nth 0 (entries w) p].

(** For a model that is affine in its parameters the two routes agree draw by draw: with the same key
    and number of samples, the ensemble's mean and covariance are the empirical mean and covariance of
    the samples of the linearised route, and its samples are the first five of them. *)
Theorem C62_affine_agreement :
  forall (R : rcfType) (X Key : Type) split normal (key0 key : Key) (model_fn : X -> tree (arr R) -> res (arr R))
    ad_jvp ad_vjp (mean : tree (arr R)) ps kw kw' N (ops : seq ens_stat) (x : X) f s A b (Sg S : nat -> nat -> R),
  (forall k n, size (split k n) = n) -> (forall k s, size (normal k s) = prodn s) ->
  kw_num_samples kw = Some N -> (0 < N)%N -> (ECov \in ops -> (1 < N)%N) -> (0 < prodn s)%N -> wf_tree mean ->
  affine_at model_fn mean x f s A b ->
  is_jacobian A mean (f mean) (ad_jvp x) (ad_vjp x) ->
  acts_as Sg mean mean (ps_cov_mv ps) -> acts_as S mean mean (ps_scale_mv ps) ->
  exists predict r smp predict' r',
    [/\ set_lin_pushforward split normal key0 model_fn ad_jvp ad_vjp mean ps (Some key)
          [:: @lin_setup R X; @lin_samples R X] kw = Ok predict /\
        predict x = Ok r /\ r_samples r = Some smp,
        set_nonlin_pushforward split normal key0 model_fn ad_jvp ad_vjp mean ps key (Some N)
          (nonlin_setup model_fn :: [seq @ens_fn R X o | o <- ops]) kw' = Ok predict' /\ predict' x = Ok r',
        forall m j, r_pred_mean r' = Some m -> (j < prodn s)%N ->
          nth 0 (adata m) j = avg N (fun i j => nth 0 (adata smp) (i * prodn s + j)) j,
        forall c j l, r_pred_cov r' = Some c -> (j < prodn s)%N -> (l < prodn s)%N ->
          nth 0 (adata c) (j * prodn s + l) = codev N (fun i j => nth 0 (adata smp) (i * prodn s + j)) j l / (N.-1)%:R &
        forall a, r_samples r' = Some a ->
          ashape a = minn 5 N :: s /\ adata a = take (minn 5 N * prodn s) (adata smp)].
Proof.
move=> R X Key split normal key0 key model_fn ad_jvp ad_vjp mean ps kw kw' N ops x f s A b Sg S Hsp Hno HN N0 N1 P0 Wm HM HJ HS Hsc.
have [Mm Sm Wo Em] := HM mean Wm (same_layout_refl _).
have HM' w : wf_tree w -> same_layout mean w -> [/\ model_fn x w = Ok (f w), ashape (f w) = s & wf_arr (f w)].
  by move=> W1 S1; have [] := HM w W1 S1.
have P0' : (0 < prodn (ashape (f mean)))%N by rewrite Sm.
have Ho : no_var_after_cov [:: SSamples] by move=> [|? [|? ?]].
have [predict [r [eps [E1 E2 _ E3 [smp Es [Sh Ws Hs]]]]]] :=
  C40_lin_samples key0 (Some key) Hsp Hno HN N0 Wo Mm P0' HJ HS Hsc (or_intror Ho).
have [predict' [r' [pred [F1 F2 _ F4 F5]]]] := @C41_ensemble_statistics R X Key split normal key0 key model_fn ad_jvp ad_vjp
    mean ps kw' (Some N) ops x f s S Hsp Hno N0 N1 Wm HM' Hsc.
rewrite Sm in Sh Hs.
have Ep i j : (i < N)%N -> (j < prodn s)%N -> nth 0 (adata (pred i)) j = nth 0 (adata smp) (i * prodn s + j).
  move=> Hi Hj; have [e [w [G1 G2 G3 G4 ->]]] := F4 i Hi.
  have [_ _ _ ->] := HM w G3 G2 => //; rewrite Hs // Em // -addrA; congr (_ + _).
  rewrite -big_split /=; apply: eq_big_nat => p /andP [_ Hp]; rewrite G4 // mulrDr; congr (_ + _ * _).
  by move: G1; rewrite E3 // => -[<-].
have Ea j : (j < prodn s)%N -> avg N (fun i j => nth 0 (adata (pred i)) j) j = avg N (fun i j => nth 0 (adata smp) (i * prodn s + j)) j.
  by move=> Hj; rewrite /avg; congr (_ / _); apply: eq_big_nat => i /andP [_ Hi]; apply: Ep.
have Ec j l : (j < prodn s)%N -> (l < prodn s)%N -> codev N (fun i j => nth 0 (adata (pred i)) j) j l =
    codev N (fun i j => nth 0 (adata smp) (i * prodn s + j)) j l.
  by move=> Hj Hl; rewrite /codev; apply: eq_big_nat => i /andP [_ Hi]; rewrite !Ea // !Ep.
exists predict, r, smp, predict', r'; case: F5 => H1 H2 _ _ H5; split.
- by split; [exact: E1 | split].
- by split.
- move=> m j; rewrite H1; case: ifP => // _ [<-] Hj /=.
  by rewrite (nth_map 0%N) ?size_iota // nth_iota // Ea.
- move=> c j l; rewrite H2; case: ifP => // _ [<-] Hj Hl /=.
  have Hjl : (j * prodn s + l < prodn s * prodn s)%N.
    by apply: (@leq_trans (j * prodn s + prodn s)); rewrite ?ltn_add2l // addnC -mulSn leq_mul2r Hj orbT.
  rewrite (nth_map 0%N) ?size_iota // nth_iota // add0n.
  by rewrite divnMDl // divn_small // addn0 modnMDl modn_small // Ec.
- move=> a; rewrite H5; case: ifP => // _ [<-] /=; split=> //.
  have Sp i : (i < N)%N -> size (adata (pred i)) = prodn s.
    by move=> Hi; have [e [w [G1 G2 G3 G4 ->]]] := F4 i Hi; have [_ <- /eqP] := HM' w G3 G2.
  have Ws' : size (adata smp) = (N * prodn s)%N by move/eqP: Ws; rewrite Sh.
  have HmN : (minn 5 N <= N)%N by rewrite geq_minr.
  have Sf m : (m <= N)%N -> size (flatten [seq adata (pred i) | i <- iota 0 m]) = (m * prodn s)%N.
    elim: m => [//|m IH] Hm; rewrite -[X in iota 0 X]addn1 iotaD map_cat flatten_cat size_cat IH 1?ltnW //= cats0 Sp //.
    by rewrite mulSn addnC.
  apply: (@eq_from_nth _ 0).
    by rewrite Sf // size_takel // Ws' leq_mul2r HmN orbT.
  rewrite Sf // => k Hk; rewrite nth_take //.
  have k1 : (k %/ prodn s < minn 5 N)%N by rewrite ltn_divLR.
  rewrite [in LHS](divn_eq k (prodn s)) (@nth_flatten_const _ _ _ (prodn s)) ?size_map ?size_iota ?ltn_mod //; last first.
    by move=> q Hq; rewrite (nth_map 0%N) ?size_iota // nth_iota // add0n Sp // (leq_trans Hq).
  by rewrite (nth_map 0%N) ?size_iota // nth_iota // add0n Ep ?ltn_mod ?(leq_trans k1) // -divn_eq.
Qed.
Print Assumptions C62_affine_agreement.

(** End to end: GGN over the data, full posterior, ensemble.  Member [i] is the model's prediction at the
    trained parameters plus [L eps_i], [eps_i] the draw for the [i]-th key and [L L^T] the inverse of
    the posterior precision; the reported statistics are those of the members. *)
Theorem C62_laplace_ensemble :
  forall (X Key : Type) (K : nat) split normal (key0 key : Key) model_fn ad_jvp ad_vjp (t : tree (arr R))
    (data : seq (X * arr R)) (s : string) nc nt fac pred J s2 tau lsf num_samples kw (ops : seq ens_stat)
    (x : X) (f : tree (arr R) -> arr R) (sh : seq nat),
  let n := get_size t in
  let N := odflt 100%N num_samples in
  let prec := posterior_precision (ggn_matrix K n s fac pred J data) (odflt 1 s2) tau lsf in
  (forall k m, size (split k m) = m) -> (forall k sh, size (normal k sh) = prodn sh) ->
  (0 < n)%N -> wf_tree t -> List.In s ggn_losses -> curv_scaling_factor nc nt (size data) = Ok fac ->
  (forall d, List.In d data -> sample_ok K model_fn ad_jvp ad_vjp t pred J d) ->
  0 <= odflt 1 s2 -> 0 < tau -> 0 < lsf ->
  (0 < N)%N -> (ECov \in ops -> (1 < N)%N) ->
  (forall w, wf_tree w -> same_layout t w -> [/\ model_fn x w = Ok (f w), ashape (f w) = sh & wf_arr (f w)]) ->
  exists r (L : 'M[R]_n) members,
    [/\ laplace_ensemble K split normal key0 model_fn ad_jvp ad_vjp t data s nc nt s2 tau lsf key num_samples
          (nonlin_setup model_fn :: [seq @ens_fn [rcfType of R] X o | o <- ops]) kw x = Ok r,
        r_map r = f t, L *m L^T = invmx prec,
        ens_members (R := [rcfType of R]) split normal key0 key N t (entry L) f members &
        ens_report (R := [rcfType of R]) N sh members ops r].
Proof.
move=> X Key K split normal key0 key model_fn ad_jvp ad_vjp t data s nc nt fac pred J s2 tau lsf num_samples kw ops x f sh n N prec
  Hsp Hno n0 Wt Hs Hf Hd Hs2 Ht Hl N0 N1 HM.
have [ps [L [E1 E3 E4 E5 _]]] := @C49_laplace_posterior X K model_fn ad_jvp ad_vjp t data s nc nt fac pred J s2 tau lsf
  n0 Hs Hf Hd Hs2 Ht Hl.
have [predict [r [m [F1 F2 F3 F4 F5]]]] := @C41_ensemble_statistics [rcfType of R] X Key split normal key0 key model_fn ad_jvp ad_vjp
    t ps kw num_samples ops x f sh (entry L) Hsp Hno N0 N1 Wt HM (acts_mx_as E4).
exists r, L, m; split=> //.
by rewrite /laplace_ensemble E1; cbn [bind]; rewrite [X in bind X _]F1.
Qed.
Print Assumptions C62_laplace_ensemble.

(** ... and for an affine model, over the random key, the reported mean and covariance are unbiased
    estimates of what the linearised route reports: the trained model's prediction and
    [A prec^-1 A^T]. *)
Theorem C62_unbiased :
  forall (X Key : Type) (K : nat) split normal (key0 : Key) model_fn ad_jvp ad_vjp (t : tree (arr R))
    (data : seq (X * arr R)) (s : string) nc nt fac pred J s2 tau lsf num_samples kw (ops : seq ens_stat)
    (E : (Key -> R) -> R) (x : X) f (sh : seq nat) A b (r : Key -> results [rcfType of R]),
  let n := get_size t in
  let N := odflt 100%N num_samples in
  let prec := posterior_precision (ggn_matrix K n s fac pred J data) (odflt 1 s2) tau lsf in
  (forall k m, size (split k m) = m) -> (forall k sh, size (normal k sh) = prodn sh) ->
  (0 < n)%N -> wf_tree t -> List.In s ggn_losses -> curv_scaling_factor nc nt (size data) = Ok fac ->
  (forall d, List.In d data -> sample_ok K model_fn ad_jvp ad_vjp t pred J d) ->
  0 <= odflt 1 s2 -> 0 < tau -> 0 < lsf ->
  (0 < N)%N -> (ECov \in ops -> (1 < N)%N) ->
  affine_at (R := [rcfType of R]) model_fn t x f sh A b ->
  @expectation [rcfType of R] Key E -> @standard_draws [rcfType of R] Key E split normal key0 N t ->
  (forall key, laplace_ensemble K split normal key0 model_fn ad_jvp ad_vjp t data s nc nt s2 tau lsf key num_samples
      (nonlin_setup model_fn :: [seq @ens_fn [rcfType of R] X o | o <- ops]) kw x = Ok (r key)) ->
  let C := of_entries (prodn sh) n A *m invmx prec *m (of_entries (prodn sh) n A)^T in
  (forall mu (j : 'I_(prodn sh)), (forall key, r_pred_mean (r key) = Some (mu key)) ->
     E (fun key => nth 0 (adata (mu key)) j) = nth 0 (adata (f t)) j) /\
  (forall c (j l : 'I_(prodn sh)), (forall key, r_pred_cov (r key) = Some (c key)) ->
     E (fun key => nth 0 (adata (c key)) (j * prodn sh + l)) = C j l).
Proof.
move=> X Key K split normal key0 model_fn ad_jvp ad_vjp t data s nc nt fac pred J s2 tau lsf num_samples kw ops E x f sh A b r n N prec
  Hsp Hno n0 Wt Hs Hf Hd Hs2 Ht Hl N0 N1 HM HE HZ Hr C.
have [ps [L [E1 E3 E4 E5 _]]] := @C49_laplace_posterior X K model_fn ad_jvp ad_vjp t data s nc nt fac pred J s2 tau lsf
  n0 Hs Hf Hd Hs2 Ht Hl.
have Hsq : is_sqrt_of n (entry L) (entry (invmx prec)).
  move=> a c Ha Hb; rewrite -E5.
  rewrite -[a]/(nat_of_ord (Ordinal Ha)) -[c]/(nat_of_ord (Ordinal Hb)) entryE mxE big_mkord.
  by apply: eq_bigr => k _; rewrite mxE !entryE.
have [|H1 H2 _] := @C60_affine_ensemble [rcfType of R] X Key split normal key0 model_fn ad_jvp ad_vjp t ps kw num_samples ops E
  x f sh A b (entry (invmx prec)) (entry L) r Hsp Hno N0 N1 Wt HM (acts_mx_as E4) Hsq HE HZ.
  move=> key; have := Hr key; rewrite /laplace_ensemble E1; cbn [bind].
  by case E0: (set_nonlin_pushforward _ _ _ _ _ _ _ _ _ _ _ _) => [predict|//]; cbn [bind] => Er; exists predict.
split=> [mu j Hmu|c j l Hc].
  by have [H _] := H1 mu Hmu j j (ltn_ord j) (ltn_ord j).
have := H2 c Hc j l (ltn_ord j) (ltn_ord l); rewrite /C -(cov_entryE A A (invmx prec) j l); exact.
Qed.
Print Assumptions C62_unbiased.

(** Hypotheses met: the identity model (affine, with the identity as its Jacobian), seven members. *)
Lemma affine_ident (R : rcfType) (a : arr R) (x : unit) : wf_arr a ->
  affine_at (fun (_ : unit) p => if p is Leaf a then Ok a else Raise TypeError) (Leaf a) x
    (fun p => if p is Leaf a then a else Arr [::] [::]) (ashape a) (@ident R) (fun _ => 0).
Proof.
move=> Wa w W S; have [b [E Eb]] := layout_leaf S; move: W; rewrite E wf_leaf /wf_arr => W.
split=> // j Hj; rewrite add0r /entries /= cats0 (_ : get_size (Leaf a) = prodn (ashape a)); last first.
  by rewrite /get_size /= addn0.
rewrite (big_cat_nat _ _ _ (leq0n j)) 1?ltnW //= [X in X + _]big_nat_cond big1 ?add0r; last first.
  by move=> i /andP [/andP [_ Hi] _]; rewrite /ident gtn_eqF // mul0r.
rewrite big_ltn // /ident eqxx mul1r [X in _ + X]big_nat_cond big1 ?addr0 // => i /andP [/andP [Hi _] _].
by rewrite ltn_eqF // mul0r.
Qed.
Example C62_hypotheses_met (R : rcfType) :
  let a := Arr [:: 2%N] [:: 3%:R; 4%:R : R] in
  let model (_ : unit) (p : tree (arr R)) := if p is Leaf a then Ok a else Raise TypeError in
  let ps := PosteriorState (fun u => Ok u) (fun u : tree (arr R) => Ok u) in
  exists predict r smp,
    set_lin_pushforward (fun (k : unit) n => nseq n k) (ones_normal R) tt model (fun _ u => Ok u) (fun _ u => Ok u)
      (Leaf a) ps (Some tt) [:: @lin_setup R unit; @lin_samples R unit] (kw0 (Some 7%N)) = Ok predict /\
    predict tt = Ok r /\ r_samples r = Some smp.
Proof.
move=> a model ps.
have [predict [r [smp [_ [_ [[E1 [E2 E3]] _ _ _ _]]]]]] :=
  @C62_affine_agreement R unit unit (fun k n => nseq n k) (ones_normal R) tt tt
  model (fun _ u => Ok u) (fun _ u => Ok u) (Leaf a) ps (kw0 (Some 7%N)) (kw0 None) 7%N [:: EMean; ECov; ESamples] tt
  _ [:: 2%N] _ _ (@ident R) (@ident R) nseq_split_size (@ones_normal_size R) erefl isT (fun=> isT) isT isT
  (@affine_ident R a tt (eqxx _)) (@is_jacobian_ident R a) (@acts_as_ident R _) (@acts_as_ident R _).
by exists predict, r, smp.
Qed.
