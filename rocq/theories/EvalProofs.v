(** Lemmas about the model of laplax/eval/utils.py. *)
From Coq Require Import String List.
From mathcomp Require Import all_ssreflect.
From Verif Require Import Base EvalUtils.
Set Implicit Arguments.
Unset Strict Implicit.
Unset Printing Implicit Defensive.

Section Dict.
Variable V : Type.
Implicit Types (d : sdict V) (k : string).

Lemma eqb_sym_s k k' : String.eqb k k' = String.eqb k' k.
Proof. exact: String.eqb_sym. Qed.

Lemma sget_sset d k v k' : sget (sset d k v) k' = if String.eqb k k' then Some v else sget d k'.
Proof.
elim: d => [|[k0 v0] d IH] //=.
case: (String.eqb_spec k0 k) => [->|N] /=; first by case: (String.eqb_spec k k').
rewrite IH; case: (String.eqb_spec k0 k') => // <-.
by case: (String.eqb_spec k k0) => // E; rewrite E in N.
Qed.

Lemma sget_cat (d1 d2 : sdict V) k : sget (d1 ++ d2) k = if sget d1 k is Some v then Some v else sget d2 k.
Proof. by elim: d1 => [|[k0 v0] d IH] //=; case: String.eqb. Qed.

Lemma sgetP d k : reflect (List.In k (skeys d)) (shas d k).
Proof.
rewrite /shas; elim: d => [|[k0 v0] d IH] /=; first by constructor.
case: (String.eqb_spec k0 k) => [->|N] /=; first by constructor; left.
by apply: (iffP IH) => [H|[]//]; right.
Qed.

Lemma skeys_sset d k v : skeys (sset d k v) = if shas d k then skeys d else rcons (skeys d) k.
Proof.
rewrite /shas; elim: d => [|[k0 v0] d IH] //=.
case: (String.eqb_spec k0 k) => //= N.
by rewrite IH; case: ifP.
Qed.

Lemma skeys_cat (d1 d2 : sdict V) : skeys (d1 ++ d2) = skeys d1 ++ skeys d2.
Proof. by rewrite /skeys map_cat. Qed.

Lemma sget_In d k v : NoDup (skeys d) -> List.In (k, v) d -> sget d k = Some v.
Proof.
elim: d => [|[k0 v0] d IH] //= /NoDup_cons_iff [N0 N] [[<- <-]|H].
  by rewrite String.eqb_refl.
case: (String.eqb_spec k0 k) => [E|_]; last exact: IH.
by case: N0; rewrite E; apply: (in_map fst) H.
Qed.

Lemma sget_Some_In d k v : sget d k = Some v -> List.In (k, v) d.
Proof.
elim: d => [|[k0 v0] d IH] //=; case: (String.eqb_spec k0 k) => [-> [->]|_ H]; first by left.
by right; apply: IH.
Qed.

Lemma sget_None d k : sget d k = None <-> ~ List.In k (skeys d).
Proof.
have := sgetP d k; rewrite /shas; case: (sget d k) => [v|] /= H.
  by split=> // N; case: N; apply/H.
by split=> // _; apply/H.
Qed.

(** writing several entries *)
Definition sset_all d (kvs : sdict V) : sdict V := foldl (fun d e => sset d e.1 e.2) d kvs.

Lemma sget_sset_all_notin d kvs k : ~ List.In k (skeys kvs) -> sget (sset_all d kvs) k = sget d k.
Proof.
elim: kvs d => [|[k0 v0] kvs IH] d //= N.
rewrite IH; last by move=> H; apply: N; right.
by rewrite sget_sset; case: (String.eqb_spec k0 k) => // E; case: N; left.
Qed.

Lemma sget_sset_all d kvs k v :
  NoDup (skeys kvs) -> List.In (k, v) kvs -> sget (sset_all d kvs) k = Some v.
Proof.
elim: kvs d => [|[k0 v0] kvs IH] d //= /NoDup_cons_iff [N0 N] [[<- <-]|H]; last exact: IH.
by rewrite sget_sset_all_notin // sget_sset String.eqb_refl.
Qed.

Lemma sget_sset_all_gen d kvs k :
  NoDup (skeys kvs) -> sget (sset_all d kvs) k = if sget kvs k is Some v then Some v else sget d k.
Proof.
move=> N; case E: (sget kvs k) => [v|].
  by apply: sget_sset_all => //; apply: sget_Some_In.
by apply: sget_sset_all_notin; apply/sget_None.
Qed.

Lemma sset_all_keys kvs : NoDup (skeys kvs) -> sset_all [::] kvs = kvs.
Proof.
suff H d : NoDup (skeys (d ++ kvs)) -> sset_all d kvs = d ++ kvs by move=> N; apply: (H [::]).
elim: kvs d => [|[k v] kvs IH] d; first by rewrite cats0.
move=> N /=.
have E : sset d k v = rcons d (k, v).
  have : ~ List.In k (skeys d).
    move=> H; move: N; rewrite skeys_cat /= => N; case: (NoDup_remove_2 _ _ _ N).
    by apply/in_or_app; left.
  elim: d {IH N} => [|[k0 v0] d IH] //= N.
  case: (String.eqb_spec k0 k) => [E|_]; first by case: N; left.
  by rewrite IH // => H; apply: N; right.
by rewrite E IH ?cat_rcons.
Qed.

End Dict.

Section Finalize.
Variables A B : Type.
Implicit Types fs : seq (A -> B -> res (A * B)).

Lemma finalize_cons f fs r a :
  finalize_fns (f :: fs) r a = (let! st := f r a in finalize_fns fs st.1 st.2).
Proof. by rewrite /finalize_fns /=; case: (f r a) => // -[r' a']. Qed.

Lemma finalize_nil (r : A) (a : B) : finalize_fns [::] r a = Ok r.
Proof. by []. Qed.
End Finalize.

Section Eval.
Variable V : Type.
Implicit Types (r a lk : sdict V).

Lemma all_callable_error (fs : seq (pyobj V)) :
  all_callable fs = Raise TypeError <-> List.In (PyOther V) fs.
Proof.
elim: fs => [|[n c|] fs IH] //=; last by split=> // _; left.
split; first by case E: (all_callable fs) IH => [//|e] IH [H]; subst e; right; apply/IH.
by case=> // /IH ->.
Qed.

Lemma all_callable_ok (fs : seq (string * (sdict V -> res V))) :
  all_callable [seq PyCallable f.1 f.2 | f <- fs] = Ok fs.
Proof. by elim: fs => [|[n c] fs IH] //=; rewrite IH. Qed.

(** every element of a list of Python objects is callable *)
Lemma all_callable_inv (fs : seq (pyobj V)) gs :
  all_callable fs = Ok gs -> fs = [seq PyCallable f.1 f.2 | f <- gs].
Proof.
elim: fs gs => [|[n c|] fs IH] gs //=; first by case=> <-.
by case E: (all_callable fs) => [hs|] //= [<-] /=; rewrite (IH hs).
Qed.

Lemma lookup_kwargs_ok kw r a kvp :
  (forall k v, List.In (k, v) kw -> shas r v || shas a v) ->
  exists2 args, lookup_kwargs kw r a kvp = Ok args
    & exists kvs, [/\ skeys kvs = skeys kw, args = sset_all kvp kvs
        & forall k x, List.In (k, x) kvs -> exists2 v, List.In (k, v) kw &
             Some x = if sget r v is Some y then Some y else sget a v].
Proof.
elim: kw kvp => [|[k v] kw IH] kvp H /=.
  by exists kvp => //; exists [::]; split.
have Hv := H k v (or_introl erefl).
have H' : forall k0 v0, List.In (k0, v0) kw -> shas r v0 || shas a v0.
  by move=> k0 v0 H0; apply: (H k0); right.
have {Hv} [x Ex] : exists x, Some x = if sget r v is Some y then Some y else sget a v.
  by move: Hv; rewrite /shas; case: (sget r v) => [y|] /=; [exists y|case: (sget a v) => // y; exists y].
have -> : match sget r v with
          | Some x => lookup_kwargs kw r a (sset kvp k x)
          | None => match sget a v with
                    | Some x => lookup_kwargs kw r a (sset kvp k x)
                    | None => Raise ValueError
                    end
          end = lookup_kwargs kw r a (sset kvp k x).
  by move: Ex; case: (sget r v) => [y [->]|] //; case: (sget a v) => // y [->].
case: (IH (sset kvp k x) H') => args E [kvs [K1 K2 K3]].
exists args => //; exists ((k, x) :: kvs); split=> //=; first by rewrite K1.
move=> k0 x0 [[<- <-]|H0]; first by exists v => //; left.
by case: (K3 _ _ H0) => v0 H1 H2; exists v0 => //; right.
Qed.

Lemma lookup_kwargs_error kw r a kvp k v :
  List.In (k, v) kw -> sget r v = None -> sget a v = None -> lookup_kwargs kw r a kvp = Raise ValueError.
Proof.
move=> + Hr Ha; elim: kw kvp => [|[k0 v0] kw IH] kvp //= [[_ ->]|H].
  by rewrite Hr Ha.
by case: (sget r v0) => [x|]; [apply: IH|case: (sget a v0) => // x; apply: IH].
Qed.

(** the loop of [apply_fns] when the arguments do not change *)
Lemma apply_loop_results (fns : seq ((sdict V -> res V) * string)) kvp lk r a args :
  merge_kwargs (if kvp is Some d then d else a) lk = Ok args ->
  apply_loop fns "results" kvp lk r a =
  let! xs := mapM (fun f => f.1 args) fns in
  Ok (sset_all r (zip (map snd fns) xs), a).
Proof.
move=> M; elim: fns r => [|[f n] fns IH] r //=.
rewrite M /=; case: (f args) => //= x.
by rewrite IH; case: (mapM _ fns).
Qed.

Lemma apply_loop_aux (fns : seq ((sdict V -> res V) * string)) d lk r a args :
  merge_kwargs d lk = Ok args ->
  apply_loop fns "aux" (Some d) lk r a =
  let! xs := mapM (fun f => f.1 args) fns in
  Ok (r, sset_all a (zip (map snd fns) xs)).
Proof.
move=> M; elim: fns a => [|[f n] fns IH] a //=.
rewrite M /=; case: (f args) => //= x.
by rewrite IH; case: (mapM _ fns).
Qed.

Lemma apply_loop_badfield f n (fns : seq ((sdict V -> res V) * string)) fld kvp lk r a args x :
  fld <> "results"%string -> fld <> "aux"%string ->
  merge_kwargs (if kvp is Some d then d else a) lk = Ok args -> f args = Ok x ->
  apply_loop ((f, n) :: fns) fld kvp lk r a = Raise ValueError.
Proof.
move=> H1 H2 M E /=; rewrite M /= E /=.
by case: (String.eqb_spec fld "results") => // _; case: (String.eqb_spec fld "aux").
Qed.

Lemma merge_kwargs_ok (d1 d2 : sdict V) :
  (forall k, List.In k (skeys d2) -> ~ List.In k (skeys d1)) -> merge_kwargs d1 d2 = Ok (d1 ++ d2).
Proof.
rewrite /merge_kwargs => H.
have -> // : has (fun k => shas d1 k) (skeys d2) = false.
elim: (skeys d2) H => //= k ks IH H; rewrite IH ?orbF; last by move=> k' Hk; apply: H; right.
by apply/negbTE/negP => /sgetP; apply: H; left.
Qed.

Lemma merge_kwargs_error (d1 d2 : sdict V) k :
  List.In k (skeys d2) -> List.In k (skeys d1) -> merge_kwargs d1 d2 = Raise TypeError.
Proof.
rewrite /merge_kwargs => H H1.
have -> // : has (fun k => shas d1 k) (skeys d2) = true.
elim: (skeys d2) H => //= k' ks IH [->|H]; last by rewrite IH ?orbT.
by case: sgetP.
Qed.

(** ** transfer *)

Lemma transfer_distinct items fld acc (st : sdict V * sdict V) :
  fld <> acc ->
  transfer_loop items fld acc st =
  let! xs := mapM (fun e => sindex (pick acc st) e.2) items in
  Ok (put fld st (sset_all (pick fld st) (zip (skeys items) xs))).
Proof.
move=> N; elim: items st => [|[k v] items IH] st /=; first by case: st fld {N} => ? ? [].
case: (sindex _ v) => //= x; rewrite IH.
have -> : pick acc (put fld st (sset (pick fld st) k x)) = pick acc st.
  by case: fld acc {IH} N => -[].
case: (mapM _ items) => //= xs; congr Ok.
by case: fld {N IH}.
Qed.

Lemma put_pick fld (st : sdict V * sdict V) d : pick fld (put fld st d) = d.
Proof. by case: fld. Qed.

(** ** stacking *)

Lemma all2_eqbP (s t : seq string) : reflect (s = t) (all2 String.eqb s t).
Proof.
elim: s t => [|x s IH] [|y t] /=; try by constructor.
case: (String.eqb_spec x y) => [->|N] /=; last by constructor; case.
by apply: (iffP (IH t)) => [->|[->]].
Qed.

End Eval.
