(** Properties C43 (metric plumbing) and C44 (evaluation on data sets and generators). *)
From Coq Require Import String List.
From mathcomp Require Import all_ssreflect.
From Verif Require Import Base EvalUtils EvalProofs EvalBatch.
Set Implicit Arguments.
Unset Strict Implicit.
Unset Printing Implicit Defensive.

(** * C43: finalize_fns *)

(** The specification of a left-to-right run: each function receives what the previous one
    returned. *)
Inductive runs (A B : Type) : seq (A -> B -> res (A * B)) -> A * B -> A * B -> Prop :=
  | runs_nil st : runs [::] st st
  | runs_cons f fs r a st st' : f r a = Ok st -> runs fs st st' -> runs (f :: fs) (r, a) st'.

Lemma runs_cons_inv (A B : Type) (f : A -> B -> res (A * B)) fs r a st' :
  runs (f :: fs) (r, a) st' -> exists r1 a1, f r a = Ok (r1, a1) /\ runs fs (r1, a1) st'.
Proof. by move=> H; inversion H; subst; destruct st as [r1 a1]; exists r1, a1. Qed.

Lemma runs_nil_inv (A B : Type) (st st' : A * B) : runs [::] st st' -> st' = st.
Proof. by move=> H; inversion H. Qed.

Theorem C43_finalize_fns_left_to_right (A B : Type) (fs : seq (A -> B -> res (A * B))) r a r' :
  finalize_fns fs r a = Ok r' <-> exists a', runs fs (r, a) (r', a').
Proof.
elim: fs r a => [|f fs IH] r a.
  rewrite finalize_nil; split=> [[<-]|[a' H]]; first by exists a; constructor.
  by case: (runs_nil_inv H) => ->.
rewrite finalize_cons; split.
  case E: (f r a) => [[r1 a1]|//] /= /IH [a' H]; exists a'; exact: runs_cons E H.
case=> a' H0; case: (runs_cons_inv H0) => r1 [a1 [E H]].
by rewrite E /=; apply/IH; exists a'.
Qed.

(** An exception of a function ends the run: it is the exception of the first function that
    raises. *)
Theorem C43_finalize_fns_first_exception (A B : Type) (fs : seq (A -> B -> res (A * B))) r a e :
  finalize_fns fs r a = Raise e <->
  exists fs1 f fs2 r1 a1, [/\ fs = fs1 ++ f :: fs2, runs fs1 (r, a) (r1, a1) & f r1 a1 = Raise e].
Proof.
split.
  elim: fs r a => [|f fs IH] r a; first by rewrite finalize_nil.
  rewrite finalize_cons; case E: (f r a) => [[r1 a1]|e'] /=; last first.
    by case=> <-; exists [::], f, fs, r, a; split=> //; constructor.
  case/IH=> fs1 [g [fs2 [r2 [a2 [-> H1 H2]]]]].
  by exists (f :: fs1), g, fs2, r2, a2; split=> //; apply: runs_cons E H1.
case=> fs1 [f [fs2 [r1 [a1 [-> H1 H2]]]]].
elim: fs1 r a H1 => [|g fs1 IH] r a.
  by move=> H0; case: (runs_nil_inv H0) => E1 E2; subst; rewrite cat0s finalize_cons H2.
by move=> H0; case: (runs_cons_inv H0) => r2 [a2 [E H]]; rewrite cat_cons finalize_cons E /=; apply: IH.
Qed.

(** * C43: apply_fns *)

Section Apply.
Variable V : Type.
Implicit Types (results aux args lk : sdict V) (kwargs : sdict string).

(** callables with their names *)
Definition callables (fs : seq (string * (sdict V -> res V))) : seq (pyobj V) :=
  [seq PyCallable f.1 f.2 | f <- fs].

(** the names under which the results are to be stored *)
Definition effective_names (names : option (seq string)) (fs : seq (string * (sdict V -> res V))) :=
  if names is Some ns then ns else map fst fs.

(** [new] is [old] with the values [xs] stored under the names [ns]. *)
Definition stored (old new : sdict V) (ns : seq string) (xs : seq V) : Prop :=
  (forall n x, List.In (n, x) (zip ns xs) -> sget new n = Some x) /\
  (forall k, ~ List.In k ns -> sget new k = sget old k).

(** The value an argument name stands for: an entry of [results] if there is one, else of [aux]. *)
Definition resolve results aux (v : string) : option V :=
  match sget results v with Some x => Some x | None => sget aux v end.

(** Only callables are accepted, and TypeError is raised when the step is built. *)
Theorem C43_apply_fns_not_callable (objs : seq (pyobj V)) names field kwargs :
  apply_fns objs names field kwargs = Raise TypeError <-> List.In (PyOther V) objs.
Proof.
rewrite -all_callable_error /apply_fns; split; last by move=> ->.
by case: (all_callable objs) => [fs //|e [->]].
Qed.

(** All entries that exist are unchanged except those stored, the arguments come from [results]
    before [aux], and the functions are called left to right on the same arguments. *)
Lemma zip_stored old ns (xs : seq V) :
  NoDup ns -> size ns = size xs -> stored old (sset_all old (zip ns xs)) ns xs.
Proof.
move=> N S; have K : skeys (zip ns xs) = ns by rewrite /skeys -/unzip1 unzip1_zip // S.
split=> [n x H|k H]; first by apply: sget_sset_all => //; rewrite K.
by apply: sget_sset_all_notin; rewrite K.
Qed.

Lemma sget_args_kw kwargs (kvs : sdict V) results aux k v :
  NoDup (skeys kwargs) -> skeys kvs = skeys kwargs ->
  (forall k x, List.In (k, x) kvs -> exists2 v, List.In (k, v) kwargs & Some x = resolve results aux v) ->
  List.In (k, v) kwargs -> sget kvs k = resolve results aux v.
Proof.
move=> N K H Hin.
have : List.In k (skeys kvs) by rewrite K; apply: (in_map fst) Hin.
move/sgetP; rewrite /shas; case E: (sget kvs k) => [x|] //= _.
case: (H k x (sget_Some_In E)) => v' H' ->.
by move: (sget_In N Hin) (sget_In N H') => -> [->].
Qed.

Theorem C43_apply_fns_arguments_and_frame fs names field kwargs results aux lk :
  kwargs <> [::] -> NoDup (skeys kwargs) ->
  (forall k v, List.In (k, v) kwargs -> resolve results aux v <> None) ->
  (forall k, List.In k (skeys lk) -> ~ List.In k (skeys kwargs)) ->
  size (effective_names names fs) = size fs -> NoDup (effective_names names fs) ->
  field = "results"%string \/ field = "aux"%string ->
  exists step args,
    [/\ apply_fns (callables fs) names field kwargs = Ok step,
        (forall k v, List.In (k, v) kwargs -> sget args k = resolve results aux v),
        (forall k, ~ List.In k (skeys kwargs) -> sget args k = sget lk k)
      & match mapM (fun f => f.2 args) fs with
        | Raise e => step results aux lk = Raise e
        | Ok xs => exists results' aux', step results aux lk = Ok (results', aux') /\
            (if String.eqb field "results"
             then stored results results' (effective_names names fs) xs /\ aux' = aux
             else results' = results /\ stored aux aux' (effective_names names fs) xs)
        end].
Proof.
move=> Hne N Hres Hlk Hsz Nn Hf.
have Hpres : forall k v, List.In (k, v) kwargs -> shas results v || shas aux v.
  move=> k v /Hres; rewrite /resolve /shas.
  by case: (sget results v) => //; case: (sget aux v).
case: (lookup_kwargs_ok [::] Hpres) => kvp Ek [kvs [K1 K2 K3]].
have Ekv : kvp = kvs by rewrite K2 sset_all_keys // K1.
rewrite {}Ekv {K2} in Ek.
have M : merge_kwargs kvs lk = Ok (kvs ++ lk).
  by apply: merge_kwargs_ok => k /Hlk; rewrite K1.
rewrite /apply_fns all_callable_ok /=; eexists; exists (kvs ++ lk); split; first by reflexivity.
- move=> k v Hin; rewrite sget_cat (@sget_args_kw kwargs kvs results aux k v N K1 K3 Hin).
  by case E: (resolve results aux v) => [x|] //; case: (Hres _ _ Hin).
- move=> k Hk; rewrite sget_cat.
  by move: Hk; rewrite -K1 => /sget_None ->.
have En : func_names names fs = Ok (effective_names names fs).
  by rewrite /func_names; move: Hsz; case: names {Nn} => //= ns ->; rewrite eqxx.
have -> : (if kwargs is [::] then Ok None
   else rmap Some (lookup_kwargs kwargs results aux [::])) = Ok (Some kvs).
  by case: kwargs Hne {N Hres Hlk Hpres K1 K3} Ek => // e kw _ ->.
rewrite /= En /=.
have Ezip : mapM (fun f => f.1 (kvs ++ lk)) (zip (map snd fs) (effective_names names fs)) =
            mapM (fun f => f.2 (kvs ++ lk)) fs.
  move: Hsz; move: (effective_names names fs) => ns {En Nn K3 K1 Hres Hpres Ek M}.
  elim: fs ns => [|[n f] fs IH] [|n' ns] //= [Hsz].
  by rewrite IH.
have Esnd : [seq x.2 | x <- zip [seq x.2 | x <- fs] (effective_names names fs)] = effective_names names fs.
  by rewrite -/unzip2 unzip2_zip // size_map Hsz.
case: Hf => ->; [rewrite (@apply_loop_results _ _ (Some kvs) _ _ _ _ M)|rewrite (@apply_loop_aux _ _ _ _ _ _ _ M)];
  rewrite Ezip Esnd /=; case E: (mapM _ fs) => [xs|e] //=;
  eexists; eexists; (split; first by reflexivity); split=> //; apply: zip_stored => //;
  by rewrite (mapM_size E).
Qed.

(** An argument whose entry is in neither dictionary raises ValueError (whatever the functions). *)
Theorem C43_apply_fns_unknown_argument fs names field kwargs step results aux lk k v :
  apply_fns (callables fs) names field kwargs = Ok step ->
  List.In (k, v) kwargs -> resolve results aux v = None ->
  step results aux lk = Raise ValueError.
Proof.
rewrite /apply_fns all_callable_ok /= => -[<-] Hin; rewrite /resolve.
case Er: (sget results v) => [//|] Ea.
case: kwargs Hin => [//|e kw] Hin.
by rewrite (lookup_kwargs_error [::] Hin Er Ea).
Qed.

(** A number of names different from the number of functions raises ValueError, without a function
    having been called. *)
Theorem C43_apply_fns_wrong_number_of_names fs ns field kwargs step results aux lk :
  apply_fns (callables fs) (Some ns) field kwargs = Ok step ->
  size ns <> size fs -> step results aux lk = Raise ValueError.
Proof.
rewrite /apply_fns all_callable_ok /= => -[<-] Hs.
have -> : (size ns == size fs) = false by apply/eqP.
case: kwargs => [|e kw] //=.
suff H kw' d : exists r, lookup_kwargs kw' results aux d = r /\ (r = Raise ValueError \/ exists d', r = Ok d').
  by case: (H (e :: kw) [::]) => r [/= -> [->|[d ->]]].
elim: kw' d => [|[k0 v0] kw0 IH] d /=; first by exists (Ok d); split=> //; right; exists d.
case: (sget results v0) => [x|]; first exact: IH.
case: (sget aux v0) => [x|]; first exact: IH.
by exists (Raise ValueError); split=> //; left.
Qed.

(** A field other than results or aux raises ValueError -- but only once a function has been called
    successfully; without functions it goes unnoticed. *)
Theorem C43_apply_fns_bad_field f fs names field kwargs step results aux lk args x :
  field <> "results"%string -> field <> "aux"%string -> kwargs <> [::] ->
  apply_fns (callables (f :: fs)) names field kwargs = Ok step ->
  size (effective_names names (f :: fs)) = size (f :: fs) ->
  lookup_kwargs kwargs results aux [::] = Ok args ->
  (forall k, List.In k (skeys lk) -> ~ List.In k (skeys args)) ->
  f.2 (args ++ lk) = Ok x ->
  step results aux lk = Raise ValueError.
Proof.
move=> H1 H2 Hne; rewrite /apply_fns all_callable_ok => -[<-] Hs El Hd Ef.
have -> : (if kwargs is [::] then Ok None
   else rmap Some (lookup_kwargs kwargs results aux [::])) = Ok (Some args).
  by case: kwargs Hne El => // e kw _ ->.
have En : func_names names (f :: fs) = Ok (effective_names names (f :: fs)).
  by rewrite /func_names; move: Hs; case: names => //= ns ->; rewrite eqxx.
rewrite [bind (Ok _) _]/= En [bind (Ok _) _]/=.
move: Hs; case: (effective_names _ _) => [//|n ns] _.
rewrite [zip _ _]/=.
by apply: (@apply_loop_badfield _ _ _ _ _ _ _ _ _ (args ++ lk) x) => //; apply: merge_kwargs_ok.
Qed.

Theorem C43_apply_fns_bad_field_unnoticed names field kwargs results aux lk :
  (names = None \/ names = Some [::]) ->
  (forall k v, List.In (k, v) kwargs -> resolve results aux v <> None) ->
  exists2 step, apply_fns (callables [::]) names field kwargs = Ok step
    & step results aux lk = Ok (results, aux).
Proof.
move=> Hn Hres; rewrite /apply_fns /=; eexists; first by reflexivity.
have Hpres : forall k v, List.In (k, v) kwargs -> shas results v || shas aux v.
  move=> k v /Hres; rewrite /resolve /shas.
  by case: (sget results v) => //; case: (sget aux v).
case: (lookup_kwargs_ok [::] Hpres) => kvp Ek _.
by case: kwargs Ek {Hres Hpres} => [_|e kw ->] /=; case: Hn => ->.
Qed.

(** Without keyword arguments every function receives the whole of [aux] (and not [results]). *)
Theorem C43_apply_fns_no_kwargs_whole_aux fs names results aux lk :
  (forall k, List.In k (skeys lk) -> ~ List.In k (skeys aux)) ->
  size (effective_names names fs) = size fs -> NoDup (effective_names names fs) ->
  exists step args,
    [/\ apply_fns (callables fs) names "results" [::] = Ok step,
        (forall k, sget args k = if sget aux k is Some x then Some x else sget lk k)
      & match mapM (fun f => f.2 args) fs with
        | Raise e => step results aux lk = Raise e
        | Ok xs => exists2 results', step results aux lk = Ok (results', aux)
                     & stored results results' (effective_names names fs) xs
        end].
Proof.
move=> Hd Hsz Nn; rewrite /apply_fns all_callable_ok; eexists; exists (aux ++ lk); split; first by reflexivity.
  by move=> k; rewrite sget_cat.
have En : func_names names fs = Ok (effective_names names fs).
  by rewrite /func_names; move: Hsz; case: names {Nn} => //= ns ->; rewrite eqxx.
rewrite /= En /= (@apply_loop_results _ _ None _ _ _ (aux ++ lk)); last exact: merge_kwargs_ok.
have -> : mapM (fun f => f.1 (aux ++ lk)) (zip (map snd fs) (effective_names names fs)) =
            mapM (fun f => f.2 (aux ++ lk)) fs.
  move: Hsz; move: (effective_names names fs) => ns {En Nn}.
  elim: fs ns => [|[n f] fs IH] [|n' ns] //= [Hsz].
  by rewrite IH.
rewrite -/unzip2 unzip2_zip ?size_map ?Hsz //.
case E: (mapM _ fs) => [xs|e] //=.
by eexists; first reflexivity; apply: zip_stored => //; rewrite (mapM_size E).
Qed.

(** ... and with [field="aux"] a later function also receives the results of the earlier ones: the
    step for [f :: fs] is that of [f] followed by that of [fs] on the updated [aux]. *)
Theorem C43_apply_fns_no_kwargs_aux_feeds_forward f fs n ns results aux lk :
  exists step1 step,
    [/\ apply_fns (callables (f :: fs)) (Some (n :: ns)) "aux" [::] = Ok step1,
        apply_fns (callables fs) (Some ns) "aux" [::] = Ok step
      & (forall k, List.In k (skeys lk) -> ~ List.In k (skeys aux)) -> size ns = size fs ->
        step1 results aux lk =
        let! x := f.2 (aux ++ lk) in step results (sset aux n x) lk].
Proof.
rewrite /apply_fns !all_callable_ok; eexists; eexists; split; [reflexivity|reflexivity|].
move=> Hd Hs /=; rewrite eqSS Hs eqxx /= merge_kwargs_ok //=.
Qed.

(** A keyword given both by name and by the caller is an error. *)
Theorem C43_apply_fns_duplicate_keyword f fs names field step results aux lk k :
  apply_fns (callables (f :: fs)) names field [::] = Ok step ->
  size (effective_names names (f :: fs)) = size (f :: fs) ->
  List.In k (skeys lk) -> List.In k (skeys aux) ->
  step results aux lk = Raise TypeError.
Proof.
rewrite /apply_fns all_callable_ok => -[<-] Hs H1 H2.
have En : func_names names (f :: fs) = Ok (effective_names names (f :: fs)).
  by rewrite /func_names; move: Hs; case: names => //= ns ->; rewrite eqxx.
rewrite /bind En.
move: Hs; case: (effective_names _ _) => [//|m ns] _ /=.
by rewrite (merge_kwargs_error H1 H2).
Qed.

(** * C43: transfer_entry *)

(** ValueError exactly for a field or source other than results and aux, when the step is built. *)
Theorem C43_transfer_entry_bad_field m field access_from :
  (@transfer_entry V m field access_from = Raise ValueError <->
   ~ (List.In field [:: "results"; "aux"]%string /\ List.In access_from [:: "results"; "aux"]%string)).
Proof.
rewrite /transfer_entry /parse_field /=.
case: (String.eqb_spec field "results") => [->|N1]; [|case: (String.eqb_spec field "aux") => [->|N2]];
 (case: (String.eqb_spec access_from "results") => [->|N3]; [|case: (String.eqb_spec access_from "aux") => [->|N4]]);
 split=> //; try (by case; split; tauto); by move=> _ [H1 H2]; intuition congruence.
Qed.

(** The dictionary denoted by a mapping: destination to source. *)
Definition mapping_of (m : mapping) : string -> option string :=
  match m with
  | MapDict d => sget d
  | MapList ks => fun k => if has (String.eqb k) ks then Some k else None
  end.

Definition well_formed (m : mapping) : Prop := if m is MapDict d then NoDup (skeys d) else True.

Lemma sset_keys_nodup (T : Type) (d : sdict T) k v : NoDup (skeys d) -> NoDup (skeys (sset d k v)).
Proof.
move=> N; rewrite skeys_sset; case: sgetP => // H.
rewrite -cats1; elim: (skeys d) N H => [|x s IH] /=; first by move=> _ _; constructor => //; constructor.
move=> /NoDup_cons_iff [Nx N] H; constructor; last by apply: IH => // Hk; apply: H; right.
by move/(@in_app_or _ _ _ _) => [//|/= [E|//]]; apply: H; left.
Qed.

Lemma mapping_items_spec m : well_formed m ->
  NoDup (skeys (mapping_items m)) /\ forall k, sget (mapping_items m) k = mapping_of m k.
Proof.
case: m => [d|ks] // _ /=.
suff H d : NoDup (skeys d) -> NoDup (skeys (foldl (fun d k => sset d k k) d ks)) /\
   forall k, sget (foldl (fun d k => sset d k k) d ks) k =
      if has (String.eqb k) ks then Some k else sget d k by apply: (H [::]); constructor.
elim: ks d => [|x ks IH] d N; first by split.
case: (IH (sset d x x) (sset_keys_nodup x x N)) => H1 H2; split=> // k.
rewrite [foldl _ _ _]/= H2 sget_sset.
rewrite /= (String.eqb_sym k x); case: (String.eqb_spec x k) => [->|_] //=.
by case: has.
Qed.

(** Between different dictionaries exactly the requested entries are copied: the destination has
    the source's value at every requested key and its old value elsewhere, the source is unchanged,
    and a missing source entry raises KeyError. *)
Theorem C43_transfer_entry_copies m step (results aux lk : sdict V) :
  well_formed m -> transfer_entry m "results" "aux" = Ok step ->
  ((forall k v, mapping_of m k = Some v -> shas aux v) ->
     exists2 results', step results aux lk = Ok (results', aux) &
       forall k, sget results' k = if mapping_of m k is Some v then sget aux v else sget results k) /\
  (forall k v, mapping_of m k = Some v -> ~~ shas aux v -> step results aux lk = Raise KeyError).
Proof.
move=> /mapping_items_spec [N Hm] [<-].
rewrite /= transfer_distinct //=; move: (mapping_items m) N Hm => items N Hm.
split=> [H|k v].
  have [xs [E1 E2]] : exists xs, mapM (fun e => sindex aux e.2) items = Ok xs /\
      map Some xs = map (fun e => sget aux e.2) items.
    have H' e : List.In e items -> shas aux e.2.
      by case: e => k v /(sget_In N) Ek; apply: (H k); rewrite -Hm.
    elim: items {N Hm H} H' => [|e items IH] H'; first by exists [::].
    have He := H' e (or_introl erefl).
    case: IH => [e' He'|xs [E1 E2]]; first by apply: H'; right.
    move: He; rewrite /shas /= /sindex.
    case Ee: (sget aux e.2) => [x|//] _; exists (x :: xs); rewrite /= E1 E2; split=> //.
  rewrite E1 /=; eexists; first reflexivity.
  move=> k; rewrite sget_sset_all_gen; last first.
    by rewrite /skeys -/unzip1 unzip1_zip // (mapM_size E1) size_map.
  rewrite -Hm; clear -E2.
  elim: items xs E2 => [|[k0 v0] items IH] [|x xs] //= [Ex E2].
  by case: String.eqb => //; apply: IH.
rewrite -Hm => Hk Hv; have {Hk} Hin := sget_Some_In Hk.
suff -> : mapM (fun e => sindex aux e.2) items = Raise KeyError by [].
elim: items {N Hm} Hin => //= e items IH [->|/IH ->] /=.
  by move: Hv; rewrite /shas /sindex /=; case: (sget aux v).
by rewrite /sindex; case: sget.
Qed.

Theorem C43_transfer_entry_copies_to_aux m step (results aux lk : sdict V) :
  well_formed m -> transfer_entry m "aux" "results" = Ok step ->
  ((forall k v, mapping_of m k = Some v -> shas results v) ->
     exists2 aux', step results aux lk = Ok (results, aux') &
       forall k, sget aux' k = if mapping_of m k is Some v then sget results v else sget aux k) /\
  (forall k v, mapping_of m k = Some v -> ~~ shas results v -> step results aux lk = Raise KeyError).
Proof.
move=> W [<-].
have [s Es] : exists s, @transfer_entry V m "results" "aux" = Ok s by eexists; reflexivity.
have := C43_transfer_entry_copies aux results lk W Es.
case: Es => <- /=; rewrite !transfer_distinct //=.
case: (mapM _ _) => [xs|e] /= [H1 H2]; split.
- by move=> H; case: (H1 H) => r [<-] Hr; eexists; first reflexivity.
- by move=> k v H Hv; have := H2 _ _ H Hv.
- by move=> H; case: (H1 H).
- by move=> k v H Hv; exact: (H2 k v).
Qed.

(** Within one dictionary the copies happen one after the other, so a mapping that swaps two entries
    does not swap them: both end up with the value of the second. *)
Theorem C43_transfer_entry_same_dict_swap_refuted (a b : string) (x y : V) aux lk :
  a <> b ->
  exists step, transfer_entry (MapDict [:: (a, b); (b, a)]) "results" "results" = Ok step /\
    exists2 r', step [:: (a, x); (b, y)] aux lk = Ok (r', aux) & sget r' a = Some y /\ sget r' b = Some y.
Proof.
move=> N; eexists; split; first reflexivity.
have Eab : String.eqb a b = false by apply/String.eqb_neq.
have Eba : String.eqb b a = false by rewrite String.eqb_sym.
by exists [:: (a, y); (b, y)]; rewrite /= /sindex /= ?String.eqb_refl ?Eab ?Eba /= ?String.eqb_refl ?Eab ?Eba /= ?String.eqb_refl.
Qed.

(** In general, it is simultaneous when no destination is also a source. *)
Theorem C43_transfer_entry_same_dict m step (results aux lk : sdict V) :
  well_formed m -> transfer_entry m "results" "results" = Ok step ->
  (forall k v, mapping_of m k = Some v -> shas results v /\ (mapping_of m v = None)) ->
  exists2 results', step results aux lk = Ok (results', aux) &
    forall k, sget results' k = if mapping_of m k is Some v then sget results v else sget results k.
Proof.
move=> /mapping_items_spec [N Hm] [<-] H /=.
have {}H : forall k v, sget (mapping_items m) k = Some v -> shas results v /\ sget (mapping_items m) v = None.
  by move=> k v; rewrite !Hm; apply: H.
suff [r' E Hr] : exists2 r', transfer_loop (mapping_items m) InResults InResults (results, aux) = Ok (r', aux) &
    forall k, sget r' k = if sget (mapping_items m) k is Some v then sget results v else sget results k.
  by exists r' => // k; rewrite Hr Hm.
move: (mapping_items m) N H => items {Hm} N H.
suff G r : (forall v, List.In v (map snd items) -> sget r v = sget results v) ->
   exists2 r', transfer_loop items InResults InResults (r, aux) = Ok (r', aux) &
    forall k, sget r' k = if sget items k is Some v then sget results v else sget r k by apply: G.
have {H} : forall k v, List.In (k, v) items -> shas results v /\ ~ List.In v (skeys items).
  by move=> k v /(sget_In N) /H [H1 H2]; split=> //; apply/sget_None.
elim: items r N => [|[k v] items IH] r N H Hr; first by exists r.
case: (H k v (or_introl erefl)) => Hv Nv /=.
rewrite /sindex Hr; last by left.
move: (Hv); rewrite {1}/shas; case Ev: (sget results v) => [x|//] _ /=.
case/NoDup_cons_iff: N => Nk N.
case: (IH (sset r k x) N).
- move=> k0 v0 H0; case: (H k0 v0 (or_intror H0)) => H1 H2; split=> // H3; apply: H2; by right.
- move=> v0 H0; rewrite sget_sset Hr; last by right.
  case: String.eqb_spec => // E; subst v0.
  case/in_map_iff: H0 => -[k1 v1] /= [E1 H1]; subst v1.
  by case: (H k1 k (or_intror H1)) => _ []; left.
move=> r' E Hr'; exists r' => // k0; rewrite Hr' sget_sset.
case: String.eqb_spec => [<-|//]; rewrite Ev.
by have -> : sget items k = None by apply/sget_None.
Qed.

End Apply.

(** * C44: evaluation on data sets and generators *)

Section Evaluate.
Variables V X : Type.
Implicit Types (pred_fn : X -> res (sdict V)) (data : seq (data_point V X)).

(** The steps a metrics list may contain: those built by apply_fns and transfer_entry. *)
Inductive metric_step : step V -> Prop :=
  | metric_apply objs names field kwargs s : apply_fns objs names field kwargs = Ok s -> metric_step s
  | metric_transfer m field access s : transfer_entry m field access = Ok s -> metric_step s.

(** What JAX requires of a prediction function: the same keys for every input. *)
Definition same_keys pred_fn data : Prop :=
  exists ks, forall p d, List.In p data -> pred_fn p.1 = Ok d -> skeys d = ks.

Lemma metric_step_uniform s : metric_step s -> key_uniform s.
Proof. by case=> *; [apply: apply_fns_key_uniform|apply: transfer_entry_key_uniform]; eassumption. Qed.

Lemma metrics_list_uniform metrics md ml :
  (forall l s, metrics = Some l -> List.In s l -> metric_step s) ->
  metrics_list metrics md = Ok ml -> forall s, List.In s ml.1 -> key_uniform s.
Proof.
move=> Hm; rewrite /metrics_list.
case: md => [d|] /=; last first.
  by case: metrics Hm => [l|//] Hm [<-] /= s Hs; apply: metric_step_uniform; apply: Hm Hs.
case E: (apply_fns _ _ _ _) => [s0|//] /=.
have U0 : key_uniform s0 by apply: apply_fns_key_uniform E.
case: metrics Hm => [l|] Hm [<-] /= s.
  move/(@in_app_or _ _ _ _) => [Hs|/= [<-|//]] //.
  by apply: metric_step_uniform; apply: Hm Hs.
by case=> [<-|].
Qed.

(** Any division of a data set into non-empty batches: with concatenation (followed by any
    reduction [g]) the generator version returns -- or raises -- exactly what the data set version
    does with reduction [g], and leaves the same list behind. *)
Theorem C44_generator_equals_dataset pred_fn data metrics metrics_dict kw
    (B O : Type) (gen : seq B) (transform : B -> res (seq (data_point V X))) batches (g : seq V -> res O) :
  gen <> [::] -> mapM transform gen = Ok batches ->
  (forall b, List.In b batches -> b <> [::]) -> flatten batches = data ->
  same_keys pred_fn data ->
  (forall l s, metrics = Some l -> List.In s l -> metric_step s) ->
  evaluate_metrics_on_generator pred_fn gen metrics metrics_dict transform (fun ws => g (flatten ws)) kw =
  evaluate_metrics_on_dataset pred_fn data metrics metrics_dict g kw.
Proof.
move=> Hg Ht Hb <- U Hm; rewrite /evaluate_metrics_on_generator /evaluate_metrics_on_dataset.
case El: (metrics_list metrics metrics_dict) => [ml|//]; rewrite [bind (Ok _) _]/= [RHS]/=.
set f := evaluate_data_point ml.1 kw pred_fn.
have -> : mapM (fun b => let! d := transform b in map_points f d) gen = mapM (map_points f) batches.
  elim: gen batches Ht {Hg Hb U} => [|b gen IH] bs /=; first by case=> <-.
  case: (transform b) => //= d; case: (mapM transform gen) IH => //= ds IH [<-] /=.
  by rewrite (IH ds).
have Hbn : batches <> [::] by move: (mapM_size Ht); case: (gen) Hg => // ? ? _; case: (batches).
have := @map_points_batches V X f batches O g Hbn Hb.
have Uf : uniform f (flatten batches).
  by apply: evaluate_uniform U; apply: metrics_list_uniform El.
move/(_ Uf) => E.
transitivity (let! out := (let! rs := mapM (map_points f) batches in
    combine_results (fun ws => g (flatten ws)) rs) in Ok (out, ml.2)); first by case: (mapM _ batches).
by rewrite E; case: (map_points f (flatten batches)).
Qed.

(** The generator without the mapping over a batch axis: one element is one point. *)
Theorem C44_generator_of_points_equals_dataset pred_fn data metrics metrics_dict kw
    (B O : Type) (gen : seq B) (transform : B -> res (data_point V X)) (g : seq V -> res O) :
  gen <> [::] -> mapM transform gen = Ok data -> same_keys pred_fn data ->
  (forall l s, metrics = Some l -> List.In s l -> metric_step s) ->
  evaluate_metrics_on_generator_novmap pred_fn gen metrics metrics_dict transform g kw =
  evaluate_metrics_on_dataset pred_fn data metrics metrics_dict g kw.
Proof.
move=> Hg Ht U Hm; rewrite /evaluate_metrics_on_generator_novmap /evaluate_metrics_on_dataset.
case El: (metrics_list metrics metrics_dict) => [ml|//]; rewrite [bind (Ok _) _]/= [RHS]/=.
set f := evaluate_data_point ml.1 kw pred_fn.
have -> : mapM (fun b => let! d := transform b in f d) gen = mapM f data.
  elim: gen data Ht {Hg U} => [|b gen IH] bs /=; first by case=> <-.
  case: (transform b) => //= d; case: (mapM transform gen) IH => //= ds IH [<-] /=.
  by rewrite (IH ds).
have Hn : data <> [::] by move: (mapM_size Ht); case: (gen) Hg => // ? ? _; case: (data).
have Uf : uniform f data by apply: evaluate_uniform U; apply: metrics_list_uniform El.
have E := @map_points_single V X f data O g Hn Uf.
transitivity (let! out := (let! rs := mapM f data in combine_results g rs) in Ok (out, ml.2)).
  by case: (mapM _ data).
by rewrite E; case: (map_points f data).
Qed.

(** A generator without elements yields the empty dictionary, whatever [reduce]. *)
Theorem C44_empty_generator pred_fn metrics metrics_dict kw (B O : Type)
    (transform : B -> res (seq (data_point V X))) (reduce : seq (seq V) -> res O) ml :
  metrics_list metrics metrics_dict = Ok ml ->
  exists l, evaluate_metrics_on_generator pred_fn [::] metrics metrics_dict transform reduce kw = Ok ([::], l).
Proof. by move=> E; exists ml.2; rewrite /evaluate_metrics_on_generator E. Qed.

(** Neither list nor dictionary: ValueError, before the prediction function or the data are used. *)
Theorem C44_no_metrics pred_fn data kw (B O O' : Type) (gen : seq B)
    (transform : B -> res (seq (data_point V X))) (reduce : seq (seq V) -> res O) (reduce' : seq V -> res O') :
  evaluate_metrics_on_generator pred_fn gen None None transform reduce kw = Raise ValueError /\
  evaluate_metrics_on_dataset pred_fn data None None reduce' kw = Raise ValueError.
Proof. by []. Qed.

(** ** What evaluation with a metrics dictionary computes *)

(** For a dictionary of metrics, the entry of metric [n] is the list, over the points in order, of
    the metric's value on that point's predictions and target (the target of the data set replaces
    one the prediction function may return). *)
Theorem C44_metrics_dict_values pred_fn data (md : seq (string * (string * (sdict V -> res V)))) out l :
  data <> [::] -> NoDup (skeys md) ->
  evaluate_metrics_on_dataset pred_fn data None
    (Some [seq (e.1, PyCallable e.2.1 e.2.2) | e <- md]) (fun x => Ok x) [::] = Ok (out, l) ->
  skeys out = skeys md /\
  forall n name call, List.In (n, (name, call)) md ->
    exists2 vals, sget out n = Some vals &
      mapM (fun dp => let! p := pred_fn dp.1 in call (sset p "target"%string dp.2)) data = Ok vals.
Proof.
move=> Hn N; rewrite /evaluate_metrics_on_dataset /metrics_list.
set md' := [seq _ | e <- md].
have K' : skeys md' = skeys md by rewrite /skeys /md' -map_comp.
have Emd : map snd md' = callables (map snd md) by rewrite /md' /callables -!map_comp.
have [stp [Estp Hstp]] : exists stp : step V, apply_fns (map snd md') (Some (skeys md')) "results" [::] = Ok stp /\
   forall r a lk, stp r a lk = let! ns := func_names (Some (skeys md)) (map snd md) in
      apply_loop (zip (map snd (map snd md)) ns) "results" None lk r a.
  by rewrite Emd K' /apply_fns all_callable_ok; eexists; split; first reflexivity.
rewrite Estp; cbn [bind].
set f := evaluate_data_point _ _ _.
have Ef dp : f dp = let! p := pred_fn dp.1 in
    rmap (zip (skeys md)) (mapM (fun e => e.2.2 (sset p "target"%string dp.2)) md).
  rewrite /f /evaluate_data_point /with_target; case: (pred_fn dp.1) => //= p.
  rewrite finalize_cons Hstp /func_names !size_map eqxx; cbn [bind].
  rewrite (@apply_loop_results _ _ None _ _ _ (sset p "target"%string dp.2)); last first.
    by rewrite /merge_kwargs /= cats0.
  have -> : mapM (fun f => f.1 (sset p "target"%string dp.2)) (zip (map snd (map snd md)) (skeys md)) =
            mapM (fun e => e.2.2 (sset p "target"%string dp.2)) md.
    move: (sset _ _ _) => args; elim: (md) => [|[n [nm c]] md0 IH] //=.
    by rewrite -/(skeys md0) IH.
  rewrite -/unzip2 unzip2_zip ?size_map //.
  case E: (mapM _ md) => [xs|//] /=; rewrite sset_all_keys //.
  by rewrite /skeys -/unzip1 unzip1_zip ?size_map ?(mapM_size E).
have Kf dp d : f dp = Ok d -> skeys d = skeys md.
  rewrite Ef; case: (pred_fn dp.1) => //= p; case E: (mapM _ md) => [xs|//] /= [<-].
  by rewrite /skeys -/unzip1 unzip1_zip ?size_map ?(mapM_size E).
rewrite /map_points; case Ed: (mapM f data) => [ds|//] /=.
have Hk : keyed (skeys md) ds by move=> d Hd; case: (mapM_In_ok Ed Hd) => p Hp; apply: Kf.
case: ds Ed Hk => [|d0 ds] Ed Hk; first by move: (mapM_size Ed) Hn; case: (data).
rewrite -/(stack_dicts (d0 :: ds)) (stack_keyed Hk).
case Es: (mapM _ (skeys md)) => [s|//] /=.
have -> : mapM (fun e : string * seq V => Ok (e.1, e.2)) s = Ok s.
  by elim: (s) => //= -[k v] s0 -> .
case=> <- _; case: (entries_spec Es) => Ks Hs; split=> // n name call Hin.
have Hnk : List.In n (skeys md) by apply: (in_map fst) Hin.
move: (Hs n Hnk); rewrite /sindex.
have := col_ok Hk Hnk; case Ec: (col (d0 :: ds) n) => [vals|//] _.
case: (sget s n) => [v|//] [->]; exists vals => //.
move: Ec; rewrite /col.
elim: data (d0 :: ds) vals Ed {Hn Hk Es Hs} => [|dp data IH] es vals /=; first by case=> <-.
rewrite {1}Ef; case Ep: (pred_fn dp.1) => [p|//] /=.
case Em: (mapM _ md) => [xs|//] /=; case Ed': (mapM f data) => [es'|//] /= [<-] /=.
have [x Hx Hc] : exists2 x, sget (zip (skeys md) xs) n = Some x & call (sset p "target"%string dp.2) = Ok x.
  elim: (md) xs Em N Hin => [|[n0 [nm0 c0]] md0 IHm] xs //=.
  case Ec0: (c0 _) => [x0|//] /=; case Em0: (mapM _ md0) => [xs0|//] /= [<-] /= /NoDup_cons_iff [N0 N] [].
    by case=> <- _ <-; exists x0; rewrite ?String.eqb_refl.
  move=> Hin0; case: (String.eqb_spec n0 n) => [E|_]; last exact: IHm.
  by case: N0; rewrite E; apply: (in_map fst) Hin0.
rewrite {1}/sindex Hx /= Hc /=; case Ec: (mapM _ es') => [vs|//] /= [<-].
by rewrite (IH es' vs).
Qed.

(** ** The caller's list *)

(** When both a list and a dictionary are given, the caller's list is left extended by the
    dictionary's metrics -- in every outcome of the evaluation itself. *)
Theorem C44_caller_list_extended pred_fn data l md O (reduce : seq V -> res O) kw out l' :
  evaluate_metrics_on_dataset pred_fn data (Some l) md reduce kw = Ok (out, l') ->
  match md with
  | None => l' = Some l
  | Some d => exists s, apply_fns (map snd d) (Some (skeys d)) "results" [::] = Ok s /\ l' = Some (rcons l s)
  end.
Proof.
rewrite /evaluate_metrics_on_dataset /metrics_list.
case: md => [d|] /=; last by case: (map_points _ _) => //= ev; case: (mapM _ ev) => //= o [_ <-].
case E: (apply_fns _ _ _ _) => [s|//] /=.
case: (map_points _ _) => //= ev; case: (mapM _ ev) => //= o [_ <-].
by exists s; rewrite cats1.
Qed.

Lemma dict_step_keys (md : sdict (pyobj V)) s r a lk r' a' n :
  apply_fns (map snd md) (Some (skeys md)) "results" [::] = Ok s ->
  s r a lk = Ok (r', a') -> List.In n (skeys md) \/ shas r n -> shas r' n.
Proof.
rewrite /apply_fns; case E: (all_callable _) => [fs|//] /= [<-].
have Sz : size fs = size md.
  move: (all_callable_inv E) => /(congr1 size); by rewrite !size_map => ->.
rewrite /= size_map Sz eqxx /=.
have -> : List.In n (skeys md) = List.In n (map snd (zip (map snd fs) (skeys md))).
  by rewrite -/unzip2 unzip2_zip // !size_map Sz.
elim: (zip _ _) r => [|[f m] fns IH] r /=; first by case=> <- _ [].
case: (merge_kwargs a lk) => //= args; case: (f args) => //= x H HH.
apply: (IH (sset r m x)) => //.
rewrite /shas sget_sset; case: String.eqb_spec => // N; first by right.
by case: HH => [[//|HH]|HH]; [left|right].
Qed.

(** Consequently metrics accumulate over calls: evaluating with an (initially empty) list and a
    first dictionary, and then with the same list object and a second dictionary, the second result
    also contains the metrics of the first dictionary. *)
Theorem C44_metrics_accumulate_over_calls pred_fn data md1 md2 kw out1 l1 out2 l2 n :
  data <> [::] ->
  evaluate_metrics_on_dataset pred_fn data (Some [::]) (Some md1) (fun x => Ok x) kw = Ok (out1, Some l1) ->
  evaluate_metrics_on_dataset pred_fn data (Some l1) (Some md2) (fun x => Ok x) kw = Ok (out2, l2) ->
  List.In n (skeys md1) -> shas out2 n.
Proof.
move=> Hn /C44_caller_list_extended [s1 [E1 [->]]].
rewrite /evaluate_metrics_on_dataset /metrics_list.
case E2: (apply_fns (map snd md2) _ _ _) => [s2|//]; cbn [bind]; rewrite [(_, _).1]/=.
set f := evaluate_data_point _ _ _ => H Hin.
have Hf dp d : f dp = Ok d -> shas d n.
  rewrite /f /evaluate_data_point; case: (with_target _ _) => //= pr.
  rewrite !finalize_cons; case Es1: (s1 _ _ _) => [[r1 a1]|//]; cbn [bind].
  rewrite finalize_cons; case Es2: (s2 _ _ _) => [[r2 a2]|//]; cbn [bind].
  rewrite finalize_nil => -[<-].
  by apply: (dict_step_keys E2 Es2); right; apply: (dict_step_keys E1 Es1); left.
move: H; rewrite /map_points; case Ed: (mapM f data) => [ds|//]; cbn [bind].
rewrite /stack_dicts; case: ds Ed => [//|d0 ds] Ed.
case: ifP => // _; case Es: (mapM _ (skeys d0)) => [st|//]; cbn [bind].
have -> : mapM (fun e : string * seq V => rmap (pair e.1) (Ok e.2)) st = Ok st.
  by elim: (st) => //= -[k v] s0 -> .
case=> <- _; case: (entries_spec Es) => Ks _; apply/sgetP; rewrite Ks.
case: (mapM_In_ok Ed (y := d0)); first by left.
by move=> dp _ /Hf /sgetP.
Qed.

(** ** Plain evaluation *)

(** The stacked predictions: every entry lists the points' values in order, and the target entry
    holds the targets. *)
Theorem C44_evaluate_on_dataset pred_fn data out k :
  evaluate_on_dataset pred_fn data = Ok out -> shas out k ->
  exists2 vals, sget out k = Some vals &
    mapM (fun dp => let! p := pred_fn dp.1 in
                    if String.eqb k "target" then Ok dp.2 else sindex p k) data = Ok vals.
Proof.
rewrite /evaluate_on_dataset /map_points; case Ed: (mapM _ data) => [ds|//]; cbn [bind].
rewrite /stack_dicts; case: ds Ed => [//|d0 ds] Ed; case: ifP => // _ Es Hk.
case: (entries_spec Es) => Ks Hs.
have Hin : List.In k (skeys d0) by rewrite -Ks; apply/sgetP.
move: (Hs k Hin) Hk; rewrite {1}/sindex /shas; case Eo: (sget out k) => [vals|//] Em _; exists vals => //.
move: Em => /esym; set es := d0 :: ds in Ed *; move: es Ed => es.
elim: data es vals {Hs Es Hin Ks Eo} => [|dp data IH] es vals.
  by case=> <-.
rewrite [mapM (with_target pred_fn) _]/= {1}/with_target [RHS in _ -> _ -> RHS = _]/=.
rewrite /=; case: (pred_fn dp.1) => //= p.
case Ed': (mapM _ data) => [es'|//] /= [<-] /=.
have {IH} := IH es' _ Ed'; move: (mapM (fun _ => _) data) => rest IH.
rewrite {1}/sindex sget_sset String.eqb_sym; case: String.eqb => /=.
  by case Ec: (mapM _ es') => [vs|//] /= [<-]; rewrite (IH vs).
rewrite /sindex; case: (sget p k) => //= v; rewrite -/(sindex _ k).
case Ec: (mapM _ es') => [vs|//] /= [<-]; by rewrite (IH vs).
Qed.

End Evaluate.

(** * Non-vacuity *)

Section Examples.
Local Open Scope string_scope.

Definition ex_add : string * (sdict nat -> res nat) :=
  ("add", fun d => match sget d "x", sget d "y" with Some a, Some b => Ok (a + b) | _, _ => Raise TypeError end).
Definition ex_first : string * (sdict nat -> res nat) :=
  ("first", fun d => if sget d "x" is Some a then Ok a else Raise TypeError).

Example C43_arguments_example :
  exists step, apply_fns (callables [:: ex_add; ex_first]) None "results" [:: ("x", "u"); ("y", "v")] = Ok step /\
    step [:: ("u", 1); ("w", 9)] [:: ("u", 5); ("v", 10)] [::] =
    Ok ([:: ("u", 1); ("w", 9); ("add", 11); ("first", 1)], [:: ("u", 5); ("v", 10)]).
Proof. by eexists; split; reflexivity. Qed.

Example C43_feeds_forward_example :
  exists step, apply_fns (callables [:: ex_first; ex_add]) (Some [:: "y"; "z"]) "aux" [::] = Ok step /\
    step [::] [:: ("x", 4)] [::] = Ok ([::], [:: ("x", 4); ("y", 4); ("z", 8)]).
Proof. by eexists; split; reflexivity. Qed.

Example C43_transfer_example :
  exists step, transfer_entry (MapDict [:: ("p", "x")]) "results" "aux" = Ok step /\
    step [:: ("p", 0); ("q", 1)] [:: ("x", 7)] [::] = Ok ([:: ("p", 7); ("q", 1)], [:: ("x", 7)]).
Proof. by eexists; split; reflexivity. Qed.

Definition ex_pred (x : nat) : res (sdict nat) := Ok [:: ("pred", x * x); ("target", 100)].
Definition ex_err : string * (sdict nat -> res nat) :=
  ("err", fun d => match sget d "pred", sget d "target" with Some a, Some b => Ok (a - b) | _, _ => Raise TypeError end).
Definition ex_md : option (sdict (pyobj nat)) := Some [:: ("e", PyCallable ex_err.1 ex_err.2)].

Lemma ex_same_keys data : same_keys ex_pred data.
Proof. by exists [:: "pred"; "target"] => p d _ [<-]. Qed.

Example C44_batches_example :
  evaluate_metrics_on_generator ex_pred [:: [:: (2, 1); (3, 4)]; [:: (4, 6)]] None ex_md
    (fun b => Ok b) (fun ws => Ok (flatten ws)) [::] = Ok ([:: ("e", [:: 3; 5; 10])], None) /\
  evaluate_metrics_on_dataset ex_pred [:: (2, 1); (3, 4); (4, 6)] None ex_md (fun x => Ok x) [::] =
    Ok ([:: ("e", [:: 3; 5; 10])], None).
Proof.
split; last by reflexivity.
rewrite (@C44_generator_equals_dataset _ _ _ [:: (2, 1); (3, 4); (4, 6)] _ _ _ _ _ _ _
  [:: [:: (2, 1); (3, 4)]; [:: (4, 6)]] (fun x => Ok x)) //; last exact: ex_same_keys.
by move=> b [<-|[<-|]].
Qed.

End Examples.

Print Assumptions C43_finalize_fns_left_to_right.
Print Assumptions C43_finalize_fns_first_exception.
Print Assumptions C43_apply_fns_not_callable.
Print Assumptions C43_apply_fns_arguments_and_frame.
Print Assumptions C43_apply_fns_unknown_argument.
Print Assumptions C43_apply_fns_wrong_number_of_names.
Print Assumptions C43_apply_fns_bad_field.
Print Assumptions C43_apply_fns_bad_field_unnoticed.
Print Assumptions C43_apply_fns_no_kwargs_whole_aux.
Print Assumptions C43_apply_fns_no_kwargs_aux_feeds_forward.
Print Assumptions C43_apply_fns_duplicate_keyword.
Print Assumptions C43_transfer_entry_bad_field.
Print Assumptions C43_transfer_entry_copies.
Print Assumptions C43_transfer_entry_copies_to_aux.
Print Assumptions C43_transfer_entry_same_dict_swap_refuted.
Print Assumptions C43_transfer_entry_same_dict.
Print Assumptions C44_generator_equals_dataset.
Print Assumptions C44_generator_of_points_equals_dataset.
Print Assumptions C44_empty_generator.
Print Assumptions C44_no_metrics.
Print Assumptions C44_metrics_dict_values.
Print Assumptions C44_caller_list_extended.
Print Assumptions C44_metrics_accumulate_over_calls.
Print Assumptions C44_evaluate_on_dataset.
