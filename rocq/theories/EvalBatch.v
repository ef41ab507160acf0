(** Lemmas for evaluation over batches. *)
From Coq Require Import String List.
From mathcomp Require Import all_ssreflect.
From Verif Require Import Base EvalUtils EvalProofs.
Set Implicit Arguments.
Unset Strict Implicit.
Unset Printing Implicit Defensive.

Lemma mapM_cat2 (A B : Type) (f : A -> res B) xs ys :
  mapM f (xs ++ ys) = let! a := mapM f xs in let! b := mapM f ys in Ok (a ++ b).
Proof.
elim: xs => [|x xs IH] /=; first by case: (mapM f ys).
case: (f x) => //= y; rewrite IH; case: (mapM f xs) => //= a.
by case: (mapM f ys).
Qed.

Lemma mapM_flatten (A B : Type) (f : A -> res B) xss :
  mapM f (flatten xss) = rmap flatten (mapM (mapM f) xss).
Proof.
elim: xss => [|xs xss IH] //=; rewrite mapM_cat2 IH.
by case: (mapM f xs) => //= a; case: (mapM (mapM f) xss).
Qed.

Lemma mapM_ext_In (A B : Type) (f g : A -> res B) xs :
  (forall x, List.In x xs -> f x = g x) -> mapM f xs = mapM g xs.
Proof.
elim: xs => //= x xs IH H; rewrite (H x); last by left.
by rewrite IH // => y Hy; apply: H; right.
Qed.

Lemma mapM_In_ok (A B : Type) (f : A -> res B) xs ys y :
  mapM f xs = Ok ys -> List.In y ys -> exists2 x, List.In x xs & f x = Ok y.
Proof.
elim: xs ys => [|x xs IH] ys /=; first by case=> <-.
case E: (f x) => [y0|//] /=; case E': (mapM f xs) => [ys0|//] /= [<-] /= [<-|H].
  by exists x => //; left.
by case: (IH _ E' H) => x' H1 H2; exists x' => //; right.
Qed.

(** [k] ranges over a list of keys, [h] computes the entry *)
Lemma entries_spec (W : Type) (h : string -> res W) ks s :
  mapM (fun k => rmap (pair k) (h k)) ks = Ok s ->
  skeys s = ks /\ forall k, List.In k ks -> sindex s k = h k.
Proof.
elim: ks s => [|k ks IH] s /=; first by case=> <-.
case E: (h k) => [w|//] /=; case E': (mapM _ ks) => [s0|//] /= [<-].
case: (IH _ E') => H1 H2; split; first by rewrite /= H1.
move=> k' [<-|H]; rewrite /sindex /=; first by rewrite String.eqb_refl E.
case: (String.eqb_spec k k') => [<-|_]; first by rewrite E.
exact: H2.
Qed.

Lemma entries_ok (W : Type) (h : string -> res W) ks :
  (forall k, List.In k ks -> is_ok (h k)) -> exists s, mapM (fun k => rmap (pair k) (h k)) ks = Ok s.
Proof.
elim: ks => [|k ks IH] H /=; first by exists [::].
move: (H k (or_introl erefl)); case: (h k) => //= w _.
case: IH => [k' H'|s ->]; first by apply: H; right.
by exists ((k, w) :: s).
Qed.

Lemma entries_bind (W O : Type) (h : string -> res W) (g : W -> res O) ks :
  (forall k, List.In k ks -> is_ok (h k)) ->
  (let! s := mapM (fun k => rmap (pair k) (h k)) ks in mapM (fun e => rmap (pair e.1) (g e.2)) s) =
  mapM (fun k => let! w := h k in rmap (pair k) (g w)) ks.
Proof.
elim: ks => [|k ks IH] H //=.
move: (H k (or_introl erefl)); case: (h k) => //= w _.
have H' k' : List.In k' ks -> is_ok (h k') by move=> Hk; apply: H; right.
rewrite -IH //; case: (entries_ok H') => s -> /=.
by case: (g w).
Qed.

Section Batch.
Variable V : Type.

Definition col (ds : seq (sdict V)) (k : string) : res (seq V) := mapM (fun d => sindex d k) ds.

Definition keyed (ks : seq string) (ds : seq (sdict V)) : Prop := forall d, List.In d ds -> skeys d = ks.

Lemma col_ok ks ds k : keyed ks ds -> List.In k ks -> is_ok (col ds k).
Proof.
move=> + Hk; elim: ds => [|d ds IH] //= H.
have /sgetP : List.In k (skeys d) by rewrite (H d) //; left.
rewrite /col /= {1}/sindex /shas; case: (sget d k) => //= v _.
have : is_ok (col ds k) by apply: IH => d' Hd; apply: H; right.
by rewrite /col; case: (mapM _ ds).
Qed.

Lemma stack_keyed ks d0 ds : keyed ks (d0 :: ds) ->
  stack_dicts (d0 :: ds) = mapM (fun k => rmap (pair k) (col (d0 :: ds) k)) ks.
Proof.
move=> H; rewrite /stack_dicts (H d0); last by left.
have -> // : all (fun d => all2 String.eqb (skeys d) ks) (d0 :: ds).
elim: (d0 :: ds) H => //= d s IH H.
rewrite IH ?andbT; last by move=> d' Hd; apply: H; right.
by apply/all2_eqbP/H; left.
Qed.

Lemma combine_keyed ks d0 ds O (g : seq V -> res O) : keyed ks (d0 :: ds) ->
  combine_results g (d0 :: ds) = mapM (fun k => let! ws := col (d0 :: ds) k in rmap (pair k) (g ws)) ks.
Proof. by move=> H; rewrite /combine_results (H d0) //; left. Qed.

(** stacking batch by batch, then concatenating = stacking everything *)
Lemma combine_stacks ks (dss : seq (seq (sdict V))) O (g : seq V -> res O) :
  dss <> [::] -> (forall ds, List.In ds dss -> ds <> [::] /\ keyed ks ds) ->
  (let! ss := mapM (@stack_dicts V) dss in combine_results (fun w => g (flatten w)) ss) =
  (let! s := stack_dicts (flatten dss) in mapM (fun e => rmap (pair e.1) (g e.2)) s).
Proof.
move=> Hne H.
have Kfl : keyed ks (flatten dss).
  elim: dss {Hne} H => [|ds dss IH] H d //=.
  move/(@in_app_or _ _ _ _) => [Hd|Hd]; first by apply: (proj2 (H ds _)) => //; left.
  by apply: IH Hd => ds' Hd'; apply: H; right.
have [ss [Ess Hss]] : exists ss, mapM (@stack_dicts V) dss = Ok ss /\
     forall k, List.In k ks -> mapM (fun s => sindex s k) ss = mapM (col^~ k) dss.
  elim: dss {Hne Kfl} H => [|ds dss IH] H; first by exists [::].
  case: IH => [ds' Hd|ss [E1 E2]]; first by apply: H; right.
  case: (H ds (or_introl erefl)) => Hn Hk.
  case: ds Hn Hk {H} => [//|d0 ds] _ Hk.
  have [s Es] : exists s, stack_dicts (d0 :: ds) = Ok s.
    by rewrite (stack_keyed Hk); apply: entries_ok => k; apply: col_ok.
  exists (s :: ss); rewrite /= -/(stack_dicts (d0 :: ds)) Es /= E1; split=> // k Hin /=.
  move: Es; rewrite (stack_keyed Hk) => /entries_spec [_ /(_ k Hin) ->].
  by rewrite E2.
rewrite Ess /=.
case Efl: (flatten dss) Kfl => [|d0 ds] Kfl.
  by case: dss Hne H Efl {Ess Hss} => [//|[|d ds] dss] _ H //; case: (H [::]) => //; left.
rewrite (stack_keyed Kfl) entries_bind; last by move=> k; apply: col_ok.
have [s0 [ss0 Es]] : exists s0 ss0, ss = s0 :: ss0.
  move: (mapM_size Ess); case: dss Hne {H Hss Efl Ess} => // ds0 dss0 _.
  by case: ss => // s0 ss0 _; exists s0, ss0.
have Ks0 : skeys s0 = ks.
  case: (mapM_In_ok Ess (y := s0)); first by rewrite Es; left.
  move=> x Hx; case: (H x Hx); case: x {Hx} => [//|e0 es] _ Hk.
  by rewrite (stack_keyed Hk) => /entries_spec [].
rewrite Es /combine_results Ks0 -Es.
apply: mapM_ext_In => k Hk; rewrite Hss // -Efl /col mapM_flatten.
by case: (mapM _ dss).
Qed.

Variable X : Type.

(** all points give dictionaries with the same keys *)
Definition uniform (f : data_point V X -> res (sdict V)) (data : seq (data_point V X)) : Prop :=
  exists ks, forall p d, List.In p data -> f p = Ok d -> skeys d = ks.

Lemma in_flatten (T : Type) (xss : seq (seq T)) xs x :
  List.In xs xss -> List.In x xs -> List.In x (flatten xss).
Proof.
elim: xss => //= ys xss IH [->|H] Hx; apply/in_or_app; first by left.
by right; apply: IH.
Qed.

Lemma map_points_batches f (bs : seq (seq (data_point V X))) O (g : seq V -> res O) :
  bs <> [::] -> (forall b, List.In b bs -> b <> [::]) -> uniform f (flatten bs) ->
  (let! rs := mapM (map_points f) bs in combine_results (fun w => g (flatten w)) rs) =
  (let! ev := map_points f (flatten bs) in mapM (fun e => rmap (pair e.1) (g e.2)) ev).
Proof.
move=> Hne Hb [ks U].
have U' : forall b ds, List.In b bs -> mapM f b = Ok ds -> keyed ks ds.
  move=> b ds Hin E d Hd; case: (mapM_In_ok E Hd) => p Hp; apply: U.
  exact: in_flatten Hin Hp.
have E : mapM (map_points f) bs = let! dss := mapM (mapM f) bs in mapM (@stack_dicts V) dss.
  elim: bs {Hne U} Hb U' => [|b bs IH] Hb U' //=.
  rewrite {1}/map_points; case Eb: (mapM f b) => [ds|//].
  rewrite /= IH; [|by move=> b' H; apply: Hb; right|by move=> b' ds' H; apply: U'; right].
  case: (mapM (mapM f) bs) => [dss|e] //=.
  have Hk := U' b ds (or_introl erefl) Eb.
  case: ds Eb Hk => [|d0 ds] Eb Hk.
    by move: (mapM_size Eb) (Hb b (or_introl erefl)); case: (b).
  rewrite -/(stack_dicts (d0 :: ds)) (stack_keyed Hk).
  by case: (@entries_ok _ (col (d0 :: ds)) ks) => [k Hin|s ->] //; apply: col_ok Hk Hin.
rewrite E /map_points mapM_flatten.
case Ed: (mapM (mapM f) bs) => [dss|//] /=.
apply: (@combine_stacks ks).
  by move: (mapM_size Ed); case: (bs) Hne => // b bs' _; case: (dss).
move=> ds Hin; case: (mapM_In_ok Ed Hin) => b Hbin Eb; split; last exact: U' Eb.
by move: (mapM_size Eb) (Hb b Hbin); case: (b); case: (ds).
Qed.

Lemma map_points_single f (bs : seq (data_point V X)) O (g : seq V -> res O) :
  bs <> [::] -> uniform f bs ->
  (let! rs := mapM f bs in combine_results g rs) =
  (let! ev := map_points f bs in mapM (fun e => rmap (pair e.1) (g e.2)) ev).
Proof.
move=> Hne [ks U]; rewrite /map_points; case E: (mapM f bs) => [ds|//] /=.
have Hk : keyed ks ds by move=> d Hd; case: (mapM_In_ok E Hd) => p Hp; apply: U.
case: ds E Hk => [|d0 ds] E Hk; first by move: (mapM_size E) Hne; case: (bs).
rewrite -/(stack_dicts (d0 :: ds)) (stack_keyed Hk) entries_bind; last by move=> k; apply: col_ok.
exact: combine_keyed.
Qed.

(** ** Steps whose keys depend on keys only *)

Definition key_uniform (s : step V) : Prop :=
  forall r1 a1 k1 r2 a2 k2 r1' a1' r2' a2',
    skeys r1 = skeys r2 -> skeys a1 = skeys a2 ->
    s r1 a1 k1 = Ok (r1', a1') -> s r2 a2 k2 = Ok (r2', a2') ->
    skeys r1' = skeys r2' /\ skeys a1' = skeys a2'.

Lemma shas_keys (d1 d2 : sdict V) k : skeys d1 = skeys d2 -> shas d1 k = shas d2 k.
Proof.
move=> E; case: (sgetP d1 k) (sgetP d2 k) => [H|H] [H'|H'] //; first by case: H'; rewrite -E.
by case: H; rewrite E.
Qed.

Lemma skeys_sset2 (d1 d2 : sdict V) k v1 v2 :
  skeys d1 = skeys d2 -> skeys (sset d1 k v1) = skeys (sset d2 k v2).
Proof. by move=> E; rewrite !skeys_sset (shas_keys k E) E. Qed.

Lemma apply_fns_key_uniform objs names field kwargs s :
  apply_fns objs names field kwargs = Ok s -> key_uniform s.
Proof.
rewrite /apply_fns; case: (all_callable objs) => //= fs [<-].
move=> r1 a1 k1 r2 a2 k2 r1' a1' r2' a2' Er Ea.
case: (if kwargs is [::] then Ok None else _) => //= kvp1.
case: (if kwargs is [::] then Ok None else _) => //= kvp2.
case: (func_names names fs) => //= ns; move: (zip _ ns) => fns {fs ns}.
elim: fns r1 a1 r2 a2 Er Ea => [|[f n] fns IH] r1 a1 r2 a2 Er Ea /=.
  by case=> <- <- [<- <-].
case: (merge_kwargs _ k1) => //= args1; case: (f args1) => //= x1.
case: (merge_kwargs _ k2) => [args2|]; last by case: String.eqb => //; case: String.eqb.
rewrite /=; case: (f args2) => [x2|]; last by case: String.eqb => //; case: String.eqb.
rewrite /=; case: String.eqb; first by apply: IH => //; apply: skeys_sset2.
by case: String.eqb => //; apply: IH => //; apply: skeys_sset2.
Qed.

Lemma transfer_entry_key_uniform m field acc s :
  transfer_entry m field acc = Ok s -> key_uniform s.
Proof.
rewrite /transfer_entry; case: (parse_field field) => //= w; case: (parse_field acc) => //= w' [<-].
move=> r1 a1 _ r2 a2 _ r1' a1' r2' a2'.
move: (mapping_items m) => items.
elim: items r1 a1 r2 a2 => [|[k v] items IH] r1 a1 r2 a2 Er Ea /=.
  by case=> <- <- [<- <-].
case: (sindex _ v) => //= x1; case: (sindex _ v) => [x2|]; last by case: transfer_loop.
by case: w IH => IH /=; apply: IH => //=; apply: skeys_sset2.
Qed.

Lemma evaluate_uniform (ms : seq (step V)) kw (pred_fn : X -> res (sdict V)) data :
  (forall s, List.In s ms -> key_uniform s) ->
  (exists ks, forall p d, List.In p data -> pred_fn p.1 = Ok d -> skeys d = ks) ->
  uniform (evaluate_data_point ms kw pred_fn) data.
Proof.
move=> Hms [ks Hp].
have Hpt p d : List.In p data -> with_target pred_fn p = Ok d ->
    skeys d = if has (String.eqb "target") ks then ks else rcons ks "target"%string.
  rewrite /with_target; move: "target"%string => t Hin; case E: (pred_fn p.1) => [d0|//] /= [<-].
  rewrite skeys_sset -(Hp p d0 Hin E); congr (if _ then _ else _).
  rewrite /shas; elim: (d0) => //= -[k v] d1 IH /=.
  by rewrite (String.eqb_sym t k); case: String.eqb.
(* compare any two points *)
have Cmp ms' r1 a1 r2 a2 d1 d2 : (forall s, List.In s ms' -> key_uniform s) ->
   skeys r1 = skeys r2 -> skeys a1 = skeys a2 ->
   finalize_fns (map (fun s r a => s r a kw) ms') r1 a1 = Ok d1 ->
   finalize_fns (map (fun s r a => s r a kw) ms') r2 a2 = Ok d2 -> skeys d1 = skeys d2.
  elim: ms' r1 a1 r2 a2 => [|s ms' IH] r1 a1 r2 a2 H Er Ea.
    by rewrite /= !finalize_nil => -[<-] [<-].
  rewrite !map_cons !finalize_cons.
  case E1: (s r1 a1 kw) => [[r1' a1']|//] /=; case E2: (s r2 a2 kw) => [[r2' a2']|//] /=.
  case: (H s (or_introl erefl) _ _ _ _ _ _ _ _ _ _ Er Ea E1 E2) => Er' Ea'.
  by apply: IH => // s' Hs'; apply: H; right.
(* pick the keys of some point, if any succeeds *)
have Cmp2 p1 p2 d1 d2 : List.In p1 data -> List.In p2 data ->
   evaluate_data_point ms kw pred_fn p1 = Ok d1 -> evaluate_data_point ms kw pred_fn p2 = Ok d2 ->
   skeys d1 = skeys d2.
  move=> H1 H2; rewrite /evaluate_data_point.
  case E1: (with_target pred_fn p1) => [a1|//] /=; case E2: (with_target pred_fn p2) => [a2|//] /=.
  by apply: Cmp => //; rewrite (Hpt _ _ H1 E1) (Hpt _ _ H2 E2).
have [[p0 [d0 [H0 E0]]]|Hno] :
    (exists p d, List.In p data /\ evaluate_data_point ms kw pred_fn p = Ok d) \/
    (forall p d, List.In p data -> evaluate_data_point ms kw pred_fn p <> Ok d).
  clear; elim: data => [|p data [[p0 [d0 [H0 E0]]]|IH]]; first by right.
    by left; exists p0, d0; split=> //; right.
  case E: (evaluate_data_point ms kw pred_fn p) => [d|e].
    by left; exists p, d; split=> //; left.
  by right=> p' d' [<-|H]; [rewrite E|apply: IH].
- by exists (skeys d0) => p d Hin E; apply: Cmp2 Hin H0 E E0.
- by exists [::] => p d Hin E; case: (Hno p d Hin).
Qed.

End Batch.
