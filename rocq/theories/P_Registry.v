(** C30: registering curvature methods. *)
From Coq Require Import String.
From mathcomp Require Import all_ssreflect.
From Verif Require Import Base Registry.
Set Implicit Arguments.
Unset Strict Implicit.
Unset Printing Implicit Defensive.

Section Spec.
Variable F : Type.

(** The six functions a method consists of: the argument that supplies each and the table in which
    laplax looks it up, in the order of the signature. *)
Definition slots : seq ((registration F -> option F) * (registry F -> dict F)) :=
  [:: (@create_curvature_fn F, @methods F);
      (@curvature_to_precision_fn F, @precision_methods F);
      (@prec_to_posterior_fn F, @to_posterior_state F);
      (@posterior_state_to_scale_fn F, @state_to_scale F);
      (@posterior_state_to_cov_fn F, @state_to_cov F);
      (@marginal_log_likelihood_fn F, @marginal_ll F)].

(** What a slot is meant to receive: the given function, otherwise the default method's. *)
Definition wanted (a : registration F) (r : registry F)
    (s : (registration F -> option F) * (registry F -> dict F)) : option F :=
  if s.1 a is Some f then Some f
  else if default a is Some d then s.2 r d else None.

(** Number of slots, from the first, that can be filled. *)
Definition fillable (a : registration F) (r : registry F) : nat :=
  find (fun s => ~~ isSome (wanted a r s)) slots.

(** The method [name] is completely available. *)
Definition available (r : registry F) (name : string) : Prop :=
  forall s, List.In s slots -> s.2 r name <> None.
End Spec.

(** No default and something missing: ValueError, nothing registered. *)
Theorem C30_missing_functions :
  forall (F : Type) (name : string) (a : registration F) (r : registry F),
  default a = None ->
  (exists s, List.In s (slots F) /\ s.1 a = None) ->
  register_curvature_method name a r = (r, Raise ValueError).
Proof.
move=> F name [f1 f2 f3 f4 f5 f6 d] r /= -> [s [Hs Es]].
rewrite /register_curvature_method /=.
case: f1 Es => [f1|] //=; case: f2 => [f2|] //=; case: f3 => [f3|] //=; case: f4 => [f4|] //=;
  case: f5 => [f5|] //=; case: f6 => [f6|] //= Es.
by exfalso; move: Hs Es; do !(case=> [<-|] //).
Qed.
Print Assumptions C30_missing_functions.

(** Otherwise the outcome is determined by the slots that can be filled from the arguments and the
    state before the call: success exactly when all can, else KeyError; every slot before the first
    unfillable one receives its function, every other entry of every table is left alone. *)
Theorem C30_registration :
  forall (F : Type) (name : string) (a : registration F) (r : registry F),
  ~ (default a = None /\ exists s, List.In s (slots F) /\ s.1 a = None) ->
  let out := register_curvature_method name a r in
  (out.2 = if fillable a r == 6 then Ok tt else Raise KeyError) /\
  (forall i s, List.nth_error (slots F) i = Some s ->
     s.2 out.1 name = (if i < fillable a r then wanted a r s else s.2 r name) /\
     forall other, other <> name -> s.2 out.1 other = s.2 r other).
Proof.
move=> F name a r Hn.
have Hn' : (if default a is None then true else false) &&
     ~~ [&& isSome (create_curvature_fn a), isSome (curvature_to_precision_fn a),
            isSome (prec_to_posterior_fn a), isSome (posterior_state_to_scale_fn a),
            isSome (posterior_state_to_cov_fn a) & isSome (marginal_log_likelihood_fn a)] = false.
  case Ed: (default a) => [d|] //=; apply/negbTE; rewrite negbK.
  have G s : List.In s (slots F) -> isSome (s.1 a).
    by move=> Hs; case E: (s.1 a) => [|] //; case: Hn; split=> //; exists s.
  apply/and5P; split; [..|apply/andP; split];
    apply: (G (_, _)); rewrite /slots /=; tauto.
rewrite /register_curvature_method Hn' {Hn' Hn}.
have keep (d : dict F) (f : F) other : other <> name -> dict_set d name f other = d other.
  by move=> Ho; rewrite /dict_set; case: String.eqb_spec.
have got (d : dict F) (f : F) : dict_set d name f name = Some f.
  by rewrite /dict_set String.eqb_refl.
case: a => f1 f2 f3 f4 f5 f6 d; case: r => t1 t2 t3 t4 t5 t6.
have fd (f : option F) (t : dict F) :
  fn_or_default f t d = (if (if f is Some g then Some g else if d is Some d' then t d' else None)
                         is Some g then Ok g else Raise KeyError).
  by rewrite /fn_or_default; case: f => [g|] //; case: d => // d'; rewrite /dict_get; case: (t d').
rewrite /fillable /slots /wanted /assign /=.
rewrite !fd.
case E1: (if f1 is Some g then Some g else _) => [g1|] /=; last first.
  split=> // -[|[|[|[|[|[|[|i]]]]]]] s //= -[<-] /=; split=> *; by rewrite ?got ?keep ?E1.
case E2: (if f2 is Some g then Some g else _) => [g2|] /=; last first.
  split=> // -[|[|[|[|[|[|[|i]]]]]]] s //= -[<-] /=; split=> *; by rewrite ?got ?keep ?E1 ?E2.
case E3: (if f3 is Some g then Some g else _) => [g3|] /=; last first.
  split=> // -[|[|[|[|[|[|[|i]]]]]]] s //= -[<-] /=; split=> *; by rewrite ?got ?keep ?E1 ?E2 ?E3.
case E4: (if f4 is Some g then Some g else _) => [g4|] /=; last first.
  split=> // -[|[|[|[|[|[|[|i]]]]]]] s //= -[<-] /=; split=> *; by rewrite ?got ?keep ?E1 ?E2 ?E3 ?E4.
case E5: (if f5 is Some g then Some g else _) => [g5|] /=; last first.
  split=> // -[|[|[|[|[|[|[|i]]]]]]] s //= -[<-] /=; split=> *; by rewrite ?got ?keep ?E1 ?E2 ?E3 ?E4 ?E5.
case E6: (if f6 is Some g then Some g else _) => [g6|] /=; last first.
  split=> // -[|[|[|[|[|[|[|i]]]]]]] s //= -[<-] /=; split=> *; by rewrite ?got ?keep ?E1 ?E2 ?E3 ?E4 ?E5 ?E6.
split=> // -[|[|[|[|[|[|[|i]]]]]]] s //= -[<-] /=; split=> *; by rewrite ?got ?keep ?E1 ?E2 ?E3 ?E4 ?E5 ?E6.
Qed.
Print Assumptions C30_registration.

(** A registration inheriting from an available method, or giving all six functions, succeeds, and
    afterwards the method is available with exactly the functions asked for. *)
Theorem C30_inherit_or_complete :
  forall (F : Type) (name : string) (a : registration F) (r : registry F),
  (exists d, default a = Some d /\ available r d) \/
  (forall s, List.In s (slots F) -> s.1 a <> None) ->
  let out := register_curvature_method name a r in
  out.2 = Ok tt /\ available out.1 name /\
  forall s, List.In s (slots F) ->
    s.2 out.1 name = (if s.1 a is Some f then Some f
                      else if default a is Some d then s.2 r d else None).
Proof.
move=> F name a r H out.
have W s : List.In s (slots F) -> wanted a r s <> None.
  move=> Hs; rewrite /wanted; case: H => [[d [-> Hd]]|H].
    by case: (s.1 a) => //; apply: Hd.
  by have := H s Hs; case: (s.1 a).
have N : ~ (default a = None /\ exists s, List.In s (slots F) /\ s.1 a = None).
  case=> Hd [s [Hs Es]]; have := W s Hs; by rewrite /wanted Es Hd.
have E6 : fillable a r = 6%N.
  rewrite /fillable /=.
  have G s : List.In s (slots F) -> isSome (wanted a r s) by move=> /W; case: (wanted a r s).
  by do 6! (rewrite G; last by rewrite /slots /=; tauto).
have [E Hs] := (C30_registration (F := F) name r N).
rewrite E6 in E Hs; split=> //.
have G s : List.In s (slots F) -> s.2 out.1 name = wanted a r s.
  move=> Hin; have [i Hi] := List.In_nth_error _ _ Hin; have [-> _] := Hs i s Hi.
  have : (i < 6)%N by case: i Hi => [|[|[|[|[|[|i]]]]]] //=; case: i.
  by move=> ->.
split; first by move=> s Hin; rewrite G //; apply: W.
by move=> s Hin; rewrite G.
Qed.
Print Assumptions C30_inherit_or_complete.

(** Every history of registrations, from any starting state, whatever raises on the way:
    nothing ever disappears from a table, and names that are not registered keep their entries. *)
Theorem C30_history :
  forall (F : Type) (h : seq (string * registration F)) (r : registry F) s,
  List.In s (slots F) ->
  (forall name, s.2 r name <> None -> s.2 (register_all h r) name <> None) /\
  (forall name, ~ List.In name (map fst h) -> s.2 (register_all h r) name = s.2 r name).
Proof.
move=> F h r s Hin.
have step name a (q : registry F) : let q' := (register_curvature_method name a q).1 in
    (s.2 q name <> None -> s.2 q' name <> None) /\ (forall o, o <> name -> s.2 q' o = s.2 q o).
  move=> q'.
  have [i Hi] := List.In_nth_error _ _ Hin.
  case Eb : (if default a is None then has (fun s => ~~ isSome (s.1 a)) (slots F) else false).
    have -> // : q' = q.
    case Ed: (default a) Eb => [//|] Eb; rewrite /q' C30_missing_functions //.
    have [z [Hz Ez]] : exists z, List.In z (slots F) /\ z.1 a = None.
      elim: (slots F) Eb => //= z zs IH; case Ez: (z.1 a) => [f|] /=.
        by move=> /IH [y [Hy Ey]]; exists y; split=> //; right.
      by move=> _; exists z; split=> //; left.
    by exists z.
  have N : ~ (default a = None /\ exists s, List.In s (slots F) /\ s.1 a = None).
    case=> Ed [z [Hz Ez]]; move: Eb; rewrite Ed.
    elim: (slots F) Hz => //= z' zs IH [->|/IH Hz]; first by rewrite Ez.
    by case: (isSome (z'.1 a)).
  have [_ /(_ i s Hi)] := (C30_registration (F := F) name q N).
  rewrite -/q' => -[En Eo]; split=> //; rewrite En.
  case: (ltnP i) => // Hlt _.
  have : List.nth_error (slots F) i = Some s by [].
  have Hb : forall (l : seq _) j z, (j < find (fun s => ~~ isSome (wanted a q s)) l)%N ->
      List.nth_error l j = Some z -> wanted a q z <> None.
    elim=> [|z' l IH] [|j] z //=.
      by case Ez: (wanted a q z') => [f|] //= _ [<-]; rewrite Ez.
    by case: ifP => //= _; rewrite ltnS; apply: IH.
  exact: Hb Hlt.
elim: h r => [|[n a] h IH] r //=.
rewrite /register_all /= -/(register_all h _).
have [S1 S2] := step n a r; have [I1 I2] := IH (register_curvature_method n a r).1.
split=> name Hname.
  apply: I1; case: (String.eqb_spec name n) => [E|E]; first by rewrite E in Hname *; apply: S1.
  by rewrite S2.
rewrite I2; last by move=> H; apply: Hname; right.
by rewrite S2 // => E; apply: Hname; left.
Qed.
Print Assumptions C30_history.

(** As long as no call of the history ended in KeyError, every method is in all six tables or in
    none; in particular this holds for the state after import and every history of it. *)
Theorem C30_all_or_nothing :
  forall (F : Type) (h : seq (string * registration F)) (r : registry F),
  (forall name s s', List.In s (slots F) -> List.In s' (slots F) ->
     s.2 r name <> None -> s'.2 r name <> None) ->
  (forall h1 c h2, h = h1 ++ c :: h2 ->
     (register_curvature_method c.1 c.2 (register_all h1 r)).2 <> Raise KeyError) ->
  forall name s s', List.In s (slots F) -> List.In s' (slots F) ->
  s.2 (register_all h r) name <> None -> s'.2 (register_all h r) name <> None.
Proof.
move=> F h; elim/last_ind: h => [|h c IH] r H0 Hh //.
have Er : register_all (rcons h c) r = (register_curvature_method c.1 c.2 (register_all h r)).1.
  by rewrite /register_all -cats1 foldl_cat.
rewrite Er; set q := register_all h r.
have Hq : forall name s s', List.In s (slots F) -> List.In s' (slots F) ->
     s.2 q name <> None -> s'.2 q name <> None.
  by apply: IH => // h1 c1 h2 E; apply: (Hh h1 c1 (rcons h2 c)); rewrite E rcons_cat.
have Hk := Hh h c [::] (esym (cats1 h c)); rewrite -/q in Hk.
case Eb : (if default c.2 is None then has (fun s => ~~ isSome (s.1 c.2)) (slots F) else false).
  rewrite C30_missing_functions //; first by case: (default c.2) Eb.
  case: (default c.2) Eb => // Eb.
  elim: (slots F) Eb => //= z zs IHz; case Ez: (z.1 c.2) => [f|] /=.
    by move=> /IHz [y [Hy Ey]]; exists y; split=> //; right.
  by move=> _; exists z; split=> //; left.
have N : ~ (default c.2 = None /\ exists s, List.In s (slots F) /\ s.1 c.2 = None).
  case=> Ed [z [Hz Ez]]; move: Eb; rewrite Ed.
  elim: (slots F) Hz => //= z' zs IHz [->|/IHz Hz]; first by rewrite Ez.
  by case: (isSome (z'.1 c.2)).
have [E2 E1] := (C30_registration (F := F) c.1 q N).
have E6 : fillable c.2 q = 6%N by move: Hk; rewrite E2; case: eqP.
rewrite E6 in E1.
have W s : List.In s (slots F) -> wanted c.2 q s <> None.
  have : ~~ has (fun s => ~~ isSome (wanted c.2 q s)) (slots F).
    by rewrite has_find -/(fillable _ _) E6.
  elim: (slots F) => //= z l IHl; rewrite negb_or negbK => /andP [Hz Hl] [<-|]; last exact: IHl.
  by case: (wanted c.2 q z) Hz.
move=> name s s' Hs Hs' Hsome.
have [i Hi] := List.In_nth_error _ _ Hs; have [i' Hi'] := List.In_nth_error _ _ Hs'.
have [A1 A2] := E1 i s Hi; have [B1 B2] := E1 i' s' Hi'.
case: (String.eqb_spec name c.1) => [E|E].
  rewrite E B1; have -> : (i' < 6)%N by case: i' Hi' {B1 B2} => [|[|[|[|[|[|i']]]]]] //=; case: i'.
  exact: W.
by rewrite B2 //; apply: Hq Hs Hs' _; rewrite -A2.
Qed.
Print Assumptions C30_all_or_nothing.

(** The methods shipped with laplax are completely available after import, and stay so. *)
Theorem C30_builtins_stay :
  forall (F : Type) (fn : laplax_fn -> F) (h : seq (string * registration F)) name,
  List.In name [:: "full"; "diagonal"; "lanczos"; "lobpcg"]%string ->
  available (register_all h (initial_registry fn)) name /\
  (~ List.In name (map fst h) ->
   forall s, List.In s (slots F) ->
   s.2 (register_all h (initial_registry fn)) name = s.2 (initial_registry fn) name).
Proof.
move=> F fn h name Hn; split=> [s Hs|Hh s Hs]; last by have [_ ->] := C30_history h (initial_registry fn) Hs.
have [H _] := C30_history h (initial_registry fn) Hs; apply: H.
move: Hs; rewrite /slots /=; do !(case=> [<-|] //=); by move: Hn => /=; do !(case=> [<-|] //=).
Qed.
Print Assumptions C30_builtins_stay.

(** What each function of laplax is for, read off its name: the table it belongs in and the
    approximations it implements. *)
Inductive role := RCreate | RPrecision | RState | RScale | RCov | RMll.
Definition role_of (f : laplax_fn) : role :=
  match f with
  | create_full_curvature | create_diagonal_curvature | create_low_rank_curvature
  | create_low_rank_curvature_lobpcg => RCreate
  | full_curvature_to_precision | diagonal_curvature_to_precision | low_rank_curvature_to_precision => RPrecision
  | full_prec_to_posterior_state | diagonal_prec_to_posterior_state | low_rank_prec_to_posterior_state => RState
  | full_posterior_state_to_scale | diagonal_posterior_state_to_scale | low_rank_posterior_state_to_scale => RScale
  | full_posterior_state_to_cov | diagonal_posterior_state_to_cov | low_rank_posterior_state_to_cov => RCov
  | full_marginal_log_likelihood | diagonal_marginal_log_likelihood | low_rank_marginal_log_likelihood => RMll
  end.
Definition implements (f : laplax_fn) : seq string :=
  match f with
  | create_full_curvature | full_curvature_to_precision | full_prec_to_posterior_state
  | full_posterior_state_to_scale | full_posterior_state_to_cov | full_marginal_log_likelihood => [:: "full"]
  | create_diagonal_curvature | diagonal_curvature_to_precision | diagonal_prec_to_posterior_state
  | diagonal_posterior_state_to_scale | diagonal_posterior_state_to_cov | diagonal_marginal_log_likelihood =>
      [:: "diagonal"]
  | create_low_rank_curvature => [:: "lanczos"]
  | create_low_rank_curvature_lobpcg => [:: "lobpcg"]
  | _ => [:: "lanczos"; "lobpcg"]
  end%string.
Definition table_of (r : role) : registry laplax_fn -> dict laplax_fn :=
  match r with
  | RCreate => @methods _ | RPrecision => @precision_methods _ | RState => @to_posterior_state _
  | RScale => @state_to_scale _ | RCov => @state_to_cov _ | RMll => @marginal_ll _
  end.

(** After import every table maps each approximation to the function with that role for that
    approximation, and knows no other name. *)
Theorem C30_initial_tables :
  forall (r : role) (name : string) (f : laplax_fn),
  table_of r (initial_registry id) name = Some f <-> role_of f = r /\ List.In name (implements f).
Proof.
move=> r name f; split.
  case: r; rewrite /= /table4; do 4 (case: String.eqb_spec => [-> [<-]|_]; first by split=> //=; auto); by [].
by case=> <-; case: f => /=; (case=> [<-|]; [by [] | try by []]); by case=> [<-|].
Qed.
Print Assumptions C30_initial_tables.

(** Without the proviso the claim fails: inheriting from an unknown default registers half a
    method, which is then looked up successfully in one table and not in the next, and a later
    registration cannot inherit from it. *)
Theorem C30_all_or_nothing_refuted :
  forall (F : Type) (fn : laplax_fn -> F) (f : F),
  exists (a : registration F),
  let out := register_curvature_method "mine" a (initial_registry fn) in
  [/\ out.2 = Raise KeyError, dict_get (methods out.1) "mine" = Ok f,
      dict_get (precision_methods out.1) "mine" = Raise KeyError
    & (register_curvature_method "other"
         (Registration None None None None None None (Some "mine"%string)) out.1).2 = Raise KeyError].
Proof.
by move=> F fn f; exists (Registration (Some f) None None None None None (Some "unknown"%string)).
Qed.
Print Assumptions C30_all_or_nothing_refuted.

(** Non-vacuity: a custom creator on top of "full", then a second method inheriting from it. *)
Example C30_example (f : laplax_fn -> nat) :
  let h := [:: ("mine", Registration (Some 77) None None None None None (Some "full"));
               ("mine2", Registration None None None None None (Some 5) (Some "mine"))]%string in
  let r := register_all h (initial_registry f) in
  [/\ methods r "mine2" = Some 77, marginal_ll r "mine2" = Some 5,
      marginal_ll r "mine" = Some (f full_marginal_log_likelihood)
    & methods r "full" = Some (f create_full_curvature)]%string.
Proof. by []. Qed.
