(** Properties C45-C48: the functional API. *)
From Coq Require Import String Ascii List ZArith Reals SpecFloat.
From mathcomp Require Import all_ssreflect.
From Verif Require Import Base PyTree Loader Registry EvalUtils EvalProofs EvalBatch P_Eval GridSearch GridSpec
  P_Grid Api.
Set Implicit Arguments.
Unset Strict Implicit.
Unset Printing Implicit Defensive.

(** * C45: strings and enumerations *)

Lemma lower_ascii_idem c : lower_ascii (lower_ascii c) = lower_ascii c.
Proof. by case: c => -[] [] [] [] [] [] [] []. Qed.

Lemma memsP s l : reflect (List.In s l) (mems s l).
Proof.
rewrite /mems; elim: l => [|x l IH] /=; first by constructor.
case: (String.eqb_spec s x) => [->|N] /=; first by constructor; left.
by apply: (iffP IH) => [H|[E|//]]; [right|case: N].
Qed.

(** What lower-casing does: it keeps the length, maps A-Z to a-z and leaves every other (ASCII)
    character alone; so it is idempotent. *)
Theorem C45_lower_spec s :
  String.length (lower s) = String.length s /\ lower (lower s) = lower s /\
  forall n c, String.get n s = Some c ->
    exists2 c', String.get n (lower s) = Some c' &
      (if (65 <= nat_of_ascii c) && (nat_of_ascii c <= 90)
       then nat_of_ascii c' = nat_of_ascii c + 32 else c' = c).
Proof.
elim: s => [|c s [IH1 [IH2 IH3]]] /=; first by split=> //; split=> // -[].
rewrite IH1 IH2 lower_ascii_idem; split=> //; split=> // -[|n] c0 /=; last exact: IH3.
case=> <-; exists (lower_ascii c) => //.
by case: c => -[] [] [] [] [] [] [] [].
Qed.

(** Every member is found by its own value and by every other way of writing it in upper and lower
    case; two strings that only differ in case are never told apart. *)
Theorem C45_case_insensitive c s1 s2 :
  lower s1 = lower s2 -> convert_to_enum c (EStr s1) false = convert_to_enum c (EStr s2) false.
Proof. by rewrite /convert_to_enum => ->. Qed.

Theorem C45_convert_accepts c s m :
  convert_to_enum c (EStr s) false = Ok m <-> List.In m (members c) /\ lower s = m.
Proof.
rewrite /convert_to_enum /enum_call -/(mems _ _); case: memsP => H; split=> //.
- by case=> <-.
- by case=> _ ->.
- by case=> Hm E; case: H; rewrite E.
Qed.

Theorem C45_convert_rejects c s :
  (convert_to_enum c (EStr s) false = Raise ValueError <-> ~ List.In (lower s) (members c)) /\
  (~ List.In (lower s) (members c) -> convert_to_enum c (EStr s) true = Ok s).
Proof. by rewrite /convert_to_enum /enum_call -/(mems _ _); case: memsP => H. Qed.

(** The members are written in lower case, so that each of them is accepted as a string. *)
Theorem C45_members_accepted c m :
  List.In m (members c) -> convert_to_enum c (EStr m) false = Ok m /\ convert_to_enum c (EMember c m) false = Ok m.
Proof.
move=> H; split; last by case: c {H}.
apply/C45_convert_accepts; split=> //.
by case: c H => /= H; repeat (case: H => [<-|H]; first by []).
Qed.

(** A member of another StrEnum is treated like its string. *)
Theorem C45_foreign_member c d v :
  c <> d -> forall sd, convert_to_enum c (EMember d v) sd = convert_to_enum c (EStr v) sd.
Proof. by move=> N sd; case: c d N => -[]. Qed.

(** ** laplace() and registered curvatures *)

(** Whatever has been registered, [laplace] accepts the four built-in names only: a curvature
    registered under any other name cannot be used. *)
Theorem C45_laplace_custom_curvature_refuted
    (A Y S E : Type) aitem (reduce : Y -> option S -> res (Y * S)) (mv_fn : Y -> A * A -> res Y)
    same_shapes (methods : dict (operator A -> res E)) name f params d num_total :
  ~ List.In (lower name) [:: "full"; "diagonal"; "lanczos"; "lobpcg"]%string ->
  dict_set methods name f name = Some f /\
  laplace aitem reduce mv_fn same_shapes (dict_set methods name f) params d (EStr name) num_total
    = Raise ValueError.
Proof.
move=> H; split; first by rewrite /dict_set String.eqb_refl.
by rewrite /laplace; have [[_ H'] _] := C45_convert_rejects CurvApprox name; rewrite H'.
Qed.

(** ** The upper-case NONE *)

(** Every spelling of "none" selects the regression pushforward, but only the lower-case one is
    recognised as regression when the objective is chosen. *)
Theorem C45_none_spelling s F (fns : option (seq F)) :
  lower s = "none"%string ->
  (exists pf, setup_pushforward (EStr "linear") (EStr s) fns = Ok pf /\
              setup_pushforward (EStr "linear") (EMember Predictive "none") fns = Ok pf) /\
  is_classification (EStr s) = ~~ String.eqb s "none".
Proof.
move=> E; split=> //; rewrite /setup_pushforward /convert_to_enum E /=.
by case: (nilp _); eexists; split; reflexivity.
Qed.

(** So the chi-squared objective (for regression only) is refused, and the ECE objective (for
    classification only) accepted, for the spelling "NONE" of the regression flag. *)
Theorem C45_none_upper_case_refuted C M P T (a : objective_args C M P T) :
  any_none a = false ->
  build_calibration_objective (EStr "chi_squared") a (is_classification (EStr "NONE")) = Raise ValueError /\
  build_calibration_objective (EStr "ece") a (is_classification (EStr "NONE")) = Ok EceObjective /\
  build_calibration_objective (EStr "chi_squared") a (is_classification (EStr "none")) = Ok Chi2Objective /\
  build_calibration_objective (EStr "nll") a (is_classification (EStr "NONE")) = Ok (NllObjective true).
Proof.
case: a => [[c|] [m|] [p|] [t|] [v|]] //= _; by rewrite /build_calibration_objective /=.
Qed.

Print Assumptions C45_lower_spec.
Print Assumptions C45_case_insensitive.
Print Assumptions C45_convert_accepts.
Print Assumptions C45_convert_rejects.
Print Assumptions C45_members_accepted.
Print Assumptions C45_foreign_member.
Print Assumptions C45_laplace_custom_curvature_refuted.
Print Assumptions C45_none_spelling.
Print Assumptions C45_none_upper_case_refuted.

Example C45_examples :
  convert_to_enum CurvApprox (EStr "Lanczos") false = Ok "lanczos"%string /\
  convert_to_enum CurvApprox (EStr "kfac") false = Raise ValueError /\
  convert_to_enum CalibrationMethod (EStr "My_Method") true = Ok "My_Method"%string.
Proof. by []. Qed.

(** * C46: calibration *)

(** The documented table: which objective a name stands for; chi-squared is for regression and ECE
    for classification. *)
Definition expected_objective (name : string) (classification : bool) : option objective_kind :=
  if String.eqb name "nll" then Some (NllObjective classification)
  else if String.eqb name "chi_squared" then (if classification then None else Some Chi2Objective)
  else if String.eqb name "marginal_log_likelihood" then Some MllObjective
  else if String.eqb name "ece" then (if classification then Some EceObjective else None)
  else None.

Theorem C46_objective_table C M P T (a : objective_args C M P T) s classification :
  any_none a = false ->
  build_calibration_objective (EStr s) a classification =
  if expected_objective (lower s) classification is Some k then Ok k else Raise ValueError.
Proof.
case: a => [[c|] [m|] [p|] [t|] [v|]] //= _.
rewrite /build_calibration_objective /expected_objective /convert_to_enum /enum_call /=.
move: (lower s) => l.
case: (String.eqb_spec l "nll") => [->|N1]; first by case: classification.
case: (String.eqb_spec l "chi_squared") => [->|N2]; first by case: classification.
case: (String.eqb_spec l "marginal_log_likelihood") => [->|N3]; first by case: classification.
by case: (String.eqb_spec l "ece") => [->|N4]; case: classification.
Qed.

(** The model function and the curvature type are needed for every objective, the other arguments
    for the marginal likelihood only. *)
Theorem C46_missing_arguments C M P T (a : objective_args C M P T) s classification :
  ((oa_model_fn a = None \/ oa_curv_type a = None) \/
   (lower s = "marginal_log_likelihood"%string /\ any_none a) ->
   build_calibration_objective (EStr s) a classification = Raise ValueError) /\
  (oa_model_fn a <> None -> oa_curv_type a <> None -> lower s <> "marginal_log_likelihood"%string ->
   build_calibration_objective (EStr s) a classification =
   if expected_objective (lower s) classification is Some k then Ok k else Raise ValueError).
Proof.
split=> [H|Hm Ht N].
  rewrite /build_calibration_objective /convert_to_enum /enum_call.
  case: has => //=; case: ifP => // Hmll.
  case: H => [[-> //|->]|[E Hn]]; first by rewrite orbT.
  by rewrite E Hn in Hmll.
case: a Hm Ht => c [m|//] p [t|//] v _ _.
rewrite /build_calibration_objective /expected_objective /convert_to_enum /enum_call /=.
move: (lower s) N => l N.
case: (String.eqb_spec l "nll") => [->|N1]; first by case: classification.
case: (String.eqb_spec l "chi_squared") => [->|N2]; first by case: classification.
case: (String.eqb_spec l "marginal_log_likelihood") => [//|N3].
by case: (String.eqb_spec l "ece") => [->|N4]; case: classification.
Qed.

(** The default pushforward functions, by the (case-insensitive) names of the pushforward and of the
    predictive; a non-empty list of the caller's is used as it is. *)
Definition expected_pushforward (F : Type) (pf pred : string) (fns : seq F) :
    option (pf_setter * seq (pf_fn F)) :=
  let setter := if String.eqb pf "linear" then Some SetLinPushforward
                else if String.eqb pf "nonlinear" then Some SetNonlinPushforward else None in
  match setter with
  | None => None
  | Some st =>
    if ~~ mems pred (members Predictive) then None
    else if fns is f :: fs then Some (st, map (@CustomFn F) fns)
    else match st with
         | SetLinPushforward =>
             Some (st, [:: LinSetup; LinPredMean; LinPredStd] ++
               (if String.eqb pred "none" then [::]
                else if String.eqb pred "mc_bridge" then [:: LinMcPredAct; GetPredAct]
                else [:: LinSpecialPredAct pred; GetPredAct]))
         | SetNonlinPushforward =>
             if String.eqb pred "none" then Some (st, [:: NonlinSetup; NonlinPredMean; NonlinPredStd])
             else if String.eqb pred "mc_bridge"
                  then Some (st, [:: NonlinSetup; NonlinPredMean; NonlinPredStd; NonlinMcPredAct])
                  else None
         end
  end.

Theorem C46_pushforward_table F s1 s2 (fns : option (seq F)) :
  setup_pushforward (EStr s1) (EStr s2) fns =
  if expected_pushforward (lower s1) (lower s2) (odflt [::] fns) is Some r then Ok r else Raise ValueError.
Proof.
rewrite /setup_pushforward /expected_pushforward /convert_to_enum /enum_call -!/(mems _ _).
move: (lower s1) (lower s2) (odflt _ fns) => pf pred {s1 s2 fns} fns.
have -> : nilp (map (@CustomFn F) fns) = nilp fns by case: fns.
case: (String.eqb_spec pf "linear") => [->|N1]; [|case: (String.eqb_spec pf "nonlinear") => [->|N2]].
- case: (memsP pred (members Predictive)) => [H|//]; case: fns => [|f fs] //.
  by do 6?[case: H => [<-|H] //].
- case: (memsP pred (members Predictive)) => [H|//]; case: fns => [|f fs] //.
  by do 6?[case: H => [<-|H] //].
- have -> // : mems pf (members PushforwardType) = false.
  by case: memsP => // -[E|[E|//]]; [case: N1|case: N2].
Qed.

Section Calibration.
Variables (A C M P T F K Q : Type) (aitem : A -> nat -> res A).
Variable objective_at : objective_kind -> pf_setter * seq (pf_fn F) -> A * A -> nat -> R -> res spec_float.
Variable custom_methods : sdict (custom_objective A F -> calibration_kwargs K -> res Q).
Implicit Types (a : objective_args C M P T) (ck : calibration_kwargs K).

Notation calibrate := (calibration aitem objective_at custom_methods).

(** The grid search looks at four keyword arguments only: all others -- max_iterations in
    particular -- are without effect. *)
Theorem C46_other_keywords_ignored d pred pf fns a obj method ck ck' :
  lower method = "grid_search"%string ->
  ck_log_prior_prec_min ck = ck_log_prior_prec_min ck' ->
  ck_log_prior_prec_max ck = ck_log_prior_prec_max ck' ->
  ck_grid_size ck = ck_grid_size ck' -> ck_patience ck = ck_patience ck' ->
  calibrate d pred pf fns a obj (EStr method) ck = calibrate d pred pf fns a obj (EStr method) ck'.
Proof.
by move=> Em E1 E2 E3 E4; rewrite /calibration /calibration_by /builtin_search [convert_to_enum CalibrationMethod _ _]/= Em E1 E2 E3 E4.
Qed.

(** For a batch given as a tuple, a list or a dict, the result of a calibration by grid search is a
    point of the logarithmic grid with the least objective among the evaluated ones, and the first
    such; the objective is the one of the table, evaluated on that batch. *)
Theorem C46_calibration_first_minimiser d pred pf fns a obj method ck calls p :
  lower method = "grid_search"%string ->
  calibrate d pred pf fns a obj (EStr method) ck = (calls, Ok (PriorPrec Q p)) ->
  let grid := logspace (odflt (-3)%R (ck_log_prior_prec_min ck)) (odflt 3%R (ck_log_prior_prec_max ck))
                       (odflt 50 (ck_grid_size ck)) in
  exists pfs kind xy,
    [/\ setup_pushforward pf pred fns = Ok pfs,
        build_calibration_objective obj a (is_classification pred) = Ok kind,
        (match d with
         | DTuple [:: x; y] | DList [:: x; y] => xy = (x, y)
         | DDict e => sget e "input" = Some xy.1 /\ sget e "target" = Some xy.2
         | _ => False
         end),
        calls = take (size calls) grid
      & exists i, [/\ List.nth_error calls i = Some p,
          (forall j, j < size calls ->
             lt_score (value (objective_at kind pfs xy) grid j) (value (objective_at kind pfs xy) grid i) = false)
        & (forall j, j < i ->
             lt_score (value (objective_at kind pfs xy) grid i) (value (objective_at kind pfs xy) grid j))]].
Proof.
move=> Em; rewrite /calibration /calibration_by /builtin_search.
case Epf: (setup_pushforward pf pred fns) => [pfs|//].
case Eo: (build_calibration_objective obj a _) => [kind|//].
rewrite [convert_to_enum _ _ _]/= Em [enum_call _ _]/=.
set gd := (let! b := _ in _).
case Egd: gd => [xy|//].
case Es: (optimize_prior_prec _ _ _ _ _ _) => [calls' out] [Ec Eout] /=.
case: out Es Eout => [p'|//] Es [Ep].
move: Es; rewrite Ec Ep /optimize_prior_prec => Es.
case: (C31_first_minimiser Es) => E1 [i [H1 [H2 H3]]].
exists pfs, kind, xy; split=> //; last by exists i; split.
move: Egd; rewrite /gd; case: d {gd} => [xs|xs|e|o bs|] //=.
- by case: xs => [|x [|y [|z zs]]] //= [->].
- by case: xs => [|x [|y [|z zs]]] //= [->].
rewrite /shas; case E2: (sget e "input") => [x|//] /=.
case E3: (sget e "target") => [y|//] /=; rewrite /sindex E2 E3 => -[<-].
by [].
Qed.

(** Without patience and without exceptions other than ValueError, the whole grid is searched, and
    a result is returned (for a grid with at least one point). *)
Theorem C46_calibration_searches_whole_grid d pred pf fns a obj method ck pfs kind x y :
  lower method = "grid_search"%string -> d = DTuple [:: x; y] ->
  setup_pushforward pf pred fns = Ok pfs ->
  build_calibration_objective obj a (is_classification pred) = Ok kind ->
  odflt None (ck_patience ck) = None -> odflt 50 (ck_grid_size ck) <> 0 ->
  let grid := logspace (odflt (-3)%R (ck_log_prior_prec_min ck)) (odflt 3%R (ck_log_prior_prec_max ck))
                       (odflt 50 (ck_grid_size ck)) in
  (forall i, ~ escapes (objective_at kind pfs (x, y)) grid i) ->
  exists p, calibrate d pred pf fns a obj (EStr method) ck = (grid, Ok (PriorPrec Q p)).
Proof.
move=> Em -> Epf Eo Hp Hs grid Hesc; rewrite /calibration /calibration_by /builtin_search Epf Eo [convert_to_enum _ _ _]/= Em /=.
rewrite Hp /optimize_prior_prec -/grid.
have E := C32_visits_all Hesc.
have [_ [H _]] := C31_outcome (objective_at kind pfs (x, y)) grid None None.
have Hg : grid <> [::].
  by rewrite /grid /logspace; move: Hs; case: (odflt 50 _).
case: (H Hg) => [i _|p Ep]; first exact: Hesc.
exists p; move: E Ep; case: (grid_search _ _ _ _) => calls out /= -> ->.
by [].
Qed.

(** A data loader is not accepted by calibration; neither is a tuple of another length, or a dict
    without the two entries. *)
Theorem C46_calibration_needs_one_batch d pred pf fns a obj method ck pfs kind :
  lower method = "grid_search"%string ->
  setup_pushforward pf pred fns = Ok pfs ->
  build_calibration_objective obj a (is_classification pred) = Ok kind ->
  match d with
  | DTuple xs | DList xs => size xs <> 2
  | DDict e => ~~ shas e "input" \/ ~~ shas e "target"
  | DIterable _ _ | DOther => True
  end ->
  calibrate d pred pf fns a obj (EStr method) ck = ([::], Raise ValueError).
Proof.
move=> Em Epf Eo H; rewrite /calibration /calibration_by /builtin_search Epf Eo [convert_to_enum _ _ _]/= Em /=.
case: d H => [xs|xs|e|o bs|] //=.
- by case: eqP.
- by case: eqP.
- by case=> /negbTE ->; rewrite ?orbT.
Qed.

(** Further calibration methods are found by the exact string (while the built-in one is found in
    any case); unknown ones raise ValueError. *)
Theorem C46_calibration_method_lookup d pred pf fns a obj method ck pfs kind xy :
  lower method <> "grid_search"%string ->
  setup_pushforward pf pred fns = Ok pfs ->
  build_calibration_objective obj a (is_classification pred) = Ok kind ->
  d = DTuple [:: xy.1; xy.2] ->
  calibrate d pred pf fns a obj (EStr method) ck =
  ([::], if sget custom_methods method is Some f then rmap (@PriorCustom Q) (f (kind, pfs, xy) ck)
         else Raise ValueError).
Proof.
move=> Em Epf Eo ->; rewrite /calibration /calibration_by /builtin_search Epf Eo.
have [_ Hd] := C45_convert_rejects CalibrationMethod method.
have N : ~ List.In (lower method) (members CalibrationMethod) by case=> // E; apply: Em.
rewrite (Hd N) /=.
have -> : String.eqb method "grid_search" = false.
  by apply/String.eqb_neq => E; rewrite E in Em.
by case: (sget custom_methods method) => //= f; case: xy.
Qed.

(** A function registered under "grid_search" takes the place of the built-in search: it gets the
    objective of the table on the batch given and the four values with their defaults, and what it
    returns is the prior precision.  Other keyword arguments do not reach it. *)
Theorem C46_grid_search_replaced (search : search_method) d pred pf fns a obj method ck pfs kind x y :
  lower method = "grid_search"%string -> d = DTuple [:: x; y] ->
  setup_pushforward pf pred fns = Ok pfs ->
  build_calibration_objective obj a (is_classification pred) = Ok kind ->
  let out := search (objective_at kind pfs (x, y)) (odflt (-3)%R (ck_log_prior_prec_min ck))
    (odflt 3%R (ck_log_prior_prec_max ck)) (odflt 50 (ck_grid_size ck)) (odflt None (ck_patience ck)) in
  calibration_by aitem objective_at custom_methods search d pred pf fns a obj (EStr method) ck =
  (out.1, rmap (@PriorPrec Q) out.2).
Proof.
move=> Em -> Epf Eo; rewrite /calibration_by Epf Eo [convert_to_enum _ _ _]/= Em /=.
by case: (search _ _ _ _ _).
Qed.

End Calibration.

(** Concretely: a limit on the number of iterations has no effect. *)
Example C46_max_iterations_example :
  let ck others : calibration_kwargs nat := CalibrationKwargs None None (Some 5) None others in
  let run others := calibration (A := nat) (C := nat) (M := nat) (P := nat) (T := nat) (F := nat) (K := nat) (Q := nat)
    (fun a _ => Ok a) (fun _ _ _ i _ => Ok (S754_zero false)) [::] (DTuple [:: 1; 2])
    (EMember Predictive "none") (EStr "LINEAR") None
    (ObjectiveArgs (Some 0) (Some 0) (Some 0) (Some 0) (Some true)) (EStr "nll") (EStr "grid_search") (ck others) in
  run [:: ("max_iterations"%string, 1)] = run [::] /\ size (run [:: ("max_iterations"%string, 1)]).1 = 5.
Proof. by []. Qed.

Print Assumptions C46_objective_table.
Print Assumptions C46_missing_arguments.
Print Assumptions C46_pushforward_table.
Print Assumptions C46_other_keywords_ignored.
Print Assumptions C46_calibration_first_minimiser.
Print Assumptions C46_calibration_searches_whole_grid.
Print Assumptions C46_calibration_needs_one_batch.
Print Assumptions C46_grid_search_replaced.
Print Assumptions C46_calibration_method_lookup.

(** * C47: batches, loaders and iterators *)

Section DataArg.
Variables (A : Type) (aitem : A -> nat -> res A).

(** A batch (in the sense of the documentation) with input [x] and target [y]: a pair ... *)
Definition is_pair (b : batch A) (xy : A * A) : Prop := b = BTuple [:: xy.1; xy.2] \/ b = BList [:: xy.1; xy.2].
(** ... or a dict with the two entries (and possibly others). *)
Definition is_dict (b : batch A) (xy : A * A) : Prop :=
  exists2 d, b = BDict d & sget d "input" = Some xy.1 /\ sget d "target" = Some xy.2.

(** A loader whose batches are all pairs, or all dicts. *)
Definition batches (bs : seq (batch A)) (xys : seq (A * A)) : Prop :=
  List.Forall2 is_pair bs xys \/ List.Forall2 is_dict bs xys.

Lemma pair_transform b xy : is_pair b xy ->
  validate_and_get_transform aitem (Some b) = Ok (split_transform aitem) /\ split_transform aitem b = Ok xy.
Proof. by case: xy => x y [->|->]. Qed.

Lemma dict_transform b xy : is_dict b xy ->
  validate_and_get_transform aitem (Some b) = Ok (@identity_transform A) /\ identity_transform b = Ok xy.
Proof. by case: xy => x y [d -> [/= H1 H2]]; rewrite /= /shas /sindex H1 H2. Qed.

Arguments validate_and_get_transform : simpl never.

Lemma batches_transform b bs xy xys : batches (b :: bs) (xy :: xys) ->
  exists t, validate_and_get_transform aitem (Some b) = Ok t /\ mapM t (b :: bs) = Ok (xy :: xys).
Proof.
case=> H; inversion H as [|? ? ? ? Hb Hbs]; subst.
  case: (pair_transform Hb) => E1 E2; exists (split_transform aitem); split=> //.
  rewrite /= E2 /=; suff -> : mapM (split_transform aitem) bs = Ok xys by [].
  by elim: Hbs => {b bs xy xys H Hb E1 E2} // b xy bs xys Hb _ /= ->; case: (pair_transform Hb) => _ ->.
case: (dict_transform Hb) => E1 E2; exists (@identity_transform A); split=> //.
rewrite /= E2 /=; suff -> : mapM (@identity_transform A) bs = Ok xys by [].
by elim: Hbs => {b bs xy xys H Hb E1 E2} // b xy bs xys Hb _ /= ->; case: (dict_transform Hb) => _ ->.
Qed.

Section Operators.
Variables (Y S : Type) (reduce : Y -> option S -> res (Y * S)) (mv_fn : Y -> A * A -> res Y).
Notation wrap := (maybe_wrap_loader_or_batch aitem).
Notation call := (operator_call reduce mv_fn).

Lemma process_mapM (t : batch A -> res (A * A)) bs xys v :
  mapM t bs = Ok xys -> process_batches (mv_fn v) t reduce bs = process_batches (mv_fn v) (@Ok _) reduce xys.
Proof.
rewrite /process_batches => H; congr (bind _ _).
elim: bs xys (None : option Y) (None : option S) H => [|b bs IH] xys r st /=; first by case=> <-.
case: (t b) => //= d; case E: (mapM t bs) => [ds|//] /= [<-] /=.
case: (mv_fn v d) => //= y; case: (reduce y st) => //= p; exact: IH.
Qed.

(** A tuple [(x, y)] or a dict with entries input and target is one batch: the operator applies the
    product to it, on every call. *)
Theorem C47_single_batch d x y :
  (d = DTuple [:: x; y] \/ exists2 e, d = DDict e & sget e "input" = Some x /\ sget e "target" = Some y) ->
  exists op, wrap d None = Ok op /\ forall v, call op v = let! r := mv_fn v (x, y) in Ok (r, op).
Proof.
case=> [->|[e -> [H1 H2]]]; exists (SingleBatch (x, y)); split=> //.
by rewrite /maybe_wrap_loader_or_batch /= /validate_and_get_transform /shas H1 H2 /= /sindex H1 H2.
Qed.

(** Another (re-iterable) iterable is a loader: every call applies the product to every batch, once
    and in order, and reduces the results; so repeated calls see the same data. *)
Theorem C47_loader bs xys :
  bs <> [::] -> batches bs xys ->
  exists op, wrap (DIterable false bs) None = Ok op /\
    forall v, call op v = let! r := process_batches (mv_fn v) (@Ok _) reduce xys in Ok (r, op).
Proof.
case: bs => [//|b bs] _ H.
have [xy [xys' Exy]] : exists xy xys', xys = xy :: xys'.
  by case: H => H; inversion H; eexists; eexists; reflexivity.
subst xys; have [t [Et Em]] := batches_transform H.
exists (Streaming false (b :: bs) t); split; first by rewrite /maybe_wrap_loader_or_batch /= Et.
by move=> v; rewrite /operator_call (process_mapM v Em).
Qed.

(** In particular a loader with a single batch is the same as this batch (for reductions that start
    with the first result, as all of laplax's do). *)
Theorem C47_loader_of_one_batch x y v :
  (forall r, exists st, reduce r None = Ok (r, st)) ->
  exists op op', [/\ wrap (DTuple [:: x; y]) None = Ok op, wrap (DIterable false [:: BTuple [:: x; y]]) None = Ok op'
    & rmap fst (call op v) = rmap fst (call op' v)].
Proof.
move=> Hr.
have [op [E1 H1]] := C47_single_batch (or_introl (erefl (DTuple [:: x; y]))).
have Hb : batches [:: BTuple [:: x; y]] [:: (x, y)] by left; constructor; [left|constructor].
have Hn : [:: BTuple [:: x; y]] <> [::] by [].
have [op' [E2 H2]] := C47_loader Hn Hb.
exists op, op'; split=> //; rewrite H1 H2 /process_batches /=.
by case: (mv_fn v (x, y)) => //= r; case: (Hr r) => st ->.
Qed.

(** Everything else is refused with ValueError when the operator is built -- except an empty loader,
    for which StopIteration escapes. *)
Theorem C47_invalid_data d :
  match d with
  | DTuple xs | DList xs => size xs <> 2
  | DDict e => ~~ shas e "input" \/ ~~ shas e "target"
  | DIterable _ (BTuple xs :: _) | DIterable _ (BList xs :: _) => size xs <> 2
  | DIterable _ (BDict e :: _) => ~~ shas e "input" \/ ~~ shas e "target"
  | DIterable _ (BOther _ :: _) | DOther => True
  | DIterable _ [::] => False
  end -> wrap d None = Raise ValueError.
Proof.
rewrite /maybe_wrap_loader_or_batch /peek_transform /validate_and_get_transform.
case: d => [xs|xs|e|o [|[xs|xs|e|a] bs]|] //=; try by case: eqP.
- by case=> /negbTE ->; rewrite ?orbT.
- by case=> /negbTE ->; rewrite ?orbT.
Qed.

Theorem C47_empty_loader o : wrap (DIterable o [::]) None = Raise StopIteration.
Proof. by []. Qed.

(** The format is taken from the first batch: a loader of pairs with a dict further on (or of dicts
    with a pair) fails when it gets there. *)
Theorem C47_mixed_loader bs1 xys1 b bs2 v :
  bs1 <> [::] -> List.Forall2 is_pair bs1 xys1 -> (exists d, b = BDict d) ->
  (forall y st, exists p, reduce y st = Ok p) -> (forall d, exists y, mv_fn v d = Ok y) ->
  exists op, wrap (DIterable false (bs1 ++ b :: bs2)) None = Ok op /\ call op v = Raise KeyError.
Proof.
move=> Hn H [d ->] Hred Hmv.
case: bs1 Hn H => [//|b1 bs1] _ H; inversion H as [|? xy ? xys Hb Hbs]; subst.
exists (Streaming false ((b1 :: bs1) ++ BDict d :: bs2) (split_transform aitem)).
have [E1 E2] := pair_transform Hb.
split; first by rewrite /maybe_wrap_loader_or_batch /= E1.
rewrite /operator_call /process_batches.
suff G bs xys' r st : List.Forall2 is_pair bs xys' ->
   batch_loop (mv_fn v) (split_transform aitem) reduce (bs ++ BDict d :: bs2) r st = Raise KeyError.
  by rewrite (G _ _ _ _ H).
move=> HH; elim: HH r st => [|b' xy' bs' xys'' Hb' _ IH] r st //=.
have [_ ->] := pair_transform Hb'; rewrite /=.
have [y ->] := Hmv xy' => /=; have [p ->] := Hred y st; exact: IH.
Qed.

(** ** Lists *)

(** A list [[x, y]] passes the same validation as the tuple, but is then taken for a loader: the
    product is applied to the pairs of first and second rows of [x] and of [y] instead. *)
Theorem C47_list_is_a_loader x y x0 x1 y0 y1 :
  aitem x 0 = Ok x0 -> aitem x 1 = Ok x1 -> aitem y 0 = Ok y0 -> aitem y 1 = Ok y1 ->
  exists op, wrap (DList [:: x; y]) None = Ok op /\
    forall v, call op v = let! r := process_batches (mv_fn v) (@Ok _) reduce [:: (x0, x1); (y0, y1)] in Ok (r, op).
Proof.
move=> E1 E2 E3 E4; exists (Streaming false [:: BOther x; BOther y] (split_transform aitem)); split=> // v.
rewrite /operator_call (@process_mapM _ _ [:: (x0, x1); (y0, y1)]) //.
by rewrite /= E1 /= E2 /= E3 /= E4.
Qed.

(** ** One-shot iterators *)

(** Without an explicit transform the first batch of an iterator is lost: the first call sees the
    others only, and further calls see nothing (ValueError).  With a transform the first call sees
    them all. *)
Theorem C47_iterator_first_batch_lost b bs xy xys v :
  batches (b :: bs) (xy :: xys) ->
  exists op, wrap (DIterable true (b :: bs)) None = Ok op /\
    match call op v with
    | Ok (r, op') => process_batches (mv_fn v) (@Ok _) reduce xys = Ok r /\ forall w, call op' w = Raise ValueError
    | Raise e => process_batches (mv_fn v) (@Ok _) reduce xys = Raise e
    end.
Proof.
move=> H; have [t [Et Em]] := batches_transform H.
exists (Streaming true bs t); split; first by rewrite /maybe_wrap_loader_or_batch /= Et.
have Em' : mapM t bs = Ok xys.
  by move: Em => /=; case: (t b) => //= d; case: (mapM t bs) => //= ds [_ ->].
rewrite /operator_call (process_mapM v Em').
by case: process_batches.
Qed.

Theorem C47_iterator_with_transform bs xys t v :
  mapM t bs = Ok xys ->
  exists op, wrap (DIterable true bs) (Some t) = Ok op /\
    match call op v with
    | Ok (r, op') => process_batches (mv_fn v) (@Ok _) reduce xys = Ok r /\ forall w, call op' w = Raise ValueError
    | Raise e => process_batches (mv_fn v) (@Ok _) reduce xys = Raise e
    end.
Proof.
move=> Em; exists (Streaming true bs t); split=> //.
by rewrite /operator_call (process_mapM v Em); case: process_batches.
Qed.

(** Since [GGN] tries its operator on the parameters, the operator it returns for an iterator is
    always exhausted: every use of it -- hence every curvature estimate -- raises ValueError. *)
Theorem C47_iterator_unusable_for_ggn same_shapes params bs transform op :
  ggn aitem reduce mv_fn same_shapes params (DIterable true bs) transform = Ok op ->
  forall v, call op v = Raise ValueError.
Proof.
rewrite /ggn /maybe_wrap_loader_or_batch.
have Htd td : (if transform is Some t then Ok (t, DIterable true bs) else peek_transform aitem (DIterable true bs)) = Ok td ->
    exists bs', td.2 = DIterable true bs'.
  case: transform => [t0|]; first by case=> <-; exists bs.
  rewrite /peek_transform /next_iter; case: bs => //= b bs'.
  by case: validate_and_get_transform => //= t1 [<-]; exists bs'.
move: Htd; case: (if transform is Some _ then _ else _) => [td|//] /(_ td erefl) [bs' E]; cbn [bind]; rewrite E /=.
by case: process_batches => //= y; case: ifP => // _ [<-] v.
Qed.

(** A re-iterable loader is not affected by the trial. *)
Theorem C47_loader_usable_for_ggn (same_shapes : Y -> Y -> bool) params bs xys y :
  bs <> [::] -> batches bs xys ->
  process_batches (mv_fn params) (@Ok _) reduce xys = Ok y -> same_shapes y params ->
  exists op, ggn aitem reduce mv_fn same_shapes params (DIterable false bs) None = Ok op /\
    forall v, call op v = let! r := process_batches (mv_fn v) (@Ok _) reduce xys in Ok (r, op).
Proof.
move=> Hn Hb Ey Hs; have [op [Eop H]] := C47_loader Hn Hb.
by exists op; rewrite /ggn Eop /= H Ey /= Hs.
Qed.

(** laplace with a total number of samples 0: ZeroDivisionError, before the data are looked at; an
    unknown curvature name is reported first. *)
Theorem C47_laplace_zero_total (E : Type) (methods : dict (operator A -> res E)) same_shapes params d s :
  laplace aitem reduce mv_fn same_shapes methods params d (EStr s) 0 =
  if mems (lower s) (members CurvApprox) then Raise ZeroDivisionError else Raise ValueError.
Proof. by rewrite /laplace /convert_to_enum /enum_call -/(mems _ _); case: (mems _ _). Qed.
End Operators.

(** ** Evaluation *)

Section Evaluation.
Variables (V X F : Type).
Variables f_rmse f_chi2 f_nll f_crps : sdict V -> res V.
Variables f_conf_map f_conf_pred f_corr_map f_corr_pred f_nll_class : sdict V -> res V.
Variable points : A * A -> seq (data_point V X).
Variable build_predictive : pf_setter * seq (pf_fn F) -> res (X -> res (sdict V)).
Variable vtrue : V.
Notation evaluate := (evaluation aitem f_rmse f_chi2 f_nll f_crps f_conf_map f_conf_pred f_corr_map f_corr_pred
  f_nll_class points build_predictive vtrue).
Notation resolve_m := (resolve_metrics f_rmse f_chi2 f_nll f_crps f_conf_map f_conf_pred f_corr_map f_corr_pred
  f_nll_class).

(** The metrics of a list: built by apply_fns and transfer_entry, and indifferent to the keyword
    has_batch (as functions with a [**kwargs] parameter are). *)
Definition plain_metrics (ml : seq (step V)) : Prop :=
  forall s, List.In s ml -> metric_step s /\ forall r a, s r a [:: ("has_batch"%string, vtrue)] = s r a [::].

Lemma plain_evaluate ml pred_fn dp : plain_metrics ml ->
  evaluate_data_point ml [:: ("has_batch"%string, vtrue)] pred_fn dp =
  evaluate_data_point (X := X) ml [::] pred_fn dp.
Proof.
move=> H; rewrite /evaluate_data_point; case: with_target => //= pr.
have G : forall r a, finalize_fns [seq (fun r a => s r a [:: ("has_batch"%string, vtrue)]) | s <- ml] r a =
                     finalize_fns [seq (fun r a => s r a [::]) | s <- ml] r a; last exact: G.
elim: ml H => [|s ml IH] H r a //=.
rewrite !finalize_cons (proj2 (H s (or_introl erefl))).
case: (s r a [::]) => //= -[r' a'] /=; apply: IH => s' Hs'; apply: H; by right.
Qed.

(** A loader over any division of the data into batches gives the same metrics as the data set in
    one batch (with the default reduction), and the argument [reduce] has no influence on it. *)
Theorem C47_evaluation_loader_equals_batch m ml pred pf fns pfs pred_fn bs xys x y
    (O : Type) (reduce : seq V -> res O) :
  resolve_m m = Ok ml -> plain_metrics ml ->
  setup_pushforward pf pred fns = Ok pfs -> build_predictive pfs = Ok pred_fn ->
  bs <> [::] -> batches bs xys -> (forall xy, List.In xy xys -> points xy <> [::]) ->
  points (x, y) = flatten (map points xys) -> same_keys pred_fn (points (x, y)) ->
  match evaluate (DTuple [:: x; y]) m pred pf fns (fun w => Ok w) with
  | Ok (inr out) => evaluate (DIterable false bs) m pred pf fns reduce = Ok (inl out)
  | Ok (inl _) => False
  | Raise e => evaluate (DIterable false bs) m pred pf fns reduce = Raise e
  end.
Proof.
move=> Em Hml Epf Ep Hn Hb Hpts Hfl Hk.
case: bs Hn Hb => [//|b bs] _ Hb.
have [xy [xys' Exy]] : exists xy xys', xys = xy :: xys'.
  by case: Hb => H; inversion H; eexists; eexists; reflexivity.
have {Hb} Hb : batches (b :: bs) (xy :: xys') by rewrite -Exy.
have [t [Et Emt]] := batches_transform Hb; rewrite -Exy in Emt.
have Epd : peek_transform aitem (DIterable false (b :: bs)) = Ok (t, DIterable false (b :: bs)).
  by rewrite /peek_transform /next_iter; cbn [bind fst snd]; rewrite Et.
rewrite /evaluation Em; cbn [bind]; rewrite Epf; cbn [bind]; rewrite Ep; cbn [bind].
rewrite Epd; cbn [bind fst snd as_batch].
have -> : peek_transform aitem (DTuple [:: x; y]) = Ok (split_transform aitem, DTuple [:: x; y]) by [].
cbn [bind fst snd as_batch].
have -> : split_transform aitem (BTuple [:: x; y]) = Ok (x, y) by [].
cbn [bind].
set G := evaluate_metrics_on_generator _ _ _ _ _ _ _.
set D := evaluate_metrics_on_dataset _ _ _ _ _ _.
suff -> : G = D by case: D => [[o l]|e].
rewrite /G /D.
have -> : evaluate_metrics_on_dataset pred_fn (points (x, y)) (Some ml) None (fun w => Ok w) [::] =
          evaluate_metrics_on_dataset pred_fn (points (x, y)) (Some ml) None (fun w => Ok w)
            [:: ("has_batch"%string, vtrue)].
  rewrite /evaluate_metrics_on_dataset /=; congr (bind _ _).
  rewrite /map_points; congr (bind _ _); apply: mapM_ext_In => p _.
  by rewrite plain_evaluate.
apply: (@C44_generator_equals_dataset _ _ _ _ _ _ _ _ _ _ _ (map points xys)) => //.
- move: {G D Et Epd Hfl Hk Hpts Exy Hb} Emt; move: (b :: bs) xys => {b bs xy xys'} bs.
  elim: bs => [|b bs IH] xys /=; first by case=> <-.
  case: (t b) => //= d; case E: (mapM t bs) => [ds|//] /= [<-] /=.
  by rewrite (IH ds).
- by move=> p /in_map_iff [q [<- Hq]]; apply: Hpts.
- by move=> l s [<-] Hs; case: (Hml s Hs).
Qed.

(** With an iterator, the first batch is silently missing from the metrics: the result is that of
    the loader without it. *)
Theorem C47_evaluation_iterator_first_batch_lost m pred pf fns b1 b2 bs xys (O : Type) (reduce : seq V -> res O) :
  batches [:: b1, b2 & bs] xys ->
  evaluate (DIterable true [:: b1, b2 & bs]) m pred pf fns reduce =
  evaluate (DIterable false (b2 :: bs)) m pred pf fns reduce.
Proof.
move=> Hb; have [xy1 [xy2 [xys' Exy]]] : exists xy1 xy2 xys', xys = [:: xy1, xy2 & xys'].
  case: Hb => H; inversion H as [|? ? ? ? ? H']; inversion H'; subst;
  by do 3 eexists; reflexivity.
subst xys; have [t [Et _]] := batches_transform Hb.
have Et2 : validate_and_get_transform aitem (Some b2) = validate_and_get_transform aitem (Some b1).
  case: Hb => H; inversion H as [|? ? ? ? Hb1 H']; inversion H' as [|? ? ? ? Hb2 _]; subst.
    by rewrite (proj1 (pair_transform Hb1)) (proj1 (pair_transform Hb2)).
  by rewrite (proj1 (dict_transform Hb1)) (proj1 (dict_transform Hb2)).
rewrite /evaluation; case: (resolve_m m) => // ml; cbn [bind].
case: setup_pushforward => // pfs; cbn [bind].
case: (build_predictive pfs) => // pred_fn; cbn [bind].
by rewrite /peek_transform /next_iter; cbn [bind fst snd]; rewrite Et2 Et.
Qed.

(** ... and an iterator with a single batch gives no metrics at all. *)
Theorem C47_evaluation_iterator_single_batch m ml pred pf fns pfs pred_fn b xy (O : Type) (reduce : seq V -> res O) :
  resolve_m m = Ok ml -> setup_pushforward pf pred fns = Ok pfs -> build_predictive pfs = Ok pred_fn ->
  batches [:: b] [:: xy] ->
  evaluate (DIterable true [:: b]) m pred pf fns reduce = Ok (inl [::]).
Proof.
move=> Em Epf Ep Hb; have [t [Et _]] := batches_transform Hb.
rewrite /evaluation Em; cbn [bind]; rewrite Epf; cbn [bind]; rewrite Ep; cbn [bind].
by rewrite /peek_transform /next_iter; cbn [bind fst snd]; rewrite Et.
Qed.

(** An empty loader is an error (StopIteration), before any point is evaluated. *)
Theorem C47_evaluation_empty_loader o m ml pred pf fns pfs pred_fn (O : Type) (reduce : seq V -> res O) :
  resolve_m m = Ok ml -> setup_pushforward pf pred fns = Ok pfs -> build_predictive pfs = Ok pred_fn ->
  evaluate (DIterable o [::]) m pred pf fns reduce = Raise StopIteration.
Proof. by move=> Em Epf Ep; rewrite /evaluation Em; cbn [bind]; rewrite Epf; cbn [bind]; rewrite Ep. Qed.

(** * C48: the default metric sets *)

(** What [metrics] may be: one of the two names, in any case (or the enum member), a callable, or a
    non-empty list of callables. *)
Theorem C48_resolve_table m :
  (if m is MStr (EMember c v) then List.In v (members c) else True) ->
  resolve_m m =
  match m with
  | MCallable s => Ok [:: s]
  | MSeq [::] | MOther => Raise ValueError
  | MSeq l => Ok l
  | MStr EOther => Raise AttributeError
  | MStr (EStr s) | MStr (EMember _ s) =>
      if String.eqb (lower s) "regression" then DEFAULT_REGRESSION_METRICS f_rmse f_chi2 f_nll f_crps
      else if String.eqb (lower s) "classification" then
        DEFAULT_CLASSIFICATION_METRICS f_conf_map f_conf_pred f_corr_map f_corr_pred f_nll_class
      else Raise ValueError
  end.
Proof.
have Hs s : (let! d := match enum_call DefaultMetrics (lower s) with Ok m => Ok m | Raise e => Raise e end in
      if String.eqb d "regression" then DEFAULT_REGRESSION_METRICS f_rmse f_chi2 f_nll f_crps
      else if String.eqb d "classification" then
        DEFAULT_CLASSIFICATION_METRICS f_conf_map f_conf_pred f_corr_map f_corr_pred f_nll_class
      else Raise ValueError) =
     (if String.eqb (lower s) "regression" then DEFAULT_REGRESSION_METRICS f_rmse f_chi2 f_nll f_crps
      else if String.eqb (lower s) "classification" then
        DEFAULT_CLASSIFICATION_METRICS f_conf_map f_conf_pred f_corr_map f_corr_pred f_nll_class
      else Raise ValueError).
  rewrite /enum_call; set l := lower s; rewrite [members _]/= [has _ _]/= orbF.
  case: (String.eqb_spec l "classification") => [->|N1] //.
  case: (String.eqb_spec l "regression") => [->|N2] //.
case: m => [[c v|s|]|f|[|f l]|] H //; last exact: Hs.
rewrite /resolve_metrics /convert_to_enum; case: ifP => Hc; last exact: Hs.
by case: c Hc H => // _ [<-|[<-|//]].
Qed.

(** The three entries the regression metrics are computed from, and the call each of them gets. *)
Definition regression_args (mean std target : V) (kw : sdict V) : sdict V :=
  [:: ("pred_mean"%string, mean); ("pred_std"%string, std); ("target"%string, target)] ++ kw.

Notation "'regression'" := (MStr V (EMember DefaultMetrics "regression")).
Notation "'classification'" := (MStr V (EMember DefaultMetrics "classification")).
Definition reserved (kw : sdict V) : Prop :=
  exists2 k, List.In k (skeys kw) & List.In k [:: "pred_mean"; "pred_std"; "target"]%string.

Lemma regression_merge mean std target kw : ~ reserved kw ->
  merge_kwargs [:: ("pred_mean", mean); ("pred_std", std); ("target", target)]%string kw =
  Ok (regression_args mean std target kw).
Proof.
move=> H; rewrite /merge_kwargs.
have -> : has (shas [:: ("pred_mean", mean); ("pred_std", std); ("target", target)]%string) (skeys kw) = false => //.
have {H} H : forall k, List.In k (skeys kw) -> ~ List.In k [:: "pred_mean"; "pred_std"; "target"]%string.
  by move=> k H1 H2; apply: H; exists k.
elim: (skeys kw) H => [|k ks IH] H //=.
have Hk := H k (or_introl erefl).
rewrite IH => [|k' Hk']; last by apply: H; right.
rewrite /shas /sget; do 3 (case: String.eqb_spec => [E|_]; first by case: Hk; rewrite -E /=; tauto).
by [].
Qed.

Lemma regression_function req mean std target kw f :
  all (fun k => mems k [:: "pred_mean"; "pred_std"; "target"]%string) req ->
  py_function req true f (regression_args mean std target kw) = f (regression_args mean std target kw).
Proof.
move=> H; rewrite /py_function /= andbT; have -> : all (shas (regression_args mean std target kw)) req => //.
elim: req H => [|k req IH] //= /andP [H /IH ->]; rewrite andbT.
have : mems k [:: "pred_mean"; "pred_std"; "target"]%string by exact: H.
by case: memsP => // -[<-|[<-|[<-|//]]].
Qed.

Lemma regression_lookup (p : sdict V) target mean std : sget p "pred_mean" = Some mean -> sget p "pred_std" = Some std ->
  lookup_kwargs [:: ("pred_mean", "pred_mean"); ("pred_std", "pred_std"); ("target", "target")]%string [::]
    (sset p "target" target) [::] =
  Ok [:: ("pred_mean", mean); ("pred_std", std); ("target", target)]%string.
Proof. by move=> Em Es; rewrite /lookup_kwargs !sget_sset Em Es. Qed.

Definition reg3 : seq string := [:: "pred_mean"; "pred_std"; "target"]%string.
Definition regression_fns : seq (string * (sdict V -> res V)) :=
  [:: ("estimate_rmse", py_function [:: "pred_mean"; "target"] true f_rmse);
      ("chi_squared", py_function reg3 true f_chi2);
      ("nll_gaussian", py_function reg3 true f_nll);
      ("crps_gaussian", py_function reg3 true f_crps)]%string.
Definition regression_step : step V := fun results aux local_kwargs =>
  let! kvp := rmap Some (lookup_kwargs
    [:: ("pred_mean", "pred_mean"); ("pred_std", "pred_std"); ("target", "target")]%string results aux [::]) in
  let! ns := func_names (Some [:: "rmse"; "chi^2"; "nll"; "crps"]%string) regression_fns in
  apply_loop (zip (map snd regression_fns) ns) "results" kvp local_kwargs results aux.
Lemma resolve_regression ml : resolve_m regression = Ok ml -> ml = [:: regression_step].
Proof. by case=> <-. Qed.

Lemma regression_loop m sd t kw r a : ~ reserved kw ->
  (let! ns := func_names (Some [:: "rmse"; "chi^2"; "nll"; "crps"]%string) regression_fns in
   apply_loop (zip (map snd regression_fns) ns) "results"
     (Some [:: ("pred_mean", m); ("pred_std", sd); ("target", t)]%string) kw r a) =
  let args := regression_args m sd t kw in
  let! r1 := f_rmse args in let! r2 := f_chi2 args in let! r3 := f_nll args in let! r4 := f_crps args in
  Ok (sset (sset (sset (sset r "rmse" r1) "chi^2" r2) "nll" r3) "crps" r4, a).
Proof.
move=> H.
have -> : func_names (Some [:: "rmse"; "chi^2"; "nll"; "crps"]%string) regression_fns =
  Ok [:: "rmse"; "chi^2"; "nll"; "crps"]%string by [].
by cbn [bind regression_fns map zip snd apply_loop]; rewrite (regression_merge _ _ _ H); cbn [bind];
  rewrite !regression_function.
Qed.

(** The regression set: for every point whose prediction has a mean and a standard deviation the
    results are RMSE, chi^2, NLL and CRPS, in this order and under these names, each the value of the
    metric function on (mean, standard deviation, target) of the point. *)
Theorem C48_regression_defaults ml pred_fn (x : X) target p mean std kw r1 r2 r3 r4 :
  resolve_m regression = Ok ml -> ~ reserved kw ->
  pred_fn x = Ok p -> sget p "pred_mean" = Some mean -> sget p "pred_std" = Some std ->
  let args := regression_args mean std target kw in
  f_rmse args = Ok r1 -> f_chi2 args = Ok r2 -> f_nll args = Ok r3 -> f_crps args = Ok r4 ->
  evaluate_data_point ml kw pred_fn (x, target) =
  Ok [:: ("rmse", r1); ("chi^2", r2); ("nll", r3); ("crps", r4)]%string.
Proof.
move=> /resolve_regression -> Hkw Ep Em Es args E1 E2 E3 E4.
rewrite /evaluate_data_point /with_target Ep; cbn [bind fst snd].
rewrite map_cons finalize_cons /regression_step (regression_lookup _ Em Es); cbn [rmap bind].
by rewrite (regression_loop _ _ _ _ _ Hkw); cbn zeta; rewrite -/args E1 /= E2 /= E3 /= E4.
Qed.

(** A metric function that fails makes the evaluation fail with its exception; and ValueError is
    raised if the prediction lacks one of the two entries. *)
Theorem C48_regression_missing ml pred_fn (x : X) target p kw :
  resolve_m regression = Ok ml -> pred_fn x = Ok p ->
  sget p "pred_mean" = None \/ sget p "pred_std" = None ->
  evaluate_data_point ml kw pred_fn (x, target) = Raise ValueError.
Proof.
move=> /resolve_regression -> Ep Hn; rewrite /evaluate_data_point /with_target Ep; cbn [bind fst snd].
rewrite map_cons finalize_cons /regression_step /lookup_kwargs !sget_sset.
by case: Hn => ->; [|case: (sget p "pred_mean")].
Qed.

(** The regression metrics are indifferent to the keyword has_batch -- provided their functions are
    -- so that a loader and a single batch give the same values (see
    [C47_evaluation_loader_equals_batch]). *)
Theorem C48_regression_plain ml :
  resolve_m regression = Ok ml ->
  (forall f, List.In f [:: f_rmse; f_chi2; f_nll; f_crps] ->
     forall args, f (args ++ [:: ("has_batch"%string, vtrue)]) = f args) ->
  plain_metrics ml.
Proof.
move=> H Hf s Hs; move: (H); rewrite (resolve_regression H) in Hs; case: Hs => // <- {s} _; split.
  by apply: (@metric_apply V (map (fun f => PyCallable f.1 f.2) regression_fns)
    (Some [:: "rmse"; "chi^2"; "nll"; "crps"]%string) "results"
    [:: ("pred_mean", "pred_mean"); ("pred_std", "pred_std"); ("target", "target")]%string).
move=> r a; rewrite /regression_step; case E: lookup_kwargs => [kvp|//]; cbn [rmap bind].
have [m [sd [t ->]]] : exists m sd t, kvp = [:: ("pred_mean", m); ("pred_std", sd); ("target", t)]%string.
  move: E; rewrite /lookup_kwargs.
  case: (sget r "pred_mean") => [m|]; last (case: (sget a "pred_mean") => [m|//]);
  (case: (sget r "pred_std") => [sd|]; last (case: (sget a "pred_std") => [sd|//]));
  (case: (sget r "target") => [t|]; last (case: (sget a "target") => [t|//]));
  by case=> <-; exists m, sd, t.
have N1 : ~ reserved ([::] : sdict V) by case.
have N2 : ~ reserved [:: ("has_batch"%string, vtrue)] by case=> k /= [<-|//] [|[|[|]]].
rewrite (regression_loop _ _ _ _ _ N1) (regression_loop _ _ _ _ _ N2).
have E0 : regression_args m sd t [:: ("has_batch"%string, vtrue)] =
  regression_args m sd t [::] ++ [:: ("has_batch"%string, vtrue)] by [].
by cbn zeta; rewrite E0 (Hf f_rmse) ?(Hf f_chi2) ?(Hf f_nll) ?(Hf f_crps) //=; tauto.
Qed.

Lemma mems_all s l (P : string -> bool) : mems s l -> all P l -> P s.
Proof.
rewrite /mems; elim: l => [|k ks IH] //=.
by case: (String.eqb_spec s k) => [<- _ /andP [] //|_ /= H /andP [_]]; apply: IH.
Qed.

Lemma apply_loop_keeps_aux fns kvp kw r a r' a' :
  apply_loop (V := V) fns "results" kvp kw r a = Ok (r', a') -> a' = a.
Proof.
elim: fns r => [|[f n] fns IH] r /=; first by case.
by case: merge_kwargs => //= args; case: (f args) => //= y; apply: IH.
Qed.

Definition classification_fns1 : seq (string * (sdict V -> res V)) :=
  [:: ("<lambda>", py_function [:: "map"] true f_conf_map);
      ("<lambda>", py_function [:: "pred_act"] true f_conf_pred);
      ("<lambda>", py_function [:: "map"; "target"] true f_corr_map);
      ("<lambda>", py_function [:: "pred_mean"; "target"] true f_corr_pred)]%string.
Definition classification_step1 : step V := fun results aux local_kwargs =>
  let! ns := func_names (Some [:: "confidences_map"; "confidences_pred"; "correctness_map"; "correctness_pred"]%string)
    classification_fns1 in
  apply_loop (zip (map snd classification_fns1) ns) "results" None local_kwargs results aux.
Definition classification_step2 : step V := fun results aux local_kwargs =>
  apply_loop [:: (py_function [:: "pred_mean"; "pred_std"; "target"]%string false f_nll_class, "nll_gaussian"%string)]
    "results" None local_kwargs results aux.
Lemma resolve_classification ml : resolve_m classification = Ok ml -> ml = [:: classification_step1; classification_step2].
Proof. by case=> <-. Qed.

Lemma classification_step2_fails r aux kw : mems "map" (skeys aux) ->
  classification_step2 r aux kw = Raise TypeError.
Proof.
move=> Hm; rewrite /classification_step2 /apply_loop /merge_kwargs.
case: ifP => // _; cbn [bind].
set bad := py_function _ _ _ _; suff -> : bad = Raise TypeError by [].
rewrite /bad /py_function orFb.
have -> : all (fun k => mems k [:: "pred_mean"; "pred_std"; "target"]%string) (skeys (aux ++ kw)) = false.
  apply/negbTE/negP; rewrite /skeys map_cat all_cat => /andP [H _].
  by have := mems_all Hm H.
by rewrite andbF.
Qed.

(** The classification set cannot be used: its last function has no [**kwargs] parameter, but is
    called with every entry of the prediction, including the entry map, which is always there (see
    C39 and C41).  So no point can be evaluated; the exception is TypeError whenever the other four
    functions succeed. *)
Theorem C48_classification_refuted ml pred_fn (x : X) target p kw :
  resolve_m classification = Ok ml -> pred_fn x = Ok p -> shas p "map" ->
  (forall r, evaluate_data_point ml kw pred_fn (x, target) <> Ok r) /\
  ((forall f args, List.In f [:: f_conf_map; f_conf_pred; f_corr_map; f_corr_pred] -> exists v, f args = Ok v) ->
   evaluate_data_point ml kw pred_fn (x, target) = Raise TypeError).
Proof.
move=> /resolve_classification -> Ep Hm; rewrite /evaluate_data_point /with_target Ep; cbn [bind fst snd].
set aux := sset p "target" target.
have Hm' : mems "map" (skeys aux).
  case: memsP => // N; have := proj2 (sget_None aux "map") N; rewrite /aux sget_sset.
  have -> : String.eqb "target" "map" = false by [].
  by move: Hm; rewrite /shas; case: (sget p "map").
rewrite map_cons finalize_cons.
split=> [r|Hf].
  case E1: (classification_step1 [::] aux kw) => [[r1 a1]|//]; cbn [bind fst snd].
  have -> : a1 = aux by move: E1; apply: apply_loop_keeps_aux.
  by rewrite map_cons finalize_cons classification_step2_fails.
have TE (req : seq string) vk (f : sdict V -> res V) args : (exists v, f args = Ok v) ->
    (exists v, py_function req vk f args = Ok v) \/ py_function req vk f args = Raise TypeError.
  by rewrite /py_function; case: ifP => // _ H; [left|right].
have [[[r1 a1] E1]|->] : (exists st, classification_step1 [::] aux kw = Ok st) \/
    classification_step1 [::] aux kw = Raise TypeError; last by [].
  rewrite /classification_step1.
  have -> : func_names (Some [:: "confidences_map"; "confidences_pred"; "correctness_map"; "correctness_pred"]%string)
    classification_fns1 = Ok [:: "confidences_map"; "confidences_pred"; "correctness_map"; "correctness_pred"]%string by [].
  cbn [bind classification_fns1 map snd zip]; case E: (merge_kwargs aux kw) => [args|e]; last first.
    by right; cbn [apply_loop]; rewrite E; move: E; rewrite /merge_kwargs; case: ifP => // _ [<-].
  rewrite (apply_loop_results (kvp := None) _ _ E); cbn [mapM fst].
  have H1 : exists v, f_conf_map args = Ok v by apply: Hf; left.
  have H2 : exists v, f_conf_pred args = Ok v by apply: Hf; right; left.
  have H3 : exists v, f_corr_map args = Ok v by apply: Hf; do 2 right; left.
  have H4 : exists v, f_corr_pred args = Ok v by apply: Hf; do 3 right; left.
  case: (TE [:: "map"]%string true _ _ H1) => [[v1 ->]|->]; cbn [bind]; last by right.
  case: (TE [:: "pred_act"]%string true _ _ H2) => [[v2 ->]|->]; cbn [bind]; last by right.
  case: (TE [:: "map"; "target"]%string true _ _ H3) => [[v3 ->]|->]; cbn [bind]; last by right.
  case: (TE [:: "pred_mean"; "target"]%string true _ _ H4) => [[v4 ->]|->]; cbn [bind]; last by right.
  by left; eexists; reflexivity.
rewrite E1; cbn [bind fst snd].
have -> : a1 = aux by move: E1; apply: apply_loop_keeps_aux.
by rewrite map_cons finalize_cons classification_step2_fails.
Qed.

(** A metric function without a [**kwargs] parameter can be used with a batch, but not with a loader,
    because [has_batch=True] is handed on to it. *)
Theorem C48_loader_needs_kwargs required f name names kwargs s :
  apply_fns [:: PyCallable name (py_function required false f)] names "results" kwargs = Ok s ->
  ~ List.In "has_batch"%string required ->
  forall r a r', s r a [:: ("has_batch"%string, vtrue)] <> Ok r'.
Proof.
move=> Es Hn r a r'.
have G kvp n : apply_loop [:: (py_function required false f, n)] "results" kvp [:: ("has_batch"%string, vtrue)] r a <> Ok r'.
  cbn [apply_loop]; set d := (if kvp is Some d then d else a).
  rewrite /merge_kwargs; case: ifP => // _; cbn [bind].
  set bad := py_function _ _ _ _; suff -> : bad = Raise TypeError by [].
  rewrite /bad /py_function orFb.
  have -> : all (fun k => mems k required) (skeys (d ++ [:: ("has_batch"%string, vtrue)])) = false.
    apply/negbTE/negP; rewrite /skeys map_cat all_cat => /andP [_ /andP [H _]].
    by apply: Hn; apply/memsP.
  by rewrite andbF.
case: Es => <-.
case: (match kwargs with [::] => _ | _ => _ end) => [kvp|//]; cbn [bind].
rewrite /func_names; case: names => [[|n [|]]|] //; cbn [bind zip map snd size eqn]; exact: G.
Qed.

End Evaluation.
End DataArg.

(** Instances: natural numbers for arrays with rows, a product [v * x + y], addition as reduction. *)
Section Examples47.
Let item (a : seq nat) (i : nat) : res (seq nat) := if i < size a then Ok [:: nth 0 a i] else Raise IndexError.
Let mv (v : nat) (xy : seq nat * seq nat) : res nat := Ok (v * sumn xy.1 + sumn xy.2).
Let red (y : nat) (st : option nat) : res (nat * nat) := Ok (odflt 0 st + y, odflt 0 st + y).
Let b1 : batch (seq nat) := BTuple [:: [:: 1; 2]; [:: 3; 4]].
Let b2 : batch (seq nat) := BList [:: [:: 5]; [:: 6]].
Let run d v := let! op := maybe_wrap_loader_or_batch item d None in rmap fst (operator_call red mv op v).
Let run2 d v := let! op := maybe_wrap_loader_or_batch item d None in
  let! r := operator_call red mv op v in rmap fst (operator_call red mv r.2 v).

Example C47_examples :
  [/\ run (DTuple [:: [:: 1; 2]; [:: 3; 4]]) 10 = Ok 37,
      run (DIterable false [:: b1; b2]) 10 = Ok 93 /\ run2 (DIterable false [:: b1; b2]) 10 = Ok 93,
      run (DIterable true [:: b1; b2]) 10 = Ok 56 /\ run2 (DIterable true [:: b1; b2]) 10 = Raise ValueError,
      run (DList [:: [:: 1; 2]; [:: 3; 4]]) 10 = Ok 46
    & run (DDict [:: ("input"%string, [:: 1])]) 10 = Raise ValueError].
Proof. by []. Qed.
Example C47_hypotheses : batches [:: b1; b2] [:: ([:: 1; 2], [:: 3; 4]); ([:: 5], [:: 6])].
Proof. by left; constructor; [left|constructor; [right|constructor]]. Qed.

Let pts (xy : seq nat * seq nat) : seq (data_point nat nat) := zip xy.1 xy.2.
Let fm (k : string) (n : nat) (args : sdict nat) : res nat := rmap (addn n) (sindex args k).
Let pred (_ : pf_setter * seq (pf_fn unit)) : res (nat -> res (sdict nat)) :=
  Ok (fun x => Ok [:: ("map", x); ("pred_mean", x); ("pred_std", 1); ("pred_act", 2)]%string).
Let ev d m := evaluation item (fm "pred_mean" 0) (fm "pred_std" 1) (fm "target" 0) (fm "target" 5)
  (fm "map" 0) (fm "pred_act" 0) (fm "target" 1) (fm "target" 2) (fm "target" 3) pts pred 1 d m
  (EMember Predictive "none") (EStr "Linear") None (fun w => Ok w).

Example C47_evaluation_examples :
  let m := MStr nat (EStr "REGRESSION") in
  [/\ ev (DTuple [:: [:: 1; 2; 5]; [:: 3; 4; 6]]) m =
      Ok (inr [:: ("rmse", [:: 1; 2; 5]); ("chi^2", [:: 2; 2; 2]); ("nll", [:: 3; 4; 6]); ("crps", [:: 8; 9; 11])])%string,
      ev (DIterable false [:: b1; b2]) m =
      Ok (inl [:: ("rmse", [:: 1; 2; 5]); ("chi^2", [:: 2; 2; 2]); ("nll", [:: 3; 4; 6]); ("crps", [:: 8; 9; 11])])%string,
      ev (DIterable true [:: b1; b2]) m =
      Ok (inl [:: ("rmse", [:: 5]); ("chi^2", [:: 2]); ("nll", [:: 6]); ("crps", [:: 11])])%string,
      ev (DIterable true [:: b1]) m = Ok (inl [::])
    & ev (DTuple [:: [:: 1; 2; 5]; [:: 3; 4; 6]]) (MStr nat (EStr "classification")) = Raise TypeError].
Proof. by []. Qed.
End Examples47.

Print Assumptions C47_single_batch.
Print Assumptions C47_loader.
Print Assumptions C47_loader_of_one_batch.
Print Assumptions C47_invalid_data.
Print Assumptions C47_empty_loader.
Print Assumptions C47_mixed_loader.
Print Assumptions C47_list_is_a_loader.
Print Assumptions C47_iterator_first_batch_lost.
Print Assumptions C47_iterator_with_transform.
Print Assumptions C47_iterator_unusable_for_ggn.
Print Assumptions C47_loader_usable_for_ggn.
Print Assumptions C47_laplace_zero_total.
Print Assumptions C47_evaluation_loader_equals_batch.
Print Assumptions C47_evaluation_iterator_first_batch_lost.
Print Assumptions C47_evaluation_iterator_single_batch.
Print Assumptions C47_evaluation_empty_loader.
Print Assumptions C48_resolve_table.
Print Assumptions C48_regression_defaults.
Print Assumptions C48_regression_missing.
Print Assumptions C48_regression_plain.
Print Assumptions C48_classification_refuted.
Print Assumptions C48_loader_needs_kwargs.
