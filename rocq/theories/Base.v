(** Base: exceptions as values, and the few list helpers shared by all models. *)
From mathcomp Require Import all_ssreflect.
Set Implicit Arguments.
Unset Strict Implicit.
Unset Printing Implicit Defensive.

(** Python exception classes that laplax raises or lets escape.
    [Unmodelled] is not a Python class: it marks a branch of the Python code
    which the model deliberately leaves out (for example shape broadcasting). *)
Inductive exn : Set :=
  | ValueError | TypeError | KeyError | AttributeError | IndexError
  | ZeroDivisionError | NotImplementedError | StopIteration | Unmodelled.

Definition exn_eqb (a b : exn) : bool :=
  match a, b with
  | ValueError, ValueError | TypeError, TypeError | KeyError, KeyError
  | AttributeError, AttributeError | IndexError, IndexError
  | ZeroDivisionError, ZeroDivisionError
  | NotImplementedError, NotImplementedError
  | StopIteration, StopIteration | Unmodelled, Unmodelled => true
  | _, _ => false
  end.

Lemma exn_eqP : Equality.axiom exn_eqb.
Proof. by case; case; constructor. Qed.
Canonical exn_eqMixin := EqMixin exn_eqP.
Canonical exn_eqType := Eval hnf in EqType exn exn_eqMixin.

(** Result of a Python call: a value or an exception. *)
Inductive res (A : Type) : Type := Ok of A | Raise of exn.
Arguments Ok {A} _.
Arguments Raise {A} _.

Definition bind (A B : Type) (m : res A) (f : A -> res B) : res B :=
  match m with Ok a => f a | Raise e => Raise e end.
Notation "'let!' x ':=' m 'in' k" := (bind m (fun x => k))
  (at level 200, x name, m at level 100, k at level 200).

Definition rmap (A B : Type) (f : A -> B) (m : res A) : res B :=
  match m with Ok a => Ok (f a) | Raise e => Raise e end.

Definition is_ok (A : Type) (m : res A) : bool :=
  match m with Ok _ => true | Raise _ => false end.

(** [[f x for x in xs]] in Python, where [f] may raise. *)
Definition mapM (A B : Type) (f : A -> res B) : seq A -> res (seq B) :=
  fix go (xs : seq A) : res (seq B) :=
    match xs with
    | [::] => Ok [::]
    | x :: xs' =>
        let! y := f x in
        let! ys := go xs' in
        Ok (y :: ys)
    end.

(** Python slice [xs[a:b]] for non-negative [a], [b]. *)
Definition slice (A : Type) (a b : nat) (xs : seq A) : seq A := take (b - a) (drop a xs).

(** Python [xs[:-1]]. *)
Definition butlast (A : Type) (xs : seq A) : seq A := take (size xs).-1 xs.
Arguments butlast : simpl never.

(** [math.prod]. *)
Definition prodn (s : seq nat) : nat := foldr muln 1 s.

(** ** Elementary facts *)

Lemma mapM_ok (A B : Type) (f : A -> res B) (g : A -> B) xs :
  (forall x, f x = Ok (g x)) -> mapM f xs = Ok (map g xs).
Proof. by move=> H; elim: xs => //= x xs ->; rewrite H. Qed.

Lemma mapM_ok_in (A : eqType) (B : Type) (f : A -> res B) (g : A -> B) (xs : seq A) :
  (forall x, x \in xs -> f x = Ok (g x)) -> mapM f xs = Ok (map g xs).
Proof.
elim: xs => //= x xs IH H; rewrite H ?mem_head //= IH //= => y Hy.
by apply: H; rewrite inE Hy orbT.
Qed.

Lemma mapM_size (A B : Type) (f : A -> res B) xs ys :
  mapM f xs = Ok ys -> size ys = size xs.
Proof.
elim: xs ys => [|x xs IH] ys /=; first by case=> <-.
by case: (f x) => //= y; case E: (mapM f xs) => [zs|] //= [<-] /=; rewrite (IH _ E).
Qed.

Lemma mapM_cat (A B : Type) (f : A -> res B) xs ys :
  mapM f (xs ++ ys) = (let! a := mapM f xs in let! b := mapM f ys in Ok (a ++ b)).
Proof.
elim: xs => [|x xs IH] /=; first by case: (mapM f ys).
by case: (f x) => //= y; rewrite IH; case: (mapM f xs) => //= a; case: (mapM f ys).
Qed.

Lemma prodn_cat s t : prodn (s ++ t) = prodn s * prodn t.
Proof. by elim: s => [|x s IH] /=; rewrite ?mul1n // IH mulnA. Qed.

Lemma size_slice (A : Type) a b (xs : seq A) :
  b <= size xs -> size (slice a b xs) = b - a.
Proof.
move=> H; rewrite /slice size_take size_drop.
case: ltnP => // H2; apply/eqP; rewrite eqn_leq H2 andTb leq_sub2r //.
Qed.

Lemma mapM_nth (A B : Type) (f : A -> res B) xs ys i dx dy :
  mapM f xs = Ok ys -> i < size xs -> f (nth dx xs i) = Ok (nth dy ys i).
Proof.
elim: xs ys i => //= x xs IH ys i.
case E: (f x) => [y|] //=; case E2: (mapM f xs) => [zs|] //= [<-].
by case: i => [|i] //= Hi; apply: IH.
Qed.

Lemma mapM_all_ok (A B : Type) (f : A -> res B) xs :
  (forall x, exists y, f x = Ok y) -> exists ys, mapM f xs = Ok ys.
Proof.
move=> H; elim: xs => [|x xs [ys IH]]; first by exists [::].
by have [y E] := H x; exists (y :: ys); rewrite /= E /= IH.
Qed.
