(** Specification vocabulary for curvature: inner products, gradients and Hessian-vector
    products as derivatives along lines. *)
From Coq Require Import Reals.
From Coquelicot Require Import Coquelicot.
From mathcomp Require Import all_ssreflect all_algebra.
From Verif Require Import Base RealStruct.
Set Implicit Arguments.
Unset Strict Implicit.
Unset Printing Implicit Defensive.
Import GRing.Theory Num.Theory Order.TTheory.
Local Open Scope ring_scope.

(** Euclidean inner product. *)
Definition dotv (T : ringType) (n : nat) (u v : 'cV[T]_n) : T := \sum_i u i ord0 * v i ord0.

(** An operator on vectors is linear, symmetric, positive semi-definite. *)
Definition linear_op (T : ringType) (m n : nat) (g : 'cV[T]_n -> 'cV[T]_m) : Prop :=
  forall a u v, g (a *: u + v) = a *: g u + g v.
Definition symmetric_op (T : ringType) (n : nat) (g : 'cV[T]_n -> 'cV[T]_n) : Prop :=
  forall u v, dotv u (g v) = dotv (g u) v.
Definition psd_op (T : numDomainType) (n : nat) (g : 'cV[T]_n -> 'cV[T]_n) : Prop :=
  forall v, 0 <= dotv v (g v).

(** [grad] is the gradient field of [f]. *)
Definition is_gradient (n : nat) (f : 'cV[R]_n -> R) (grad : 'cV[R]_n -> 'cV[R]_n) : Prop :=
  forall q u, is_derive (fun t : R => f (q + t *: u)) 0 (dotv (grad q) u).

(** [h] is the Hessian of [f] at [p] times [v]: the derivative of the gradient along [v]. *)
Definition is_hvp (n : nat) (f : 'cV[R]_n -> R) (p v h : 'cV[R]_n) : Prop :=
  exists grad, is_gradient f grad /\
    forall u, is_derive (fun t : R => dotv (grad (p + t *: v)) u) 0 (dotv h u).

(** The logistic function and the class probabilities belonging to logits. *)
Definition logistic (z : R) : R := 1 / (1 + exp (- z)).
Definition class_probs (n : nat) (z : 'cV[R]_n) : 'cV[R]_n :=
  \col_i (exp (z i ord0) / \sum_j exp (z j ord0)).
