(** Specification for the prediction of filters. *)
From Coq Require Import Reals.
From mathcomp Require Import all_ssreflect all_algebra.
From Verif Require Import RMat NormalModel NormalSpec FilterModel.
Set Implicit Arguments.
Unset Strict Implicit.
Unset Printing Implicit Defensive.
Local Open Scope ring_scope.
Delimit Scope R_scope with Re.

(** [k] is a covariance function. *)
Definition covariance_function (k : R -> R -> R) : Prop :=
  forall n (t : 'I_n -> R), psd (kmat k t t).

(** The random vectors [x] and [y] are uncorrelated, given that one of them has mean zero. *)
Definition uncorrelated Omega (E : expectation Omega) a b (x : Omega -> 'cV[R]_a) (y : Omega -> 'cV[R]_b) : Prop :=
  forall i j, E (fun w => (x w i ord0 * y w j ord0)%Re) = 0%Re.

(** [e_u] and [e_h] are what the samplers draw: noise with covariance [P] and standard noise. *)
Definition draws_of Omega (E : expectation Omega) nu n (P : 'M[R]_nu) (e_u : Omega -> 'cV[R]_nu) (e_h : Omega -> 'cV[R]_n) : Prop :=
  has_moments E e_u 0 P /\ has_moments E e_h 0 1%:M /\ uncorrelated E e_u e_h.

(** [k] is strictly positive definite at distinct inputs in [D]. *)
Definition strict_on (D : R -> Prop) (k : R -> R -> R) : Prop :=
  forall n (t : 'I_n -> R), injective t -> (forall i, D (t i)) -> spd (kmat k t t).

(** The prior of a process with kernel [k0] reproduces itself: with [p] the prior of the
    inducing variables, the samples of [f] have mean zero and covariance [k0]. *)
Definition has_prior Omega (E : expectation Omega) n (h : Omega -> 'cV[R]_n) (k0 : R -> R -> R) (t : 'I_n -> R) : Prop :=
  has_moments E h 0 (kmat k0 t t).
