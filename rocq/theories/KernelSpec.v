(** Specification for the prediction of kernels. *)
From Coq Require Import Reals.
From mathcomp Require Import all_ssreflect all_algebra.
From Verif Require Import RMat.
Set Implicit Arguments.
Unset Strict Implicit.
Unset Printing Implicit Defensive.
Local Open Scope ring_scope.
Delimit Scope R_scope with Re.

(** The matrix of a stationary kernel [k] at the times [t]. *)
Definition smat (k : R -> R) a b (s : 'I_a -> R) (t : 'I_b -> R) : 'M[R]_(a, b) := \matrix_(i, j) k (s i - t j)%Re.

(** [k] is the kernel of a stationary process, strictly positive definite, and largest in
    absolute value at lag zero. *)
Definition stationary_covariance (k : R -> R) : Prop :=
  (forall n (t : 'I_n -> R), psd (smat k t t)) /\
  (forall n (t : 'I_n -> R), injective t -> spd (smat k t t)) /\
  (0 < k 0)%Re /\ (forall s, k (- s)%Re = k s) /\ (forall s, s <> 0%Re -> Rabs (k s) < k 0)%Re.

(** [k] tends to zero for large lags of either sign. *)
Definition vanishing (k : R -> R) : Prop :=
  forall e, (0 < e)%Re -> exists S, forall s, (S <= Rabs s)%Re -> (Rabs (k s) <= e)%Re.
