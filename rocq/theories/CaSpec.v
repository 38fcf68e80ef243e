(** Specification of the convergence of coordinate ascent: the size of a change. *)
From Coq Require Import Reals.
From mathcomp Require Import all_ssreflect all_algebra.
From Verif Require Import RMat.
Set Implicit Arguments.
Unset Strict Implicit.
Unset Printing Implicit Defensive.
Local Open Scope ring_scope.
Delimit Scope R_scope with Re.

(** The root mean square of the differences of the entries. *)
Definition rms_change a b (X Y : 'M[R]_(a, b)) : R :=
  sqrt ((\sum_i \sum_j ((X - Y) i j * (X - Y) i j)) / INR (a * b))%Re.
