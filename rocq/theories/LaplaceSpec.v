(** Specification for the Laplace approximation. *)
From Coq Require Import Reals.
From mathcomp Require Import all_ssreflect all_algebra.
From Verif Require Import RMat.
Set Implicit Arguments.
Unset Strict Implicit.
Unset Printing Implicit Defensive.
Local Open Scope ring_scope.
Delimit Scope R_scope with Re.

Section Spec.
Variable n : nat.
Implicit Types (f : 'cV[R]_n -> R) (x : 'cV[R]_n).

(** The derivative of [f] at [x] in coordinate [i] is [d]. *)
Definition partial f i x (d : R) : Prop :=
  derivable_pt_lim (fun s => f (x + s *: delta_mx i 0)) 0%Re d.

(** [H] is the matrix of second derivatives of [f] at [x]. *)
Definition is_hessian f x (H : 'M[R]_n) : Prop :=
  exists g : 'I_n -> 'cV[R]_n -> R,
    (forall i y, partial f i y (g i y)) /\ (forall i j, partial (g i) j x (H i j)).

(** [x] is a maximum of [f]. *)
Definition is_max f x : Prop := forall y, (f y <= f x)%Re.

(** The optimiser finds a minimum of [g] from [x0]. *)
Definition minimises (minimise : ('cV[R]_n -> R) -> 'cV[R]_n -> nat -> 'cV[R]_n) (g : 'cV[R]_n -> R) x0 : Prop :=
  forall iters y, (g (minimise g x0 iters) <= g y)%Re.

(** Automatic differentiation is right for [f] at [x]. *)
Definition differentiates (jac : ('cV[R]_n -> R) -> 'cV[R]_n -> nat -> nat -> R) f x : Prop :=
  forall H, is_hessian f x H -> forall i j : 'I_n, jac f x i j = H i j.
End Spec.
