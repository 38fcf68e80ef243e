(** Specification of integrals over R^n: the iterated improper Riemann integral. *)
From Coq Require Import Reals.
From mathcomp Require Import all_ssreflect all_algebra.
From Verif Require Import RMat.
From Verif Require GaussLine.
Set Implicit Arguments.
Unset Strict Implicit.
Unset Printing Implicit Defensive.
Local Open Scope ring_scope.
Delimit Scope R_scope with Re.

(** The integral of [f] over R^n exists and equals [v]: the first coordinate is the variable of
    the outermost integral.  [GaussLine.line g v] says that the improper integral of [g] over
    the whole line exists and equals [v]. *)
Fixpoint integral n : ('cV[R]_n -> R) -> R -> Prop :=
  match n return ('cV[R]_n -> R) -> R -> Prop with
  | 0 => fun f v => f 0 = v
  | k.+1 => fun f v => exists g : R -> R,
      (forall x : R, integral (fun w : 'cV[R]_k => f (col_mx (x%:M : 'cV[R]_1) w : 'cV[R]_(1 + k))) (g x))
      /\ GaussLine.line g v
  end.

(** The integral of [f u z] over z and then over u. *)
Definition integral2 nu nz (f : 'cV[R]_nu -> 'cV[R]_nz -> R) (v : R) : Prop :=
  exists h, (forall u, integral (f u) (h u)) /\ integral h v.

(** The average of [f] over [num] independent draws from the density [d]. *)
Fixpoint draws n (d : 'cV[R]_n -> R) (num : nat) (f : seq 'cV[R]_n -> R) (v : R) : Prop :=
  match num with
  | 0 => f [::] = v
  | k.+1 => exists g, (forall x, draws d k (fun xs => f (x :: xs)) (g x))
                      /\ integral (fun x => (d x * g x)%Re) v
  end.
