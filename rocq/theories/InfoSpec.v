(** Specification for the property that observations only add information. *)
From Coq Require Import Reals List.
From mathcomp Require Import all_ssreflect all_algebra.
From Verif Require Import RMat NormalModel ApproxModel OrderSpec.
Set Implicit Arguments.
Unset Strict Implicit.
Unset Printing Implicit Defensive.
Local Open Scope ring_scope.
Delimit Scope R_scope with Re.

(** The second data set has all the observations of the first one, and perhaps others. *)
Definition more_observations n n' nu nz (D : integrals n nu nz) (y : 'I_n -> R)
    (D' : integrals n' nu nz) (y' : 'I_n' -> R) : Prop :=
  ig_ux D = ig_ux D'
  /\ exists s : 'I_n -> 'I_n', injective s /\ forall i, same_point D i D' (s i) /\ y i = y' (s i).

(** Under [p] no linear combination of the variables has a larger variance than under [q]. *)
Definition at_least_as_certain (chol : forall n, 'M[R]_n -> 'M[R]_n) k (p q : natnormal k) : Prop :=
  forall x : 'cV[R]_k, (dot x (var chol p *m x)%R <= dot x (var chol q *m x)%R)%Re.

(** What the observations add to the prior with the precision [K], in natural parameters. *)
Definition gain k (K : 'M[R]_k) (p : natnormal k) : 'cV[R]_k * 'M[R]_k := (nn_lam p, nn_prec p - K).

(** The data set that has only the [i]-th observation. *)
Definition only n nu nz (D : integrals n nu nz) (i : 'I_n) : integrals 1 nu nz :=
  Integrals (fun _ => ig_hx D i) (ig_ux D) (fun _ => ig_hz D i) (fun _ => ig_uz D i).
