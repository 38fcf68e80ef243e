(** Specification: a model with some of the inducing variables of another one.

    [s] and [r] say which inducing variables of the larger model the smaller one has.  The
    covariances of the smaller model are the entries of those of the larger one, because both are
    models of the same filter and excitation.  Models nothing of /repo. *)
From Coq Require Import Reals.
From mathcomp Require Import all_ssreflect all_algebra.
From Verif Require Import Py RMat NormalModel ApproxModel.
Set Implicit Arguments.
Unset Strict Implicit.
Unset Printing Implicit Defensive.
Local Open Scope ring_scope.

(** The rows [s] and the columns [r] of a matrix. *)
Definition entries a b a' b' (s : 'I_a' -> 'I_a) (r : 'I_b' -> 'I_b) (A : 'M[R]_(a, b)) : 'M[R]_(a', b') :=
  \matrix_(i, j) A (s i) (r j).

Section Some.
Variables (nu nz nu' nz' : nat) (s : 'I_nu -> 'I_nu') (r : 'I_nz -> 'I_nz').

Definition some_gp (m : gp nu' nz') : gp nu nz := GP (entries s s (K_u m)) (entries r r (K_z m)) (noise m).

Definition some_integrals n (ig : integrals n nu' nz') : integrals n nu nz :=
  Integrals (ig_hx ig) (entries s s (ig_ux ig)) (fun i => entries r r (ig_hz ig i)) (fun i => entries s r (ig_uz ig i)).
End Some.

(** Whitened variables that are zero where the smaller model has none: what a function
    [k(t, t_u) u] of the larger model needs to be that of the smaller one. *)
Definition padded k k' (s : 'I_k -> 'I_k') (u : 'cV[R]_k) : 'cV[R]_k' :=
  \col_a \sum_(i | s i == a) u i ord0.
