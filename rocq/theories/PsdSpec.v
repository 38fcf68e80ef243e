(** Specification for [closest_psd]. *)
From Coq Require Import Reals.
From mathcomp Require Import all_ssreflect all_algebra.
From Verif Require Import RMat.
Set Implicit Arguments.
Unset Strict Implicit.
Unset Printing Implicit Defensive.
Local Open Scope ring_scope.
Delimit Scope R_scope with Re.

(** A singular value decomposition. *)
Definition is_svd n (a : 'M[R]_n) (d : 'M[R]_n * 'rV[R]_n * 'M[R]_n) : Prop :=
  let: (u, s, v) := d in
  u^T *m u = 1%:M /\ v^T *m v = 1%:M /\ (forall k, (0 <= s ord0 k)%Re) /\
  a = u *m diag_mx s *m v^T.

(** The singular values are distinct. *)
Definition distinct n (s : 'rV[R]_n) : Prop := forall i j, i <> j -> s ord0 i <> s ord0 j.

(** Squared Frobenius distance. *)
Definition frob2 n (a b : 'M[R]_n) : R := \sum_i \sum_j ((a i j - b i j) * (a i j - b i j))%Re.

(** [p] is a nearest positive semi-definite matrix to [a]. *)
Definition nearest_psd n (a p : 'M[R]_n) : Prop :=
  psd p /\ forall x, psd x -> (frob2 a p <= frob2 a x)%Re.

(** The Moore-Penrose inverse. *)
Definition is_pinv n (a p : 'M[R]_n) : Prop :=
  a *m p *m a = a /\ p *m a *m p = p /\ symm (a *m p) /\ symm (p *m a).
