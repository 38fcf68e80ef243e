(** Specification of Gibbs sampling: the target, and what a sweep does to a density. *)
From Coq Require Import Reals.
From mathcomp Require Import all_ssreflect all_algebra.
From Verif Require Import RMat NormalModel NormalSpec ApproxModel ApproxSpec IntegralSpec EvidenceSpec.
Set Implicit Arguments.
Unset Strict Implicit.
Unset Printing Implicit Defensive.
Local Open Scope ring_scope.
Delimit Scope R_scope with Re.

(** The unnormalised posterior of u and z under the priors [pu] and [pz]: the exponential of the
    expected log-likelihood of the observations times the prior densities. *)
Definition target n nu nz (m : gp nu nz) (ig : integrals n nu nz) (y : 'I_n -> R)
    (pu : natnormal nu) (pz : natnormal nz) (u : 'cV[R]_nu) (z : 'cV[R]_nz) : R :=
  exp (expected_log_lik m ig y u z + log_density pu u + log_density pz z).

(** The density of a draw. *)
Definition density n (p : natnormal n) (x : 'cV[R]_n) : R := exp (log_density p x).

(** If u and z have density [rho] and first u is replaced by a draw from [qu z], then z by a draw
    from [qz u], u and z have density [rho']. *)
Definition sweep nu nz (qu : 'cV[R]_nz -> natnormal nu) (qz : 'cV[R]_nu -> natnormal nz)
    (rho rho' : 'cV[R]_nu -> 'cV[R]_nz -> R) : Prop :=
  exists mid,
    (forall u' z, integral (fun u => (rho u z * density (qu z) u')%Re) (mid u' z))
    /\ (forall u' z', integral (fun z => (mid u' z * density (qz u') z')%Re) (rho' u' z')).

(** [k] sweeps. *)
Fixpoint sweeps nu nz (qu : 'cV[R]_nz -> natnormal nu) (qz : 'cV[R]_nu -> natnormal nz) (k : nat)
    (rho rho' : 'cV[R]_nu -> 'cV[R]_nz -> R) : Prop :=
  match k with
  | 0 => forall u z, rho' u z = rho u z
  | k'.+1 => exists mid, sweep qu qz rho mid /\ sweeps qu qz k' mid rho'
  end.
