(** Specification: the same model with other inducing variables that span the same space.

    If the inducing variables of the filter are multiplied by the invertible matrix [T] and those
    of the excitation by [S], the covariances are multiplied from both sides.  The approximations
    work with whitened variables: [u] stands for the inducing variables divided by their
    covariance, so that it is multiplied by the inverse transpose of [T].  Putting inducing points
    in another order is the case of permutation matrices.  Models nothing of /repo. *)
From Coq Require Import Reals.
From mathcomp Require Import all_ssreflect all_algebra.
From Verif Require Import Py RMat NormalModel ApproxModel.
Set Implicit Arguments.
Unset Strict Implicit.
Unset Printing Implicit Defensive.
Local Open Scope ring_scope.
Delimit Scope R_scope with Re.

(** Whitened variables in the other basis, and a distribution over them. *)
Definition dual k l (T : 'M[R]_k) (u : 'M[R]_(k, l)) : 'M[R]_(k, l) := (invmx T)^T *m u.
Definition basis_q k (T : 'M[R]_k) (p : natnormal k) : natnormal k :=
  NatNormal (T *m nn_lam p) (T *m nn_prec p *m T^T).

Section Basis.
Variables (nu nz : nat) (T : 'M[R]_nu) (S : 'M[R]_nz).

Definition basis_gp (m : gp nu nz) : gp nu nz := GP (T *m K_u m *m T^T) (S *m K_z m *m S^T) (noise m).

Definition basis_integrals n (ig : integrals n nu nz) : integrals n nu nz :=
  Integrals (ig_hx ig) (T *m ig_ux ig *m T^T) (fun i => S *m ig_hz ig i *m S^T) (fun i => T *m ig_uz ig i *m S^T).

Definition basis_state (ap : approx nu nz) : approx nu nz :=
  Approx (ap_i ap) (fun i => basis_q T (ap_qs_u ap i)) (fun i => basis_q S (ap_qs_z ap i)).

Definition basis_pair (q : natnormal nu * natnormal nz) : natnormal nu * natnormal nz := (basis_q T q.1, basis_q S q.2).
End Basis.
