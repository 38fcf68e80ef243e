(** Specification: matrices, distributions and states with the inducing variables in another
    order.  The inducing variable number [i] in the new order is number [s i] in the old one for
    the filter and number [r i] for the excitation.  Models nothing of /repo. *)
From Coq Require Import Reals.
From mathcomp Require Import all_ssreflect all_algebra fingroup perm.
From Verif Require Import Py RMat NormalModel ApproxModel.
Set Implicit Arguments.
Unset Strict Implicit.
Unset Printing Implicit Defensive.
Local Open Scope ring_scope.

(** Entry (i, j) of the result is entry (s i, r j) of [A]. *)
Definition rows k l (s : 'S_k) (A : 'M[R]_(k, l)) : 'M[R]_(k, l) := \matrix_(i, j) A (s i) j.
Definition both k l (s : 'S_k) (r : 'S_l) (A : 'M[R]_(k, l)) : 'M[R]_(k, l) := \matrix_(i, j) A (s i) (r j).
Definition order_q k (s : 'S_k) (p : natnormal k) : natnormal k := NatNormal (rows s (nn_lam p)) (both s s (nn_prec p)).

Section Order.
Variables (nu nz : nat) (s : 'S_nu) (r : 'S_nz).

Definition order_gp (m : gp nu nz) : gp nu nz := GP (both s s (K_u m)) (both r r (K_z m)) (noise m).

Definition order_integrals n (ig : integrals n nu nz) : integrals n nu nz :=
  Integrals (ig_hx ig) (both s s (ig_ux ig)) (fun i => both r r (ig_hz ig i)) (fun i => both s r (ig_uz ig i)).

Definition order_state (ap : approx nu nz) : approx nu nz :=
  Approx (ap_i ap) (fun i => order_q s (ap_qs_u ap i)) (fun i => order_q r (ap_qs_z ap i)).

Definition order_pair (q : natnormal nu * natnormal nz) : natnormal nu * natnormal nz := (order_q s q.1, order_q r q.2).
End Order.
