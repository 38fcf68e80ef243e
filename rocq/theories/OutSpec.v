(** Specification: the same model with the signal measured in another unit.

    If one old unit is [c] new ones, observations and predictions are multiplied by [c] and the
    variance of the noise by the square of [c].  A negative [c] also turns the sign of the signal.
    The inducing variables stay what they are, and the integrals, which say how the signal
    depends on them, are multiplied by [c] or by its square.  Models nothing of /repo. *)
From Coq Require Import Reals.
From mathcomp Require Import all_ssreflect all_algebra.
From Verif Require Import Py RMat NormalModel ApproxModel.
Set Implicit Arguments.
Unset Strict Implicit.
Unset Printing Implicit Defensive.
Local Open Scope ring_scope.
Delimit Scope R_scope with Re.

Section Out.
Variable c : R.
Definition out_gp nu nz (m : gp nu nz) : gp nu nz := GP (K_u m) (K_z m) (c * c * noise m)%Re.
Definition out_integrals n nu nz (ig : integrals n nu nz) : integrals n nu nz :=
  Integrals (fun i => (c * c * ig_hx ig i)%Re) ((c * c)%Re *: ig_ux ig) (fun i => (c * c)%Re *: ig_hz ig i) (fun i => c *: ig_uz ig i).
Definition out_y n (y : 'I_n -> R) (i : 'I_n) : R := (c * y i)%Re.
(** A prediction: a mean and a variance. *)
Definition out_p (p : R * R) : R * R := (c * p.1, c * c * p.2)%Re.
End Out.

(** The whitened variables of the filter with the other sign. *)
Definition neg_q n (p : natnormal n) : natnormal n := NatNormal (- nn_lam p) (nn_prec p).
Definition neg_state nu nz (ap : approx nu nz) : approx nu nz :=
  Approx (ap_i ap) (fun i => neg_q (ap_qs_u ap i)) (ap_qs_z ap).
Definition neg_pair nu nz (q : natnormal nu * natnormal nz) : natnormal nu * natnormal nz := (neg_q q.1, q.2).
