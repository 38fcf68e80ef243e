(** Specification: what the approximations see of a GPCM, and what they see when the filter is
    measured in another unit.

    The inducing variables of the filter are whitened: [u] has prior precision [K_u].  When the
    filter is multiplied by [s], [K_u] and [I_ux] are multiplied by the square of [s], [I_uz] by
    [s] and the whitened variables by the inverse of [s].  Models nothing of /repo. *)
From Coq Require Import Reals.
From mathcomp Require Import all_ssreflect all_algebra.
From Verif Require Import Py RMat NormalModel ApproxModel.
Set Implicit Arguments.
Unset Strict Implicit.
Unset Printing Implicit Defensive.
Local Open Scope ring_scope.
Delimit Scope R_scope with Re.

Section Scale.
Variable s : R.

(** A distribution over the whitened variables of the filter, multiplied by the inverse of [s]. *)
Definition scale_q n (p : natnormal n) : natnormal n := NatNormal (s *: nn_lam p) ((s * s)%Re *: nn_prec p).

Definition scale_gp nu nz (m : gp nu nz) : gp nu nz := GP ((s * s)%Re *: K_u m) (K_z m) (noise m).

Definition scale_integrals n nu nz (ig : integrals n nu nz) : integrals n nu nz :=
  Integrals (ig_hx ig) ((s * s)%Re *: ig_ux ig) (ig_hz ig) (fun i => s *: ig_uz ig i).

Definition scale_state nu nz (ap : approx nu nz) : approx nu nz :=
  Approx (ap_i ap) (fun i => scale_q (ap_qs_u ap i)) (ap_qs_z ap).

Definition scale_pair nu nz (q : natnormal nu * natnormal nz) : natnormal nu * natnormal nz := (scale_q q.1, q.2).
End Scale.
