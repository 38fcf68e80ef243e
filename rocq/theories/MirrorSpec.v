(** Specification for C120: the filter and the excitation with the other signs. *)
From Coq Require Import Reals.
From mathcomp Require Import all_ssreflect all_algebra.
From Verif Require Import NormalModel ApproxModel OutSpec.
Set Implicit Arguments.
Unset Strict Implicit.
Unset Printing Implicit Defensive.
Import GRing.Theory.
Local Open Scope ring_scope.

(** All posteriors of u and of z that an approximation stores are those of -u and of -z. *)
Definition mirror nu nz (ap : approx nu nz) : approx nu nz :=
  Approx (ap_i ap) (fun i => neg_q (ap_qs_u ap i)) (fun i => neg_q (ap_qs_z ap i)).
Definition mirror_pair nu nz (q : natnormal nu * natnormal nz) : natnormal nu * natnormal nz := (neg_q q.1, neg_q q.2).
