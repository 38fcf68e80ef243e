(** Tactics that turn MathComp expressions over the reals into goals for [ring] and [field]. *)
From Coq Require Import Reals ZArith.
From mathcomp Require Import all_ssreflect all_algebra.
From Verif Require Import RMat NormalModel.
Import GRing.Theory.

Ltac conv_bigop t x := repeat match goal with
  | |- context [@BigOp.bigop ?T ?I ?a ?b ?c] =>
      let t' := constr:(@BigOp.bigop T I a b c) in unify t t'; change t' with x
  end.
Ltac atom1 := match goal with
  | |- context [@BigOp.bigop ?T ?I ?a ?b ?c] =>
      let x := fresh "S" in
      let t := constr:(@BigOp.bigop T I a b c) in
      set (x := t : R); change t with x; conv_bigop t x; clearbody x
  | |- context [kl ?c ?a ?b] => let x := fresh "k" in generalize (kl c a b); intro x
  | |- context [dot ?a ?b] => let x := fresh "d" in generalize (dot a b); intro x
  | |- context [sum_mul ?a ?b] => let x := fresh "s" in generalize (sum_mul a b); intro x
  | |- context [mxtrace ?a] => let x := fresh "t" in generalize (mxtrace a); intro x
  | |- context [ln ?a] => let x := fresh "l" in generalize (ln a); intro x
  | |- context [determinant ?a] => let x := fresh "e" in generalize (determinant a); intro x
  | |- context [INR ?a] => let x := fresh "n" in generalize (INR a); intro x
  end.
Ltac atoms := repeat atom1.

(** Replace projections of the instances on the reals by the instances themselves. *)
Ltac cnorm :=
  change (GRing.Field.sort R_fieldType) with R;
  change (GRing.IntegralDomain.sort R_idomainType) with R;
  change (GRing.ComUnitRing.sort R_comUnitRingType) with R;
  change (GRing.Field.comUnitRingType R_fieldType) with R_comUnitRingType;
  change (GRing.Field.unitRingType R_fieldType) with R_unitRingType;
  change (GRing.Field.ringType R_fieldType) with R_ringType;
  change (GRing.Field.zmodType R_fieldType) with R_zmodType;
  change (GRing.IntegralDomain.ringType R_idomainType) with R_ringType;
  change (GRing.IntegralDomain.unitRingType R_idomainType) with R_unitRingType;
  change (GRing.IntegralDomain.comUnitRingType R_idomainType) with R_comUnitRingType;
  change (GRing.ComUnitRing.unitRingType R_comUnitRingType) with R_unitRingType;
  change (GRing.ComUnitRing.comRingType R_comUnitRingType) with R_comRingType;
  change (GRing.ComUnitRing.ringType R_comUnitRingType) with R_ringType;
  change (GRing.ComUnitRing.zmodType R_comUnitRingType) with R_zmodType;
  change (GRing.UnitRing.ringType R_unitRingType) with R_ringType;
  change (GRing.UnitRing.zmodType R_unitRingType) with R_zmodType;
  change (GRing.UnitRing.sort R_unitRingType) with R;
  change (GRing.ComRing.ringType R_comRingType) with R_ringType;
  change (GRing.ComRing.zmodType R_comRingType) with R_zmodType;
  change (GRing.ComRing.sort R_comRingType) with R;
  change (GRing.Ring.zmodType R_ringType) with R_zmodType;
  change (GRing.Ring.sort R_ringType) with R;
  change (GRing.Zmodule.sort R_zmodType) with R.

Ltac rnorm := cnorm; rewrite ?(RplusE, RmultE, RoppE, R0E, R1E); cnorm;
  change R0 with (IZR Z0); change R1 with (IZR (Zpos xH)).
Ltac rring := rnorm; atoms; ring.
Ltac rfield := rnorm; atoms; field.
