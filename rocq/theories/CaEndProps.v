(** The property C104 for the models of gpcm.py and rgpcm.py from their constructors on. *)
From Coq Require Import Reals ZArith List Lra.
From mathcomp Require Import all_ssreflect all_algebra.
From Verif Require Import Py ExpPolyModel ExpPolyIntModel ExpPolyIntProofs RMat RChol NormalModel ApproxModel ApproxSpec ApproxProps.
From Verif Require Import GpcmModel GpcmSpec GpcmGood GpcmBridge GpcmWell GpcmEndProps RgpcmModel RgpcmBridge RgpcmWell RgpcmEndProps CaProps.
From Verif Require RgpcmSpec.
Set Implicit Arguments.
Unset Strict Implicit.
Unset Printing Implicit Defensive.
Import GRing.Theory.
Local Open Scope ring_scope.
Delimit Scope R_scope with Re.

(** What C104 claims of the fit of a model [G] to [data] from [s0]: with enough iterations it
    does not depend on the limit on the iterations, and its result is proper. *)
Definition stops (chol : forall n, 'M[R]_n -> 'M[R]_n) n nu nz (G : gp nu nz) (data : terms n nu nz) (s0 : approx nu nz) : Prop :=
  exists N s calls,
    (forall iters, (N <= iters)%N -> fit_mean_field_ca chol G data iters s0 = (s, calls))
    /\ (size calls <= N)%N /\ proper (q_u s) /\ proper (q_z s).

Theorem C104_gpcm :
  forall chol, chol_ok chol ->
  forall (N : numdom) (so : setorder) (ofR : R -> N) (m : gpcm) (t : list R) G (D : integrals (List.length t) _ _)
         (y : 'I_(List.length t) -> R) s0,
    (forall r, val (ofR r) = r) -> good_gpcm m ->
    gpcm_gp so ofR m = Ok G -> gpcm_integrals so ofR m t = Ok D ->
    proper (q_u s0) -> proper (q_z s0) ->
    stops chol G (construct_terms chol G D y) s0.
Proof.
  move=> chol Hc N so ofR m t G D y s0 Ho Hm HG HD Hu Hz; have [WP _] := gpcm_well Ho Hm HG HD.
  have [k [s [before [A [B [C [E _]]]]]]] := C104_ca_stops Hc y WP Hu Hz.
  by exists k, s, (rcons before (q_u s, q_z s)).
Qed.
Print Assumptions C104_gpcm.

Theorem C104_rgpcm :
  forall chol, chol_ok chol ->
  forall (argsort : list Z -> list nat) (m : rgpcm) (t : list R) G (D : integrals (List.length t) _ _)
         (y : 'I_(List.length t) -> R) s0,
    RgpcmSpec.argsorts argsort -> well_rgpcm m -> in_support m t ->
    rgpcm_gp m = Ok G -> rgpcm_integrals argsort m t = Ok D ->
    proper (q_u s0) -> proper (q_z s0) ->
    stops chol G (construct_terms chol G D y) s0.
Proof.
  move=> chol Hc argsort m t G D y s0 Ha Hm Hs HG HD Hu Hz; have [WP _] := rgpcm_well Ha Hm Hs HG HD.
  have [k [s [before [A [B [C [E _]]]]]]] := C104_ca_stops Hc y WP Hu Hz.
  by exists k, s, (rcons before (q_u s, q_z s)).
Qed.
Print Assumptions C104_rgpcm.

(** Non-vacuity: with C86_well_posed and C99_well_posed these give all the hypotheses. *)
Example C104_gpcm_witness : forall causal, exists m, new_gpcm (default_args causal 1 1 [:: 0%Re; 1%Re]) = Ok m /\ good_gpcm m.
Proof. exact: C86_witness. Qed.

Example C104_rgpcm_witness : exists m, new_rgpcm (rdefault_args 1 1 [:: 0%Re; 5%Re]) = Ok m /\ well_rgpcm m /\ in_support m [:: 0%Re; 5%Re].
Proof. exact: C99_witness. Qed.
