(** The property C104 of approx.py, stated on the model. *)
From Coq Require Import Reals Lra.
From mathcomp Require Import all_ssreflect all_algebra.
From Verif Require Import RMat RChol NormalModel NormalSpec ApproxModel ApproxSpec ApproxProofs ApproxProps CaSpec CaConverge.
Set Implicit Arguments.
Unset Strict Implicit.
Unset Printing Implicit Defensive.
Import GRing.Theory.
Local Open Scope ring_scope.
Delimit Scope R_scope with Re.

Lemma rms_changeE a b (X Y : 'M[R]_(a, b)) : rms_change X Y = rms X Y.
Proof.
  rewrite /rms_change /rms; congr (sqrt (_ / _)%Re).
  by apply: eq_bigr => i _; apply: eq_bigr => j _; rewrite !mxE.
Qed.

(** C104: coordinate ascent stops by its tolerance.  For every well-posed model with data,
    conditioned or not, and every proper start there is a number of iterations [N] after which
    the fit does not depend on the limit on the iterations any more: it has made at most [N]
    iterations; the last call of the callback gets what is stored; the stored posterior for u is
    optimal for the previous posterior for z, and that for z is optimal for that for u; and the
    four changes since the previous iteration sum to less than 1e-6. *)
Theorem C104_ca_stops :
  forall chol, chol_ok chol ->
  forall n nu nz (m : gp nu nz) (ig : integrals n nu nz) (y : 'I_n -> R) (ap : approx nu nz),
    well_posed m ig -> proper (q_u ap) -> proper (q_z ap) ->
    let ts := construct_terms chol m ig y in
    exists N ap' before,
      let old := last (q_u ap, q_z ap) before in
      let calls := rcons before (q_u ap', q_z ap') in
      (forall iters, (N <= iters)%N -> fit_mean_field_ca chol m ts iters ap = (ap', calls))
      /\ (size calls <= N)%N
      /\ proper (q_u ap') /\ proper (q_z ap')
      /\ q_u ap' = q_u_optimal_mean_field chol m ts old.2
      /\ q_z ap' = q_z_optimal_mean_field chol m ts (q_u ap')
      /\ (rms_change (nn_lam (q_u ap')) (nn_lam old.1) + rms_change (nn_prec (q_u ap')) (nn_prec old.1)
          + rms_change (nn_lam (q_z ap')) (nn_lam old.2) + rms_change (nn_prec (q_z ap')) (nn_prec old.2)
          < 1 / 10 ^ 6)%Re.
Proof.
  move=> chol Hc n nu nz m ig y ap WP Hu Hz ts.
  have [N [r [bf [E [S [P [Q D]]]]]]] := ca_stops Hc y WP Hu Hz.
  pose ap' := set_q_z (set_q_u ap r.1) r.2.
  have Eu : q_u ap' = r.1 by rewrite /q_u /ap' /= eqxx.
  have Ez : q_z ap' = r.2 by rewrite /q_z /ap' /= eqxx.
  exists N, ap', bf; rewrite Eu Ez -surjective_pairing; split.
    by move=> iters K; rewrite /fit_mean_field_ca E.
  split=> //.
  have Pu : spd (nn_prec r.1) by rewrite Q /=; exact: (proper_f Hc y WP).
  have Pz : spd (nn_prec r.2) by rewrite Q /=; apply: (proper_g Hc y WP); exact: (proper_f Hc y WP).
  by split=> //; split=> //; rewrite !rms_changeE; split; [rewrite Q|split; [rewrite Q|exact: D]].
Qed.
Print Assumptions C104_ca_stops.

Example C104_witness : chol_ok some_chol /\ well_posed gp1 ig1 /\ proper (q_u ap1) /\ proper (q_z ap1)
  /\ proper (q_u (condition ap1)) /\ proper (q_z (condition ap1)).
Proof.
  have [_ [H1 H2]] := ap1_proper.
  split; [exact: some_chol_ok|split; [exact: gp1_well_posed|split; [exact: H1|split; [exact: H2|split; [exact: H1|exact: H2]]]]].
Qed.
