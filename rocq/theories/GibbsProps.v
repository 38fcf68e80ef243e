(** C102: Gibbs sampling leaves the posterior invariant. *)
From Coq Require Import Reals Lra Psatz.
From mathcomp Require Import all_ssreflect all_algebra.
From Verif Require Import Py RMat RChol RTac NormalModel NormalSpec NormalProofs ApproxModel ApproxSpec ApproxProofs ApproxProofs2
  NormalProps ApproxProps IntegralSpec GaussN Tame TameMat EvidenceModel EvidenceSpec EvidenceProofs EvidenceProps GibbsSpec.
Set Implicit Arguments.
Unset Strict Implicit.
Unset Printing Implicit Defensive.
Import GRing.Theory.
Local Open Scope ring_scope.
Delimit Scope R_scope with Re.

Section Gibbs.
Variable chol : forall n, 'M[R]_n -> 'M[R]_n.
Hypothesis Hc : chol_ok chol.

(** The change of variables of [sample]. *)
Lemma sample_density n (p : natnormal n) (e : 'cV[R]_n) : spd (nn_prec p) ->
  exp (gaussian_logpdf 0 (nn_prec p) e) = (density p (sample chol p e) * / \det (nn_prec p))%Re.
Proof.
  move=> H; have U := spd_unit H; have P := spd_det_gt0 H.
  have ES : sample chol p e = invmx (nn_prec p) *m e + invmx (nn_prec p) *m nn_lam p.
    rewrite /sample cholsolveE // -mulmxDr; congr (_ *m (_ + _)).
    by apply/matrixP => i k; rewrite mxE ord1.
  rewrite /density /log_density /gaussian_logpdf ES addrK subr0 invmxK mulKVmx // det_inv.
  rewrite -{3}(exp_ln _ P) -exp_Ropp -exp_plus; congr exp.
  rewrite (RinvE (elimN eqP (Rneq0 P))) ln_Rinv // (dotC (invmx _ *m e)).
  move: (ln (\det _)) (ln _) (dot _ _) => a b c; rfield.
Qed.

Section Model.
Variables (n nu nz : nat) (m : gp nu nz) (ig : integrals n nu nz) (y : 'I_n -> R).
Hypothesis WP : well_posed m ig.
Let ts := construct_terms chol m ig y.
Let K0u : natnormal nu := NatNormal 0 (K_u m).
Let K0z : natnormal nz := NatNormal 0 (K_z m).
Let qu := q_u_optimal m ts.
Let qz := q_z_optimal m ts.

Lemma qz_spd u : spd (nn_prec (qz u)).
Proof. exact: (q_z_spd Hc y WP). Qed.
Lemma qu_spd z : spd (nn_prec (qu z)).
Proof.
  have [_ [_ /(_ 0 z) [_ H]]] := C44_conditionals Hc y WP; exact: H.
Qed.

Lemma dens_integral k (p : natnormal k) : spd (nn_prec p) -> integral (density p) 1%Re.
Proof. by move=> H; apply: integral_ext (integral_dens Hc H) => x; rewrite /density (log_densityE Hc). Qed.

(** The target factors through both conditionals. *)
Lemma target_z pu u z : target m ig y pu K0z u z = (exp (log_Z_u chol m ts u + log_density pu u) * density (qz u) z)%Re.
Proof.
  have [E _] := C44_conditionals Hc y WP; have := E u z.
  rewrite -exp_plus /target (log_densityE Hc _ (qz_spd u)) -/ts -/qz => H; congr exp.
  have -> : log_density K0z z = gaussian_logpdf 0 (invmx (K_z m)) z by rewrite /log_density /= mulmx0.
  move: H; rewrite -/ts -/qz; move: (gaussian_logpdf _ _ _) (logpdf _ _ _) (expected_log_lik _ _ _ _ _) (log_Z_u _ _ _ _) (log_density _ _) => a b c d e; lra.
Qed.
Lemma target_u pz : exists c, forall u z, target m ig y K0u pz u z = (exp (c z) * density (qu z) u)%Re.
Proof.
  have [_ [[lz E] _]] := C44_conditionals Hc y WP.
  exists (fun z => (lz z + log_density pz z)%Re) => u z; have := E u z.
  rewrite -exp_plus /target (log_densityE Hc _ (qu_spd z)) -/ts -/qu => H; congr exp.
  have -> : log_density K0u u = gaussian_logpdf 0 (invmx (K_u m)) u by rewrite /log_density /= mulmx0.
  move: H; rewrite -/ts -/qu; move: (gaussian_logpdf _ _ _) (logpdf _ _ _) (expected_log_lik _ _ _ _ _) (lz _) (log_density _ _) => a b c d e; lra.
Qed.

Lemma inv_z u z' : integral (fun z => (target m ig y K0u K0z u z * density (qz u) z')%Re) (target m ig y K0u K0z u z').
Proof.
  have I := integral_scal (target m ig y K0u K0z u z') (dens_integral (qz_spd u)); rewrite Rmult_1_r in I.
  by apply: integral_ext I => z; rewrite !target_z; ring.
Qed.
Lemma inv_u u' z : integral (fun u => (target m ig y K0u K0z u z * density (qu z) u')%Re) (target m ig y K0u K0z u' z).
Proof.
  have [c E] := target_u K0z.
  have I := integral_scal (target m ig y K0u K0z u' z) (dens_integral (qu_spd z)); rewrite Rmult_1_r in I.
  by apply: integral_ext I => u; rewrite !E; ring.
Qed.

Lemma sweep_target : sweep qu qz (target m ig y K0u K0z) (target m ig y K0u K0z).
Proof. exists (target m ig y K0u K0z); split; [exact: inv_u|exact: inv_z]. Qed.

Lemma sweep_ext rho rho2 rho' : (forall u z, rho u z = rho2 u z) -> sweep qu qz rho rho' -> sweep qu qz rho2 rho'.
Proof.
  move=> E [mid [A B]]; exists mid; split=> // u' z.
  by apply: integral_ext (A u' z) => u; rewrite E.
Qed.

Lemma sweep_unique rho rho1 rho2 : sweep qu qz rho rho1 -> sweep qu qz rho rho2 -> forall u z, rho1 u z = rho2 u z.
Proof.
  move=> [m1 [A1 B1]] [m2 [A2 B2]] u z.
  have E u' z' : m1 u' z' = m2 u' z' by exact: integral_unique (A1 u' z') (A2 u' z').
  by apply: integral_unique (B1 u z) _; apply: integral_ext (B2 u z) => z'; rewrite E.
Qed.

Lemma sweeps_target k : sweeps qu qz k (target m ig y K0u K0z) (target m ig y K0u K0z).
Proof. by elim: k => [//|k IH]; exists (target m ig y K0u K0z); split; [exact: sweep_target|exact: IH]. Qed.

Lemma sweeps_only k : forall rho rho', (forall u z, rho u z = target m ig y K0u K0z u z) ->
  sweeps qu qz k rho rho' -> forall u z, rho' u z = target m ig y K0u K0z u z.
Proof.
  elim: k => [|k IH] rho rho' E /=; first by move=> H u z; rewrite H.
  move=> [mid [S Ss]]; apply: IH Ss => u z.
  by apply: (sweep_unique (rho := rho)) S _ _ _; apply: sweep_ext sweep_target.
Qed.

(** Whatever the density before a sweep, afterwards z given u is distributed as [qz u]. *)
Lemma sweep_conditional rho rho' : sweep qu qz rho rho' ->
  forall u z1 z2, (rho' u z1 * density (qz u) z2)%Re = (rho' u z2 * density (qz u) z1)%Re.
Proof.
  move=> [mid [_ B]] u z1 z2.
  have I1 := integral_scal (density (qz u) z2) (B u z1); have I2 := integral_scal (density (qz u) z1) (B u z2).
  rewrite Rmult_comm [RHS]Rmult_comm; apply: integral_unique I1 _; apply: integral_ext I2 => z; ring.
Qed.
End Model.
End Gibbs.

(** C102: every update satisfies detailed balance with respect to the posterior, and the
    posterior is what any number of sweeps turns the posterior into. *)
Theorem C102_invariant :
  forall chol, chol_ok chol ->
  forall n nu nz (m : gp nu nz) (ig : integrals n nu nz) (y : 'I_n -> R) (ap : approx nu nz),
    well_posed m ig -> ap_i ap = 0%N ->
    let ts := construct_terms chol m ig y in
    let post := target m ig y (p_u m ap) (p_z m ap) in
    (forall u u' z, (post u z * density (q_u_optimal m ts z) u' = post u' z * density (q_u_optimal m ts z) u)%Re)
    /\ (forall u z z', (post u z * density (q_z_optimal m ts u) z' = post u z' * density (q_z_optimal m ts u) z)%Re)
    /\ (forall k, sweeps (q_u_optimal m ts) (q_z_optimal m ts) k post post
          /\ forall rho, sweeps (q_u_optimal m ts) (q_z_optimal m ts) k post rho -> forall u z, rho u z = post u z).
Proof.
  move=> chol Hc n nu nz m ig y ap WP I0 ts.
  have -> : p_u m ap = NatNormal 0 (K_u m) by rewrite /p_u I0.
  have -> : p_z m ap = NatNormal 0 (K_z m) by rewrite /p_z I0.
  move=> post; split; last split.
  - by have [c E] := target_u Hc y WP (NatNormal 0 (K_z m)); move=> u u' z; rewrite /post !E /ts; ring.
  - by move=> u z z'; rewrite /post !(target_z Hc y WP) /ts; ring.
  - move=> k; split; first exact: (sweeps_target Hc y WP).
    by move=> rho H u z; exact: (sweeps_only Hc WP (k := k) (rho := post) (fun _ _ => erefl _) H u z).
Qed.
Print Assumptions C102_invariant.

(** C102: a sweep of the sampler draws from these densities: if the noises from which it computes
    the new states are draws from the normal distributions with the precisions as variances, the
    density of the noises is the density of the new states up to the volume change. *)
Theorem C102_draws :
  forall chol, chol_ok chol ->
  forall n nu nz (m : gp nu nz) (ig : integrals n nu nz) (y : 'I_n -> R), well_posed m ig ->
    let ts := construct_terms chol m ig y in
    forall noises e u0 z0,
      let '(u, z) := gibbs chol m ts noises u0 z0 in
      let '(u', z') := gibbs chol m ts (rcons noises e) u0 z0 in
      let Pu := nn_prec (q_u_optimal m ts z) in
      let Pz := nn_prec (q_z_optimal m ts u') in
      spd Pu /\ spd Pz /\
      exp (gaussian_logpdf 0 Pu e.1) = (density (q_u_optimal m ts z) u' * / \det Pu)%Re
      /\ exp (gaussian_logpdf 0 Pz e.2) = (density (q_z_optimal m ts u') z' * / \det Pz)%Re.
Proof.
  move=> chol Hc n nu nz m ig y WP ts noises e.
  elim: noises => [|e' noises IH] u0 z0; last exact: IH.
  have Hu := qu_spd Hc y WP z0; have Hz u := qz_spd Hc y WP u.
  by rewrite /=; split=> //; split; [exact: Hz|split; [exact: (sample_density Hc _ Hu)|exact: (sample_density Hc _ (Hz _))]].
Qed.
Print Assumptions C102_draws.

Example C102_witness : chol_ok some_chol /\ well_posed gp1 ig1 /\ ap_i ap1 = 0%N.
Proof. by split; [exact: some_chol_ok|split; [exact: gp1_well_posed|]]. Qed.

(** C103: after conditioning, when the previous posteriors are the priors, Gibbs sampling does not
    leave the posterior invariant: it still uses the original priors. *)
Lemma conditional_prior chol (Hc : chol_ok chol) n nu nz (m : gp nu nz) (ig : integrals n nu nz) (y : 'I_n -> R)
    (WP : well_posed m ig) (pu : natnormal nu) (pz : natnormal nz) rho :
  let ts := construct_terms chol m ig y in
  sweep (q_u_optimal m ts) (q_z_optimal m ts) rho (target m ig y pu pz) ->
  forall z1 z2, (log_density pz z1 - log_density (NatNormal 0 (K_z m)) z1 =
                 log_density pz z2 - log_density (NatNormal 0 (K_z m)) z2)%Re.
Proof.
  move=> ts S z1 z2; have := sweep_conditional S 0 z1 z2.
  have E z : target m ig y pu pz 0 z =
      (exp (log_Z_u chol m ts 0 + log_density pu 0) * density (q_z_optimal m ts 0) z
       * exp (log_density pz z - log_density (NatNormal 0 (K_z m)) z))%Re.
    rewrite -(target_z Hc y WP pu 0 z) /target -exp_plus; congr exp; ring.
  rewrite !E /density; set c := exp (_ + _)%Re; set d1 := exp (log_density _ z1); set d2 := exp (log_density _ z2).
  set a1 := exp (_ - _)%Re; set a2 := exp (_ - _)%Re => H.
  have P0 : Rlt 0 (c * d1 * d2)%Re by do 2!(apply: Rmult_lt_0_compat; last exact: exp_pos); exact: exp_pos.
  apply: exp_inv; rewrite -/a1 -/a2; apply: (Rmult_eq_reg_l (c * d1 * d2)%Re); last by move=> Z; rewrite Z in P0; exact: Rlt_irrefl P0.
  by move: H => /=; move: c d1 d2 a1 a2 {E P0} => c d1 d2 a1 a2 H; lra.
Qed.

Theorem C103_conditioned_refuted :
  forall chol, chol_ok chol ->
  ~ (forall n nu nz (m : gp nu nz) (ig : integrals n nu nz) (y : 'I_n -> R) (ap : approx nu nz),
       well_posed m ig -> (forall k, proper (ap_qs_u ap k)) -> (forall k, proper (ap_qs_z ap k)) ->
       let ts := construct_terms chol m ig y in
       let post := target m ig y (p_u m ap) (p_z m ap) in
       sweep (q_u_optimal m ts) (q_z_optimal m ts) post post).
Proof.
  move=> chol Hc H.
  pose ap : approx 2 1 := condition (Approx 0 (fun _ => NatNormal 0 1%:M) (fun _ => NatNormal 0 2%Re%:M)).
  have H2 : spd (2%Re%:M : 'M[R]_1) by apply: spd_k; lra.
  have S := H _ _ _ gp1 ig1 (fun _ => 0%Re) ap gp1_well_posed (fun _ => spd1 2) (fun _ => H2).
  have := conditional_prior Hc gp1_well_posed S 0 1%:M.
  rewrite /ap /p_z /log_density /= !mulmx0 /gaussian_logpdf !subr0 !dot0l !invmxK.
  rewrite mul_scalar_mx mul1mx dotZr dot11 Rmult_1_r.
  set a := ln _; set b := ln _; set c := ln _.
  rnorm; move: (INR 1) a b c => d a b c; lra.
Qed.
Print Assumptions C103_conditioned_refuted.

(** What holds after conditioning: the posterior under the original priors is invariant. *)
Theorem C103_original_prior_partial :
  forall chol, chol_ok chol ->
  forall n nu nz (m : gp nu nz) (ig : integrals n nu nz) (y : 'I_n -> R), well_posed m ig ->
    let ts := construct_terms chol m ig y in
    let post := target m ig y (NatNormal 0 (K_u m)) (NatNormal 0 (K_z m)) in
    forall k, sweeps (q_u_optimal m ts) (q_z_optimal m ts) k post post.
Proof. by move=> chol Hc n nu nz m ig y WP ts post k; exact: (sweeps_target Hc y WP). Qed.
Print Assumptions C103_original_prior_partial.
