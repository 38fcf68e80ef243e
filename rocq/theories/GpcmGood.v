(** The models to which the end-to-end guarantees apply, and that the constructors give them. *)
From Coq Require Import Reals ZArith List Bool String Lia Lra Psatz.
From Coquelicot Require Import Coquelicot.
From Verif Require Import Py ExpPolyModel ListFacts ExpPolySpec ExpPolyIntModel ExpPolyIntProofs.
From Verif Require Import Gauss Gauss2 Gauss3 Fubini ExpPolyIntProps.
From Verif Require Import GpcmModel GpcmSpec GpcmProofs GpcmProofs2 GpcmProofs3 GpcmTotal GpcmInit GpcmPsd GpcmPd GpcmProps GpcmProps2 GpcmProps3.
Import ListNotations.
Local Open Scope string_scope.
Local Open Scope R_scope.

(** The decays are within the range of double precision, the scalings are not zero, the
    inducing points are distinct and there is observation noise. *)
Definition good_gpcm (m : gpcm) : Prop :=
  moderate_model m /\ 0 < g_gamma m /\ g_alpha_t m <> 0 /\ g_omega_t m <> 0
  /\ NoDup (g_t_u m) /\ NoDup (g_t_z m) /\ 0 < g_noise m.

Lemma new_gpcm_noise a m : new_gpcm a = Ok m -> g_noise m = a_noise a.
Proof.
  unfold new_gpcm. intros H. repeat (apply bind_Ok in H; destruct H as [? [_ H]]). injection H as <-. reflexivity.
Qed.

Lemma moderate_pi q : / 10 ^ 11 <= q <= 10 ^ 11 -> moderate (PI / q).
Proof.
  intros [A B]. pose proof PI_4 as P4. pose proof PI_gt_2 as P2.
  assert (P : 0 < / 10 ^ 11) by (apply Rinv_0_lt_compat, pow_lt; lra).
  unfold moderate. split.
  - apply Rmult_le_reg_r with q; [lra|]. unfold Rdiv. rewrite Rmult_assoc, Rinv_l by lra.
    apply Rmult_le_reg_l with (10 ^ 12); [lra|]. rewrite <- Rmult_assoc, Rinv_r by lra. lra.
  - apply Rmult_le_reg_r with q; [lra|]. unfold Rdiv. rewrite Rmult_assoc, Rinv_l by lra.
    assert (10 ^ 12 * (/ 10 ^ 11) <= 10 ^ 12 * q) by (apply Rmult_le_compat_l; lra). lra.
Qed.

(** Twice the range of the data, in units of the scale, is at least the number of inducing
    points: their spacing is not below half the scale. *)
Lemma default_spacing causal w s data m lo hi :
  new_gpcm (default_args causal w s data) = Ok m -> 0 < s -> lmin data = Ok lo -> lmax data = Ok hi -> s < 2 * (hi - lo) ->
  exists d, (2 <= g_n_z m)%Z /\ s / 2 < d <= hi - lo /\ grid (g_t_z m) lo d (Z.to_nat (g_n_z m)).
Proof.
  intros Hm Hs Elo Ehi Hr. destruct (new_gpcm_inv _ m Hm) as [_ [_ [_ [_ [_ [[[n0 t0] [Hz He]] _]]]]]].
  unfold extend_t_z in He. cbn [default_args a_extend_t_z] in He. injection He as -> ->.
  pose proof (fun H => t_z_inv _ _ _ H Hz) as Z'. destruct (Z' eq_refl) as (t & lo' & hi' & Et & Elo' & Ehi' & Hq & _ & G).
  injection Et as <-. rewrite Elo in Elo'. rewrite Ehi in Ehi'. injection Elo' as <-. injection Ehi' as <-.
  destruct Hq as [s' [Es [_ Er]]]. injection Es as <-. cbn [default_args a_n_z_cap] in Er.
  assert (Q1 : 1 < 2 * (hi - lo) / s).
  { apply Rmult_lt_reg_r with s; [lra|]. unfold Rdiv. rewrite Rmult_assoc, Rinv_l by lra. lra. }
  pose proof (iceil_ge2 _ Q1) as N2. assert (N2' : (2 <= g_n_z m)%Z) by lia.
  exists ((hi - lo) / (IZR (g_n_z m) - 1)). split; [exact N2'|]. split; [|exact G].
  assert (Up : IZR (g_n_z m) - 1 < 2 * (hi - lo) / s).
  { pose proof (proj2 (iceil_spec (2 * (hi - lo) / s))). assert (IZR (g_n_z m) <= IZR (iceil (2 * (hi - lo) / s))) by (apply IZR_le; lia). lra. }
  apply IZR_le in N2'. split.
  - apply Rmult_lt_reg_r with (IZR (g_n_z m) - 1); [lra|]. unfold Rdiv at 2. rewrite Rmult_assoc, Rinv_l by lra.
    apply Rmult_lt_reg_r with (2 / s); [apply Rdiv_lt_0_compat; lra|].
    replace (s / 2 * (IZR (g_n_z m) - 1) * (2 / s)) with (IZR (g_n_z m) - 1) by (field; lra).
    replace ((hi - lo) * 1 * (2 / s)) with (2 * (hi - lo) / s) by (field; lra). exact Up.
  - apply Rmult_le_reg_r with (IZR (g_n_z m) - 1); [lra|]. unfold Rdiv. rewrite Rmult_assoc, Rinv_l by lra.
    assert (0 <= (hi - lo) * (IZR (g_n_z m) - 1 - 1)) by (apply Rmult_le_pos; lra). lra.
Qed.

Lemma alpha_t_nonzero causal w s data m : new_gpcm (default_args causal w s data) = Ok m -> 0 < g_alpha m -> g_alpha_t m <> 0.
Proof.
  intros Hm Pa. pose proof PI_RGT_0 as Pi. destruct (new_gpcm_inv _ m Hm) as [_ [_ [Hat _]]].
  unfold init_alpha_t in Hat. cbn [default_args a_alpha_t a_causal] in Hat. intros E. rewrite E in Hat.
  destruct causal; apply quartic_root_sq in Hat; try (left; apply Rdiv_lt_0_compat; lra); destruct Hat as [Q _];
    match type of Q with _ = sqrt ?x => assert (0 < sqrt x) by (apply sqrt_lt_R0, Rdiv_lt_0_compat; lra) end; simpl in Q; lra.
Qed.
Lemma omega_t_nonzero a m : new_gpcm a = Ok m -> 0 < g_omega m -> g_omega_t m <> 0.
Proof.
  intros Hm Po. pose proof PI_RGT_0 as Pi. destruct (new_gpcm_inv a m Hm) as [_ [_ [_ [_ [_ [_ [_ [Q _]]]]]]]].
  apply quartic_root_sq in Q; [|left; apply Rdiv_lt_0_compat; lra]. destruct Q as [Q _]. intros E. rewrite E in Q.
  assert (0 < sqrt (2 * g_omega m / PI)) by (apply sqrt_lt_R0, Rdiv_lt_0_compat; lra). simpl in Q. lra.
Qed.

Lemma default_good causal w s data x y :
  / 10 ^ 5 <= w <= 10 ^ 5 -> / 10 ^ 5 <= s -> s ^ 2 < 2 * w ^ 2 ->
  In x data -> In y data -> s < 2 * (y - x) -> (forall a b, In a data -> In b data -> a - b <= 10 ^ 5) ->
  exists m, new_gpcm (default_args causal w s data) = Ok m /\ good_gpcm m.
Proof.
  intros Hw Hs Hsw Hx Hy Hd Hb. pose proof PI_RGT_0 as Pi.
  assert (P : 0 < / 10 ^ 5) by (apply Rinv_0_lt_compat, pow_lt; lra).
  assert (Ps : 0 < s ^ 2) by (apply pow_lt; lra). assert (Pw : 0 < w ^ 2) by (apply pow_lt; lra).
  assert (S1 : (/ 10 ^ 5) ^ 2 <= s ^ 2) by (apply pow_incr; lra).
  assert (W2 : w ^ 2 <= (10 ^ 5) ^ 2) by (apply pow_incr; lra).
  replace ((/ 10 ^ 5) ^ 2) with (/ 10 ^ 10) in S1 by (field; lra).
  assert (Sw : s < 4 * w). { apply Rnot_le_lt. intros C. assert ((4 * w) ^ 2 <= s ^ 2) by (apply pow_incr; lra). lra. }
  assert (exists lo, lmin data = Ok lo) as [lo Elo] by (destruct data; [destruct Hx|simpl; eauto]).
  assert (exists hi, lmax data = Ok hi) as [hi Ehi] by (destruct data; [destruct Hx|simpl; eauto]).
  destruct (lmin_spec _ _ Elo) as [Ilo Mlo]. destruct (lmax_spec _ _ Ehi) as [Ihi Mhi].
  pose proof (Mlo x Hx) as L1. pose proof (Mhi y Hy) as L2. pose proof (Hb hi lo Ihi Ilo) as L3.
  destruct (default_returns causal w s data lo hi) as [m [Hm [Ea [Eg [Ec Po]]]]]; auto; try lra.
  exists m. split; [exact Hm|].
  destruct (default_spacing causal w s data m lo hi Hm) as [d [N2 [Rd G]]]; auto; try lra.
  assert (Pa : 0 < g_alpha m) by (rewrite Ea; apply Rdiv_lt_0_compat; lra).
  assert (Mo : moderate (g_omega m)).
  { destruct (new_gpcm_inv _ m Hm) as [_ [_ [_ [_ [_ [_ [Ho _]]]]]]].
    unfold init_omega in Ho. cbn [default_args a_omega] in Ho. unfold item in Ho.
    rewrite (nth_grid _ _ _ _ 1%nat G), (nth_grid _ _ _ _ 0%nat G) in Ho by lia. cbn [bind] in Ho. simpl INR in Ho.
    destruct (scale_to_factor_pos (/ 2 * (lo + 1 * d - (lo + 0 * d))) ltac:(lra)) as [f [Hf [Ef _]]].
    rewrite Hf in Ho. injection Ho as <-. rewrite Ef.
    replace (PI / (4 * (/ 2 * (lo + 1 * d - (lo + 0 * d))) ^ 2)) with (PI / d ^ 2) by (field; lra).
    apply moderate_pi. assert (D1 : (s / 2) ^ 2 <= d ^ 2) by (apply pow_incr; lra).
    assert (D2 : d ^ 2 <= (10 ^ 5) ^ 2) by (apply pow_incr; lra).
    replace ((s / 2) ^ 2) with (s ^ 2 / 4) in D1 by field. split; lra. }
  split; [|split; [|split; [|split; [|split; [|split]]]]].
  - split; [split|exact Mo].
    + rewrite Ea. now apply moderate_window.
    + rewrite Ea, Eg. replace (PI / (4 * w ^ 2) + 2 * (PI / (4 * s ^ 2) - PI / (8 * w ^ 2))) with (PI / (2 * s ^ 2)) by (field; split; lra).
      apply moderate_pi. split; lra.
  - rewrite Eg. replace (PI / (4 * s ^ 2) - PI / (8 * w ^ 2)) with (PI * (2 * w ^ 2 - s ^ 2) / (8 * w ^ 2 * s ^ 2)) by (field; split; lra).
    apply Rdiv_lt_0_compat; [apply Rmult_lt_0_compat; lra|]. apply Rmult_lt_0_compat; lra.
  - now apply (alpha_t_nonzero causal w s data).
  - now apply (omega_t_nonzero (default_args causal w s data)).
  - assert (E : exp (- g_alpha m * sqrt (PI / g_alpha m) ^ 2) = exp (- PI)).
    { f_equal. rewrite pow2_sqrt by (left; apply Rdiv_lt_0_compat; [apply PI_RGT_0|exact Pa]). field. lra. }
    destruct (C17_filter_grid (default_args causal w s data) m (sqrt (PI / g_alpha m)) Hm eq_refl) as (_ & _ & _ & d' & Pd & G' & _); auto.
    { split; [simpl; lia|]. exists w, s. repeat split; lra. }
    { apply sqrt_lt_R0, Rdiv_lt_0_compat; [apply PI_RGT_0|exact Pa]. }
    eapply grid_NoDup; [exact G'|lra].
  - eapply grid_NoDup; [exact G|lra].
  - rewrite (new_gpcm_noise _ _ Hm). simpl. lra.
Qed.
