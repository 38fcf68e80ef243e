(** The constructor of the RGPCM gives models in the range of the guarantees. *)
From Coq Require Import Reals ZArith List Bool Lia Lra Psatz.
From Verif Require Import Py ListFacts ExpPolyModel ExpPolyIntModel ExpPolyIntProofs GpcmModel GpcmSpec GpcmInit GpcmProps GpcmPd.
From Verif Require Import RgpcmModel RgpcmSpec RgpcmInit RgpcmProps RgpcmProps2.
Import ListNotations.
Local Open Scope R_scope.

Definition ok_rgpcm (m : rgpcm) (t : list R) : Prop :=
  (0 < r_alpha m /\ 0 < r_gamma m /\ 0 < r_lam m)
  /\ r_alpha_t m <> 0 /\ r_gamma_t m <> 0 /\ r_gamma m < r_alpha m
  /\ NoDup (r_t_u m) /\ (forall u, In u (r_t_u m) -> 0 <= u)
  /\ r_a m < r_b m /\ (0 <= r_m_max m)%Z /\ NoDup (r_ms m) /\ (forall k, In k (r_ms m) -> (0 <= k)%Z) /\ 0 < r_noise m
  /\ forall s, In s t -> r_a m <= s <= r_b m /\ forall u, In u (r_t_u m) -> r_a m <= s - u.

Lemma default_ok w s data x : 0 < s < 4 * w -> In x data ->
  exists m, new_rgpcm (rdefault_args w s data) = Ok m /\ r_alpha m = 1 / w /\ r_lam m = 1 / s /\ ok_rgpcm m data.
Proof.
  intros Hs Hx. pose proof PI_RGT_0 as Pi.
  assert (exists lo, lmin data = Ok lo) as [lo Elo] by (destruct data; [destruct Hx|simpl; eauto]).
  assert (exists hi, lmax data = Ok hi) as [hi Ehi] by (destruct data; [destruct Hx|simpl; eauto]).
  destruct (rdefault_returns w s data lo hi) as (m & Hm & Eal & El & Eat & Enu & G & Ea & Eb & EM & Ems & Egt & Eg); auto; try lra.
  exists m. split; [exact Hm|]. split; [exact Eal|]. split; [exact El|].
  pose proof (proj2 (lmin_spec _ _ Elo) x Hx). pose proof (proj2 (lmax_spec _ _ Ehi) x Hx).
  assert (Pal : 0 < r_alpha m) by (rewrite Eal; apply Rdiv_lt_0_compat; lra).
  assert (Pl : 0 < r_lam m) by (rewrite El; apply Rdiv_lt_0_compat; lra).
  assert (Hab : r_a m < r_b m) by (rewrite Ea, Eb; nra).
  assert (HM : (0 <= r_m_max m)%Z).
  { rewrite EM. pose proof (iceil_pos (1 / s * (hi - (lo - PI * w)))). assert (0 < 1 / s) by (apply Rdiv_lt_0_compat; lra).
    assert (0 < 1 / s * (hi - (lo - PI * w))) by (apply Rmult_lt_0_compat; [auto|rewrite Ea, Eb in Hab; lra]). specialize (H1 H3). lia. }
  destruct (C72_sizes_and_supports _ m Hm) as [_ [Hms [_ Hsup]]]. specialize (Hms eq_refl HM). destruct Hms as [_ [ND Hms]].
  destruct (C38_gamma_below_alpha _ m Hm Pal) as [Hga _]. destruct (C38_initial_factor w s data x m Hx Hs Hm) as [Pg _].
  assert (N2 : (2 <= auto_n_u w s)%Z) by (unfold auto_n_u; pose proof (iceil_ge2 _ (four_windows w s Hs)); lia).
  assert (In0 : In 0 (r_t_u m)).
  { eapply nth_error_In. rewrite (nth_grid _ _ _ _ 0 G) by lia. f_equal. simpl. ring. }
  apply IZR_le in N2 as N2'.
  assert (Pd : 0 < PI * w / (IZR (auto_n_u w s) - 1)) by (apply Rdiv_lt_0_compat; nra).
  assert (Pu : forall u, In u (r_t_u m) -> 0 <= u).
  { intros u Hu. destruct (grid_mem _ _ _ _ _ G Hu) as [i [_ ->]]. pose proof (pos_INR i). nra. }
  unfold ok_rgpcm. repeat match goal with |- _ /\ _ => split end; auto; try lra.
  - rewrite Eat. apply Rgt_not_eq. apply sqrt_lt_R0. rewrite Eal in Pal. lra.
  - rewrite Egt. apply Rgt_not_eq, sqrt_lt_R0. assert (0 < (IZR (auto_n_u w s) - 1) / (2 * PI * w)) by (apply Rdiv_lt_0_compat; nra). lra.
  - eapply grid_NoDup; [exact G|lra].
  - intros k Hk. apply Hms in Hk. lia.
  - unfold new_rgpcm in Hm. repeat (apply bind_Ok in Hm; destruct Hm as [? [_ Hm]]). injection Hm as <-. simpl. lra.
  - intros t Ht. split; [apply (Hsup data t 0); auto; lra|]. intros u Hu. apply (Hsup data t u); auto.
Qed.

(** Learning keeps the model in range as long as the inducing points stay distinct and inside the
    extent of the constructed ones. *)
Lemma learned_ok m data p : ok_rgpcm m data -> rparams_ok m p -> NoDup (p_t_u p) ->
  (forall u, In u (p_t_u p) -> 0 <= u /\ exists u', In u' (r_t_u m) /\ u <= u') ->
  exists m', rprior m p = Ok m' /\ r_alpha m' = p_alpha p /\ r_lam m' = p_lam p /\ r_gamma m' = p_alpha p / p_gamma_factor p /\ ok_rgpcm m' data.
Proof.
  intros ((Pa & Pg & Pl) & Na & Ng & Hga & ND & Pu & Hab & HM & NDs & Hms & Pn & Hsup) (P1 & P2 & P3 & P4 & P5 & _) NDp Hp.
  unfold rprior. rewrite rdiv_ok by lra. cbn [bind]. eexists. split; [reflexivity|]. cbn. do 3 (split; [reflexivity|]).
  assert (0 < p_alpha p / p_gamma_factor p < p_alpha p).
  { split; [apply Rdiv_lt_0_compat; lra|]. apply Rmult_lt_reg_r with (p_gamma_factor p); [lra|].
    unfold Rdiv. rewrite Rmult_assoc, Rinv_l by lra. nra. }
  unfold ok_rgpcm. cbn. repeat match goal with |- _ /\ _ => split end; auto; try lra.
  - intros u Hu. now apply Hp.
  - intros s Hs. destruct (Hsup s Hs) as [A B]. split; auto. intros u Hu. destruct (Hp u Hu) as [_ [u' [Hu' L]]]. specialize (B u' Hu'). lra.
Qed.

(** The exceptions of the closed form of [compute_I_ux]. *)
Lemma no_exception al ga lam : 0 < ga < al -> 0 < lam -> al - ga <> lam -> (ga - al) ^ 2 <> lam ^ 2.
Proof. intros H Hl N E. apply N. assert ((al - ga - lam) * (al - ga + lam) = 0) by (simpl in E; nra). apply Rmult_integral in H0. lra. Qed.
Lemma no_exception_default w s ga : 0 < s <= w -> 0 < ga < 1 / w -> 1 / w - ga <> 1 / s.
Proof. intros Hs Hg E. assert (1 / w <= 1 / s) by (unfold Rdiv; rewrite !Rmult_1_l; apply Rinv_le_contravar; lra). lra. Qed.

(** Values that the optimiser may give to the parameters. *)
Lemma learned_witness w s data x m : 0 < s < 4 * w -> In x data -> new_rgpcm (rdefault_args w s data) = Ok m ->
  rparams_ok m (RParams 1 1 1 1 2 (r_t_u m)).
Proof.
  intros Hs Hx Hm. pose proof PI_RGT_0 as Pi.
  assert (exists lo, lmin data = Ok lo) as [lo Elo] by (destruct data; [destruct Hx|simpl; eauto]).
  assert (exists hi, lmax data = Ok hi) as [hi Ehi] by (destruct data; [destruct Hx|simpl; eauto]).
  destruct (rdefault_returns w s data lo hi) as (m' & Hm' & _ & _ & _ & _ & G & _); auto; try lra.
  rewrite Hm in Hm'. injection Hm' as <-.
  assert (N2 : (2 <= auto_n_u w s)%Z) by (unfold auto_n_u; pose proof (iceil_ge2 _ (four_windows w s Hs)); lia).
  apply IZR_le in N2 as N2'.
  assert (Pd : 0 < PI * w / (IZR (auto_n_u w s) - 1)) by (apply Rdiv_lt_0_compat; nra).
  assert (In1 : In (PI * w / (IZR (auto_n_u w s) - 1)) (r_t_u m)).
  { eapply nth_error_In. rewrite (nth_grid _ _ _ _ 1 G) by lia. f_equal. simpl. ring. }
  assert (exists mu, lmax (r_t_u m) = Ok mu) as [mu Emu] by (destruct (r_t_u m); [destruct In1|simpl; eauto]).
  destruct (lmax_spec _ _ Emu) as [_ M]. pose proof (M _ In1).
  unfold rparams_ok. cbn. repeat match goal with |- _ /\ _ => split end; auto; try lra.
  exists mu. split; auto. apply List.Forall_forall. intros u Hu. pose proof (M u Hu).
  destruct (grid_mem _ _ _ _ _ G Hu) as [i [_ E]]. pose proof (pos_INR i). split; [|lra].
  assert (0 <= INR i * (PI * w / (IZR (auto_n_u w s) - 1))) by (apply Rmult_le_pos; lra). lra.
Qed.
