(** The properties C35-C38 and C72-C75 of rgpcm.py, and its part of C16, C17 and C19, stated on
    the model. *)
From Coq Require Import Reals ZArith List Bool Lia Lra Psatz Permutation Sorted.
From Coquelicot Require Import Coquelicot.
From Verif Require Import Py ListFacts ExpPolyModel ExpPolyIntModel ExpPolyIntProofs GpcmModel GpcmSpec GpcmProofs2 Gauss Gauss2 GpcmPsd GpcmInit GpcmProps.
From Verif Require Import Glue RgpcmModel RgpcmSpec RgpcmAbcd RgpcmUx RgpcmPerm RgpcmHz RgpcmUz RgpcmCov RgpcmInit RgpcmProps.
Import ListNotations.
Local Open Scope R_scope.

(** * C35: K_z *)

Theorem C35_K_z :
  forall m, 0 < r_lam m -> r_a m < r_b m ->
    exists K, rcompute_K_z m = Ok K /\ shape2 K (List.length (r_ms m)) (List.length (r_ms m))
      /\ symmetric K /\ pd K.
Proof.
  intros m Hl Hab. assert (exists K, rcompute_K_z m = Ok K) as [K HK].
  { unfold rcompute_K_z. destruct (K_z_total m Hl Hab) as [als [E _]]. rewrite E. cbn [bind]. eauto. }
  exists K. split; auto. split; [|now apply (K_z_pd m)].
  unfold rcompute_K_z in HK. destruct (K_z_total m Hl Hab) as [als [E [L _]]]. rewrite E in HK. cbn [bind] in HK. injection HK as <-.
  assert (Li : List.length (combine (seq 0 (List.length (r_ms m))) (combine (r_ms m) als)) = List.length (r_ms m))
    by (rewrite !combine_length, seq_length; lia).
  split; [now rewrite map_length|]. apply List.Forall_forall. intros r Hr. apply in_map_iff in Hr. destruct Hr as [p [<- _]]. now rewrite map_length.
Qed.

Print Assumptions C35_K_z.

Example C35_witness : exists K, rcompute_K_z toy = Ok K /\ 0 < quad_form K [1; -1; 0; 2; 0].
Proof.
  destruct (C35_K_z toy) as [K [H [[S _] [_ P]]]]; simpl; try lra. exists K. split; [exact H|]. apply P; [rewrite S; reflexivity|].
  constructor; lra.
Qed.

(** * C36: K_u *)

Theorem C36_K_u :
  forall m, 0 < r_gamma m ->
    exists K, rcompute_K_u m = Ok K /\ shape2 K (List.length (r_t_u m)) (List.length (r_t_u m))
      /\ symmetric K /\ psd K
      /\ (forall i j i' j' ui uj ui' uj',
            nth_error (r_t_u m) i = Some ui -> nth_error (r_t_u m) j = Some uj ->
            nth_error (r_t_u m) i' = Some ui' -> nth_error (r_t_u m) j' = Some uj' ->
            Rabs (ui - uj) = Rabs (ui' - uj') -> at2 K i j = at2 K i' j' /\ at2 K i j <> None)
      /\ (NoDup (r_t_u m) -> r_gamma_t m <> 0 -> pd K).
Proof.
  intros m Hg. unfold rcompute_K_u. rewrite rdiv_ok by lra. cbn [bind]. eexists. split; [reflexivity|].
  set (c := r_gamma_t m ^ 2 / (2 * r_gamma m)).
  assert (Pc : 0 <= c) by (unfold c, Rdiv; apply Rmult_le_pos; [nra|left; apply Rinv_0_lt_compat; lra]).
  assert (Q : forall x, quad_form (map (fun t1 => map (fun t2 => c * exp (- r_gamma m * Rabs (t1 - t2))) (r_t_u m)) (r_t_u m)) x
              = c * Qk (r_gamma m) (combine (r_t_u m) x)).
  { intros x. rewrite (quad_scale_table (expk (r_gamma m))). f_equal. apply quad_tableg. }
  split; [|split; [|split; [|split]]].
  - split; [apply map_length|]. apply List.Forall_forall. intros r Hr. apply in_map_iff in Hr. destruct Hr as [p [<- _]]. apply map_length.
  - apply (table_symmetricg (fun t1 t2 => c * exp (- r_gamma m * Rabs (t1 - t2)))). intros x y _ _. now rewrite Rabs_minus_sym.
  - intros x Lx. rewrite Q. apply Rmult_le_pos; auto. apply Qk_psd. lra.
  - intros i j i' j' ui uj ui' uj' E1 E2 E3 E4 D. rewrite !(table_at2g (fun t1 t2 => c * exp (- r_gamma m * Rabs (t1 - t2)))), E1, E2, E3, E4, D.
    split; congruence.
  - intros ND Ng x Lx Ex. rewrite map_length in Lx. rewrite Q. apply Rmult_lt_0_compat.
    + unfold c. apply Rdiv_lt_0_compat; [|lra]. assert (0 < r_gamma_t m * r_gamma_t m) by nra. lra.
    + apply Qk_pd; auto; [rewrite combine_fst; auto|]. apply nonzero_combine; auto.
Qed.

Print Assumptions C36_K_u.

Example C36_witness : exists K, rcompute_K_u toy = Ok K /\ pd K.
Proof.
  destruct (C36_K_u toy) as [K [H [_ [_ [_ [_ P]]]]]]; simpl; try lra. exists K. split; auto. apply P; simpl; [|lra].
  constructor; [|repeat constructor; auto]. simpl. intros [E|[]]. lra.
Qed.

(** * C37: the diagonal of K_u *)

(** What holds of the stated property: the diagonal is one if the cap on [gamma] is not active,
    that is if the given or automatic [gamma] is at most two thirds of [alpha]. *)
Theorem C37_unit_diagonal_partial :
  forall a m g, new_rgpcm a = Ok m -> ra_gamma_t a = None ->
    rinit_gamma a (r_t_u m) = Ok g -> 0 < g <= r_alpha m / (3 / 2) ->
    exists K, rcompute_K_u m = Ok K /\ forall i, (i < List.length (r_t_u m))%nat -> at2 K i i = Some 1.
Proof.
  intros a m g Hm Ht Hgam Hg. destruct (new_rgpcm_inv a m Hm) as (_ & _ & _ & _ & _ & _ & _ & _ & _ & [g' [Eg [Egt Eg']]]).
  rewrite Hgam in Eg. injection Eg as <-. rewrite Rmin_left in Eg' by lra.
  unfold rinit_gamma_t in Egt. rewrite Ht in Egt. apply np_sqrt_inv in Egt. destruct Egt as [_ Egt].
  unfold rcompute_K_u. rewrite rdiv_ok by lra. cbn [bind]. eexists. split; [reflexivity|]. intros i Hi.
  rewrite (table_at2g (fun t1 t2 => _ * exp (- r_gamma m * Rabs (t1 - t2)))).
  destruct (nth_error (r_t_u m) i) as [u|] eqn:E; [|apply nth_error_None in E; lia].
  f_equal. rewrite Rminus_eq_0, Rabs_R0, Rmult_0_r, exp_0, Egt, Eg', pow2_sqrt by lra. field. lra.
Qed.

Print Assumptions C37_unit_diagonal_partial.

Lemma PI_gt_2 : 2 < PI.
Proof. pose proof PI2_1. lra. Qed.

Lemma PI_375 : PI < 15 / 4.
Proof. pose proof (proj2 (PI_ineq 1)) as H. simpl in H. unfold tg_alt, PI_tg in H. simpl in H. lra. Qed.

(** The stated property is violated for every default model with at least six inducing points: the
    diagonal is 3(n_u-1)/(4 pi), which is larger than one (67.9 for n_u = 300... when capped). *)
Theorem C37_unit_diagonal_refuted :
  forall w s data x, In x data -> 0 < s -> 5 * s < 4 * w ->
    exists m K, new_rgpcm (rdefault_args w s data) = Ok m /\ rcompute_K_u m = Ok K
      /\ forall i, (i < List.length (r_t_u m))%nat ->
           at2 K i i = Some (3 * (INR (List.length (r_t_u m)) - 1) / (4 * PI)) /\ 1 < 3 * (INR (List.length (r_t_u m)) - 1) / (4 * PI).
Proof.
  intros w s data x Hx Ps Hs. pose proof PI_RGT_0 as Pi. pose proof PI_375 as P4.
  assert (exists lo, lmin data = Ok lo) as [lo Elo] by (destruct data; [destruct Hx|simpl; eauto]).
  assert (exists hi, lmax data = Ok hi) as [hi Ehi] by (destruct data; [destruct Hx|simpl; eauto]).
  destruct (rdefault_returns w s data lo hi) as (m & Hm & Eal & _ & _ & Enu & G & _ & _ & _ & _ & Egt & Eg); auto; try lra.
  assert (N6 : (6 <= auto_n_u w s)%Z).
  { unfold auto_n_u. assert (5 < 4 * w / s). { apply Rmult_lt_reg_r with s; auto. unfold Rdiv. rewrite Rmult_assoc, Rinv_l by lra. lra. }
    pose proof (iceil_spec (4 * w / s)) as [L _]. assert (5 < IZR (iceil (4 * w / s))) by lra. apply (lt_IZR 5) in H0. lia. }
  set (n := auto_n_u w s) in *. apply IZR_le in N6 as N6'.
  assert (Egm : r_gamma m = 2 / (3 * w)).
  { rewrite Eg. apply Rmin_right. apply Rmult_le_reg_r with (6 * PI * w); [nra|].
    replace (2 / (3 * w) * (6 * PI * w)) with (4 * PI) by (field; lra).
    replace ((IZR n - 1) / (2 * PI * w) * (6 * PI * w)) with (3 * (IZR n - 1)) by (field; lra). lra. }
  exists m. unfold rcompute_K_u. rewrite rdiv_ok. 2:{ rewrite Egm. assert (0 < 2 / (3 * w)) by (apply Rdiv_lt_0_compat; lra). lra. }
  cbn [bind]. eexists. split; auto. split; [reflexivity|]. intros i Hi.
  assert (Ln : INR (List.length (r_t_u m)) = IZR n) by (rewrite (proj1 G), INR_IZR_INZ, Z2Nat.id by lia; reflexivity).
  rewrite Ln. split.
  - rewrite (table_at2g (fun t1 t2 => _ * exp (- r_gamma m * Rabs (t1 - t2)))).
    destruct (nth_error (r_t_u m) i) as [u|] eqn:E; [|apply nth_error_None in E; lia].
    f_equal. rewrite Rminus_eq_0, Rabs_R0, Rmult_0_r, exp_0, Egt, Egm, pow2_sqrt. { field. lra. }
    assert (0 < (IZR n - 1) / (2 * PI * w)) by (apply Rdiv_lt_0_compat; nra). lra.
  - apply Rmult_lt_reg_r with (4 * PI); [lra|]. replace (3 * (IZR n - 1) / (4 * PI) * (4 * PI)) with (3 * (IZR n - 1)) by (field; lra). lra.
Qed.

Print Assumptions C37_unit_diagonal_refuted.

Example C37_witness : exists m K, new_rgpcm (rdefault_args 1 (1 / 2) [0; 5]) = Ok m /\ rcompute_K_u m = Ok K /\ (exists v, at2 K 0 0 = Some v /\ 1 < v).
Proof.
  destruct (C37_unit_diagonal_refuted 1 (1 / 2) [0; 5] 0) as [m [K [Hm [HK I]]]]; simpl; auto; try lra.
  exists m, K. split; auto. split; auto. destruct (I 0%nat) as [A B]; [|eauto].
  destruct (rdefault_returns 1 (1 / 2) [0; 5] 0 5) as (m' & Hm' & _ & _ & _ & _ & G & _); try lra.
  - simpl. f_equal. rewrite Rmin_left; lra.
  - simpl. f_equal. rewrite Rmax_right; lra.
  - rewrite Hm in Hm'. injection Hm' as <-. rewrite (proj1 G). unfold auto_n_u. rewrite (iceil_unique _ 8) by lra. simpl. lia.
Qed.

(** * C38: gamma stays below alpha *)

Theorem C38_gamma_below_alpha :
  forall a m, new_rgpcm a = Ok m -> 0 < r_alpha m ->
    r_gamma m <= r_alpha m / (3 / 2) < r_alpha m
    /\ (* it is positive if the given gamma is, or if the inducing points are increasing *)
    ((exists g, ra_gamma a = Some g /\ 0 < g)
     \/ (ra_gamma a = None /\ exists u0 u1, nth_error (r_t_u m) 0 = Some u0 /\ nth_error (r_t_u m) 1 = Some u1 /\ u0 < u1) ->
     0 < r_gamma m)
    /\ (* and so it remains while the parameters are learned *)
    forall p, rparams_ok m p -> exists m', rprior m p = Ok m' /\ 0 < r_gamma m' < r_alpha m'
         /\ r_gamma m' = p_alpha p / p_gamma_factor p /\ r_alpha m' = p_alpha p.
Proof.
  intros a m Hm Pa. destruct (new_rgpcm_inv a m Hm) as (_ & _ & _ & _ & _ & _ & _ & _ & _ & [g [Eg [_ Eg']]]).
  split; [|split].
  - split; [rewrite Eg'; apply Rmin_r|lra].
  - intros H. rewrite Eg'. apply Rmin_glb_lt; [|lra]. unfold rinit_gamma in Eg. destruct H as [[g' [E P]]|[E [u0 [u1 [E0 [E1 L]]]]]]; rewrite E in Eg.
    + now injection Eg as <-.
    + apply bind_Ok in Eg. destruct Eg as [v1 [H1 Eg]]. apply bind_Ok in Eg. destruct Eg as [v0 [H0 Eg]].
      assert (v1 = u1) as ->. { clear -H1 E1. unfold item in H1. rewrite E1 in H1. now injection H1. }
      assert (v0 = u0) as ->. { clear -H0 E0. unfold item in H0. rewrite E0 in H0. now injection H0. }
      apply rdiv_inv in Eg. destruct Eg as [_ ->]. apply Rdiv_lt_0_compat; lra.
  - intros p (Pn & Pal & Pat & Pl & Pg & _). unfold rprior. rewrite rdiv_ok by lra. cbn [bind]. eexists. split; [reflexivity|]. simpl.
    split; [|auto]. split; [apply Rdiv_lt_0_compat; lra|]. apply Rmult_lt_reg_r with (p_gamma_factor p); [lra|].
    unfold Rdiv. rewrite Rmult_assoc, Rinv_l by lra. nra.
Qed.

Print Assumptions C38_gamma_below_alpha.

(** The initial value of the learnable factor is admissible: for the default model it is in
    [1.5, 2 pi]. *)
Theorem C38_initial_factor :
  forall w s data x m, In x data -> 0 < s < 4 * w -> new_rgpcm (rdefault_args w s data) = Ok m ->
    0 < r_gamma m /\ exists f, gamma_factor_init m = Ok f /\ 3 / 2 <= f <= 2 * PI /\ 1 < f < 10 ^ 4.
Proof.
  intros w s data x m Hx Hs Hm. pose proof PI_RGT_0 as Pi. pose proof PI_4 as P4. pose proof PI_gt_2 as P2.
  assert (exists lo, lmin data = Ok lo) as [lo Elo] by (destruct data; [destruct Hx|simpl; eauto]).
  assert (exists hi, lmax data = Ok hi) as [hi Ehi] by (destruct data; [destruct Hx|simpl; eauto]).
  destruct (rdefault_returns w s data lo hi) as (m' & Hm' & Eal & _ & _ & Enu & G & _ & _ & _ & _ & Egt & Eg); auto; try lra.
  rewrite Hm in Hm'. injection Hm' as <-.
  assert (N2 : (2 <= auto_n_u w s)%Z) by (unfold auto_n_u; pose proof (iceil_ge2 _ (four_windows w s Hs)); lia).
  set (n := auto_n_u w s) in *. apply IZR_le in N2.
  assert (P1 : 1 / (2 * PI * w) <= (IZR n - 1) / (2 * PI * w)).
  { unfold Rdiv. apply Rmult_le_compat_r; [left; apply Rinv_0_lt_compat; nra|lra]. }
  assert (P3 : 1 / (2 * PI * w) <= 2 / (3 * w)).
  { apply Rmult_le_reg_r with (6 * PI * w); [nra|].
    replace (1 / (2 * PI * w) * (6 * PI * w)) with 3 by (field; lra). replace (2 / (3 * w) * (6 * PI * w)) with (4 * PI) by (field; lra). lra. }
  assert (P5 : 0 < 1 / (2 * PI * w)) by (apply Rdiv_lt_0_compat; nra).
  assert (Pg : 1 / (2 * PI * w) <= r_gamma m) by (rewrite Eg; apply Rmin_glb; auto).
  assert (Pg' : r_gamma m <= 2 / (3 * w)) by (rewrite Eg; apply Rmin_r).
  split; [lra|]. unfold gamma_factor_init. rewrite rdiv_ok by lra. eexists. split; [reflexivity|].
  assert (B : 3 / 2 <= r_alpha m / r_gamma m <= 2 * PI).
  { assert (Ea1 : 1 / w = 3 / 2 * (2 / (3 * w))) by (field; lra). assert (Ea2 : 1 / w = 2 * PI * (1 / (2 * PI * w))) by (field; lra).
    assert (Eq : r_alpha m / r_gamma m * r_gamma m = r_alpha m) by (field; lra).
    split; (apply Rmult_le_reg_r with (r_gamma m); [lra|]); rewrite Eq, Eal; [rewrite Ea1|rewrite Ea2]; apply Rmult_le_compat_l; lra. }
  split; auto. replace (10 ^ 4) with 10000 by ring. lra.
Qed.

Print Assumptions C38_initial_factor.

Example C38_witness : exists m, new_rgpcm (rdefault_args 1 (1 / 2) [0; 5]) = Ok m /\ 0 < r_alpha m /\ 0 < r_gamma m < r_alpha m.
Proof.
  destruct (rdefault_returns 1 (1 / 2) [0; 5] 0 5) as (m & Hm & Ea & _); try lra.
  - simpl. f_equal. rewrite Rmin_left; lra.
  - simpl. f_equal. rewrite Rmax_right; lra.
  - exists m. split; auto. assert (0 < r_alpha m) by (rewrite Ea; lra). split; auto.
    destruct (C38_gamma_below_alpha _ m Hm H) as [A _]. destruct (C38_initial_factor 1 (1 / 2) [0; 5] 0 m) as [B _]; simpl; auto; lra.
Qed.

(** * The RGPCM's part of C16, C17 and C19 *)

Theorem C16_rgpcm_unit_power :
  forall a m t, new_rgpcm a = Ok m -> ra_alpha_t a = None -> rcompute_i_hx m (Some t) (Some t) = Ok 1.
Proof.
  intros a m t Hm Ht. destruct (new_rgpcm_inv a m Hm) as (_ & Eat & _).
  assert (exists e, rdiv 4 (r_alpha m) = Ok e) as [e He].
  { clear -Hm. unfold new_rgpcm in Hm. repeat (apply bind_Ok in Hm; destruct Hm as [? [? Hm]]). injection Hm as <-. simpl. eauto. }
  unfold rinit_alpha_t in Eat. rewrite Ht in Eat. apply np_sqrt_inv in Eat. destruct Eat as [P Eat].
  apply rdiv_inv in He. destruct He as [N _]. unfold rcompute_i_hx. rewrite rdiv_ok by auto. cbn [bind].
  rewrite Eat, pow2_sqrt by auto. rewrite Rminus_eq_0, Rabs_R0, Rmult_0_r, exp_0. f_equal. field. auto.
Qed.

Print Assumptions C16_rgpcm_unit_power.

Example C16_rgpcm_witness : exists m, new_rgpcm (rdefault_args 1 (1 / 2) [0; 5]) = Ok m /\ forall t, rcompute_i_hx m (Some t) (Some t) = Ok 1.
Proof.
  destruct C38_witness as [m [Hm _]]. exists m. split; auto. intros t. now apply (C16_rgpcm_unit_power _ m t Hm).
Qed.

Theorem C17_rgpcm_filter_grid :
  forall a m L, new_rgpcm a = Ok m -> ra_t_u a = None -> rasks_for_two a -> 0 < r_alpha m ->
    exp (- r_alpha m * L) = exp (- PI) ->
    Z.of_nat (List.length (r_t_u m)) = r_n_u m
    /\ nth_error (r_t_u m) 0 = Some 0
    /\ nth_error (r_t_u m) (List.length (r_t_u m) - 1) = Some L
    /\ exists d, 0 < d /\ grid (r_t_u m) 0 d (List.length (r_t_u m)).
Proof.
  intros a m L Hm Ht As Pa EL. destruct (new_rgpcm_inv a m Hm) as (_ & _ & _ & Hu & _). pose proof PI_RGT_0 as Pi.
  destruct (rt_u_inv a _ _ _ Pa Ht Hu) as [Hr [P0 G]]. pose proof (rasks_requested a _ As Hr) as R2. apply IZR_le in R2 as R2'.
  apply exp_inv in EL. assert (ELL : PI / r_alpha m = L) by (replace PI with (r_alpha m * L) by lra; field; lra).
  rewrite ELL in G. pose proof (proj1 G) as Len. rewrite Len.
  assert (PL : 0 < L) by (rewrite <- ELL; apply Rdiv_lt_0_compat; lra).
  split; [lia|]. split; [|split].
  - rewrite (nth_grid _ _ _ _ 0 G) by lia. simpl. f_equal. ring.
  - rewrite (nth_grid _ _ _ _ (Z.to_nat (r_n_u m) - 1) G) by lia. f_equal.
    rewrite minus_INR by lia. rewrite INR_IZR_INZ, Z2Nat.id by lia. simpl. field. lra.
  - exists (L / (IZR (r_n_u m) - 1)). split; auto. apply Rdiv_lt_0_compat; lra.
Qed.

Print Assumptions C17_rgpcm_filter_grid.

Example C17_rgpcm_witness : exists m, new_rgpcm (rdefault_args 1 (1 / 2) [0; 5]) = Ok m /\ rasks_for_two (rdefault_args 1 (1 / 2) [0; 5])
  /\ 0 < r_alpha m /\ exp (- r_alpha m * (PI / r_alpha m)) = exp (- PI).
Proof.
  destruct C38_witness as [m [Hm [P _]]]. exists m. split; auto. split; [|split; auto].
  - split; [cbn; lia|]. exists 1, (1 / 2). repeat split; lra.
  - f_equal. field. lra.
Qed.

(** All automatic counts of the RGPCM respect their caps. *)
Theorem C19_rgpcm_caps :
  forall a m, new_rgpcm a = Ok m -> 0 < r_alpha m ->
    (ra_n_u a = None -> ra_t_u a = None -> (r_n_u m <= ra_n_u_cap a)%Z)
    /\ (ra_m_max a = None -> ra_n_z a = None -> (r_m_max m <= ra_m_max_cap a)%Z).
Proof.
  intros a m Hm Pa. destruct (new_rgpcm_inv a m Hm) as (_ & _ & _ & Hu & _ & _ & HM & _). split.
  - intros Hn Ht. destruct (rt_u_inv a _ _ _ Pa Ht Hu) as [Hr _]. unfold rrequested_n_u in Hr. rewrite Hn in Hr.
    destruct Hr as [w [s [_ [_ [_ Er]]]]]. lia.
  - intros H1 H2. unfold rinit_m_max in HM. rewrite H1, H2 in HM. apply bind_Ok in HM. destruct HM as [s [_ HM]].
    apply bind_Ok in HM. destruct HM as [f [_ HM]]. rewrite cap_min in HM. injection HM as <-. lia.
Qed.

Print Assumptions C19_rgpcm_caps.

Example C19_rgpcm_witness : exists m, new_rgpcm (rdefault_args 1 (1 / 1000) [0; 5]) = Ok m /\ r_n_u m = 300%Z /\ r_m_max m = 150%Z.
Proof.
  destruct (rdefault_returns 1 (1 / 1000) [0; 5] 0 5) as (m & Hm & _ & _ & _ & Enu & _ & _ & _ & EM & _); try lra.
  - simpl. f_equal. rewrite Rmin_left; lra.
  - simpl. f_equal. rewrite Rmax_right; lra.
  - exists m. split; auto. split.
    + rewrite Enu. unfold auto_n_u. rewrite (iceil_unique _ 4000) by lra. reflexivity.
    + rewrite EM. pose proof PI_RGT_0. pose proof (iceil_spec (1 / (1 / 1000) * (5 - (0 - PI * 1)))) as [A _].
      assert (150 < IZR (iceil (1 / (1 / 1000) * (5 - (0 - PI * 1))))) by lra. apply (lt_IZR 150) in H0. lia.
Qed.

(** * C72: sizes and supports *)

Theorem C72_sizes_and_supports :
  forall a m, new_rgpcm a = Ok m ->
    r_n_z m = Z.of_nat (List.length (r_ms m))
    /\ (ra_ms a = None -> (0 <= r_m_max m)%Z -> r_n_z m = (2 * r_m_max m + 1)%Z
          /\ NoDup (r_ms m) /\ forall k, In k (r_ms m) <-> (0 <= k <= 2 * r_m_max m)%Z)
    /\ (forall n, ra_m_max a = None -> ra_n_z a = Some n -> ra_ms a = None -> (0 <= n)%Z -> (n <= r_n_z m)%Z)
    /\ (forall data x u, ra_t a = Some data -> ra_a a = None -> ra_b a = None -> In x data -> In u (r_t_u m) ->
          r_a m <= x - u /\ x <= r_b m
          /\ (In 0 (r_t_u m) -> 0 <= u -> r_a m <= x <= r_b m /\ r_a m <= x - u <= r_b m)).
Proof.
  intros a m Hm. destruct (new_rgpcm_inv a m Hm) as (_ & _ & _ & _ & Ea & Eb & HM & Ems & _ & _).
  assert (Enz : r_n_z m = Z.of_nat (List.length (r_ms m))).
  { unfold new_rgpcm in Hm. repeat (apply bind_Ok in Hm; destruct Hm as [? [_ Hm]]). now injection Hm as <-. }
  assert (R : forall k n, In k (zrange n) <-> (0 <= k < n)%Z).
  { intros k n. unfold zrange. rewrite in_map_iff. split.
    - intros [i [<- Hi]]. apply in_seq in Hi. lia.
    - intros H. exists (Z.to_nat k). rewrite in_seq. lia. }
  assert (Len : ra_ms a = None -> (0 <= r_m_max m)%Z -> r_n_z m = (2 * r_m_max m + 1)%Z).
  { intros N P. rewrite Enz, Ems. unfold rinit_ms. rewrite N. unfold zrange. rewrite map_length, seq_length. lia. }
  split; auto. split; [|split].
  - intros N P. split; [auto|]. rewrite Ems. unfold rinit_ms. rewrite N. split.
    + unfold zrange. apply FinFun.Injective_map_NoDup; [|apply seq_NoDup]. intros i j. lia.
    + intros k. rewrite R. lia.
  - intros n H1 H2 H3 H4. unfold rinit_m_max in HM. rewrite H1, H2 in HM. injection HM as HM.
    pose proof (iceil_spec (IZR n / 2)) as [C _]. rewrite HM in C. assert (0 <= IZR n) by (now apply IZR_le).
    assert (IZR n <= IZR (2 * r_m_max m)) by (rewrite mult_IZR; lra). apply le_IZR in H0. rewrite Len by (auto; lia). lia.
  - intros data x u Ed Ha Hb Hx Hu. unfold rinit_a in Ea. unfold rinit_b in Eb. rewrite Ha, Ed in Ea. rewrite Hb, Ed in Eb. cbn [given bind] in *.
    apply bind_Ok in Ea. destruct Ea as [lo [Elo Ea]]. apply bind_Ok in Ea. destruct Ea as [mu [Emu Ea]]. injection Ea as Ea.
    pose proof (proj2 (lmin_spec _ _ Elo) x Hx). pose proof (proj2 (lmax_spec _ _ Emu) u Hu). pose proof (proj2 (lmax_spec _ _ Eb) x Hx).
    split; [lra|]. split; [lra|]. intros Hz Pu. pose proof (proj2 (lmax_spec _ _ Emu) 0 Hz). repeat split; lra.
Qed.

Print Assumptions C72_sizes_and_supports.

(** So for a default model the closed forms of [compute_I_hz] and [compute_I_uz] are exact at all
    data times. *)
Theorem C72_default_model_in_range :
  forall (argsort : list Z -> list nat) w s data x, argsorts argsort -> 0 < s < 4 * w -> In x data ->
    exists m T U, new_rgpcm (rdefault_args w s data) = Ok m
      /\ rcompute_I_hz argsort m data = Ok T /\ rcompute_I_uz argsort m data = Ok U
      /\ forall n t, nth_error data n = Some t ->
         (forall i j ki kj, nth_error (r_ms m) i = Some ki -> nth_error (r_ms m) j = Some kj ->
            exists v, at3 T n i j = Some v
             /\ is_integral (fun tau => r_alpha_t m ^ 2 * exp (-2 * r_alpha m * (t - tau)) * beta m ki tau * beta m kj tau) m_infty t v)
         /\ (forall i j u k, nth_error (r_t_u m) i = Some u -> nth_error (r_ms m) j = Some k ->
            exists v, at3 U n i j = Some v
             /\ is_RInt (fun tau => r_alpha_t m * r_gamma_t m * exp (- r_alpha m * tau - r_gamma m * (u - tau)) * beta m k (t - tau)) 0 u v).
Proof.
  intros argsort w s data x Has Hs Hx. pose proof PI_RGT_0 as Pi.
  assert (exists lo, lmin data = Ok lo) as [lo Elo] by (destruct data; [destruct Hx|simpl; eauto]).
  assert (exists hi, lmax data = Ok hi) as [hi Ehi] by (destruct data; [destruct Hx|simpl; eauto]).
  destruct (rdefault_returns w s data lo hi) as (m & Hm & Eal & El & Eat & Enu & G & Ea & Eb & EM & Ems & Egt & Eg); auto; try lra.
  pose proof (proj2 (lmin_spec _ _ Elo) x Hx). pose proof (proj2 (lmax_spec _ _ Ehi) x Hx).
  assert (Pal : 0 < r_alpha m) by (rewrite Eal; apply Rdiv_lt_0_compat; lra).
  assert (Pl : 0 < r_lam m) by (rewrite El; apply Rdiv_lt_0_compat; lra).
  assert (Hab : r_a m < r_b m) by (rewrite Ea, Eb; nra).
  assert (HM : (0 <= r_m_max m)%Z).
  { rewrite EM. pose proof (iceil_pos (1 / s * (hi - (lo - PI * w)))). assert (0 < 1 / s) by (apply Rdiv_lt_0_compat; lra).
    assert (0 < 1 / s * (hi - (lo - PI * w))) by (apply Rmult_lt_0_compat; [auto|rewrite Ea, Eb in Hab; lra]). specialize (H1 H3). lia. }
  destruct (C72_sizes_and_supports _ m Hm) as [_ [Hms [_ Hsup]]]. specialize (Hms eq_refl HM). destruct Hms as [_ [_ Hms]].
  assert (Hp : List.Forall (fun k => (0 <= k)%Z) (r_ms m)) by (apply List.Forall_forall; intros k Hk; apply Hms in Hk; lia).
  assert (Hga : r_gamma m <> r_alpha m) by (destruct (C38_gamma_below_alpha _ m Hm Pal) as [? _]; lra).
  destruct (C30_I_hz argsort m data) as [T [HT [_ [_ IT]]]]; auto.
  destruct (C32_I_uz argsort m data) as [U [HU [_ IU]]]; auto.
  exists m, T, U. split; auto. split; auto. split; auto. intros n t Hn.
  assert (N2 : (2 <= auto_n_u w s)%Z) by (unfold auto_n_u; pose proof (iceil_ge2 _ (four_windows w s Hs)); lia).
  assert (In0 : In 0 (r_t_u m)).
  { eapply nth_error_In. rewrite (nth_grid _ _ _ _ 0 G) by lia. f_equal. simpl. ring. }
  assert (Hn' : In t data) by (eapply nth_error_In; eauto).
  assert (Pu : forall u, In u (r_t_u m) -> 0 <= u).
  { intros u Hu. destruct (grid_mem _ _ _ _ _ G Hu) as [i [_ ->]]. apply IZR_le in N2.
    assert (0 < PI * w / (IZR (auto_n_u w s) - 1)) by (apply Rdiv_lt_0_compat; nra). pose proof (pos_INR i). nra. }
  split.
  - intros i j ki kj Hi Hj. apply (IT n i j t ki kj); auto. apply (Hsup data t 0); auto; lra.
  - intros i j u k Hi Hj. assert (In u (r_t_u m)) by (eapply nth_error_In; eauto).
    apply (IU n i j t u k); auto; apply (Hsup data t u); auto.
Qed.

Print Assumptions C72_default_model_in_range.

Example C72_witness : exists m, new_rgpcm (rdefault_args 1 (1 / 2) [0; 5]) = Ok m /\ (0 <= r_m_max m)%Z /\ In 0 (r_t_u m).
Proof.
  destruct (rdefault_returns 1 (1 / 2) [0; 5] 0 5) as (m & Hm & _ & _ & _ & _ & G & _ & _ & EM & _); try lra.
  - simpl. f_equal. rewrite Rmin_left; lra.
  - simpl. f_equal. rewrite Rmax_right; lra.
  - exists m. split; auto. pose proof PI_RGT_0. split.
    + rewrite EM. pose proof (iceil_pos (1 / (1 / 2) * (5 - (0 - PI * 1)))) as H0. assert (0 < 1 / (1 / 2) * (5 - (0 - PI * 1))) by lra. specialize (H0 H1). lia.
    + eapply nth_error_In. rewrite (nth_grid _ _ _ _ 0 G); [f_equal; simpl; ring|]. unfold auto_n_u. rewrite (iceil_unique _ 8) by lra. simpl. lia.
Qed.

(** * C74: learned inducing points *)

(** While [t_u] is learned it may move up to one and a half times its initial maximum, but the
    support of the basis stays at its initial position. At the first data time the integral
    against an inducing point beyond the initial maximum is then wrong. *)
Theorem C74_learned_t_u_refuted :
  forall (argsort : list Z -> list nat) w s data lo m, argsorts argsort -> 0 < s < 4 * w ->
    In lo data -> (forall x, In x data -> lo <= x) -> new_rgpcm (rdefault_args w s data) = Ok m ->
    exists p m' U i u v v', rparams_ok m p /\ rprior m p = Ok m' /\ rcompute_I_uz argsort m' [lo] = Ok U
      /\ nth_error (r_t_u m') i = Some u /\ nth_error (r_ms m') 0 = Some 0%Z /\ at3 U 0 i 0 = Some v
      /\ is_RInt (fun tau => r_alpha_t m' * r_gamma_t m' * exp (- r_alpha m' * tau - r_gamma m' * (u - tau)) * beta m' 0 (lo - tau)) 0 u v'
      /\ v' < v.
Proof.
  intros argsort w s data lo m Has Hs Hlo Hmin Hm. pose proof PI_RGT_0 as Pi.
  assert (exists l, lmin data = Ok l) as [l El] by (destruct data; [destruct Hlo|simpl; eauto]).
  assert (l = lo). { destruct (lmin_spec _ _ El) as [A B]. specialize (B lo Hlo). specialize (Hmin l A). lra. } subst l.
  assert (exists hi, lmax data = Ok hi) as [hi Ehi] by (destruct data; [destruct Hlo|simpl; eauto]).
  destruct (rdefault_returns w s data lo hi) as (m2 & Hm2 & Eal & El' & Eat & Enu & G & Ea & Eb & EM & Ems & Egt & Eg); auto; try lra.
  rewrite Hm in Hm2. injection Hm2 as <-.
  pose proof (proj2 (lmax_spec _ _ Ehi) lo Hlo) as Hhi.
  assert (Pw : 0 < 1 / w) by (apply Rdiv_lt_0_compat; lra). assert (P1s : 0 < 1 / s) by (apply Rdiv_lt_0_compat; lra).
  assert (N2 : (2 <= auto_n_u w s)%Z) by (unfold auto_n_u; pose proof (iceil_ge2 _ (four_windows w s Hs)); lia).
  set (n := auto_n_u w s) in *. apply IZR_le in N2 as N2'. set (d := PI * w / (IZR n - 1)) in *.
  assert (Pd : 0 < d) by (apply Rdiv_lt_0_compat; nra).
  assert (Pg : 0 < (IZR n - 1) / (2 * PI * w)) by (apply Rdiv_lt_0_compat; nra).
  assert (Last : nth_error (r_t_u m) (Z.to_nat n - 1) = Some (PI * w)).
  { rewrite (nth_grid _ _ _ _ (Z.to_nat n - 1) G) by lia. f_equal. rewrite minus_INR by lia. rewrite INR_IZR_INZ, Z2Nat.id by lia. simpl. unfold d. field. lra. }
  assert (Hmax : forall u, In u (r_t_u m) -> 0 <= u <= PI * w).
  { intros u Hu. destruct (grid_mem _ _ _ _ _ G Hu) as [i [Hi ->]]. assert (INR i <= INR (Z.to_nat n - 1)) by (apply le_INR; lia).
    rewrite minus_INR, (INR_IZR_INZ (Z.to_nat n)), Z2Nat.id in H by lia. simpl in H. assert (PI * w = (IZR n - 1) * d) by (unfold d; field; lra).
    pose proof (pos_INR i). nra. }
  assert (exists mu, lmax (r_t_u m) = Ok mu) as [mu Emu].
  { destruct (r_t_u m); [destruct (Z.to_nat n - 1)%nat; discriminate|simpl; eauto]. }
  assert (mu = PI * w). { destruct (lmax_spec _ _ Emu) as [A B]. apply Hmax in A. pose proof (B (PI * w) (nth_error_In _ _ Last)). lra. } subst mu.
  set (p := RParams 1 (1 / w) 1 (1 / s) 2 (map (fun u => 5 / 4 * u) (r_t_u m))).
  assert (HM : (0 <= r_m_max m)%Z).
  { rewrite EM. pose proof (iceil_pos (1 / s * (hi - (lo - PI * w)))). assert (0 < 1 / s * (hi - (lo - PI * w))) by (apply Rmult_lt_0_compat; nra).
    specialize (H H0). lia. }
  assert (Hp : rparams_ok m p).
  { unfold rparams_ok, p. cbn [p_noise p_alpha p_alpha_t p_lam p_gamma_factor p_t_u]. replace (10 ^ 4) with 10000 by ring.
    repeat split; try lra; [apply map_length|]. exists (PI * w). split; auto. apply List.Forall_forall. intros u Hu.
    apply in_map_iff in Hu. destruct Hu as [u0 [<- Hu]]. apply Hmax in Hu. split; nra. }
  exists p. unfold rprior. cbn [p p_noise p_alpha p_alpha_t p_lam p_gamma_factor p_t_u]. rewrite rdiv_ok by lra. cbn [bind].
  eexists. set (m' := RGPCM _ _ _ _ _ _ _ _ _ _ _ _ _ _).
  assert (Hms : List.Forall (fun k => (0 <= k)%Z) (r_ms m')).
  { apply List.Forall_forall. intros k Hk. simpl in Hk. rewrite Ems in Hk. unfold zrange in Hk. apply in_map_iff in Hk. destruct Hk as [? [<- _]]. lia. }
  assert (Hag : r_gamma m' <> r_alpha m') by (simpl; lra).
  assert (Hab : r_a m' < r_b m') by (simpl; rewrite Ea, Eb; nra).
  assert (V : rcompute_I_uz argsort m' [lo] = Ok [map (fun u => map (uz m' lo u) (r_ms m')) (r_t_u m')]).
  { unfold rcompute_I_uz. rewrite (mapM_ext_In _ (fun t => map (fun u => map (uz m' t u) (r_ms m')) (r_t_u m'))); auto.
    intros t _. apply mapM_ext_In. intros u _. now apply uz_at_value. }
  assert (Hk0 : nth_error (r_ms m') 0 = Some 0%Z).
  { simpl. rewrite Ems. unfold zrange. replace (Z.to_nat (2 * r_m_max m + 1)) with (S (Z.to_nat (2 * r_m_max m))) by lia. reflexivity. }
  assert (Hu : nth_error (r_t_u m') (Z.to_nat n - 1) = Some (5 / 4 * (PI * w))) by (simpl; rewrite nth_error_map, Last; reflexivity).
  destruct (uz_before m' Hag Hab HM lo (5 / 4 * (PI * w))) as [v' [I L]]; try (simpl; rewrite ?Ea, ?Eb, ?Egt; nra).
  - simpl. rewrite Egt, Rmult_1_l. apply sqrt_lt_R0. lra.
  - exists [map (fun u => map (uz m' lo u) (r_ms m')) (r_t_u m')], (Z.to_nat n - 1)%nat, (5 / 4 * (PI * w)), (uz m' lo (5 / 4 * (PI * w)) 0), v'.
    split; auto. split; auto. split; auto. split; auto. split; auto. split; [|split; auto].
    unfold at3. simpl nth_error at 1. cbv iota beta. rewrite (table_at2g (uz m' lo) (r_t_u m') (r_ms m')), Hu, Hk0. reflexivity.
Qed.

Print Assumptions C74_learned_t_u_refuted.

(** What holds: the integrals stay exact as long as no inducing point passes the initial
    maximum or leaves zero to the left. *)
Theorem C74_learned_t_u_partial :
  forall (argsort : list Z -> list nat) w s data m p, argsorts argsort -> 0 < s < 4 * w ->
    new_rgpcm (rdefault_args w s data) = Ok m -> rparams_ok m p ->
    (forall u, In u (p_t_u p) -> 0 <= u /\ exists u', In u' (r_t_u m) /\ u <= u') ->
    exists m' U, rprior m p = Ok m' /\ rcompute_I_uz argsort m' data = Ok U
      /\ forall n t i u j k, nth_error data n = Some t -> nth_error (r_t_u m') i = Some u -> nth_error (r_ms m') j = Some k ->
         exists v, at3 U n i j = Some v
           /\ is_RInt (fun tau => r_alpha_t m' * r_gamma_t m' * exp (- r_alpha m' * tau - r_gamma m' * (u - tau)) * beta m' k (t - tau)) 0 u v.
Proof.
  intros argsort w s data m p Has Hs Hm Hp Hu. pose proof PI_RGT_0 as Pi.
  assert (exists lo, lmin data = Ok lo) as [lo Elo].
  { destruct data; [|simpl; eauto]. exfalso. destruct (new_rgpcm_inv _ m Hm) as (_ & _ & _ & _ & _ & Eb & _). discriminate. }
  assert (exists hi, lmax data = Ok hi) as [hi Ehi] by (destruct data; [discriminate|simpl; eauto]).
  destruct (rdefault_returns w s data lo hi) as (m2 & Hm2 & Eal & El' & Eat & Enu & G & Ea & Eb & EM & Ems & Egt & Eg); auto; try lra.
  rewrite Hm in Hm2. injection Hm2 as <-.
  pose proof (proj2 (lmax_spec _ _ Ehi) lo (proj1 (lmin_spec _ _ Elo))) as Hhi.
  assert (Pal : 0 < r_alpha m) by (rewrite Eal; apply Rdiv_lt_0_compat; lra).
  destruct (C38_gamma_below_alpha _ m Hm Pal) as [_ [_ C38]]. destruct (C38 p Hp) as [m' [Hm' [Hg' _]]].
  assert (Em : r_a m' = r_a m /\ r_b m' = r_b m /\ r_m_max m' = r_m_max m /\ r_ms m' = r_ms m /\ r_t_u m' = p_t_u p).
  { unfold rprior in Hm'. apply bind_Ok in Hm'. destruct Hm' as [? [_ H]]. injection H as <-. simpl. auto. }
  destruct Em as (E1 & E2 & E3 & E4 & E5).
  assert (HM : (0 <= r_m_max m)%Z).
  { rewrite EM. pose proof (iceil_pos (1 / s * (hi - (lo - PI * w)))). assert (0 < 1 / s) by (apply Rdiv_lt_0_compat; lra).
    assert (0 < 1 / s * (hi - (lo - PI * w))) by (apply Rmult_lt_0_compat; nra). specialize (H H1). lia. }
  destruct (C72_sizes_and_supports _ m Hm) as [_ [Hms [_ Hsup]]]. specialize (Hms eq_refl HM). destruct Hms as [_ [_ Hms]].
  destruct (C32_I_uz argsort m' data) as [U [HU [_ IU]]]; auto; try lra.
  - rewrite E1, E2, Ea, Eb. nra.
  - now rewrite E3.
  - rewrite E4. apply List.Forall_forall; intros k Hk; apply Hms in Hk; lia.
  - exists m', U. split; auto. split; auto. intros n t i u j k Hn Hi Hj.
    assert (In t data) by (eapply nth_error_In; eauto).
    assert (In u (p_t_u p)) by (rewrite <- E5; eapply nth_error_In; eauto). destruct (Hu u H0) as [Pu [u' [Hu' Lu]]].
    destruct (Hsup data t u') as [A [B _]]; auto. apply (IU n i j t u k); auto; rewrite E1, E2; lra.
Qed.

Print Assumptions C74_learned_t_u_partial.

(** * C75: the default model may be singular *)

(** For every window there is a scale (1.47 windows) at which the closed form of [compute_I_ux]
    divides by zero, for the default model. *)
Theorem C75_I_ux_defined_refuted :
  forall w data x, 0 < w -> In x data ->
    let s := w / (1 - 1 / PI) in
    0 < s < 4 * w
    /\ exists m, new_rgpcm (rdefault_args w s data) = Ok m /\ rcompute_I_ux m = Err ZeroDivisionError.
Proof.
  intros w data x Pw Hx s. pose proof PI_RGT_0 as Pi. pose proof PI_4 as P4. pose proof PI_gt_2 as P2.
  assert (I1 : 1 / PI < 1 / 2). { unfold Rdiv. rewrite !Rmult_1_l. apply Rinv_lt_contravar; lra. }
  assert (I2 : 1 / 4 <= 1 / PI). { unfold Rdiv. rewrite !Rmult_1_l. apply Rinv_le_contravar; lra. }
  assert (Hs : 0 < s < 4 * w).
  { split; [apply Rdiv_lt_0_compat; lra|]. apply Rmult_lt_reg_r with (1 - 1 / PI); [lra|]. unfold s.
    replace (w / (1 - 1 / PI) * (1 - 1 / PI)) with w by (field; lra). nra. }
  split; auto.
  assert (exists lo, lmin data = Ok lo) as [lo Elo] by (destruct data; [destruct Hx|simpl; eauto]).
  assert (exists hi, lmax data = Ok hi) as [hi Ehi] by (destruct data; [destruct Hx|simpl; eauto]).
  destruct (rdefault_returns w s data lo hi) as (m & Hm & Eal & El & Eat & Enu & G & Ea & Eb & EM & Ems & Egt & Eg); auto; try lra.
  assert (N3 : auto_n_u w s = 3%Z).
  { unfold auto_n_u. rewrite (iceil_unique (4 * w / s) 3); [reflexivity|]. unfold s. replace (4 * w / (w / (1 - 1 / PI))) with (4 * (1 - 1 / PI)) by (field; lra). lra. }
  rewrite N3 in *. exists m. split; auto.
  assert (Ew : 1 / PI * (1 / w) = (IZR 3 - 1) / (2 * PI * w)) by (field; lra).
  assert (Piw : 0 < 1 / w) by (apply Rdiv_lt_0_compat; lra).
  assert (Eg' : r_gamma m = 1 / PI * (1 / w)).
  { rewrite Eg, Rmin_left; auto. rewrite <- Ew. replace (2 / (3 * w)) with (2 / 3 * (1 / w)) by (field; lra). nra. }
  assert (El2 : r_lam m = (1 - 1 / PI) * (1 / w)) by (rewrite El; unfold s; field; lra).
  assert (Sing : (r_gamma m - r_alpha m) ^ 2 - r_lam m ^ 2 = 0) by (rewrite Eg', Eal, El2; ring).
  assert (Nga : r_gamma m - r_alpha m <> 0) by (rewrite Eg', Eal; nra).
  assert (El0 : forall t1 t2 u1 u2, I_ux_elem m t1 t2 u1 u2 = Err ZeroDivisionError).
  { intros t1 t2 u1 u2. unfold I_ux_elem, integral_abcd_lu. unfold integral_abcd at 1. rewrite rdiv_ok by auto. cbn [bind].
    rewrite Sing. unfold rdiv, Reqb. destruct (Req_EM_T 0 0) as [_|N]; [reflexivity|contradiction]. }
  pose proof (proj1 G) as Len. unfold rcompute_I_ux, rcompute_I_ux4.
  destruct (r_t_u m) as [|u0 us]; [discriminate|]. simpl. rewrite El0. reflexivity.
Qed.

Print Assumptions C75_I_ux_defined_refuted.

(** What holds: it is defined, and exact (C29), whenever (gamma - alpha)^2 differs from lam^2. *)
Theorem C75_I_ux_defined_partial :
  forall a m, new_rgpcm a = Ok m -> 0 < r_alpha m -> (r_gamma m - r_alpha m) ^ 2 <> r_lam m ^ 2 ->
    exists K, rcompute_I_ux m = Ok K /\ shape2 K (List.length (r_t_u m)) (List.length (r_t_u m))
      /\ forall i j ui uj, nth_error (r_t_u m) i = Some ui -> nth_error (r_t_u m) j = Some uj ->
         exists v, at2 K i j = Some v /\ is_rect_integral (fun x y =>
                   r_alpha_t m ^ 2 * r_gamma_t m ^ 2
                   * exp (- r_alpha m * (x + y) - r_gamma m * (uj - x) - r_gamma m * (ui - y))
                   * exp (- r_lam m * Rabs (x - y))) 0 uj 0 ui v.
Proof.
  intros a m Hm Pa Hl. destruct (C38_gamma_below_alpha a m Hm Pa) as [Hg _].
  destruct (C29_I_ux m [0] [0]) as [T [HT [S [I _]]]]; [lra|auto|].
  unfold rcompute_I_ux. unfold rcompute_I_ux4 in *. rewrite HT. cbn [bind].
  destruct T as [|X T]; [destruct S; discriminate|]. destruct S as [S1 S2]. apply List.Forall_inv in S2. destruct S2 as [S2 S3].
  destruct X as [|Y X]; [discriminate|]. apply List.Forall_inv in S3. cbn. exists Y. split; auto. split; auto.
  intros i j ui uj Hi Hj. destruct (I 0%nat 0%nat i j 0 0 ui uj) as [v [Ev Iv]]; auto. exists v. split; [exact Ev|].
  destruct Iv as [g [G1 G2]]. exists g. split; auto. intros x. eapply is_RInt_ext; [|apply G1]. intros y _. simpl.
  do 3 f_equal. rewrite <- Rabs_Ropp. f_equal. ring.
Qed.

Print Assumptions C75_I_ux_defined_partial.

Example C75_witness : exists m K, new_rgpcm (rdefault_args 1 1 [0; 5]) = Ok m /\ rcompute_I_ux m = Ok K.
Proof.
  pose proof PI_RGT_0 as Pi. pose proof PI_4 as P4. pose proof PI_gt_2 as P2.
  destruct (rdefault_returns 1 1 [0; 5] 0 5) as (m & Hm & Eal & El & _ & _ & _ & _ & _ & _ & _ & _ & Eg); try lra.
  - simpl. f_equal. rewrite Rmin_left; lra.
  - simpl. f_equal. rewrite Rmax_right; lra.
  - exists m. assert (Pa : 0 < r_alpha m) by (rewrite Eal; lra).
    destruct (C38_initial_factor 1 1 [0; 5] 0 m) as [Pg _]; simpl; auto; try lra. destruct (C38_gamma_below_alpha _ m Hm Pa) as [B _].
    destruct (C75_I_ux_defined_partial _ m Hm Pa) as [K [HK _]]; [|eauto]. rewrite El. rewrite Eal in *. nra.
Qed.
