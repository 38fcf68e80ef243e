(** The properties C15-C27 of gpcm.py, stated on the model. *)
From Coq Require Import Reals ZArith List Bool String Lia Lra Psatz.
From Coquelicot Require Import Coquelicot.
From Verif Require Import Py ExpPolyModel ListFacts ExpPolySpec ExpPolyIntModel ExpPolyIntProofs.
From Verif Require Import Gauss Gauss2 Gauss3 Fubini ExpPolyIntProps.
From Verif Require Import GpcmModel GpcmSpec GpcmProofs GpcmProofs2 GpcmProofs3 GpcmTotal GpcmInit GpcmPsd.
Import ListNotations.
Local Open Scope string_scope.
Local Open Scope R_scope.

(** The number domain consists of tensors, whose truth value is never taken. *)
Definition tensors (N : numdom) : Prop := forall c : N, isz c = false.

(** * C15: conversions between length scales and decays *)

Theorem C15_conversions :
  (forall s, 0 < s -> exists f, scale_to_factor s = Ok f /\ 0 < f /\ factor_to_scale f = Ok s)
  /\ (forall f, 0 < f -> exists s, factor_to_scale f = Ok s /\ 0 < s /\ scale_to_factor s = Ok f)
  /\ (forall s s' f f', 0 < s < s' -> scale_to_factor s = Ok f -> scale_to_factor s' = Ok f' -> f' < f)
  /\ (forall f f' s s', 0 < f < f' -> factor_to_scale f = Ok s -> factor_to_scale f' = Ok s' -> s' < s).
Proof.
  assert (A : forall s, 0 < s -> exists f, scale_to_factor s = Ok f /\ 0 < f /\ factor_to_scale f = Ok s).
  { intros s Hs. destruct (scale_to_factor_pos s Hs) as [f [Hf [Ef Pf]]]. exists f. split; auto. split; auto.
    destruct (factor_to_scale_pos f Pf) as [s' [H' [Ps' Es']]]. rewrite H'. f_equal.
    apply (factor_scale_unique f s s'); auto. rewrite Ef. field. lra. }
  assert (B : forall f, 0 < f -> exists s, factor_to_scale f = Ok s /\ 0 < s /\ scale_to_factor s = Ok f).
  { intros f Hf. destruct (factor_to_scale_pos f Hf) as [s [H [Ps Es]]]. exists s. split; auto. split; auto.
    destruct (scale_to_factor_pos s Ps) as [f' [Hf' [Ef' Pf']]]. rewrite Hf'. f_equal. rewrite Ef', <- Es. field. lra. }
  assert (D : forall s s' f f', 0 < s < s' -> scale_to_factor s = Ok f -> scale_to_factor s' = Ok f' -> f' < f).
  { intros s s' f f' Hs H H'. destruct (scale_to_factor_pos s ltac:(lra)) as [g [G [E P]]].
    destruct (scale_to_factor_pos s' ltac:(lra)) as [g' [G' [E' P']]]. rewrite H in G. rewrite H' in G'.
    injection G as <-. injection G' as <-. rewrite E, E'. pose proof PI_RGT_0.
    
    apply Rmult_lt_compat_l; [lra|]. assert (0 < s ^ 2) by (apply pow_lt; lra). assert (s ^ 2 < s' ^ 2) by nra.
    apply Rinv_lt_contravar; [|lra]. apply Rmult_lt_0_compat; lra. }
  split; [exact A|]. split; [exact B|]. split; [exact D|].
  intros f f' s s' Hf H H'.
  destruct (B f ltac:(lra)) as [x [X [Px Fx]]]. destruct (B f' ltac:(lra)) as [y [Y [Py Fy]]].
  rewrite H in X. rewrite H' in Y. injection X as <-. injection Y as <-.
  destruct (Rlt_le_dec s' s) as [|[L|<-]]; auto; exfalso.
  - specialize (D s s' f f' ltac:(lra) Fx Fy). lra.
  - rewrite Fx in Fy. injection Fy as <-. lra.
Qed.

Print Assumptions C15_conversions.

Example C15_witness : scale_to_factor (1 / 2) = Ok PI /\ factor_to_scale PI = Ok (1 / 2).
Proof.
  assert (E : scale_to_factor (1 / 2) = Ok PI).
  { destruct (scale_to_factor_pos (1 / 2) ltac:(lra)) as [f [H [E _]]]. rewrite H, E. f_equal. field. }
  split; auto. destruct (proj1 C15_conversions (1 / 2) ltac:(lra)) as [f [H [_ H']]]. rewrite E in H. injection H as <-. exact H'.
Qed.

(** * The constructor returns *)

Lemma nth_grid l a d n i : grid l a d n -> (i < n)%nat -> nth_error l i = Some (a + INR i * d).
Proof.
  intros [L H] Hi. destruct (nth_error l i) as [x|] eqn:E; [now rewrite (H i x E)|].
  apply nth_error_None in E. lia.
Qed.

Lemma linspace_total a b n : (0 <= n)%Z -> exists l, linspace a b n = Ok l.
Proof. intros H. unfold linspace. destruct (n <? 0)%Z eqn:E; [apply Z.ltb_lt in E; lia|]. eauto. Qed.

Lemma iceil_ge2 x : 1 < x -> (2 <= iceil x)%Z.
Proof. intros H. pose proof (iceil_spec x). assert (1 < IZR (iceil x)) by lra. apply (lt_IZR 1) in H1. lia. Qed.

(** The same arguments with [extend_t_z=b]. *)
Definition extending (b : bool) (a : gpcm_args) : gpcm_args :=
  GPCMArgs (a_causal a) (a_noise a) (a_alpha a) (a_alpha_t a) (a_window a) (a_gamma a) (a_scale a) (a_omega a)
    (a_n_u a) (a_n_u_cap a) (a_t_u a) (a_n_z a) (a_n_z_cap a) (a_t_z a) b (a_t a).

Lemma default_returns_ext b causal w s t lo hi :
  0 < w -> 0 < s < 4 * w -> lmin t = Ok lo -> lmax t = Ok hi -> s < 2 * (hi - lo) ->
  exists m, new_gpcm (extending b (default_args causal w s t)) = Ok m
            /\ g_alpha m = PI / (4 * w ^ 2) /\ g_gamma m = PI / (4 * s ^ 2) - PI / (8 * w ^ 2)
            /\ g_causal m = causal /\ 0 < g_omega m.
Proof.
  intros Hw Hs Elo Ehi Hr. unfold new_gpcm. pose proof PI_RGT_0 as Pi.
  destruct (scale_to_factor_pos w Hw) as [al [Hal [Eal Pal]]].
  destruct (scale_to_factor_pos s ltac:(lra)) as [ga [Hga [Ega Pga]]].
  destruct (factor_to_scale_pos al Pal) as [fs [Hfs [Pfs _]]].
  unfold init_alpha, init_alpha_t, init_gamma. cbn [extending default_args a_alpha a_alpha_t a_window a_gamma a_scale given bind a_causal].
  rewrite Hal. cbn [bind].
  assert (Q : forall x, 0 < x -> exists r, quartic_root x = Ok r).
  { intros x Hx. unfold quartic_root. destruct (Rlt_dec x 0); [lra|eauto]. }
  assert (exists at_, (if causal then quartic_root (8 * al / PI) else quartic_root (2 * al / PI)) = Ok at_) as [at_ Hat].
  { destruct causal; apply Q, Rdiv_lt_0_compat; lra. }
  rewrite Hat. cbn [bind]. rewrite Hga. cbn [bind]. rewrite Hfs. cbn [bind].
  unfold init_t_u. cbn [extending default_args a_t_u a_n_u a_window a_scale a_n_u_cap a_causal given bind].
  rewrite Hfs. cbn [bind]. rewrite rdiv_ok by lra. cbn [bind].
  assert (N2 : 1 < 2 * 2 * w / s).
  { apply Rmult_lt_reg_r with s; [lra|]. unfold Rdiv. rewrite Rmult_assoc, Rinv_l by lra. lra. }
  pose proof (iceil_ge2 _ N2) as N2'. rewrite cap_min. set (nu := Z.min 300 _). assert (Hnu : (2 <= nu)%Z) by (unfold nu; lia).
  assert (Gnu : IZR nu - 1 <> 0). { apply IZR_le in Hnu. lra. }
  assert (exists x, (if causal
     then do d_t_u <- rdiv (2 * fs) (IZR nu - 1); do t_u <- linspace (-2 * d_t_u) (2 * fs) (nu + 2); Ok ((nu + 2)%Z, t_u)
     else do t_u <- linspace (- (2 * fs)) (2 * fs) (if (nu mod 2 =? 0)%Z then (nu + 1)%Z else nu);
          Ok (if (nu mod 2 =? 0)%Z then (nu + 1)%Z else nu, t_u)) = Ok x) as [xu Hxu].
  { destruct causal.
    - rewrite rdiv_ok by auto. cbn [bind]. destruct (linspace_total (-2 * (2 * fs / (IZR nu - 1))) (2 * fs) (nu + 2) ltac:(lia)) as [l ->].
      cbn [bind]. eauto.
    - destruct (linspace_total (- (2 * fs)) (2 * fs) (if (nu mod 2 =? 0)%Z then (nu + 1)%Z else nu)) as [l ->].
      { destruct (nu mod 2 =? 0)%Z; lia. }
      cbn [bind]. eauto. }
  rewrite Hxu. cbn [bind].
  unfold init_t_z. cbn [extending default_args a_t_z a_t a_n_z given bind a_scale a_n_z_cap]. rewrite Ehi, Elo. cbn [bind].
  rewrite rdiv_ok by lra. cbn [bind]. rewrite cap_min.
  assert (Z2 : 1 < 2 * (hi - lo) / s).
  { apply Rmult_lt_reg_r with s; [lra|]. unfold Rdiv. rewrite Rmult_assoc, Rinv_l by lra. lra. }
  pose proof (iceil_ge2 _ Z2) as Z2'. set (nz := Z.min 300 _). assert (Hnz : (2 <= nz)%Z) by (unfold nz; lia).
  destruct (linspace_total lo hi nz ltac:(lia)) as [tz Htz]. rewrite Htz. cbn [bind].
  apply IZR_le in Hnz as Hnz'. set (dz := (hi - lo) / (IZR nz - 1)).
  assert (Pdz : 0 < dz) by (apply Rdiv_lt_0_compat; lra).
  assert (exists xz, extend_t_z (extending b (default_args causal w s t)) al (nz, tz) = Ok xz
            /\ exists a0 d0 n0, grid (snd xz) a0 d0 n0 /\ 0 < d0 /\ (2 <= n0)%nat) as [xz [Hxz [a0 [d0 [n0 [G [Pd0 Hn0]]]]]]].
  { unfold extend_t_z. cbn [extending default_args a_extend_t_z a_causal a_t given]. destruct b.
    - rewrite Hfs. cbn [bind given]. rewrite Ehi, Elo. cbn [bind fst]. rewrite rdiv_ok by lra. cbn [bind]. fold dz.
      rewrite rdiv_ok by lra. cbn [bind]. set (k := iceil _).
      assert (Pk : (1 <= k)%Z) by (apply iceil_pos, Rdiv_lt_0_compat; lra). apply IZR_le in Pk as Pk'.
      assert (0 <= IZR k * dz) by (apply Rmult_le_pos; lra).
      destruct causal.
      + destruct (linspace_total (lo - IZR k * dz) hi (nz + k) ltac:(lia)) as [l Hl]. rewrite Hl. cbn [bind].
        eexists. split; [reflexivity|]. destruct (linspace_grid _ _ _ _ Hl) as [_ [G _]]. do 3 eexists. split; [exact G|].
        split; [|lia]. rewrite plus_IZR. apply Rdiv_lt_0_compat; lra.
      + destruct (linspace_total (lo - IZR k * dz) (hi + IZR k * dz) (nz + 2 * k) ltac:(lia)) as [l Hl]. rewrite Hl. cbn [bind].
        eexists. split; [reflexivity|]. destruct (linspace_grid _ _ _ _ Hl) as [_ [G _]]. do 3 eexists. split; [exact G|].
        split; [|lia]. rewrite plus_IZR, mult_IZR. apply Rdiv_lt_0_compat; lra.
    - eexists. split; [reflexivity|]. destruct (linspace_grid _ _ _ _ Htz) as [_ [G _]]. do 3 eexists. split; [exact G|]. split; [exact Pdz|lia]. }
  rewrite Hxz. cbn [bind].
  unfold init_omega. cbn [extending default_args a_omega].
  unfold item. rewrite (nth_grid _ _ _ _ 1%nat G) by lia. rewrite (nth_grid _ _ _ _ 0%nat G) by lia. cbn [bind].
  set (hz := / 2 * _).
  assert (Phz : 0 < hz) by (unfold hz; simpl INR; lra).
  destruct (scale_to_factor_pos hz Phz) as [om [Hom [_ Pom]]]. rewrite Hom. cbn [bind].
  destruct (Q (2 * om / PI)) as [omt Homt]; [apply Rdiv_lt_0_compat; lra|]. rewrite Homt. cbn [bind].
  eexists. split; [reflexivity|]. simpl. split; [auto|]. split; [|auto]. rewrite Ega, Eal. field. lra.
Qed.

Lemma default_returns causal w s t lo hi :
  0 < w -> 0 < s < 4 * w -> lmin t = Ok lo -> lmax t = Ok hi -> s < 2 * (hi - lo) ->
  exists m, new_gpcm (default_args causal w s t) = Ok m
            /\ g_alpha m = PI / (4 * w ^ 2) /\ g_gamma m = PI / (4 * s ^ 2) - PI / (8 * w ^ 2)
            /\ g_causal m = causal /\ 0 < g_omega m.
Proof. apply (default_returns_ext false). Qed.

(** * C16: unit prior power *)

Lemma moderate_window w : / 10 ^ 5 <= w <= 10 ^ 5 -> moderate (PI / (4 * w ^ 2)).
Proof.
  intros [A B]. assert (P : 0 < / 10 ^ 5) by (apply Rinv_0_lt_compat, pow_lt; lra). pose proof PI_4 as P4. pose proof PI_gt_2 as P2.
  assert (W1 : (/ 10 ^ 5) ^ 2 <= w ^ 2) by (apply pow_incr; lra).
  assert (W2 : w ^ 2 <= (10 ^ 5) ^ 2) by (apply pow_incr; lra).
  assert (Pw : 0 < w ^ 2) by (apply pow_lt; lra).
  replace ((/ 10 ^ 5) ^ 2) with (/ 10 ^ 10) in W1 by (field; lra).
  unfold moderate. split.
  - apply Rmult_le_reg_r with (4 * w ^ 2); [lra|]. unfold Rdiv. rewrite Rmult_assoc, Rinv_l by lra.
    apply Rmult_le_reg_l with (10 ^ 12); [lra|]. rewrite <- Rmult_assoc, Rinv_r by lra. lra.
  - apply Rmult_le_reg_r with (4 * w ^ 2); [lra|]. unfold Rdiv. rewrite Rmult_assoc, Rinv_l by lra.
    assert (10 ^ 12 * (4 * / 10 ^ 10) <= 10 ^ 12 * (4 * w ^ 2)) by (apply Rmult_le_compat_l; lra). lra.
Qed.

Lemma unit_power_aux (m : gpcm) t v :
  0 < g_alpha m ->
  (if g_causal m then g_alpha_t m ^ 2 = sqrt (8 * g_alpha m / PI) else g_alpha_t m ^ 2 = sqrt (2 * g_alpha m / PI)) ->
  is_integral (fun tau => kh m (t - tau) (t - tau)) m_infty (upto m t) v -> v = 1.
Proof.
  intros Pa At I. pose proof PI_RGT_0 as Pi. set (al := g_alpha m) in *.
  assert (J : is_integral (fun x => g_alpha_t m ^ 2 * qf (-2 * al) 0 0 x) m_infty (if g_causal m then Finite 0 else p_infty) v).
  { eapply is_integral_ext; [|apply (is_integral_shift (fun tau => kh m (t - tau) (t - tau)) t m_infty _ v)].
    - intros x. cbv beta. unfold kh, qf. fold al. f_equal. f_equal. ring.
    - simpl lim_affine. unfold upto in I. destruct (g_causal m); simpl lim_affine; auto.
      replace (1 * 0 + t) with t by ring. exact I. }
  destruct (g_causal m).
  - pose proof (is_integral_scal (g_alpha_t m ^ 2) _ _ _ _ (gauss_half (-2 * al) 0 0 ltac:(lra))) as K.
    rewrite (is_integral_unique _ _ _ _ _ J K). rewrite At.
    replace (/ 2 * 0 / sqrt (- (-2 * al))) with 0 by (unfold Rdiv; ring). rewrite erf_0.
    replace (- / 4 * 0 ^ 2 / (-2 * al) + 0) with 0 by (field; lra). rewrite exp_0.
    replace (- PI / (-2 * al)) with (4 * (PI / (8 * al))) by (field; lra).
    rewrite sqrt_mult by (try lra; left; apply Rdiv_lt_0_compat; lra).
    replace (sqrt 4) with 2 by (replace 4 with (2 * 2) by ring; rewrite sqrt_square; lra).
    pose proof (sqrt_prod_1 (8 * al / PI) (PI / (8 * al)) ltac:(apply Rdiv_lt_0_compat; lra) ltac:(apply Rdiv_lt_0_compat; lra) ltac:(field; lra)).
    lra.
  - pose proof (is_integral_scal (g_alpha_t m ^ 2) _ _ _ _ (gauss_full (-2 * al) 0 0 ltac:(lra))) as K.
    rewrite (is_integral_unique _ _ _ _ _ J K). rewrite At.
    replace (- / 4 * 0 ^ 2 / (-2 * al) + 0) with 0 by (field; lra). rewrite exp_0.
    replace (- PI / (-2 * al)) with (PI / (2 * al)) by (field; lra).
    pose proof (sqrt_prod_1 (2 * al / PI) (PI / (2 * al)) ltac:(apply Rdiv_lt_0_compat; lra) ltac:(apply Rdiv_lt_0_compat; lra) ltac:(field; lra)).
    lra.
Qed.

(** Every GPCM and CGPCM whose [alpha_t] is left to the constructor, in particular every one
    that is built from a window and a scale, and every time. *)
Theorem C16_unit_power :
  forall (N : numdom) (so : setorder) (ofR : R -> N) (a : gpcm_args) (m : gpcm) (t : R),
    (forall r, val (ofR r) = r) ->
    new_gpcm a = Ok m -> a_alpha_t a = None -> moderate (g_alpha m) ->
    (forall v, compute_i_hx N so ofR m (Some t) (Some t) = Ok v -> v = 1)
    /\ (tensors N -> compute_i_hx N so ofR m (Some t) (Some t) = Ok 1).
Proof.
  intros N so ofR a m t Ho Hm Ha M.
  assert (A : forall v, compute_i_hx N so ofR m (Some t) (Some t) = Ok v -> v = 1).
  { intros v Hv. destruct (new_gpcm_inv a m Hm) as [Ec [_ [Eat _]]]. pose proof (moderate_pos _ M) as P.
    pose proof (i_hx_spec N so ofR Ho m t t v M Hv) as I. rewrite Rmin_left in I by lra.
    apply (unit_power_aux m t v); auto. unfold init_alpha_t in Eat. rewrite Ha in Eat. rewrite Ec. pose proof PI_RGT_0.
    destruct (a_causal a); apply quartic_root_sq in Eat; try apply Eat; left; apply Rdiv_lt_0_compat; lra. }
  split; auto. intros T. destruct (i_hx_total N so ofR Ho T m (Some t) (Some t) M) as [v Hv]. now rewrite Hv, (A v Hv).
Qed.

Print Assumptions C16_unit_power.

(** The models [GPCM(window=w, scale=s, t=data)] and [CGPCM(...)] exist and have unit power. *)
Theorem C16_unit_power_default :
  forall (N : numdom) (so : setorder) (ofR : R -> N) (causal : bool) (w s : R) (data : list R) (x y : R),
    (forall r, val (ofR r) = r) -> tensors N ->
    / 10 ^ 5 <= w <= 10 ^ 5 -> 0 < s < 4 * w -> In x data -> In y data -> s < 2 * (y - x) ->
    exists m, new_gpcm (default_args causal w s data) = Ok m
              /\ forall t, compute_i_hx N so ofR m (Some t) (Some t) = Ok 1.
Proof.
  intros N so ofR causal w s data x y Ho T Hw Hs Hx Hy Hd.
  assert (P : 0 < / 10 ^ 5) by (apply Rinv_0_lt_compat, pow_lt; lra).
  assert (exists lo, lmin data = Ok lo) as [lo Elo] by (destruct data; [destruct Hx|simpl; eauto]).
  assert (exists hi, lmax data = Ok hi) as [hi Ehi] by (destruct data; [destruct Hx|simpl; eauto]).
  pose proof (proj2 (lmin_spec _ _ Elo) x Hx). pose proof (proj2 (lmax_spec _ _ Ehi) y Hy).
  destruct (default_returns causal w s data lo hi) as [m [Hm [Eal _]]]; auto; try lra.
  exists m. split; auto. intros t.
  apply (C16_unit_power N so ofR (default_args causal w s data) m t); auto. rewrite Eal. now apply moderate_window.
Qed.

Print Assumptions C16_unit_power_default.

Example C16_witness :
  exists m, new_gpcm (default_args true 1 1 [0; 5]) = Ok m
            /\ forall t, compute_i_hx RTensorDom ord_id idR m (Some t) (Some t) = Ok 1.
Proof.
  apply (C16_unit_power_default RTensorDom ord_id idR true 1 1 [0; 5] 0 5); simpl; auto; try lra.
  intros c. reflexivity.
Qed.

(** * C17: the inducing points of the filter *)

(** At least two inducing points are asked for: by [n_u], or by a length scale that is shorter
    than four windows. *)
Definition asks_for_two (a : gpcm_args) : Prop :=
  match a_n_u a with
  | Some n => (2 <= n)%Z
  | None => (2 <= a_n_u_cap a)%Z
            /\ exists w s, a_window a = Some w /\ a_scale a = Some s /\ 0 < s < 4 * w
  end.

Lemma asks_requested a r : asks_for_two a -> requested_n_u a r -> (2 <= r)%Z.
Proof.
  unfold asks_for_two, requested_n_u. destruct (a_n_u a) as [n|]; [intros A ->; exact A|].
  intros [C [w [s [Ew [Es Hs]]]]] [w' [s' [Ew' [Es' [_ ->]]]]].
  rewrite Ew in Ew'. rewrite Es in Es'. injection Ew' as <-. injection Es' as <-.
  assert (1 < 4 * w / s).
  { apply Rmult_lt_reg_r with s; [lra|]. unfold Rdiv. rewrite Rmult_assoc, Rinv_l by lra. lra. }
  pose proof (iceil_ge2 _ H). lia.
Qed.

Lemma same_length al L L' : 0 < al -> 0 < L -> 0 < L' -> al * L ^ 2 = PI -> exp (- al * L' ^ 2) = exp (- PI) -> L' = L.
Proof.
  intros Ha HL HL' E E'. apply exp_inv in E'. apply sq_inj; auto. apply Rmult_eq_reg_l with al; lra.
Qed.

(** [L] is where the window [exp (- alpha t^2)] has decayed to [exp (- pi)]. *)
Theorem C17_filter_grid :
  forall (a : gpcm_args) (m : gpcm) (L : R),
    new_gpcm a = Ok m -> a_t_u a = None -> asks_for_two a -> 0 < g_alpha m ->
    0 < L -> exp (- g_alpha m * L ^ 2) = exp (- PI) ->
    Z.of_nat (List.length (g_t_u m)) = g_n_u m
    /\ In 0 (g_t_u m)
    /\ nth_error (g_t_u m) (List.length (g_t_u m) - 1) = Some L
    /\ exists d, 0 < d
        /\ grid (g_t_u m) (if a_causal a then -2 * d else - L) d (List.length (g_t_u m))
        /\ (a_causal a = false -> forall x, In x (g_t_u m) <-> In (- x) (g_t_u m)).
Proof.
  intros a m L Hm Ht As Pa PL EL. destruct (new_gpcm_inv a m Hm) as [Ec [_ [_ [_ [Hu _]]]]].
  destruct (t_u_inv a (g_alpha m) (g_n_u m) (g_t_u m) Pa Ht Hu) as [r [L' [Hr [PL' [EL' G]]]]].
  assert (L = L') by (apply (same_length (g_alpha m)); auto). subst L'. clear PL' EL' EL.
  pose proof (asks_requested a r As Hr) as R2. apply IZR_le in R2 as R2'.
  destruct (a_causal a).
  - destruct G as [En [_ [Pn G]]]. set (d := L / (IZR r - 1)) in *.
    assert (Pd : 0 < d) by (apply Rdiv_lt_0_compat; lra).
    assert (Ed : (L - -2 * d) / (IZR (g_n_u m) - 1) = d).
    { rewrite En, plus_IZR. assert (L = d * (IZR r - 1)) by (unfold d; field; lra). rewrite H at 1. field. lra. }
    rewrite Ed in G. pose proof (proj1 G) as Len.
    assert (In 0 (g_t_u m)).
    { replace 0 with (-2 * d + INR 2 * d) by (simpl; ring). apply (grid_In _ _ _ _ 2 G). lia. }
    split; [rewrite Len; lia|]. split; auto. split.
    + rewrite Len. rewrite (nth_grid _ _ _ _ (Z.to_nat (g_n_u m) - 1) G) by lia. f_equal.
      rewrite minus_INR by lia. rewrite INR_Z by lia. rewrite En, plus_IZR. unfold d. simpl. field. lra.
    + exists d. rewrite Len. split; auto. split; auto. discriminate.
  - destruct G as [En [Pn G]].
    assert (On : exists k, (1 <= k)%Z /\ g_n_u m = (2 * k + 1)%Z).
    { rewrite En. destruct (Z.even r) eqn:Er.
      - apply Z.even_spec in Er. destruct Er as [k Ek]. exists k. lia.
      - assert (Z.odd r = true) as Or by (rewrite <- Z.negb_even, Er; reflexivity). apply Z.odd_spec in Or. destruct Or as [k Ek]. exists k. lia. }
    destruct On as [k [Pk Ek]]. rewrite Ek in *. apply IZR_le in Pk as Pk'.
    assert (Ed : (L - - L) / (IZR (2 * k + 1) - 1) = L / IZR k).
    { rewrite plus_IZR, mult_IZR. field. lra. }
    rewrite Ed in G. set (d := L / IZR k) in *. assert (EL : L = d * IZR k) by (unfold d; field; lra).
    assert (Pd : 0 < d) by (apply Rdiv_lt_0_compat; lra). pose proof (proj1 G) as Len.
    split; [rewrite Len; lia|]. split; [|split].
    + replace 0 with (- L + INR (Z.to_nat k) * d) by (rewrite INR_Z by lia; rewrite EL at 1; ring). apply (grid_In _ _ _ _ _ G). lia.
    + rewrite Len. rewrite (nth_grid _ _ _ _ (Z.to_nat (2 * k + 1) - 1) G) by lia. f_equal.
      rewrite minus_INR by lia. rewrite INR_Z by lia. rewrite plus_IZR, mult_IZR. simpl INR. rewrite EL. ring.
    + exists d. rewrite Len. split; auto. split; auto. intros _.
      assert (S : forall x, In x (g_t_u m) -> In (- x) (g_t_u m)).
      { intros x Hx. destruct (grid_mem _ _ _ _ _ G Hx) as [i [Hi ->]].
        replace (- (- L + INR i * d)) with (- L + INR (Z.to_nat (2 * k + 1) - 1 - i) * d).
        - apply (grid_In _ _ _ _ _ G). lia.
        - rewrite !minus_INR by lia. rewrite INR_Z by lia. rewrite plus_IZR, mult_IZR. simpl INR. rewrite EL. ring. }
      intros x. split; auto. intros H. apply S in H. now rewrite Ropp_involutive in H.
Qed.

Print Assumptions C17_filter_grid.

Example C17_witness :
  forall causal, exists m, new_gpcm (default_args causal 1 (1 / 10) [0; 5]) = Ok m
    /\ a_t_u (default_args causal 1 (1 / 10) [0; 5]) = None /\ asks_for_two (default_args causal 1 (1 / 10) [0; 5])
    /\ 0 < g_alpha m /\ exp (- g_alpha m * 2 ^ 2) = exp (- PI) /\ In 0 (g_t_u m).
Proof.
  intros causal. destruct (default_returns causal 1 (1 / 10) [0; 5] (Rmin 0 5) (Rmax 0 5)) as [m [Hm [Ea _]]]; try reflexivity; try lra.
  { rewrite Rmin_left, Rmax_right; lra. }
  exists m. assert (As : asks_for_two (default_args causal 1 (1 / 10) [0; 5])).
  { split; [simpl; lia|]. exists 1, (1 / 10). repeat split; lra. }
  assert (Pa : 0 < g_alpha m). { rewrite Ea. pose proof PI_RGT_0. apply Rdiv_lt_0_compat; lra. }
  assert (El : exp (- g_alpha m * 2 ^ 2) = exp (- PI)). { f_equal. rewrite Ea. field. }
  repeat (split; auto). apply (C17_filter_grid _ m 2 Hm eq_refl As Pa ltac:(lra) El).
Qed.

(** * C18: the inducing points of the excitation process *)

(** [lo] and [hi] are the extremes of the data. *)
Definition extremes (data : list R) (lo hi : R) : Prop :=
  In lo data /\ In hi data /\ forall x, In x data -> lo <= x <= hi.

Lemma extremes_unique data lo hi lo' hi' : extremes data lo hi -> extremes data lo' hi' -> lo = lo' /\ hi = hi'.
Proof.
  intros [A [B C]] [A' [B' C']]. pose proof (C _ A'). pose proof (C _ B'). pose proof (C' _ A). pose proof (C' _ B). split; lra.
Qed.

Theorem C18_excitation_grid :
  forall (a : gpcm_args) (m : gpcm) (data : list R) (lo hi : R),
    new_gpcm a = Ok m -> a_t_z a = None -> a_extend_t_z a = false -> (2 <= g_n_z m)%Z ->
    a_t a = Some data -> extremes data lo hi ->
    Z.of_nat (List.length (g_t_z m)) = g_n_z m
    /\ nth_error (g_t_z m) (List.length (g_t_z m) - 1) = Some hi
    /\ exists d, grid (g_t_z m) lo d (List.length (g_t_z m)).
Proof.
  intros a m data lo hi Hm Ht Ex N2 Et Hx. destruct (new_gpcm_inv a m Hm) as [_ [_ [_ [_ [_ [[[n0 t0] [Hz He]] _]]]]]].
  unfold extend_t_z in He. rewrite Ex in He. injection He as -> ->.
  destruct (t_z_inv a _ _ Ht Hz) as (t & lo' & hi' & Et' & Elo & Ehi & _ & Pn & G).
  rewrite Et in Et'. injection Et' as <-. apply lmin_spec in Elo. apply lmax_spec in Ehi.
  destruct (extremes_unique data lo hi lo' hi' Hx) as [<- <-].
  { split; [apply Elo|]. split; [apply Ehi|]. intros x X. split; [now apply Elo|now apply Ehi]. }
  pose proof (proj1 G) as Len. apply IZR_le in N2 as N2'. split; [rewrite Len; lia|]. split.
  - rewrite Len. rewrite (nth_grid _ _ _ _ (Z.to_nat (g_n_z m) - 1) G) by lia. f_equal.
    rewrite minus_INR by lia. rewrite INR_Z by lia. simpl INR. field. lra.
  - eexists. rewrite Len. exact G.
Qed.

Print Assumptions C18_excitation_grid.

Lemma grid_shift_In l a d n l' k d' n' :
  grid l a d n -> grid l' (a - IZR k * d) d' n' -> d' = d -> (0 <= k)%Z -> (Z.to_nat k + n <= n')%nat ->
  forall x, In x l -> In x l'.
Proof.
  intros G G' -> Hk Hn x Hx. destruct (grid_mem _ _ _ _ _ G Hx) as [i [Hi ->]].
  replace (a + INR i * d) with (a - IZR k * d + INR (Z.to_nat k + i) * d).
  - apply (grid_In _ _ _ _ _ G'). lia.
  - rewrite plus_INR, INR_Z by auto. ring.
Qed.

Theorem C18_extended_grid :
  forall (a : gpcm_args) (m m' : gpcm) (data : list R) (lo hi L : R),
    new_gpcm (extending false a) = Ok m -> new_gpcm (extending true a) = Ok m' ->
    a_t_z a = None -> (2 <= g_n_z m)%Z -> 0 < g_alpha m ->
    a_t a = Some data -> extremes data lo hi -> lo < hi ->
    0 < L -> exp (- g_alpha m * L ^ 2) = exp (- PI) ->
    Z.of_nat (List.length (g_t_z m')) = g_n_z m'
    /\ (forall x, In x (g_t_z m) -> In x (g_t_z m'))
    /\ exists d lo', 0 < d
        /\ grid (g_t_z m) lo d (List.length (g_t_z m))
        /\ grid (g_t_z m') lo' d (List.length (g_t_z m'))
        /\ lo' <= lo - L
        /\ exists hi', nth_error (g_t_z m') (List.length (g_t_z m') - 1) = Some hi'
             /\ if a_causal a then hi' = hi else hi + L <= hi'.
Proof.
  intros a m m' data lo hi L Hm Hm' Ht N2 Pa Et Hx Hlh PL EL.
  destruct (new_gpcm_inv _ m Hm) as [_ [Ha [_ [_ [_ [[[n0 t0] [Hz He]] _]]]]]].
  unfold extend_t_z in He. cbn [extending a_extend_t_z] in He. injection He as -> ->.
  destruct (new_gpcm_inv _ m' Hm') as [_ [Ha' [_ [_ [_ [[[n1 t1] [Hz' He']] _]]]]]].
  change (init_t_z (extending true a)) with (init_t_z (extending false a)) in Hz'. rewrite Hz in Hz'. injection Hz' as <- <-.
  change (init_alpha (extending true a)) with (init_alpha (extending false a)) in Ha'. rewrite Ha in Ha'. injection Ha' as Ea.
  rewrite <- Ea in He'.
  destruct (t_z_inv _ _ _ Ht Hz) as (t & lo' & hi' & Et' & Elo & Ehi & _ & Pn & G).
  cbn [extending a_t] in Et'. rewrite Et in Et'. injection Et' as <-.
  destruct (extend_inv (extending true a) (g_alpha m) _ data lo' hi' _ _ Pa eq_refl Et Elo Ehi He') as (L' & k & PL' & EL' & Nd & Hk & Pn' & G').
  apply lmin_spec in Elo. apply lmax_spec in Ehi.
  destruct (extremes_unique data lo hi lo' hi' Hx) as [<- <-].
  { split; [apply Elo|]. split; [apply Ehi|]. intros x X. split; [now apply Elo|now apply Ehi]. }
  assert (L = L') by (apply (same_length (g_alpha m)); auto). subst L'. clear PL' EL' EL. simpl fst in *.
  apply IZR_le in N2 as N2'. set (n := g_n_z m) in *. set (d := (hi - lo) / (IZR n - 1)) in *.
  assert (Pd : 0 < d) by (apply Rdiv_lt_0_compat; lra).
  assert (Ed : hi - lo = d * (IZR n - 1)) by (unfold d; field; lra).
  assert (Pk : 0 < L / d) by (apply Rdiv_lt_0_compat; lra).
  assert (Zk : (1 <= k)%Z). { assert (0 < IZR k) by lra. apply (lt_IZR 0) in H. lia. } apply IZR_le in Zk as Zk'.
  assert (Lk : L <= IZR k * d).
  { replace L with (L / d * d) by (field; lra). apply Rmult_le_compat_r; lra. }
  cbn [extending a_causal] in G'. destruct (a_causal a).
  - destruct G' as [En G']. pose proof (proj1 G) as Len. pose proof (proj1 G') as Len'.
    assert (Ed' : (hi - (lo - IZR k * d)) / (IZR (g_n_z m') - 1) = d).
    { rewrite En, plus_IZR. replace (hi - (lo - IZR k * d)) with (d * (IZR n + IZR k - 1)) by (rewrite <- Rmult_1_r with (IZR k * d); lra). field. lra. }
    rewrite Ed' in G'. split; [rewrite Len'; lia|]. split.
    + eapply (grid_shift_In _ lo d _ _ k d); eauto; lia.
    + exists d, (lo - IZR k * d). rewrite Len, Len'. repeat split; auto; try apply G; try apply G'; try lra.
      exists hi. split; auto. rewrite (nth_grid _ _ _ _ (Z.to_nat (g_n_z m') - 1) G') by lia. f_equal.
      rewrite minus_INR by lia. rewrite INR_Z by lia. rewrite En, plus_IZR. simpl INR. lra.
  - destruct G' as [En G']. pose proof (proj1 G) as Len. pose proof (proj1 G') as Len'.
    assert (Ed' : (hi + IZR k * d - (lo - IZR k * d)) / (IZR (g_n_z m') - 1) = d).
    { rewrite En, plus_IZR, mult_IZR. replace (hi + IZR k * d - (lo - IZR k * d)) with (d * (IZR n + 2 * IZR k - 1)) by lra. field. lra. }
    rewrite Ed' in G'. split; [rewrite Len'; lia|]. split.
    + eapply (grid_shift_In _ lo d _ _ k d); eauto; lia.
    + exists d, (lo - IZR k * d). rewrite Len, Len'. repeat split; auto; try apply G; try apply G'; try lra.
      exists (hi + IZR k * d). split; [|lra]. rewrite (nth_grid _ _ _ _ (Z.to_nat (g_n_z m') - 1) G') by lia. f_equal.
      rewrite minus_INR by lia. rewrite INR_Z by lia. rewrite En, plus_IZR, mult_IZR. simpl INR. lra.
Qed.

Print Assumptions C18_extended_grid.

Example C18_witness :
  forall causal, exists m m',
    new_gpcm (extending false (default_args causal 1 1 [3; 0; 5])) = Ok m
    /\ new_gpcm (extending true (default_args causal 1 1 [3; 0; 5])) = Ok m'
    /\ (2 <= g_n_z m)%Z /\ 0 < g_alpha m /\ extremes [3; 0; 5] 0 5
    /\ exp (- g_alpha m * 2 ^ 2) = exp (- PI)
    /\ forall x, In x (g_t_z m) -> In x (g_t_z m').
Proof.
  intros causal.
  assert (Emin : lmin [3; 0; 5] = Ok 0) by (simpl; f_equal; rewrite (Rmin_right 3 0), Rmin_left; lra).
  assert (Emax : lmax [3; 0; 5] = Ok 5) by (simpl; f_equal; rewrite (Rmax_left 3 0), Rmax_right; lra).
  destruct (default_returns_ext false causal 1 1 [3; 0; 5] 0 5) as [m [Hm [Ea _]]]; auto; try lra.
  destruct (default_returns_ext true causal 1 1 [3; 0; 5] 0 5) as [m' [Hm' _]]; auto; try lra.
  exists m, m'. split; auto. split; auto.
  assert (N2 : (2 <= g_n_z m)%Z).
  { destruct (new_gpcm_inv _ m Hm) as [_ [_ [_ [_ [_ [[[n0 t0] [Hz He]] _]]]]]].
    unfold extend_t_z in He. cbn [extending a_extend_t_z] in He. injection He as -> ->.
    pose proof (fun H => t_z_inv _ _ _ H Hz) as Z'; destruct (Z' eq_refl) as (t & lo' & hi' & Et' & Elo & Ehi & Hr & _).
    injection Et' as <-. rewrite Emin in Elo. rewrite Emax in Ehi. injection Elo as <-. injection Ehi as <-.
    destruct Hr as [s [Es [_ ->]]]. injection Es as <-.
    pose proof (iceil_ge2 (2 * (5 - 0) / 1) ltac:(lra)). simpl a_n_z_cap. lia. }
  assert (Pa : 0 < g_alpha m). { rewrite Ea. pose proof PI_RGT_0. apply Rdiv_lt_0_compat; lra. }
  assert (El : exp (- g_alpha m * 2 ^ 2) = exp (- PI)). { f_equal. rewrite Ea. field. }
  assert (Ex : extremes [3; 0; 5] 0 5).
  { split; [simpl; auto|]. split; [simpl; auto|]. intros x [<-|[<-|[<-|[]]]]; lra. }
  repeat (split; auto).
  apply (C18_extended_grid _ m m' [3; 0; 5] 0 5 2 Hm Hm' eq_refl N2 Pa eq_refl Ex ltac:(lra) ltac:(lra) El).
Qed.

(** * C19: caps *)

(** What holds of the automatic counts: the cap of [n_z] is respected without extension, the
    cap of [n_u] up to the one or two points that are added afterwards. *)
Theorem C19_caps_partial :
  forall (a : gpcm_args) (m : gpcm),
    new_gpcm a = Ok m -> 0 < g_alpha m ->
    (a_n_u a = None -> a_t_u a = None -> (g_n_u m <= a_n_u_cap a + if a_causal a then 2 else 1)%Z)
    /\ (a_n_z a = None -> a_t_z a = None -> a_extend_t_z a = false -> (g_n_z m <= a_n_z_cap a)%Z).
Proof.
  intros a m Hm Pa. destruct (new_gpcm_inv a m Hm) as [_ [_ [_ [_ [Hu [[[n0 t0] [Hz He]] _]]]]]]. split.
  - intros Hn Ht. destruct (t_u_inv a (g_alpha m) _ _ Pa Ht Hu) as [r [L' [Hr [_ [_ G]]]]].
    unfold requested_n_u in Hr. rewrite Hn in Hr. destruct Hr as [w [s [_ [_ [_ Er]]]]].
    destruct (a_causal a); destruct G as [En _]; [lia|]. destruct (Z.even r); lia.
  - intros Hn Ht Hx. unfold extend_t_z in He. rewrite Hx in He. injection He as -> ->.
    destruct (t_z_inv a _ _ Ht Hz) as (t & lo' & hi' & _ & _ & _ & Hr & _).
    unfold requested_n_z in Hr. rewrite Hn in Hr. destruct Hr as [s [_ [_ Er]]]. lia.
Qed.

Print Assumptions C19_caps_partial.

(** The caps are exceeded, by both model classes and for both counts. *)
Theorem C19_caps_refuted :
  forall causal : bool,
    (exists w s data m, 0 < s /\ 0 < w /\ new_gpcm (default_args causal w s data) = Ok m
        /\ (a_n_u_cap (default_args causal w s data) < g_n_u m)%Z)
    /\ (exists w s data m, 0 < s /\ 0 < w /\ new_gpcm (extending true (default_args causal w s data)) = Ok m
        /\ (a_n_z_cap (default_args causal w s data) < g_n_z m)%Z).
Proof.
  intros causal. pose proof PI_RGT_0 as Pi.
  assert (Emin : lmin [0; 5] = Ok 0) by (simpl; f_equal; rewrite Rmin_left; lra).
  assert (Emax : lmax [0; 5] = Ok 5) by (simpl; f_equal; rewrite Rmax_right; lra).
  split.
  - exists 1, (1 / 100), [0; 5]. destruct (default_returns causal 1 (1 / 100) [0; 5] 0 5) as [m [Hm [Ea _]]]; auto; try lra.
    exists m. split; [lra|]. split; [lra|]. split; auto. assert (Pa : 0 < g_alpha m) by (rewrite Ea; apply Rdiv_lt_0_compat; lra).
    destruct (new_gpcm_inv _ m Hm) as [_ [_ [_ [_ [Hu _]]]]].
    pose proof (fun H => t_u_inv _ (g_alpha m) _ _ Pa H Hu) as Z'; destruct (Z' eq_refl) as [r [L' [Hr [_ [_ G]]]]].
    destruct Hr as [w [s [Ew [Es [_ Er]]]]]. injection Ew as <-. injection Es as <-.
    rewrite (iceil_unique (4 * 1 / (1 / 100)) 400) in Er by lra. change (Z.min _ _) with 300%Z in Er. subst r.
    cbn [default_args a_causal a_n_u_cap] in *. destruct causal; destruct G as [En _]; rewrite En; simpl; lia.
  - exists 1, (1 / 100), [0; 5]. destruct (default_returns_ext true causal 1 (1 / 100) [0; 5] 0 5) as [m [Hm [Ea _]]]; auto; try lra.
    exists m. split; [lra|]. split; [lra|]. split; auto. assert (Pa : 0 < g_alpha m) by (rewrite Ea; apply Rdiv_lt_0_compat; lra).
    destruct (new_gpcm_inv _ m Hm) as [_ [_ [_ [_ [_ [[[n0 t0] [Hz He]] _]]]]]].
    pose proof (fun H => t_z_inv _ _ _ H Hz) as Z'; destruct (Z' eq_refl) as (t & lo' & hi' & Et & Elo & Ehi & Hr & _).
    injection Et as <-. destruct Hr as [s [Es [_ Er]]]. injection Es as <-.
    rewrite Emin in Elo. rewrite Emax in Ehi. injection Elo as <-. injection Ehi as <-.
    rewrite (iceil_unique (2 * (5 - 0) / (1 / 100)) 1000) in Er by lra. change (Z.min _ _) with 300%Z in Er. subst n0.
    destruct (extend_inv (extending true (default_args causal 1 (1 / 100) [0; 5])) (g_alpha m) _ [0; 5] 0 5 _ _ Pa eq_refl eq_refl Emin Emax He)
      as (L' & k & PL' & EL' & Nd & Hk & Pn' & G'). simpl fst in *.
    assert (Pk : 0 < L' / ((5 - 0) / (300 - 1))) by (apply Rdiv_lt_0_compat; lra).
    assert (Zk : (1 <= k)%Z). { assert (0 < IZR k) by lra. apply (lt_IZR 0) in H. lia. }
    cbn [extending default_args a_causal a_n_z_cap] in *. destruct causal; destruct G' as [En _]; rewrite En; lia.
Qed.

Print Assumptions C19_caps_refuted.

(** * C20: admissible decays *)

(** The decay of the prior of the filter is positive exactly for length scales shorter than
    sqrt(2) windows. *)
Theorem C20_gamma_sign_partial :
  forall (a : gpcm_args) (m : gpcm) (w s : R),
    new_gpcm a = Ok m -> a_alpha a = None -> a_gamma a = None ->
    a_window a = Some w -> a_scale a = Some s -> 0 < w -> 0 < s ->
    (0 < g_gamma m <-> s < sqrt 2 * w) /\ 0 < g_alpha m /\ 0 < g_alpha m + 2 * g_gamma m.
Proof.
  intros a m w s Hm Na Ng Ew Es Pw Ps. destruct (new_gpcm_inv a m Hm) as [_ [Ha [_ [Hg _]]]].
  unfold init_alpha in Ha. rewrite Na, Ew in Ha. cbn [given bind] in Ha.
  unfold init_gamma in Hg. rewrite Ng, Es in Hg. cbn [given bind] in Hg.
  destruct (scale_to_factor_pos w Pw) as [f [Hf [Ef Pf]]]. rewrite Hf in Ha. injection Ha as Ea.
  destruct (scale_to_factor_pos s Ps) as [g [Hg' [Eg Pg]]]. rewrite Hg' in Hg. cbn [bind] in Hg. injection Hg as Egm.
  rewrite <- Ea in *. rewrite <- Egm. pose proof PI_RGT_0 as Pi.
  assert (S2 : 0 < sqrt 2) by (apply sqrt_lt_R0; lra). assert (Sq : sqrt 2 * sqrt 2 = 2) by (apply sqrt_sqrt; lra).
  assert (I : 0 < g - / 2 * f <-> s ^ 2 < 2 * w ^ 2).
  { assert (D : (g - / 2 * f) * (8 * s ^ 2 * w ^ 2) = PI * (2 * w ^ 2 - s ^ 2)) by (rewrite Eg, Ef; field; lra).
    assert (K : 0 < 8 * s ^ 2 * w ^ 2) by (assert (0 < s ^ 2) by (apply pow_lt; lra); assert (0 < w ^ 2) by (apply pow_lt; lra); nra).
    split; intros H.
    - assert (0 < PI * (2 * w ^ 2 - s ^ 2)) by (rewrite <- D; now apply Rmult_lt_0_compat).
      apply (Rmult_lt_reg_l PI); lra.
    - apply (Rmult_lt_reg_r (8 * s ^ 2 * w ^ 2)); auto. rewrite D, Rmult_0_l. apply Rmult_lt_0_compat; lra. }
  split; [|split; [auto|lra]]. rewrite I. replace (2 * w ^ 2) with ((sqrt 2 * w) ^ 2) by (rewrite Rpow_mult_distr; simpl; rewrite Rmult_1_r, Sq; ring).
  assert (0 < sqrt 2 * w) by nra. split; intros H'; [|nra]. destruct (Rlt_le_dec s (sqrt 2 * w)); auto. nra.
Qed.

Print Assumptions C20_gamma_sign_partial.

Theorem C20_positive_gamma_refuted :
  forall causal : bool, exists w s data m,
    0 < w /\ 0 < s /\ new_gpcm (default_args causal w s data) = Ok m /\ g_gamma m < 0.
Proof.
  intros causal. pose proof PI_RGT_0 as Pi. exists 1, 2, [0; 5].
  destruct (default_returns causal 1 2 [0; 5] (Rmin 0 5) (Rmax 0 5)) as [m [Hm [_ [Eg _]]]]; try reflexivity; try lra.
  { rewrite Rmin_left, Rmax_right; lra. }
  exists m. split; [lra|]. split; [lra|]. split; auto. rewrite Eg. simpl. lra.
Qed.

Print Assumptions C20_positive_gamma_refuted.
