(** C85: instantiating a model leaves its parameters as they were constructed. *)
From Coq Require Import Reals ZArith List Bool Lia Lra Psatz.
From Verif Require Import Py ListFacts ExpPolyModel ExpPolyIntModel ExpPolyIntProofs GpcmModel GpcmSpec GpcmInit GpcmProps.
From Verif Require Import RgpcmModel RgpcmSpec RgpcmInit RgpcmProps RgpcmProps2 PriorModel.
Import ListNotations.
Local Open Scope R_scope.

(** The declarations keep values that satisfy the constraints and refuse all others. *)
Lemma ps_positive_iff x y : ps_positive x = Ok y <-> 0 < x /\ y = x.
Proof.
  unfold ps_positive, finite_log. destruct (Rlt_dec 0 x) as [H|H]; cbn [bind].
  - rewrite exp_ln by exact H. split; [intros E; injection E as <-; auto|intros [_ ->]; reflexivity].
  - split; [discriminate|tauto].
Qed.

Lemma ps_bounded_iff x lo hi y : ps_bounded x lo hi = Ok y <-> lo < x < hi /\ y = x.
Proof.
  unfold ps_bounded, finite_log. destruct (Rlt_dec 0 (hi - x)) as [H|H]; cbn [bind].
  2:{ split; [discriminate|intros [? _]; lra]. }
  destruct (Rlt_dec 0 (x - lo)) as [H'|H']; cbn [bind].
  2:{ split; [discriminate|intros [? _]; lra]. }
  unfold Rminus at 2. rewrite exp_plus, exp_Ropp, !exp_ln by assumption.
  replace (lo + (hi - lo) / (1 + (hi - x) * / (x - lo))) with x by (field; lra).
  split; [intros E; injection E as <-; split; lra|intros [_ ->]; reflexivity].
Qed.

Lemma learn_iff b x y : learn b x = Ok y <-> (b = false -> 0 < x) /\ y = x.
Proof.
  destruct b; cbn [learn].
  - split; [intros E; injection E as <-; split; [discriminate|reflexivity]|intros [_ ->]; reflexivity].
  - rewrite ps_positive_iff. tauto.
Qed.

Lemma mapM_bounded lo hi l r : mapM (fun u => ps_bounded u lo hi) l = Ok r <-> Forall (fun u => lo < u < hi) l /\ r = l.
Proof.
  split.
  - intros H. apply mapM_Ok in H. induction H as [|u v l r H _ [IH ->]]; [split; [constructor|reflexivity]|].
    apply ps_bounded_iff in H. destruct H as [H ->]. split; [constructor; assumption|reflexivity].
  - intros [H ->]. induction H as [|u l H _ IH]; [reflexivity|]. cbn [mapM].
    rewrite (proj2 (ps_bounded_iff u lo hi u)) by (split; [exact H|reflexivity]). cbn [bind]. rewrite IH. reflexivity.
Qed.

(** C85 for the GPCM and the CGPCM: instantiating succeeds exactly if every initial value
    satisfies the constraint under which it is learned, and then changes no attribute. *)
Theorem C85_gpcm_partial : forall (fx : fixes) (m m' : gpcm),
  gpcm_prior fx m = Ok m' <->
  m' = m /\
  (fix_noise fx = false -> 0 < g_noise m) /\ (fix_window fx = false -> 0 < g_alpha m) /\ 0 < g_alpha_t m /\
  (fix_scale fx = false -> 0 < g_gamma m) /\ 0 < g_omega m /\
  exists lo hi, extremes (g_t_u m) lo hi /\ lo < 0 < hi.
Proof.
  intros fx m m'. split.
  - intros H. unfold gpcm_prior in H.
    apply bind_Ok in H. destruct H as [noise [H1 H]]. apply learn_iff in H1. destruct H1 as [P1 ->].
    apply bind_Ok in H. destruct H as [alpha [H2 H]]. apply learn_iff in H2. destruct H2 as [P2 ->].
    apply bind_Ok in H. destruct H as [alpha_t [H3 H]]. apply ps_positive_iff in H3. destruct H3 as [P3 ->].
    apply bind_Ok in H. destruct H as [gamma [H4 H]]. apply learn_iff in H4. destruct H4 as [P4 ->].
    apply bind_Ok in H. destruct H as [omega [H5 H]]. apply ps_positive_iff in H5. destruct H5 as [P5 ->].
    apply bind_Ok in H. destruct H as [lo [H6 H]]. apply bind_Ok in H. destruct H as [hi [H7 H]].
    apply bind_Ok in H. destruct H as [t_u [H8 H]]. apply mapM_bounded in H8. destruct H8 as [P8 ->].
    injection H as <-. split; [destruct m; reflexivity|]. repeat split; auto.
    apply lmin_spec in H6. apply lmax_spec in H7. destruct H6 as [I6 M6]. destruct H7 as [I7 M7].
    exists lo, hi. split; [split; [exact I6|split; [exact I7|intros x Hx; split; auto]]|].
    rewrite Forall_forall in P8. generalize (P8 lo I6) (P8 hi I7). lra.
  - intros (-> & P1 & P2 & P3 & P4 & P5 & lo & hi & E & L). unfold gpcm_prior.
    rewrite (proj2 (learn_iff _ _ _) (conj P1 eq_refl)). cbn [bind].
    rewrite (proj2 (learn_iff _ _ _) (conj P2 eq_refl)). cbn [bind].
    rewrite (proj2 (ps_positive_iff _ _) (conj P3 eq_refl)). cbn [bind].
    rewrite (proj2 (learn_iff _ _ _) (conj P4 eq_refl)). cbn [bind].
    rewrite (proj2 (ps_positive_iff _ _) (conj P5 eq_refl)). cbn [bind].
    assert (exists lo', lmin (g_t_u m) = Ok lo') as [lo' El].
    { destruct E as [I _]. destruct (g_t_u m); [destruct I|]. eexists; reflexivity. }
    assert (exists hi', lmax (g_t_u m) = Ok hi') as [hi' Eh].
    { destruct E as [I _]. destruct (g_t_u m); [destruct I|]. eexists; reflexivity. }
    rewrite El, Eh. cbn [bind]. destruct (lmin_spec _ _ El) as [Il Ml]. destruct (lmax_spec _ _ Eh) as [Ih Mh].
    assert (E' : extremes (g_t_u m) lo' hi') by (split; [exact Il|split; [exact Ih|intros x Hx; split; auto]]).
    destruct (extremes_unique _ _ _ _ _ E E') as [-> ->].
    rewrite (proj2 (mapM_bounded _ _ _ (g_t_u m))).
    2:{ split; [|reflexivity]. apply Forall_forall. intros u Hu. generalize (Ml u Hu) (Mh u Hu). lra. }
    cbn [bind]. destruct m; reflexivity.
Qed.
Print Assumptions C85_gpcm_partial.

(** C85: it succeeds for all models with automatic inducing points for the filter, at least two of
    them, and a length scale below 1.41 windows. *)
Theorem C85_gpcm_automatic : forall (fx : fixes) (a : gpcm_args) (m : gpcm) (w s : R),
  new_gpcm a = Ok m -> a_alpha a = None -> a_alpha_t a = None -> a_gamma a = None ->
  a_t_u a = None -> asks_for_two a -> a_window a = Some w -> a_scale a = Some s -> 0 < s < sqrt 2 * w -> 0 < w ->
  0 < a_noise a -> 0 < g_omega m ->
  gpcm_prior fx m = Ok m.
Proof.
  intros fx a m w s Hm Na Nat Ng Nu As Ew Es Hs Hw Hn Ho. apply C85_gpcm_partial.
  destruct (C20_gamma_sign_partial a m w s Hm Na Ng Ew Es Hw (proj1 Hs)) as (Hg & Pa & _).
  apply proj2 in Hg. specialize (Hg (proj2 Hs)). pose proof PI_RGT_0 as Pi.
  split; [reflexivity|]. repeat split; auto.
  - intros _. unfold new_gpcm in Hm. repeat (apply bind_Ok in Hm; destruct Hm as [? [_ Hm]]). injection Hm as <-. exact Hn.
  - destruct (new_gpcm_inv a m Hm) as [_ [_ [Hat _]]]. unfold init_alpha_t in Hat. rewrite Nat in Hat.
    destruct (a_causal a); apply quartic_root_sq in Hat; try (left; apply Rdiv_lt_0_compat; lra); destruct Hat as [Q P];
      destruct P as [P|P]; auto; rewrite <- P in Q;
      match type of Q with _ = sqrt ?x => assert (0 < sqrt x) by (apply sqrt_lt_R0, Rdiv_lt_0_compat; lra) end; simpl in Q; lra.
  - set (L := sqrt (PI / g_alpha m)).
    assert (PL : 0 < L) by (apply sqrt_lt_R0, Rdiv_lt_0_compat; lra).
    assert (E : exp (- g_alpha m * L ^ 2) = exp (- PI)).
    { f_equal. unfold L. rewrite pow2_sqrt by (left; apply Rdiv_lt_0_compat; lra). field. lra. }
    destruct (C17_filter_grid a m L Hm Nu As Pa PL E) as (_ & I0 & Last & d & Pd & G & _).
    assert (Ne : (0 < length (g_t_u m))%nat) by (destruct (g_t_u m); [destruct I0|cbn; lia]).
    set (lo := if a_causal a then -2 * d else - L) in *.
    assert (F : nth_error (g_t_u m) 0 = Some lo).
    { rewrite (nth_grid _ _ _ _ 0 G) by exact Ne. f_equal. simpl. ring. }
    exists lo, L. split; [split; [apply nth_error_In in F; exact F|split; [apply nth_error_In in Last; exact Last|]]|].
    + intros x Hx. apply In_nth_error in Hx. destruct Hx as [i Hi].
      assert (Li : (i < length (g_t_u m))%nat) by (apply nth_error_Some; rewrite Hi; discriminate).
      destruct G as [_ G]. rewrite (G _ _ Hi). apply G in Last. rewrite Last.
      split.
      * assert (0 <= INR i * d) by (apply Rmult_le_pos; [apply pos_INR|lra]). lra.
      * apply Rplus_le_compat_l, Rmult_le_compat_r; [lra|]. apply le_INR. lia.
    + split; [|exact PL]. unfold lo. destruct (a_causal a); lra.
Qed.
Print Assumptions C85_gpcm_automatic.

Example C85_gpcm_witness : forall causal, exists m, new_gpcm (default_args causal 1 1 [0; 5]) = Ok m /\
  gpcm_prior (Fixes false false false) m = Ok m.
Proof.
  intros causal.
  assert (Emin : lmin [0; 5] = Ok 0) by (simpl; f_equal; rewrite Rmin_left; lra).
  assert (Emax : lmax [0; 5] = Ok 5) by (simpl; f_equal; rewrite Rmax_right; lra).
  destruct (default_returns causal 1 1 [0; 5] 0 5) as (m & Hm & _ & _ & _ & Po); auto; try lra.
  exists m. split; [exact Hm|].
  assert (S2 : 1 < sqrt 2) by (rewrite <- sqrt_1 at 1; apply sqrt_lt_1; lra).
  apply (C85_gpcm_automatic _ (default_args causal 1 1 [0; 5]) m 1 1); auto; try lra.
  - split; [simpl; lia|]. exists 1, 1. repeat split; lra.
  - cbn [default_args a_noise]. lra.
Qed.

(** C85, refuted: a model whose filter inducing points are given and start at zero or later, as
    they may for a causal filter, cannot be instantiated: the lower bound is not below them. *)
Theorem C85_given_points_refuted : forall (fx : fixes) (a : gpcm_args) (m : gpcm) (t_u : list R),
  new_gpcm a = Ok m -> a_t_u a = Some t_u -> Forall (fun u => 0 <= u) t_u -> forall m', gpcm_prior fx m <> Ok m'.
Proof.
  intros fx a m t_u Hm Et P m' H. apply C85_gpcm_partial in H.
  destruct H as (_ & _ & _ & _ & _ & _ & lo & hi & E & L).
  destruct (new_gpcm_inv a m Hm) as [_ [_ [_ [_ [Hu _]]]]]. unfold init_t_u in Hu. rewrite Et in Hu.
  assert (Eu : g_t_u m = t_u).
  { injection Hu as _ E'. symmetry. exact E'. }
  rewrite Eu in E. destruct E as [I _]. rewrite Forall_forall in P. generalize (P lo I). lra.
Qed.
Print Assumptions C85_given_points_refuted.

(** C85, refuted: neither can a model of which the length scale is not below 1.41 windows, unless
    the length scale is kept fixed. *)
Theorem C85_long_scale_refuted : forall (fx : fixes) (a : gpcm_args) (m : gpcm) (w s : R),
  new_gpcm a = Ok m -> a_alpha a = None -> a_gamma a = None -> a_window a = Some w -> a_scale a = Some s ->
  0 < w -> sqrt 2 * w <= s -> fix_scale fx = false -> forall m', gpcm_prior fx m <> Ok m'.
Proof.
  intros fx a m w s Hm Na Ng Ew Es Hw Hs Fx m' H. apply C85_gpcm_partial in H.
  destruct H as (_ & _ & _ & _ & Pg & _). specialize (Pg Fx).
  assert (S2 : 0 < sqrt 2) by (apply sqrt_lt_R0; lra).
  assert (Ps : 0 < s) by (assert (0 < sqrt 2 * w) by (apply Rmult_lt_0_compat; lra); lra).
  destruct (C20_gamma_sign_partial a m w s Hm Na Ng Ew Es Hw Ps) as (Hg & _). apply Hg in Pg. lra.
Qed.
Print Assumptions C85_long_scale_refuted.

(** C85 for the RGPCM: the exact condition. *)
Theorem C85_rgpcm_partial : forall (fx : fixes) (m m' : rgpcm), 0 < r_gamma m ->
  (rgpcm_prior fx m = Ok m' <->
   m' = m /\
   (fix_noise fx = false -> 0 < r_noise m) /\ (fix_window fx = false -> 0 < r_alpha m) /\ 0 < r_alpha_t m /\
   (fix_scale fx = false -> 0 < r_lam m) /\ r_gamma m < r_alpha m < r_gamma m * 10 ^ 4 /\
   (forall u, In u (r_t_u m) -> - / 10 ^ 4 < u) /\ exists hi, In hi (r_t_u m) /\ (forall u, In u (r_t_u m) -> u <= hi) /\ 0 < hi).
Proof.
  intros fx m m' Hg.
  assert (Q : forall f, 1 < f < 10 ^ 4 /\ f = r_alpha m / r_gamma m <-> r_gamma m < r_alpha m < r_gamma m * 10 ^ 4 /\ f = r_alpha m / r_gamma m).
  { intros f. split; intros [H ->]; (split; [|reflexivity]).
    - destruct H as [H1 H2]. apply (Rmult_lt_compat_r (r_gamma m)) in H1, H2; auto.
      unfold Rdiv in *. rewrite Rmult_assoc, Rinv_l in H1, H2 by lra. lra.
    - split; apply (Rmult_lt_reg_r (r_gamma m)); auto; unfold Rdiv; rewrite Rmult_assoc, Rinv_l by lra; lra. }
  split.
  - intros H. unfold rgpcm_prior in H. rewrite rdiv_ok in H by lra. cbn [bind] in H.
    apply bind_Ok in H. destruct H as [noise [H1 H]]. apply learn_iff in H1. destruct H1 as [P1 ->].
    apply bind_Ok in H. destruct H as [alpha [H2 H]]. apply learn_iff in H2. destruct H2 as [P2 ->].
    apply bind_Ok in H. destruct H as [alpha_t [H3 H]]. apply ps_positive_iff in H3. destruct H3 as [P3 ->].
    apply bind_Ok in H. destruct H as [lam [H4 H]]. apply learn_iff in H4. destruct H4 as [P4 ->].
    apply bind_Ok in H. destruct H as [f [H5 H]]. apply ps_bounded_iff in H5. destruct H5 as [P5 Ef].
    destruct (proj1 (Q f)) as [P5' _]; [rewrite Ef; split; [exact P5|reflexivity]|].
    apply bind_Ok in H. destruct H as [g [H6 H]]. apply rdiv_inv in H6. destruct H6 as [N6 E6].
    assert (Eg : g = r_gamma m) by (rewrite E6, Ef; field; split; lra).
    apply bind_Ok in H. destruct H as [hi [H7 H]]. apply bind_Ok in H. destruct H as [t_u [H8 H]].
    apply mapM_bounded in H8. destruct H8 as [P8 ->]. injection H as <-. rewrite Forall_forall in P8.
    apply lmax_spec in H7. destruct H7 as [I7 M7].
    split; [rewrite Eg; destruct m; reflexivity|]. repeat split; auto; try lra.
    + intros u Hu. apply P8. exact Hu.
    + exists hi. split; [exact I7|]. split; [exact M7|]. generalize (P8 hi I7). lra.
  - intros (-> & P1 & P2 & P3 & P4 & P5 & P6 & hi & Ih & Mh & Ph). unfold rgpcm_prior. rewrite rdiv_ok by lra. cbn [bind].
    rewrite (proj2 (learn_iff _ _ _) (conj P1 eq_refl)). cbn [bind].
    rewrite (proj2 (learn_iff _ _ _) (conj P2 eq_refl)). cbn [bind].
    rewrite (proj2 (ps_positive_iff _ _) (conj P3 eq_refl)). cbn [bind].
    rewrite (proj2 (learn_iff _ _ _) (conj P4 eq_refl)). cbn [bind].
    destruct (proj2 (Q (r_alpha m / r_gamma m)) (conj P5 eq_refl)) as [B _].
    rewrite (proj2 (ps_bounded_iff _ _ _ _) (conj B eq_refl)). cbn [bind]. rewrite rdiv_ok by lra. cbn [bind].
    replace (r_alpha m / (r_alpha m / r_gamma m)) with (r_gamma m) by (field; lra).
    assert (exists hi', lmax (r_t_u m) = Ok hi') as [hi' Eh] by (destruct (r_t_u m); [destruct Ih|eexists; reflexivity]).
    rewrite Eh. cbn [bind]. destruct (lmax_spec _ _ Eh) as [Ih' Mh'].
    assert (hi' = hi) as -> by (apply Rle_antisym; auto).
    rewrite (proj2 (mapM_bounded _ _ _ (r_t_u m))).
    2:{ split; [|reflexivity]. apply Forall_forall. intros u Hu. generalize (P6 u Hu) (Mh u Hu). lra. }
    cbn [bind]. destruct m; reflexivity.
Qed.
Print Assumptions C85_rgpcm_partial.

(** C85: every RGPCM with default arguments can be instantiated and keeps its parameters. *)
Theorem C85_rgpcm_automatic : forall (fx : fixes) (w s x : R) (data : list R) (m : rgpcm),
  In x data -> 0 < s < 4 * w -> new_rgpcm (rdefault_args w s data) = Ok m -> rgpcm_prior fx m = Ok m.
Proof.
  intros fx w s x data m Hx Hs Hm.
  destruct (C38_initial_factor w s data x m Hx Hs Hm) as (Pg & f & Ef & _ & Bf).
  apply (C85_rgpcm_partial fx m m Pg).
  unfold gamma_factor_init in Ef. rewrite rdiv_ok in Ef by lra. injection Ef as Ef.
  assert (exists lo, lmin data = Ok lo) as [lo Elo] by (destruct data; [destruct Hx|simpl; eauto]).
  assert (exists hi, lmax data = Ok hi) as [hi Ehi] by (destruct data; [destruct Hx|simpl; eauto]).
  destruct (rdefault_returns w s data lo hi) as (m' & Hm' & Eal & El & Eat & Enu & G & _); auto; try lra.
  rewrite Hm in Hm'. injection Hm' as <-.
  assert (N2 : (2 <= auto_n_u w s)%Z) by (unfold auto_n_u; pose proof (iceil_ge2 _ (four_windows w s Hs)); lia).
  set (n := auto_n_u w s) in *. pose proof PI_RGT_0 as Pi. apply IZR_le in N2 as N2'.
  set (d := PI * w / (IZR n - 1)) in *. assert (Pd : 0 < d) by (apply Rdiv_lt_0_compat; [nra|lra]).
  assert (Pa : 0 < r_alpha m) by (rewrite Eal; apply Rdiv_lt_0_compat; lra).
  split; [reflexivity|]. repeat split; auto.
  - intros _. unfold new_rgpcm in Hm. repeat (apply bind_Ok in Hm; destruct Hm as [? [_ Hm]]). injection Hm as <-. cbn. lra.
  - rewrite Eat. apply sqrt_lt_R0. rewrite <- Eal. lra.
  - intros _. rewrite El. apply Rdiv_lt_0_compat; lra.
  - apply (Rmult_lt_reg_r (/ r_gamma m)); [apply Rinv_0_lt_compat; exact Pg|]. rewrite Rinv_r by lra. unfold Rdiv in Ef. lra.
  - apply (Rmult_lt_reg_r (/ r_gamma m)); [apply Rinv_0_lt_compat; exact Pg|].
    replace (r_gamma m * 10 ^ 4 * / r_gamma m) with (10 ^ 4) by (field; lra). unfold Rdiv in Ef. lra.
  - intros u Hu. apply In_nth_error in Hu. destruct Hu as [i Hi]. destruct G as [_ G]. rewrite (G _ _ Hi).
    assert (0 <= INR i * d) by (apply Rmult_le_pos; [apply pos_INR|lra]).
    assert (0 < / 10 ^ 4) by (apply Rinv_0_lt_compat; lra). lra.
  - exists (0 + INR (Z.to_nat n - 1) * d). split; [|split].
    + apply (nth_error_In _ (Z.to_nat n - 1)). apply (nth_grid _ _ _ _ _ G). lia.
    + intros u Hu. apply In_nth_error in Hu. destruct Hu as [i Hi].
      assert (Li : (i < length (r_t_u m))%nat) by (apply nth_error_Some; rewrite Hi; discriminate).
      destruct G as [L G]. rewrite (G _ _ Hi). apply Rplus_le_compat_l, Rmult_le_compat_r; [lra|]. apply le_INR. lia.
    + rewrite Rplus_0_l. apply Rmult_lt_0_compat; [|exact Pd]. apply lt_0_INR. lia.
Qed.
Print Assumptions C85_rgpcm_automatic.

Example C85_rgpcm_witness : exists m, new_rgpcm (rdefault_args 1 (1 / 2) [0; 5]) = Ok m /\
  rgpcm_prior (Fixes false false false) m = Ok m.
Proof.
  destruct C38_witness as [m [Hm _]]. exists m. split; [exact Hm|].
  apply (C85_rgpcm_automatic _ 1 (1 / 2) 0 [0; 5]); auto; try lra. left; reflexivity.
Qed.

(** Both situations arise. *)
Example C85_refuted_witness : forall causal,
  (exists m, new_gpcm (GPCMArgs causal (5 / 100) None None (Some 1) None (Some 1) None None 300 (Some [0; 1; 2]) None 300 None false (Some [0; 5])) = Ok m) /\
  (exists m, new_gpcm (default_args causal 1 2 [0; 5]) = Ok m /\ sqrt 2 * 1 <= 2).
Proof.
  intros causal.
  assert (Emin : lmin [0; 5] = Ok 0) by (simpl; f_equal; rewrite Rmin_left; lra).
  assert (Emax : lmax [0; 5] = Ok 5) by (simpl; f_equal; rewrite Rmax_right; lra).
  split.
  - destruct (default_returns causal 1 1 [0; 5] 0 5) as (m & Hm & _); auto; try lra.
    destruct (new_gpcm_inv _ m Hm) as (_ & H1 & H2 & H3 & _ & [nz0 [H4 H5]] & H6 & H7 & fs & H8 & _).
    set (a := GPCMArgs _ _ _ _ _ _ _ _ _ _ _ _ _ _ _ _).
    set (a0 := default_args causal 1 1 [0; 5]) in *.
    change (init_alpha a0) with (init_alpha a) in H1.
    change (init_alpha_t a0) with (init_alpha_t a) in H2.
    change (init_gamma a0) with (init_gamma a) in H3.
    change (init_t_z a0) with (init_t_z a) in H4.
    change (extend_t_z a0) with (extend_t_z a) in H5.
    change (init_omega a0) with (init_omega a) in H6.
    eexists. unfold new_gpcm. rewrite H1. cbn [bind]. rewrite H2. cbn [bind]. rewrite H3. cbn [bind]. rewrite H8. cbn [bind].
    change (init_t_u a (g_alpha m)) with (Ok (3%Z, [0; 1; 2])). cbn [bind]. rewrite H4. cbn [bind]. rewrite H5. cbn [bind snd fst].
    rewrite H6. cbn [bind]. rewrite H7. cbn [bind]. reflexivity.
  - destruct (default_returns causal 1 2 [0; 5] 0 5) as (m & Hm & _); auto; try lra. exists m. split; [exact Hm|].
    replace (sqrt 2 * 1) with (sqrt 2) by ring. replace 2 with (sqrt (2 * 2)) at 2 by (apply sqrt_square; lra).
    apply sqrt_le_1; lra.
Qed.
