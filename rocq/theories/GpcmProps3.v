(** The property C84: the covariances of the inducing variables of the GPCM and the CGPCM are
    invertible exactly if the inducing points are distinct. *)
From Coq Require Import Reals ZArith List Bool String Lia Lra Psatz.
From Coquelicot Require Import Coquelicot.
From Verif Require Import Py ExpPolyModel ListFacts ExpPolySpec ExpPolyIntModel ExpPolyIntProofs.
From Verif Require Import Gauss Gauss2 Gauss3 Fubini ExpPolyIntProps.
From Verif Require Import GpcmModel GpcmSpec GpcmProofs GpcmProofs2 GpcmProofs3 GpcmTotal GpcmInit GpcmPsd GpcmPd GpcmProps GpcmProps2.
Import ListNotations.
Local Open Scope string_scope.
Local Open Scope R_scope.

(** A matrix given by rows is positive definite: its quadratic form is positive away from zero. *)
Definition positive_definite (K : list (list R)) : Prop :=
  forall c, List.length c = List.length K -> (exists x, In x c /\ x <> 0) -> 0 < quad_form K c.

Lemma table_pd_iff (F : R -> R -> R) (s : R -> R) g l :
  (forall a b, F a b = s a * s b * exp (g * (a * b))) -> 0 < g -> (forall a, s a <> 0) ->
  (positive_definite (map (fun a => map (F a) l) l) <-> NoDup l).
Proof.
  intros HF Hg Hs. split.
  - intros P. destruct (ListDec.NoDup_dec Req_EM_T l) as [|N]; [assumption|exfalso].
    destruct (repeated_singular F l N) as (c & Lc & Nc & Z).
    assert (0 < 0); [|lra]. rewrite <- Z at 2. apply P; [rewrite map_length; exact Lc|exact Nc].
  - intros ND c Lc Nc. rewrite map_length in Lc. exact (scaled_exp_pd F s g l c HF Hg Hs ND Lc Nc).
Qed.

(** C84: the filter. *)
Theorem C84_K_u :
  forall (N : numdom) (so : setorder) (ofR : R -> N) (m : gpcm) (K : list (list R)),
    (forall r, val (ofR r) = r) -> compute_K_u N so ofR m = Ok K ->
    0 < g_gamma m -> g_alpha_t m <> 0 ->
    (positive_definite K <-> NoDup (g_t_u m)).
Proof.
  intros N so ofR m K Ho H Hg Ha.
  unfold compute_K_u in H. apply bind_Ok in H. destruct H as [e [He H]].
  apply (mapM_table _ (kh m)) in H; [|intros; eapply K_u_entry; eauto]. subst K.
  apply (table_pd_iff _ (fun t => g_alpha_t m * exp (- (g_alpha m + g_gamma m) * t ^ 2)) (2 * g_gamma m)); [|lra|].
  - intros a b. unfold kh.
    replace (- g_alpha m * (a ^ 2 + b ^ 2) - g_gamma m * (a - b) ^ 2)
      with (- (g_alpha m + g_gamma m) * a ^ 2 + (- (g_alpha m + g_gamma m) * b ^ 2 + 2 * g_gamma m * (a * b))) by ring.
    rewrite !exp_plus. ring.
  - intros a E. apply Rmult_integral in E. destruct E as [E|E]; [contradiction|]. generalize (exp_pos (- (g_alpha m + g_gamma m) * a ^ 2)). lra.
Qed.
Print Assumptions C84_K_u.

(** C84: the excitation process. *)
Theorem C84_K_z :
  forall (N : numdom) (so : setorder) (ofR : R -> N) (m : gpcm) (K : list (list R)),
    (forall r, val (ofR r) = r) -> compute_K_z N so ofR m = Ok K ->
    moderate (g_omega m) -> g_omega_t m <> 0 ->
    (positive_definite K <-> NoDup (g_t_z m)).
Proof.
  intros N so ofR m K Ho H M Ht. pose proof (moderate_pos _ M) as P.
  unfold compute_K_z in H. apply bind_Ok in H. destruct H as [e1 [He1 H]]. apply bind_Ok in H. destruct H as [e2 [He2 H]].
  apply bind_Ok in H. destruct H as [e [He H]].
  set (F := fun a b => g_omega_t m * g_omega_t m * (sqrt (PI / (2 * g_omega m)) * exp (- (g_omega m / 2) * (a - b) ^ 2))).
  assert (IF : forall a b, is_integral (fun tau => kxs m a tau * kxs m tau b) m_infty p_infty (F a b)).
  { intros a b. eapply is_integral_ext; [|apply is_integral_scal; apply (gauss_product (g_omega m) a b P)].
    intros x. cbv beta. unfold kxs. replace ((x - b) ^ 2) with ((b - x) ^ 2) by ring. ring. }
  apply (mapM_table _ F) in H.
  2:{ intros a b y Hy. eapply is_integral_unique; [|apply IF]. eapply (K_z_entry N so ofR Ho m e1 e2 e a b y); eauto. }
  subst K.
  assert (Sp : 0 < sqrt (PI / (2 * g_omega m))) by (apply sqrt_lt_R0, Rdiv_lt_0_compat; [apply PI_RGT_0|lra]).
  set (k := sqrt (sqrt (PI / (2 * g_omega m)))).
  assert (Hk : k * k = sqrt (PI / (2 * g_omega m))) by (apply sqrt_sqrt; lra).
  assert (Pk : 0 < k) by (apply sqrt_lt_R0; exact Sp).
  apply (table_pd_iff _ (fun t => g_omega_t m * (k * exp (- (g_omega m / 2) * t ^ 2))) (g_omega m)); [|exact P|].
  - intros a b. unfold F. rewrite <- Hk.
    replace (- (g_omega m / 2) * (a - b) ^ 2)
      with (- (g_omega m / 2) * a ^ 2 + (- (g_omega m / 2) * b ^ 2 + g_omega m * (a * b))) by field.
    rewrite !exp_plus. ring.
  - intros a E. apply Rmult_integral in E. destruct E as [E|E]; [contradiction|].
    apply Rmult_integral in E. destruct E as [E|E]; [lra|]. generalize (exp_pos (- (g_omega m / 2) * a ^ 2)). lra.
Qed.
Print Assumptions C84_K_z.

(** C84: a constructor that chooses the inducing points itself leaves both matrices invertible. *)
Theorem C84_constructed :
  forall (N : numdom) (so : setorder) (ofR : R -> N) (a : gpcm_args) (m : gpcm) (data : list R) (lo hi : R) (Ku Kz : list (list R)),
    (forall r, val (ofR r) = r) ->
    new_gpcm a = Ok m -> compute_K_u N so ofR m = Ok Ku -> compute_K_z N so ofR m = Ok Kz ->
    a_t_u a = None -> asks_for_two a -> 0 < g_alpha m -> 0 < g_gamma m -> g_alpha_t m <> 0 ->
    a_t_z a = None -> a_extend_t_z a = false -> (2 <= g_n_z m)%Z -> a_t a = Some data -> extremes data lo hi -> lo < hi ->
    moderate (g_omega m) ->
    positive_definite Ku /\ positive_definite Kz.
Proof.
  intros N so ofR a m data lo hi Ku Kz Ho Hm Hu Hz Nu As Pa Pg Nat Nz Ne N2 Et Ex Hlt Mo. split.
  - apply (C84_K_u N so ofR m Ku Ho Hu Pg Nat).
    assert (E : exp (- g_alpha m * sqrt (PI / g_alpha m) ^ 2) = exp (- PI)).
    { f_equal. rewrite pow2_sqrt by (left; apply Rdiv_lt_0_compat; [apply PI_RGT_0|exact Pa]). field. lra. }
    destruct (C17_filter_grid a m (sqrt (PI / g_alpha m)) Hm Nu As Pa) as (_ & _ & _ & d & Pd & G & _); auto.
    { apply sqrt_lt_R0, Rdiv_lt_0_compat; [apply PI_RGT_0|exact Pa]. }
    eapply grid_NoDup; [exact G|lra].
  - destruct (C18_excitation_grid a m data lo hi Hm Nz Ne N2 Et Ex) as (L & Last & d & G).
    destruct (new_gpcm_inv a m Hm) as [_ [_ [_ [_ [_ [_ [_ [Q _]]]]]]]]. pose proof PI_RGT_0 as Pi.
    pose proof (moderate_pos _ Mo) as Po.
    assert (Nt : g_omega_t m <> 0).
    { apply quartic_root_sq in Q; [|left; apply Rdiv_lt_0_compat; lra]. destruct Q as [Q _]. intros E. rewrite E in Q.
      assert (0 < sqrt (2 * g_omega m / PI)) by (apply sqrt_lt_R0, Rdiv_lt_0_compat; lra). simpl in Q. lra. }
    apply (C84_K_z N so ofR m Kz Ho Hz Mo Nt). eapply grid_NoDup; [exact G|].
    intros ->. destruct G as [_ G]. apply G in Last. lra.
Qed.
Print Assumptions C84_constructed.

Example C84_witness :
  forall causal, exists m Ku Kz, new_gpcm (default_args causal 1 1 [0; 1]) = Ok m
    /\ compute_K_u RTensorDom ord_id idR m = Ok Ku /\ compute_K_z RTensorDom ord_id idR m = Ok Kz
    /\ positive_definite Ku /\ positive_definite Kz.
Proof.
  intros causal. destruct (C21_C26_witness causal) as (m & Hm & [[Ma [Mg _]] Mo] & Pg & Ec & _ & [z Hz]).
  assert (T : tensors RTensorDom) by (intros c; reflexivity).
  assert (Ho : forall r, val (idR r) = r) by reflexivity.
  destruct (proj1 (C21_K_u RTensorDom ord_id idR m Ho) T) as [Ku Hu].
  destruct (proj1 (C22_K_z RTensorDom ord_id idR m Ho Mo) T) as [Kz Hz'].
  exists m, Ku, Kz. split; [exact Hm|]. split; [exact Hu|]. split; [exact Hz'|].
  pose proof (moderate_pos _ Ma) as Pa.
  assert (Emin : lmin [0; 1] = Ok 0) by (simpl; f_equal; rewrite Rmin_left; lra).
  assert (Emax : lmax [0; 1] = Ok 1) by (simpl; f_equal; rewrite Rmax_right; lra).
  pose proof PI_RGT_0 as Pi.
  destruct (default_returns causal 1 1 [0; 1] 0 1) as [m' [Hm' [_ [Eg _]]]]; auto; try lra.
  rewrite Hm in Hm'. injection Hm' as <-.
  destruct (new_gpcm_inv _ m Hm) as [_ [_ [Hat _]]].
  assert (Nat : g_alpha_t m <> 0).
  { unfold init_alpha_t in Hat. cbn [default_args a_alpha_t a_causal] in Hat. intros E. rewrite E in Hat.
    destruct causal; apply quartic_root_sq in Hat; try (left; apply Rdiv_lt_0_compat; lra); destruct Hat as [Q _];
      match type of Q with _ = sqrt ?x => assert (0 < sqrt x) by (apply sqrt_lt_R0, Rdiv_lt_0_compat; lra) end; simpl in Q; lra. }
  assert (N2 : (2 <= g_n_z m)%Z).
  { destruct (new_gpcm_inv _ m Hm) as [_ [_ [_ [_ [_ [[[n0 t0] [Hz0 He]] _]]]]]].
    unfold extend_t_z in He. cbn [default_args a_extend_t_z] in He. injection He as -> ->.
    pose proof (fun H => t_z_inv _ _ _ H Hz0) as Z'. destruct (Z' eq_refl) as (t & lo & hi & Et & Elo & Ehi & Hr & _ & G).
    injection Et as <-. rewrite Emin in Elo. rewrite Emax in Ehi. injection Elo as <-. injection Ehi as <-.
    destruct Hr as [s [Es [_ Er]]]. injection Es as <-. rewrite (iceil_unique (2 * (1 - 0) / 1) 2) in Er by lra.
    rewrite Er. simpl. lia. }
  apply (C84_constructed RTensorDom ord_id idR (default_args causal 1 1 [0; 1]) m [0; 1] 0 1); auto; try reflexivity; try lra.
  - split; [simpl; lia|]. exists 1, 1. repeat split; lra.
  - split; [left; reflexivity|]. split; [right; left; reflexivity|]. intros x [<-|[<-|[]]]; lra.
Qed.
