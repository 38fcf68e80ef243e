(** The properties C21-C27 of gpcm.py, stated on the model. *)
From Coq Require Import Reals ZArith List Bool String Lia Lra Psatz.
From Coquelicot Require Import Coquelicot.
From Verif Require Import Py ExpPolyModel ListFacts ExpPolySpec ExpPolyIntModel ExpPolyIntProofs.
From Verif Require Import Gauss Gauss2 Gauss3 Fubini ExpPolyIntProps.
From Verif Require Import GpcmModel GpcmSpec GpcmProofs GpcmProofs2 GpcmProofs3 GpcmTotal GpcmInit GpcmPsd GpcmProps.
Import ListNotations.
Local Open Scope string_scope.
Local Open Scope R_scope.

Lemma kh_sym m a b : kh m a b = kh m b a.
Proof. unfold kh. f_equal. f_equal. ring. Qed.

Lemma kxs_sym m a b : kxs m a b = kxs m b a.
Proof. unfold kxs. f_equal. f_equal. ring. Qed.

(** * C21: the covariance of the filter at its inducing points *)

Theorem C21_K_u :
  forall (N : numdom) (so : setorder) (ofR : R -> N) (m : gpcm),
    (forall r, val (ofR r) = r) ->
    (tensors N -> exists K, compute_K_u N so ofR m = Ok K)
    /\ forall K, compute_K_u N so ofR m = Ok K ->
       let n := List.length (g_t_u m) in
       shape2 K n n
       /\ (forall i j ti tj, nth_error (g_t_u m) i = Some ti -> nth_error (g_t_u m) j = Some tj ->
             at2 K i j = Some (g_alpha_t m ^ 2 * exp (- g_alpha m * (ti ^ 2 + tj ^ 2) - g_gamma m * (ti - tj) ^ 2)))
       /\ symmetric K
       /\ (0 <= g_gamma m -> psd K).
Proof.
  intros N so ofR m Ho. split; [intros T; now apply K_u_total|]. intros K H n.
  unfold compute_K_u in H. apply bind_Ok in H. destruct H as [e [He H]].
  split; [apply (mapM2_at _ _ _ _ H)|].
  apply (mapM_table _ (kh m)) in H; [|intros; eapply K_u_entry; eauto]. subst K. split; [|split].
  - intros i j ti tj Hi Hj. rewrite table_at2, Hi, Hj. reflexivity.
  - apply table_symmetric. apply kh_sym.
  - intros Hg. pose proof (psd_scale _ (fun t => g_alpha_t m * exp (- g_alpha m * t ^ 2)) _ (eq_kernel_psd (g_gamma m) (g_t_u m) Hg)) as P.
    erewrite map_ext; [exact P|]. intros a. apply map_ext. intros b. unfold kh.
    replace (- g_alpha m * (a ^ 2 + b ^ 2) - g_gamma m * (a - b) ^ 2)
      with (- g_alpha m * a ^ 2 + (- g_alpha m * b ^ 2 + - g_gamma m * (a - b) ^ 2)) by ring.
    rewrite !exp_plus. ring.
Qed.

Print Assumptions C21_K_u.

(** * C22: the covariance of the excitation process at its inducing points *)

Theorem C22_K_z :
  forall (N : numdom) (so : setorder) (ofR : R -> N) (m : gpcm),
    (forall r, val (ofR r) = r) -> moderate (g_omega m) ->
    (tensors N -> exists K, compute_K_z N so ofR m = Ok K)
    /\ forall K, compute_K_z N so ofR m = Ok K ->
       let n := List.length (g_t_z m) in
       shape2 K n n
       /\ (forall i j ti tj, nth_error (g_t_z m) i = Some ti -> nth_error (g_t_z m) j = Some tj ->
             exists v, at2 K i j = Some v
                       /\ is_integral (fun tau => kxs m ti tau * kxs m tau tj) m_infty p_infty v)
       /\ symmetric K
       /\ psd K
       /\ ((exists a, new_gpcm a = Ok m) -> forall i v, at2 K i i = Some v -> v = 1).
Proof.
  intros N so ofR m Ho M. split; [intros T; now apply K_z_total|]. intros K H n.
  unfold compute_K_z in H. apply bind_Ok in H. destruct H as [e1 [He1 H]]. apply bind_Ok in H. destruct H as [e2 [He2 H]].
  apply bind_Ok in H. destruct H as [e [He H]].
  split; [apply (mapM2_at _ _ _ _ H)|]. pose proof (moderate_pos _ M) as P.
  set (F := fun a b => g_omega_t m * g_omega_t m * (sqrt (PI / (2 * g_omega m)) * exp (- (g_omega m / 2) * (a - b) ^ 2))).
  assert (IF : forall a b, is_integral (fun tau => kxs m a tau * kxs m tau b) m_infty p_infty (F a b)).
  { intros a b. eapply is_integral_ext; [|apply is_integral_scal; apply (gauss_product (g_omega m) a b P)].
    intros x. cbv beta. unfold kxs. replace ((x - b) ^ 2) with ((b - x) ^ 2) by ring. ring. }
  apply (mapM_table _ F) in H.
  2:{ intros a b y Hy. eapply is_integral_unique; [|apply IF]. eapply (K_z_entry N so ofR Ho m e1 e2 e a b y); eauto. }
  subst K. split; [|split; [|split]].
  - intros i j ti tj Hi Hj. exists (F ti tj). rewrite table_at2, Hi, Hj. split; auto.
  - apply table_symmetric. intros a b. unfold F. f_equal. f_equal. f_equal. ring.
  - apply (gram_psd F (kxs m) p_infty). intros a b. eapply is_integral_ext; [|apply IF]. intros x. cbv beta. now rewrite (kxs_sym m x b).
  - intros [a Ha] i v Hv. rewrite table_at2 in Hv. destruct (nth_error (g_t_z m) i) as [t|]; [|discriminate]. injection Hv as <-.
    destruct (new_gpcm_inv a m Ha) as [_ [_ [_ [_ [_ [_ [_ [Q _]]]]]]]]. pose proof PI_RGT_0 as Pi.
    apply quartic_root_sq in Q; [|left; apply Rdiv_lt_0_compat; lra]. destruct Q as [Q _].
    unfold F. replace (g_omega_t m * g_omega_t m) with (g_omega_t m ^ 2) by ring. rewrite Q.
    replace (- (g_omega m / 2) * (t - t) ^ 2) with 0 by ring. rewrite exp_0.
    pose proof (sqrt_prod_1 (2 * g_omega m / PI) (PI / (2 * g_omega m)) ltac:(apply Rdiv_lt_0_compat; lra) ltac:(apply Rdiv_lt_0_compat; lra) ltac:(field; lra)).
    lra.
Qed.

Print Assumptions C22_K_z.

(** * C23: the variance of the filter convolved with white noise *)

Theorem C23_i_hx :
  forall (N : numdom) (ofR : R -> N) (m : gpcm) (t1 t2 : R),
    (forall r, val (ofR r) = r) -> moderate (g_alpha m) ->
    (forall so, tensors N -> exists v, compute_i_hx N so ofR m (Some t1) (Some t2) = Ok v)
    /\ (forall so v, compute_i_hx N so ofR m (Some t1) (Some t2) = Ok v ->
          is_integral (fun tau => kh m (t1 - tau) (t2 - tau)) m_infty
            (if g_causal m then Finite (Rmin t1 t2) else p_infty) v)
    /\ (forall so so' s1 s2 v v',
          compute_i_hx N so ofR m (Some t1) (Some t2) = Ok v ->
          compute_i_hx N so' ofR m (Some s1) (Some s2) = Ok v' ->
          s1 - s2 = t1 - t2 \/ s1 - s2 = t2 - t1 -> v = v')
    /\ (forall so, compute_i_hx N so ofR m None None = compute_i_hx N so ofR m (Some 0) (Some 0)).
Proof.
  intros N ofR m t1 t2 Ho M. split; [intros so T; now apply i_hx_total|].
  split; [intros so v H; now apply (i_hx_spec N so ofR Ho m t1 t2 v M)|]. split; [|reflexivity].
  assert (St : forall so so' s1 s2 v v', compute_i_hx N so ofR m (Some t1) (Some t2) = Ok v ->
          compute_i_hx N so' ofR m (Some s1) (Some s2) = Ok v' -> s1 - s2 = t1 - t2 -> v = v').
  { intros so so' s1 s2 v v' H H' E. apply (i_hx_spec N so ofR Ho m t1 t2 v M) in H. apply (i_hx_spec N so' ofR Ho m s1 s2 v' M) in H'.
    eapply is_integral_unique; [exact H|].
    eapply is_integral_ext; [|apply (is_integral_shift (fun tau => kh m (s1 - tau) (s2 - tau)) (s1 - t1) m_infty (upto m (Rmin t1 t2)) v')].
    - intros x. cbv beta. f_equal; lra.
    - unfold upto in *. destruct (g_causal m); simpl lim_affine; auto.
      replace (1 * Rmin t1 t2 + (s1 - t1)) with (Rmin s1 s2); auto.
      unfold Rmin. destruct (Rle_dec s1 s2), (Rle_dec t1 t2); lra. }
  intros so so' s1 s2 v v' H H' [E|E]; [now apply (St so so' s1 s2)|].
  apply (i_hx_spec N so ofR Ho m t1 t2 v M) in H. apply (i_hx_spec N so' ofR Ho m s1 s2 v' M) in H'.
  eapply is_integral_unique; [exact H|].
  eapply is_integral_ext; [|apply (is_integral_shift (fun tau => kh m (s1 - tau) (s2 - tau)) (s1 - t2) m_infty (upto m (Rmin t1 t2)) v')].
  - intros x. cbv beta. rewrite kh_sym. f_equal; lra.
  - unfold upto in *. destruct (g_causal m); simpl lim_affine; auto.
    replace (1 * Rmin t1 t2 + (s1 - t2)) with (Rmin s1 s2); auto.
    unfold Rmin. destruct (Rle_dec s1 s2), (Rle_dec t1 t2); lra.
Qed.

Print Assumptions C23_i_hx.

(** * C24: I_ux *)

Lemma nth_shape {A} (l : list A) n i x : List.length l = n -> nth_error l i = Some x -> (i < n)%nat.
Proof. intros <- H. apply nth_error_Some. congruence. Qed.

Lemma shape2_at {A} (T : list (list A)) a b i j : shape2 T a b -> (i < a)%nat -> (j < b)%nat -> exists v, at2 T i j = Some v.
Proof.
  intros [L F] Hi Hj. unfold at2. destruct (nth_error T i) as [r|] eqn:E.
  - rewrite Forall_forall in F. specialize (F r (nth_error_In _ _ E)). destruct (nth_error r j) as [v|] eqn:E'; [eauto|].
    apply nth_error_None in E'. lia.
  - apply nth_error_None in E. lia.
Qed.
Lemma shape3_at {A} (T : list (list (list A))) a b c i j k :
  shape3 T a b c -> (i < a)%nat -> (j < b)%nat -> (k < c)%nat -> exists v, at3 T i j k = Some v.
Proof.
  intros [L F] Hi Hj Hk. unfold at3. destruct (nth_error T i) as [r|] eqn:E.
  - rewrite Forall_forall in F. specialize (F r (nth_error_In _ _ E)). now apply (shape2_at r b c).
  - apply nth_error_None in E. lia.
Qed.
Lemma shape4_at {A} (T : list (list (list (list A)))) a b c d i j k l :
  shape4 T a b c d -> (i < a)%nat -> (j < b)%nat -> (k < c)%nat -> (l < d)%nat -> exists v, at4 T i j k l = Some v.
Proof.
  intros [L F] Hi Hj Hk Hl. unfold at4. destruct (nth_error T i) as [r|] eqn:E.
  - rewrite Forall_forall in F. specialize (F r (nth_error_In _ _ E)). now apply (shape3_at r b c d).
  - apply nth_error_None in E. lia.
Qed.

Lemma I_ux4_inv N so ofR m (l1 l2 : list R) T :
  (forall r, val (ofR r) = r) -> moderate_filter m ->
  compute_I_ux4 N so ofR m (Some l1) (Some l2) = Ok T ->
  let n := List.length (g_t_u m) in
  shape4 T (List.length l1) (List.length l2) n n
  /\ forall a b i j v, at4 T a b i j = Some v ->
       exists t1 t2 u1 u2, nth_error l1 a = Some t1 /\ nth_error l2 b = Some t2
         /\ nth_error (g_t_u m) i = Some u1 /\ nth_error (g_t_u m) j = Some u2
         /\ is_integral (fun tau => kh m (t1 - tau) u1 * kh m u2 (t2 - tau)) m_infty (upto m (Rmin t1 t2)) v.
Proof.
  intros Ho M H n. unfold compute_I_ux4 in H. apply bind_Ok in H. destruct H as [e [He H]].
  apply bind_Ok in H. destruct H as [up [Hu H]]. destruct (mapM4_at _ _ _ _ _ _ H) as [S E]. split; auto.
  intros a b i j v Hv. destruct (E a b i j v Hv) as (t1 & t2 & u1 & u2 & A & B & C & D & X).
  exists t1, t2, u1, u2. repeat (split; auto). eapply (I_ux_entry N so ofR Ho m e up t1 t2 u1 u2 v); eauto.
Qed.

(** Both the indexing and the integral: element (a, b, i, j) belongs to t1[a], t2[b], t_u[i]
    and t_u[j]. *)
Theorem C24_I_ux :
  forall (N : numdom) (so : setorder) (ofR : R -> N) (m : gpcm) (l1 l2 : list R),
    (forall r, val (ofR r) = r) -> moderate_filter m ->
    (tensors N -> exists T, compute_I_ux4 N so ofR m (Some l1) (Some l2) = Ok T)
    /\ forall T, compute_I_ux4 N so ofR m (Some l1) (Some l2) = Ok T ->
       let n := List.length (g_t_u m) in
       shape4 T (List.length l1) (List.length l2) n n
       /\ forall a b i j t1 t2 u1 u2,
            nth_error l1 a = Some t1 -> nth_error l2 b = Some t2 ->
            nth_error (g_t_u m) i = Some u1 -> nth_error (g_t_u m) j = Some u2 ->
            exists v, at4 T a b i j = Some v
                      /\ is_integral (fun tau => kh m (t1 - tau) u1 * kh m u2 (t2 - tau)) m_infty
                           (if g_causal m then Finite (Rmin t1 t2) else p_infty) v.
Proof.
  intros N so ofR m l1 l2 Ho M. split; [intros T; now apply I_ux_total|]. intros T H n.
  destruct (I_ux4_inv N so ofR m l1 l2 T Ho M H) as [S E]. split; auto.
  intros a b i j t1 t2 u1 u2 A B C D.
  destruct (shape4_at T _ _ _ _ a b i j S) as [v Hv]; try (eapply nth_shape; eauto).
  exists v. split; auto. destruct (E a b i j v Hv) as (x1 & x2 & y1 & y2 & A' & B' & C' & D' & I).
  assert (x1 = t1) by congruence. assert (x2 = t2) by congruence. assert (y1 = u1) by congruence. assert (y2 = u2) by congruence.
  subst. exact I.
Qed.

Print Assumptions C24_I_ux.

Theorem C24_I_ux_transpose :
  forall (N : numdom) (so so' : setorder) (ofR : R -> N) (m : gpcm) (l1 l2 : list R) T T' a b i j,
    (forall r, val (ofR r) = r) -> moderate_filter m ->
    compute_I_ux4 N so ofR m (Some l1) (Some l2) = Ok T ->
    compute_I_ux4 N so' ofR m (Some l2) (Some l1) = Ok T' ->
    at4 T a b i j = at4 T' b a j i.
Proof.
  assert (W : forall (N : numdom) (so so' : setorder) (ofR : R -> N) (m : gpcm) (l1 l2 : list R) T T' a b i j v,
    (forall r, val (ofR r) = r) -> moderate_filter m ->
    compute_I_ux4 N so ofR m (Some l1) (Some l2) = Ok T ->
    compute_I_ux4 N so' ofR m (Some l2) (Some l1) = Ok T' ->
    at4 T a b i j = Some v -> at4 T' b a j i = Some v).
  { intros N so so' ofR m l1 l2 T T' a b i j v Ho M H H' Hv.
    destruct (I_ux4_inv N so ofR m l1 l2 T Ho M H) as [S E]. destruct (I_ux4_inv N so' ofR m l2 l1 T' Ho M H') as [S' E'].
    destruct (E a b i j v Hv) as (t1 & t2 & u1 & u2 & A & B & C & D & I).
    destruct (shape4_at T' _ _ _ _ b a j i S') as [v' Hv']; try (eapply nth_shape; eauto).
    destruct (E' b a j i v' Hv') as (t1' & t2' & u1' & u2' & A' & B' & C' & D' & I').
    rewrite A' in B. rewrite B' in A. rewrite C' in D. rewrite D' in C. injection A as ->. injection B as ->. injection C as ->. injection D as ->.
    rewrite Hv'. f_equal. eapply is_integral_unique; [exact I'|]. rewrite Rmin_comm.
    eapply is_integral_ext; [|exact I]. intros x. cbv beta. rewrite (kh_sym m (t2 - x)), (kh_sym m (t1 - x)). ring. }
  intros N so so' ofR m l1 l2 T T' a b i j Ho M H H'.
  destruct (at4 T a b i j) as [v|] eqn:E.
  - symmetry. eapply (W N so so'); eauto.
  - destruct (at4 T' b a j i) as [v|] eqn:E'; auto.
    assert (at4 T a b i j = Some v) by (eapply (W N so' so ofR m l2 l1 T' T); eauto). congruence.
Qed.

Print Assumptions C24_I_ux_transpose.

(** The matrix without times is the matrix at every pair of equal times. *)
Theorem C24_I_ux_stationary :
  forall (N : numdom) (so so' : setorder) (ofR : R -> N) (m : gpcm) (t : R) I0,
    (forall r, val (ofR r) = r) -> moderate_filter m ->
    compute_I_ux N so ofR m = Ok I0 ->
    (tensors N -> exists T, compute_I_ux4 N so' ofR m (Some [t]) (Some [t]) = Ok T)
    /\ forall T, compute_I_ux4 N so' ofR m (Some [t]) (Some [t]) = Ok T -> T = [[I0]].
Proof.
  intros N so so' ofR m t I0 Ho M H0. split; [intros T; now apply I_ux_total|]. intros T H.
  unfold compute_I_ux in H0. apply bind_Ok in H0. destruct H0 as [T0 [H0 E0]].
  change (compute_I_ux4 N so ofR m None None) with (compute_I_ux4 N so ofR m (Some [0]) (Some [0])) in H0.
  destruct (I_ux4_inv N so ofR m [0] [0] T0 Ho M H0) as [[L0 S0] E1]. destruct (I_ux4_inv N so' ofR m [t] [t] T Ho M H) as [[L S] E2].
  simpl List.length in *.
  destruct T0 as [|X0 [|]]; try discriminate L0. destruct T as [|X [|]]; try discriminate L.
  apply Forall_inv in S0, S. destruct S0 as [LX0 S0]. destruct S as [LX S].
  destruct X0 as [|Y0 [|]]; try discriminate LX0. destruct X as [|Y [|]]; try discriminate LX.
  apply Forall_inv in S0, S. injection E0 as <-. do 2 f_equal.
  assert (A : forall i j, at2 Y i j = at2 Y0 i j).
  { assert (B : forall i j v, at2 Y i j = Some v -> at2 Y0 i j = Some v).
    { intros i j v Hv. destruct (E2 0%nat 0%nat i j v Hv) as (t1 & t2 & u1 & u2 & A & B & C & D & I).
      simpl in A, B. injection A as <-. injection B as <-.
      destruct (shape2_at Y0 _ _ i j S0) as [v' Hv']; try (eapply nth_shape; eauto).
      destruct (E1 0%nat 0%nat i j v' Hv') as (t1' & t2' & u1' & u2' & A' & B' & C' & D' & I').
      simpl in A', B'. injection A' as <-. injection B' as <-. rewrite C' in C. rewrite D' in D. injection C as ->. injection D as ->.
      rewrite Hv'. f_equal. eapply is_integral_unique; [exact I'|].
      eapply is_integral_ext; [|apply (is_integral_shift (fun tau => kh m (t - tau) u1 * kh m u2 (t - tau)) t m_infty (upto m (Rmin 0 0)) v)].
      - intros x. cbv beta. f_equal; f_equal; ring.
      - unfold upto in *. rewrite Rmin_left in * by lra. destruct (g_causal m); simpl lim_affine; auto.
        replace (1 * 0 + t) with t by ring. exact I. }
    intros i j. destruct (at2 Y i j) as [v|] eqn:E; [symmetry; now apply B|].
    destruct (at2 Y0 i j) as [v|] eqn:E'; auto. exfalso.
    destruct (E1 0%nat 0%nat i j v E') as (_ & _ & u1' & u2' & _ & _ & C' & D' & _).
    destruct (shape2_at Y _ _ i j S) as [v' Hv']; try (eapply nth_shape; eauto). congruence. }
  destruct S as [Ly Fy]. destruct S0 as [Ly0 Fy0].
  apply nth_ext with (d := []) (d' := []); [congruence|]. intros i Hi.
  assert (exists r, nth_error Y i = Some r) as [r Er]. { destruct (nth_error Y i) eqn:E; eauto. apply nth_error_None in E. lia. }
  assert (exists r0, nth_error Y0 i = Some r0) as [r0 Er0]. { destruct (nth_error Y0 i) eqn:E; eauto. apply nth_error_None in E. lia. }
  rewrite (nth_error_nth _ _ _ Er), (nth_error_nth _ _ _ Er0).
  rewrite Forall_forall in Fy, Fy0. pose proof (Fy r (nth_error_In _ _ Er)). pose proof (Fy0 r0 (nth_error_In _ _ Er0)).
  apply nth_ext with (d := 0) (d' := 0); [congruence|]. intros j Hj. specialize (A i j). unfold at2 in A. rewrite Er, Er0 in A.
  assert (exists x, nth_error r j = Some x) as [x Ex]. { destruct (nth_error r j) eqn:E; eauto. apply nth_error_None in E. lia. }
  rewrite Ex in A. now rewrite (nth_error_nth _ _ _ Ex), (nth_error_nth _ _ _ (eq_sym A)).
Qed.

Print Assumptions C24_I_ux_stationary.

(** * C25: I_hz *)

Lemma kh_hz_form m t z1 z2 x y :
  kh m (t - x) (t - y) * kxs m x z1 * kxs m z2 y
  = g_alpha_t m ^ 2 * g_omega_t m ^ 2
    * exp ((- (g_alpha m + g_gamma m + g_omega m)) * x ^ 2 + (2 * g_gamma m) * x * y
           + (- (g_alpha m + g_gamma m + g_omega m)) * y ^ 2
           + (2 * g_alpha m * t + 2 * g_omega m * z1) * x + (2 * g_alpha m * t + 2 * g_omega m * z2) * y
           + (-2 * g_alpha m * t ^ 2 - g_omega m * z1 ^ 2 - g_omega m * z2 ^ 2)).
Proof.
  unfold kh, kxs.
  transitivity (g_alpha_t m ^ 2 * g_omega_t m ^ 2
     * (exp (- g_alpha m * ((t - x) ^ 2 + (t - y) ^ 2) - g_gamma m * (t - x - (t - y)) ^ 2)
        * exp (- g_omega m * (x - z1) ^ 2) * exp (- g_omega m * (z2 - y) ^ 2))); [ring|].
  rewrite <- !exp_plus. f_equal. f_equal. ring.
Qed.

Lemma I_hz_swap m t z1 z2 v :
  moderate_model m ->
  is_integral2 (fun x y => kh m (t - x) (t - y) * kxs m x z1 * kxs m z2 y) m_infty (upto m t) m_infty (upto m t) v ->
  is_integral2 (fun x y => kh m (t - x) (t - y) * kxs m x z2 * kxs m z1 y) m_infty (upto m t) m_infty (upto m t) v.
Proof.
  intros [[Ma Mg] Mo] I. apply moderate_pos in Ma, Mg, Mo.
  set (K := g_alpha_t m ^ 2 * g_omega_t m ^ 2).
  destruct (Req_dec K 0) as [Z|Z].
  - assert (Zf : forall a b x y, kh m (t - x) (t - y) * kxs m x a * kxs m b y = 0).
    { intros a b x y. rewrite kh_hz_form. fold K. rewrite Z. ring. }
    eapply is_integral2_ext; [|exact I]. intros x y. cbv beta. now rewrite !Zf.
  - set (S := g_alpha m + g_gamma m + g_omega m). assert (PS : 0 < S) by (unfold S; lra).
    pose (E := fun x y => exp (- S * x ^ 2 + (2 * g_gamma m) * x * y + - S * y ^ 2
           + (2 * g_alpha m * t + 2 * g_omega m * z1) * x + (2 * g_alpha m * t + 2 * g_omega m * z2) * y
           + (-2 * g_alpha m * t ^ 2 - g_omega m * z1 ^ 2 - g_omega m * z2 ^ 2))).
    assert (I1 : is_integral2 E m_infty (upto m t) m_infty (upto m t) (/ K * v)).
    { eapply is_integral2_ext; [|apply is_integral2_scal; exact I]. intros x y. cbv beta. rewrite kh_hz_form. fold K S. unfold E. field. auto. }
    assert (D : 0 < 4 * - S * - S - (2 * g_gamma m) ^ 2).
    { replace (4 * - S * - S - (2 * g_gamma m) ^ 2) with (4 * ((g_alpha m + g_omega m) * (g_alpha m + 2 * g_gamma m + g_omega m))) by (unfold S; ring).
      apply Rmult_lt_0_compat; [lra|]. apply Rmult_lt_0_compat; lra. }
    assert (I2 : is_integral2 (fun y x => E x y) m_infty (upto m t) m_infty (upto m t) (/ K * v)).
    { unfold upto in *. destruct (g_causal m).
      - apply (quadrant_swap (- S) (2 * g_gamma m) (- S)); auto; lra.
      - apply (plane_swap (- S) (2 * g_gamma m) (- S)); auto; lra. }
    replace v with (K * (/ K * v)) by (field; auto).
    eapply is_integral2_ext; [|apply is_integral2_scal; exact I2]. intros x y. cbv beta. rewrite kh_hz_form. fold K S. unfold E. f_equal. f_equal. ring.
Qed.

Theorem C25_I_hz :
  forall (N : numdom) (so : setorder) (ofR : R -> N) (m : gpcm) (l : list R),
    (forall r, val (ofR r) = r) -> moderate_model m ->
    (tensors N -> exists T, compute_I_hz N so ofR m l = Ok T)
    /\ forall T, compute_I_hz N so ofR m l = Ok T ->
       let n := List.length (g_t_z m) in
       let up t := if g_causal m then Finite t else p_infty in
       shape3 T (List.length l) n n
       /\ (forall a i j t zi zj,
            nth_error l a = Some t -> nth_error (g_t_z m) i = Some zi -> nth_error (g_t_z m) j = Some zj ->
            exists v, at3 T a i j = Some v
                      /\ is_integral2 (fun tau1 tau2 => kh m (t - tau1) (t - tau2) * kxs m tau1 zi * kxs m zj tau2)
                           m_infty (up t) m_infty (up t) v)
       /\ (forall a i j, at3 T a i j = at3 T a j i).
Proof.
  intros N so ofR m l Ho M. split; [intros T; now apply I_hz_total|]. intros T H n up.
  unfold compute_I_hz in H. apply bind_Ok in H. destruct H as [e1 [He1 H]]. apply bind_Ok in H. destruct H as [e2 [He2 H]].
  apply bind_Ok in H. destruct H as [e3 [He3 H]]. apply bind_Ok in H. destruct H as [e12 [He12 H]].
  apply bind_Ok in H. destruct H as [e [He H]]. apply bind_Ok in H. destruct H as [up1 [Hu1 H]]. apply bind_Ok in H. destruct H as [up2 [Hu2 H]].
  destruct (mapM3_at _ _ _ _ _ H) as [S E]. split; auto.
  assert (E' : forall a i j v, at3 T a i j = Some v -> exists t zi zj,
     nth_error l a = Some t /\ nth_error (g_t_z m) i = Some zi /\ nth_error (g_t_z m) j = Some zj /\
     is_integral2 (fun tau1 tau2 => kh m (t - tau1) (t - tau2) * kxs m tau1 zi * kxs m zj tau2) m_infty (up t) m_infty (up t) v).
  { intros a i j v Hv. destruct (E a i j v Hv) as (t & zi & zj & A & B & C & X). exists t, zi, zj. repeat (split; auto).
    eapply (I_hz_entry N so ofR Ho m e1 e2 e3 e12 e up1 up2 t zi zj v); eauto. }
  split.
  - intros a i j t zi zj A B C. destruct (shape3_at T _ _ _ a i j S) as [v Hv]; try (eapply nth_shape; eauto).
    exists v. split; auto. destruct (E' a i j v Hv) as (t' & zi' & zj' & A' & B' & C' & I).
    assert (t' = t) by congruence. assert (zi' = zi) by congruence. assert (zj' = zj) by congruence. subst. exact I.
  - assert (W : forall a i j v, at3 T a i j = Some v -> at3 T a j i = Some v).
    { intros a i j v Hv. destruct (E' a i j v Hv) as (t & zi & zj & A & B & C & I).
      destruct (shape3_at T _ _ _ a j i S) as [v' Hv']; try (eapply nth_shape; eauto).
      destruct (E' a j i v' Hv') as (t' & zi' & zj' & A' & B' & C' & I').
      assert (t' = t) by congruence. assert (zi' = zj) by congruence. assert (zj' = zi) by congruence. subst t' zi' zj'.
      rewrite Hv'. f_equal. eapply is_integral2_unique; [exact I'|]. apply (I_hz_swap m t zi zj v M I). }
    intros a i j. destruct (at3 T a i j) as [v|] eqn:X; [symmetry; auto|].
    destruct (at3 T a j i) as [v|] eqn:Y; auto. apply W in Y. congruence.
Qed.

Print Assumptions C25_I_hz.

(** * C26: I_uz *)

Theorem C26_I_uz :
  forall (N : numdom) (so : setorder) (ofR : R -> N) (m : gpcm) (l : list R),
    (forall r, val (ofR r) = r) -> moderate_model m ->
    (tensors N -> exists T, compute_I_uz N so ofR m l = Ok T)
    /\ forall T, compute_I_uz N so ofR m l = Ok T ->
       shape3 T (List.length l) (List.length (g_t_u m)) (List.length (g_t_z m))
       /\ forall a i j t u z,
            nth_error l a = Some t -> nth_error (g_t_u m) i = Some u -> nth_error (g_t_z m) j = Some z ->
            exists v, at3 T a i j = Some v
                      /\ is_integral (fun tau => kh m (t - tau) u * kxs m tau z) m_infty
                           (if g_causal m then Finite t else p_infty) v.
Proof.
  intros N so ofR m l Ho M. split; [intros T; now apply I_uz_total|]. intros T H.
  unfold compute_I_uz in H. apply bind_Ok in H. destruct H as [e1 [He1 H]]. apply bind_Ok in H. destruct H as [e2 [He2 H]].
  apply bind_Ok in H. destruct H as [e [He H]]. apply bind_Ok in H. destruct H as [up [Hu H]].
  destruct (mapM3_at _ _ _ _ _ H) as [S E]. split; auto.
  intros a i j t u z A B C. destruct (shape3_at T _ _ _ a i j S) as [v Hv]; try (eapply nth_shape; eauto).
  exists v. split; auto. destruct (E a i j v Hv) as (t' & u' & z' & A' & B' & C' & X).
  assert (t' = t) by congruence. assert (u' = u) by congruence. assert (z' = z) by congruence. subst t' u' z'.
  exact (I_uz_entry N so ofR Ho m e1 e2 e up t u z v M He1 He2 He Hu X).
Qed.

Print Assumptions C26_I_uz.

(** A model to which C21-C26 apply, causal or not. *)
Example C21_C26_witness :
  forall causal, exists m, new_gpcm (default_args causal 1 1 [0; 1]) = Ok m
    /\ moderate_model m /\ 0 <= g_gamma m /\ g_causal m = causal
    /\ (exists u, nth_error (g_t_u m) 2 = Some u) /\ (exists z, nth_error (g_t_z m) 1 = Some z).
Proof.
  intros causal. pose proof PI_RGT_0 as Pi. pose proof PI_4 as P4. pose proof PI_gt_2 as P2.
  assert (Emin : lmin [0; 1] = Ok 0) by (simpl; f_equal; rewrite Rmin_left; lra).
  assert (Emax : lmax [0; 1] = Ok 1) by (simpl; f_equal; rewrite Rmax_right; lra).
  destruct (default_returns causal 1 1 [0; 1] 0 1) as [m [Hm [Ea [Eg [Ec _]]]]]; auto; try lra.
  exists m. split; auto. destruct (new_gpcm_inv _ m Hm) as [_ [_ [_ [_ [Hu [[[n0 t0] [Hz He]] [Ho _]]]]]]].
  unfold extend_t_z in He. cbn [default_args a_extend_t_z] in He. injection He as -> ->.
  pose proof (fun H => t_z_inv _ _ _ H Hz) as Z'. destruct (Z' eq_refl) as (t & lo & hi & Et & Elo & Ehi & Hr & _ & G).
  injection Et as <-. rewrite Emin in Elo. rewrite Emax in Ehi. injection Elo as <-. injection Ehi as <-.
  destruct Hr as [s [Es [_ Er]]]. injection Es as <-. rewrite (iceil_unique (2 * (1 - 0) / 1) 2) in Er by lra.
  change (Z.min _ _) with 2%Z in Er. rewrite Er in G. change (Z.to_nat 2) with 2%nat in G.
  unfold init_omega in Ho. cbn [default_args a_omega] in Ho. unfold item in Ho.
  rewrite (nth_grid _ _ _ _ 1%nat G), (nth_grid _ _ _ _ 0%nat G) in Ho by lia. cbn [bind] in Ho.
  assert (Pa : 0 < g_alpha m) by (rewrite Ea; apply Rdiv_lt_0_compat; lra).
  pose proof (fun H => t_u_inv _ (g_alpha m) _ _ Pa H Hu) as U'. destruct (U' eq_refl) as [r [L [Hr [PL [_ Gu]]]]].
  destruct Hr as [w [s [Ew [Es [_ Er']]]]]. injection Ew as <-. injection Es as <-.
  rewrite (iceil_unique (4 * 1 / 1) 4) in Er' by lra. change (Z.min _ _) with 4%Z in Er'. subst r.
  split; [|split; [rewrite Eg; simpl; lra|split; [auto|split]]].
  - assert (Eo : g_omega m = PI).
    { destruct (scale_to_factor_pos (/ 2 * (0 + INR 1 * ((1 - 0) / (2 - 1)) - (0 + INR 0 * ((1 - 0) / (2 - 1))))) ltac:(simpl INR; lra)) as [f [Hf [Ef _]]].
      rewrite Hf in Ho. injection Ho as <-. rewrite Ef. simpl INR. field. }
    unfold moderate_model, moderate_filter, moderate. rewrite Eo, Ea, Eg. repeat split; lra.
  - cbn [default_args a_causal] in Gu. destruct causal; destruct Gu as [En Gu].
    + destruct Gu as [_ [_ Gu]]. eexists. apply (nth_grid _ _ _ _ 2%nat Gu). rewrite En. simpl. lia.
    + destruct Gu as [_ Gu]. eexists. apply (nth_grid _ _ _ _ 2%nat Gu). rewrite En. simpl. lia.
  - eexists. apply (nth_grid _ _ _ _ 1%nat G). lia.
Qed.

(** * C27: the two kernels of the filter *)

(** The value of the expression [k_h(t1, t2)] at two times. *)
Definition k_h_value (N : numdom) (so : setorder) (ofR : R -> N) (m : gpcm) (t1 t2 : R) : res R :=
  do e <- k_h N so ofR m (v_ N "t1") (v_ N "t2"); exppoly_eval N (kwargs [("t1", t1); ("t2", t2)]) e.

(** The kernels agree up to the factor [alpha_t^2], which the kernel object lacks. *)
Theorem C27_kernels_agree_partial :
  forall (N : numdom) (so : setorder) (ofR : R -> N) (m : gpcm) (t1 t2 v w : R),
    (forall r, val (ofR r) = r) -> 0 < g_gamma m ->
    (g_causal m = true -> 0 <= t1 /\ 0 <= t2) ->
    k_h_value N so ofR m t1 t2 = Ok v -> k_h_kernel m t1 t2 = Ok w -> v = g_alpha_t m ^ 2 * w.
Proof.
  intros N so ofR m t1 t2 v w Ho Pg Hc Hv Hw. unfold k_h_value in Hv. apply bind_Ok in Hv. destruct Hv as [e [He Hv]].
  rewrite (K_u_entry N so ofR Ho m e t1 t2 v He Hv). unfold kh. f_equal.
  unfold k_h_kernel in Hw. rewrite rdiv_ok in Hw by lra. cbn [bind] in Hw.
  assert (Q : 0 < 1 / (2 * g_gamma m)) by (apply Rdiv_lt_0_compat; lra).
  destruct (Rlt_dec (1 / (2 * g_gamma m)) 0); [lra|]. set (s := sqrt (1 / (2 * g_gamma m))) in *.
  assert (Ss : s * s = 1 / (2 * g_gamma m)) by (apply sqrt_sqrt; lra). assert (Ps : 0 < s) by (apply sqrt_lt_R0; lra).
  assert (E : exp (- g_alpha m * (t1 ^ 2 + t2 ^ 2) - g_gamma m * (t1 - t2) ^ 2)
     = exp (- g_alpha m * t1 ^ 2) * exp (- ((t1 - t2) / s) ^ 2 / 2) * exp (- g_alpha m * t2 ^ 2)).
  { rewrite <- !exp_plus. f_equal. replace (((t1 - t2) / s) ^ 2) with ((t1 - t2) ^ 2 / (s * s)) by (field; lra). rewrite Ss. field. lra. }
  injection Hw as <-. destruct (g_causal m); [|exact E]. destruct Hc as [P1 P2]; auto.
  destruct (Rle_dec 0 t1); [|lra]. destruct (Rle_dec 0 t2); [|lra]. rewrite E. cbv beta zeta. rewrite Rmult_1_l, Rmult_1_r. reflexivity.
Qed.

Print Assumptions C27_kernels_agree_partial.

(** For ordinary models the two kernels differ everywhere. *)
Theorem C27_kernels_agree_refuted :
  forall causal : bool, exists m,
    new_gpcm (default_args causal 1 1 [0; 1]) = Ok m
    /\ forall t1 t2, 0 <= t1 -> 0 <= t2 ->
       exists v w, k_h_value RTensorDom ord_id idR m t1 t2 = Ok v /\ k_h_kernel m t1 t2 = Ok w /\ v <> w.
Proof.
  intros causal. destruct (C21_C26_witness causal) as [m [Hm [_ [_ [Ec _]]]]]. exists m. split; auto.
  pose proof PI_RGT_0 as Pi.
  assert (Emin : lmin [0; 1] = Ok 0) by (simpl; f_equal; rewrite Rmin_left; lra).
  assert (Emax : lmax [0; 1] = Ok 1) by (simpl; f_equal; rewrite Rmax_right; lra).
  destruct (default_returns causal 1 1 [0; 1] 0 1) as [m' [Hm' [Ea [Eg _]]]]; auto; try lra.
  rewrite Hm in Hm'. injection Hm' as <-.
  assert (Pg : 0 < g_gamma m) by (rewrite Eg; simpl; lra).
  destruct (new_gpcm_inv _ m Hm) as [_ [_ [Hat _]]].
  unfold init_alpha_t in Hat. cbn [default_args a_alpha_t a_causal] in Hat.
  assert (Nat : g_alpha_t m ^ 2 <> 1).
  { intros E. destruct causal; apply quartic_root_sq in Hat; try (rewrite Ea; left; apply Rdiv_lt_0_compat; simpl; lra);
      destruct Hat as [Hs _]; rewrite E, Ea in Hs.
    - replace (8 * (PI / (4 * 1 ^ 2)) / PI) with 2 in Hs by (field; lra). assert (sqrt 2 * sqrt 2 = 2) by (apply sqrt_sqrt; lra). rewrite <- Hs in H. lra.
    - replace (2 * (PI / (4 * 1 ^ 2)) / PI) with (1 / 2) in Hs by (field; lra). assert (sqrt (1 / 2) * sqrt (1 / 2) = 1 / 2) by (apply sqrt_sqrt; lra). rewrite <- Hs in H. lra. }
  intros t1 t2 H1 H2.
  assert (exists v, k_h_value RTensorDom ord_id idR m t1 t2 = Ok v) as [v Hv].
  { pose (m2 := GPCM (g_causal m) (g_noise m) (g_alpha m) (g_alpha_t m) (g_gamma m) (g_extent m) (g_n_u m) [t1; t2] (g_n_z m) (g_t_z m) (g_omega m) (g_omega_t m)).
    destruct (K_u_total RTensorDom ord_id idR idR_val (fun _ => eq_refl) m2) as [T HT]. unfold compute_K_u in HT.
    apply bind_Ok in HT. destruct HT as [e [He HT]]. unfold k_h_value.
    change (k_h RTensorDom ord_id idR m2 (v_ RTensorDom "t1") (v_ RTensorDom "t2")) with (k_h RTensorDom ord_id idR m (v_ RTensorDom "t1") (v_ RTensorDom "t2")) in He.
    rewrite He. cbn [bind]. cbn [m2 g_t_u] in HT. simpl mapM in HT.
    apply bind_Ok in HT. destruct HT as [x [HT _]]. apply bind_Ok in HT. destruct HT as [y [_ HT]]. apply bind_Ok in HT. destruct HT as [z [HT _]].
    apply bind_Ok in HT. destruct HT as [z' [HT _]]. eauto. }
  assert (exists w, k_h_kernel m t1 t2 = Ok w /\ 0 < w) as [w [Hw Pw]].
  { unfold k_h_kernel. rewrite rdiv_ok by lra. cbn [bind]. assert (0 < 1 / (2 * g_gamma m)) by (apply Rdiv_lt_0_compat; lra).
    destruct (Rlt_dec (1 / (2 * g_gamma m)) 0); [lra|]. eexists. split; [reflexivity|].
    destruct (Rle_dec 0 t1); [|lra]. destruct (Rle_dec 0 t2); [|lra].
    destruct (g_causal m); rewrite ?Rmult_1_l, ?Rmult_1_r; repeat apply Rmult_lt_0_compat; apply exp_pos. }
  exists v, w. split; auto. split; auto.
  pose proof (C27_kernels_agree_partial RTensorDom ord_id idR m t1 t2 v w idR_val Pg (fun _ => conj H1 H2) Hv Hw) as E.
  intros X. apply Nat. apply Rmult_eq_reg_r with w; lra.
Qed.

Print Assumptions C27_kernels_agree_refuted.
