(** C76: the covariance of the frequency features of the RGPCM is their Gram matrix in the
    reproducing kernel Hilbert space of the driving process, and the basis functions are the
    cross-covariances. *)
From Coq Require Import Reals ZArith List Bool Lia Lra Psatz.
From Coquelicot Require Import Coquelicot.
From Verif Require Import Py ListFacts ExpPolyModel ExpPolyIntModel ExpPolyIntProofs GpcmModel GpcmSpec Gauss Gauss2 GpcmPsd GpcmInit.
From Verif Require Import Glue RgpcmModel RgpcmSpec RgpcmPerm RgpcmHz RgpcmCov RgpcmInit RgpcmProps.
Import ListNotations.
Local Open Scope R_scope.

Section Rkhs.
Variable m : rgpcm.
Hypothesis Hl : 0 < r_lam m.
Hypothesis Hab : r_a m < r_b m.
Hypothesis HM : (0 <= r_m_max m)%Z.
Let a := r_a m.
Let b := r_b m.
Let lam := r_lam m.

(** The harmonic of a feature. *)
Definition harm (k : Z) : Z := if (k <=? r_m_max m)%Z then k else (k - r_m_max m)%Z.
Definition psi (k : Z) (x : R) : R :=
  if (k <=? r_m_max m)%Z then cos (om m (harm k) * (x - r_a m)) else sin (om m (harm k) * (x - r_a m)).
Definition psi' (k : Z) (x : R) : R :=
  if (k <=? r_m_max m)%Z then - om m (harm k) * sin (om m (harm k) * (x - r_a m)) else om m (harm k) * cos (om m (harm k) * (x - r_a m)).

Lemma psi_derive k (x : R) : is_derive (psi k) x (psi' k x).
Proof.
  unfold psi, psi'. destruct (k <=? r_m_max m)%Z; auto_derive; auto; unfold Rminus; ring.
Qed.

Lemma harm_nonneg k : (0 <= k)%Z -> (0 <= harm k)%Z.
Proof. intros H. unfold harm. destruct (Z.leb_spec k (r_m_max m)); lia. Qed.

Lemma om_b n : om m n * (b - a) = 2 * PI * IZR n.
Proof. unfold om, a, b. field. lra. Qed.

Lemma cos_whole n : (0 <= n)%Z -> cos (2 * PI * IZR n) = 1.
Proof.
  intros H. replace (2 * PI * IZR n) with (0 + 2 * INR (Z.to_nat n) * PI).
  - now rewrite cos_period, cos_0.
  - rewrite INR_IZR_INZ, Z2Nat.id by auto. ring.
Qed.
Lemma sin_whole n : (0 <= n)%Z -> sin (2 * PI * IZR n) = 0.
Proof.
  intros H. replace (2 * PI * IZR n) with (0 + 2 * INR (Z.to_nat n) * PI).
  - now rewrite sin_period, sin_0.
  - rewrite INR_IZR_INZ, Z2Nat.id by auto. ring.
Qed.

Lemma psi_ends k : (0 <= k)%Z -> psi k a = K_z_beta m k /\ psi k b = K_z_beta m k.
Proof.
  intros H. pose proof (harm_nonneg k H). unfold psi, K_z_beta, cast_bool. fold a. rewrite om_b, cos_whole, sin_whole by auto.
  rewrite Rminus_eq_0, Rmult_0_r, cos_0, sin_0, sqrt_1. destruct (k <=? r_m_max m)%Z; split; lra.
Qed.

Lemma beta_psi k x : (0 <= k)%Z -> a <= x <= b -> beta m k x = psi k x.
Proof.
  intros Hk [H1 H2]. destruct (psi_ends k Hk) as [Ea Eb]. unfold K_z_beta, cast_bool in *. rewrite sqrt_1 in *.
  destruct (Rle_lt_or_eq_dec _ _ H1) as [L1|<-].
  - destruct (Rle_lt_or_eq_dec _ _ H2) as [L2| ->].
    + rewrite beta_inside by auto. unfold psi, harm, cosine. destruct (k <=? r_m_max m)%Z; auto.
    + rewrite Eb. unfold beta. fold a b. destruct (Rle_dec b a); [unfold a, b in *; lra|]. destruct (Rlt_dec b b); [lra|].
      rewrite Rminus_eq_0, Rmult_0_r, exp_0. destruct (k <=? r_m_max m)%Z; lra.
  - rewrite Ea. unfold beta. fold a b. destruct (Rle_dec a a); [|lra]. rewrite Rminus_eq_0, Rmult_0_r, exp_0. destruct (k <=? r_m_max m)%Z; lra.
Qed.

Lemma on_ext f g : (forall x, a <= x <= b -> f x = g x) -> (forall x : R, continuous f x) -> continuous_on a b g.
Proof.
  intros E C x Hx. rewrite <- E by auto. apply filterlim_within_ext with f; auto.
  eapply filterlim_filter_le_1; [apply filter_le_within|]. apply C.
Qed.

Lemma beta_on k : (0 <= k)%Z -> continuous_on a b (beta m k).
Proof.
  intros Hk. apply on_ext with (psi k).
  - intros x Hx. symmetry. now apply beta_psi.
  - intros x. apply (ex_derive_continuous (psi k) x). exists (psi' k x). apply psi_derive.
Qed.

Lemma beta_derive k x : (0 <= k)%Z -> a < x < b -> is_derive (beta m k) x (psi' k x).
Proof.
  intros Hk Hx. apply (is_derive_ext_loc (psi k)); [|apply psi_derive].
  assert (P : 0 < Rmin (x - a) (b - x)) by (apply Rmin_glb_lt; lra). exists (mkposreal _ P). intros y Hy.
  change (Rabs (y - x) < Rmin (x - a) (b - x)) in Hy. apply Rabs_def2 in Hy. pose proof (Rmin_l (x - a) (b - x)). pose proof (Rmin_r (x - a) (b - x)).
  symmetry. apply beta_psi; auto. lra.
Qed.

(** Harmonics integrate to zero over the support. *)
Lemma int_cos n : is_RInt (fun x => cos (om m n * (x - a))) a b (if (n =? 0)%Z then b - a else 0).
Proof.
  destruct (Z.eqb_spec n 0) as [->|Nn].
  - apply (is_RInt_ext (fun _ => 1)).
    + intros x _. unfold om. replace (2 * PI * 0 / (r_b m - r_a m) * (x - a)) with 0 by (field; lra). now rewrite cos_0.
    + replace (b - a) with (scal (b - a) 1) by (apply Rmult_1_r). apply (is_RInt_const a b 1).
  - assert (Nw : om m n <> 0).
    { unfold om. pose proof PI_RGT_0. unfold Rdiv. apply Rmult_integral_contrapositive. split; [|apply Rinv_neq_0_compat; lra].
      apply Rmult_integral_contrapositive. split; [lra|]. intros H'. apply eq_IZR in H'. auto. }
    assert (I := is_RInt_ftc (fun x => sin (om m n * (x - a)) / om m n) (fun x => cos (om m n * (x - a))) a b).
    replace 0 with (sin (om m n * (b - a)) / om m n - sin (om m n * (a - a)) / om m n).
    + apply I.
      * intros x. auto_derive; auto. unfold Rminus. field. auto.
      * intros x. apply (ex_derive_continuous (fun x => cos (om m n * (x - a))) x). auto_derive. auto.
    + rewrite om_b. rewrite Rminus_eq_0, Rmult_0_r, sin_0.
      assert (sin (2 * PI * IZR n) = 0) as ->; [|field; auto].
      destruct (Z.le_gt_cases 0 n) as [P|P]; [now apply sin_whole|].
      replace (2 * PI * IZR n) with (- (2 * PI * IZR (- n))) by (rewrite opp_IZR; ring). rewrite sin_neg, sin_whole by lia. ring.
Qed.

Lemma int_sin n : is_RInt (fun x => sin (om m n * (x - a))) a b 0.
Proof.
  destruct (Z.eqb_spec n 0) as [->|Nn].
  - apply (is_RInt_ext (fun _ => 0)).
    + intros x _. unfold om. replace (2 * PI * 0 / (r_b m - r_a m) * (x - a)) with 0 by (field; lra). now rewrite sin_0.
    + assert (I := is_RInt_const a b (0 : R)). match type of I with is_RInt _ _ _ ?v => assert (Ez : v = 0) by apply Rmult_0_r end. rewrite Ez in I. exact I.
  - assert (Nw : om m n <> 0).
    { unfold om. pose proof PI_RGT_0. unfold Rdiv. apply Rmult_integral_contrapositive. split; [|apply Rinv_neq_0_compat; lra].
      apply Rmult_integral_contrapositive. split; [lra|]. intros H'. apply eq_IZR in H'. auto. }
    assert (I := is_RInt_ftc (fun x => - cos (om m n * (x - a)) / om m n) (fun x => sin (om m n * (x - a))) a b).
    replace 0 with (- cos (om m n * (b - a)) / om m n - - cos (om m n * (a - a)) / om m n).
    + apply I.
      * intros x. auto_derive; auto. unfold Rminus. field. auto.
      * intros x. apply (ex_derive_continuous (fun x => sin (om m n * (x - a))) x). auto_derive. auto.
    + rewrite om_b. rewrite Rminus_eq_0, Rmult_0_r, cos_0.
      assert (cos (2 * PI * IZR n) = 1) as ->; [|field; auto].
      destruct (Z.le_gt_cases 0 n) as [P|P]; [now apply cos_whole|].
      replace (2 * PI * IZR n) with (- (2 * PI * IZR (- n))) by (rewrite opp_IZR; ring). rewrite cos_neg, cos_whole by lia. ring.
Qed.

Lemma om_plus i j : om m (i + j) = om m i + om m j.
Proof. unfold om. rewrite plus_IZR. field. lra. Qed.
Lemma om_sub i j : om m (i - j) = om m i - om m j.
Proof. unfold om. rewrite minus_IZR. field. lra. Qed.

Lemma lin2 (f g : R -> R) (p q If Ig : R) :
  is_RInt f a b If -> is_RInt g a b Ig -> is_RInt (fun x => p * f x + q * g x) a b (p * If + q * Ig).
Proof.
  intros F G. apply (is_RInt_plus (fun x => p * f x) (fun x => q * g x) a b); [now apply (is_RInt_scal f)|now apply (is_RInt_scal g)].
Qed.

(** The integral of two features. *)
Definition energy (i j : Z) : R :=
  if (i =? j)%Z then (b - a) / 2 * (lam ^ 2 + om m (harm i) ^ 2) * (if (i =? 0)%Z then 2 else 1) else 0.

Lemma int_features i j : (0 <= i)%Z -> (0 <= j)%Z ->
  is_RInt (fun x => psi' i x * psi' j x + lam ^ 2 * psi i x * psi j x) a b (energy i j).
Proof.
  intros Hi Hj. pose proof (harm_nonneg i Hi) as Pi'. pose proof (harm_nonneg j Hj) as Pj'.
  set (p := harm i) in *. set (q := harm j) in *.
  assert (E0 : om m 0 = 0) by (unfold om; field; lra).
  pose proof (fun x => cos_plus (om m p * (x - a)) (om m q * (x - a))) as CP. pose proof (fun x => cos_minus (om m p * (x - a)) (om m q * (x - a))) as CM.
  pose proof (fun x => sin_plus (om m p * (x - a)) (om m q * (x - a))) as SP. pose proof (fun x => sin_minus (om m p * (x - a)) (om m q * (x - a))) as SM.
  assert (AP : forall x, om m (p + q) * (x - a) = om m p * (x - a) + om m q * (x - a)) by (intros; rewrite om_plus; ring).
  assert (AM : forall x, om m (p - q) * (x - a) = om m p * (x - a) - om m q * (x - a)) by (intros; rewrite om_sub; ring).
  unfold psi, psi', energy. fold p q a.
  destruct (Z.leb_spec i (r_m_max m)) as [Ci|Ci], (Z.leb_spec j (r_m_max m)) as [Cj|Cj].
  - apply (is_RInt_ext (fun x => (lam ^ 2 + om m p * om m q) / 2 * cos (om m (p - q) * (x - a)) + (lam ^ 2 - om m p * om m q) / 2 * cos (om m (p + q) * (x - a)))).
    { intros x _. rewrite AP, AM, CP, CM. simpl; field. }
    assert (p = i /\ q = j) as [Ep Eq] by (unfold p, q, harm; destruct (Z.leb_spec i (r_m_max m)), (Z.leb_spec j (r_m_max m)); lia).
    replace (if (i =? j)%Z then _ else 0) with ((lam ^ 2 + om m p * om m q) / 2 * (if (p - q =? 0)%Z then b - a else 0) + (lam ^ 2 - om m p * om m q) / 2 * (if (p + q =? 0)%Z then b - a else 0)).
    + apply lin2; apply int_cos.
    + rewrite Ep, Eq. destruct (Z.eqb_spec i j) as [<-|Nij].
      * rewrite Z.sub_diag, Z.eqb_refl. destruct (Z.eqb_spec i 0) as [->|N0]; [|destruct (Z.eqb_spec (i + i) 0); [lia|]; field].
        change (0 + 0 =? 0)%Z with true. cbv iota. rewrite E0. field.
      * destruct (Z.eqb_spec (i - j) 0); [lia|]. destruct (Z.eqb_spec (i + j) 0); [lia|]. ring.
  - apply (is_RInt_ext (fun x => (lam ^ 2 - om m p * om m q) / 2 * sin (om m (p + q) * (x - a)) + - (lam ^ 2 + om m p * om m q) / 2 * sin (om m (p - q) * (x - a)))).
    { intros x _. rewrite AP, AM, SP, SM. simpl; field. }
    destruct (Z.eqb_spec i j) as [<-|Nij]; [lia|].
    replace 0 with ((lam ^ 2 - om m p * om m q) / 2 * 0 + - (lam ^ 2 + om m p * om m q) / 2 * 0) by ring. apply lin2; apply int_sin.
  - apply (is_RInt_ext (fun x => (lam ^ 2 - om m p * om m q) / 2 * sin (om m (p + q) * (x - a)) + (lam ^ 2 + om m p * om m q) / 2 * sin (om m (p - q) * (x - a)))).
    { intros x _. rewrite AP, AM, SP, SM. simpl; field. }
    destruct (Z.eqb_spec i j) as [<-|Nij]; [lia|].
    replace 0 with ((lam ^ 2 - om m p * om m q) / 2 * 0 + (lam ^ 2 + om m p * om m q) / 2 * 0) by ring. apply lin2; apply int_sin.
  - apply (is_RInt_ext (fun x => (lam ^ 2 + om m p * om m q) / 2 * cos (om m (p - q) * (x - a)) + (om m p * om m q - lam ^ 2) / 2 * cos (om m (p + q) * (x - a)))).
    { intros x _. rewrite AP, AM, CP, CM. simpl; field. }
    assert (p = i - r_m_max m /\ q = j - r_m_max m)%Z as [Ep Eq] by (unfold p, q, harm; destruct (Z.leb_spec i (r_m_max m)), (Z.leb_spec j (r_m_max m)); lia).
    replace (if (i =? j)%Z then _ else 0) with ((lam ^ 2 + om m p * om m q) / 2 * (if (p - q =? 0)%Z then b - a else 0) + (om m p * om m q - lam ^ 2) / 2 * (if (p + q =? 0)%Z then b - a else 0)).
    + apply lin2; apply int_cos.
    + destruct (Z.eqb_spec (p + q) 0) as [Z0|_]; [lia|]. destruct (Z.eqb_spec i j) as [<-|Nij].
      * rewrite <- Eq in Ep. rewrite Ep, Z.sub_diag, Z.eqb_refl. destruct (Z.eqb_spec i 0); [lia|]. field.
      * destruct (Z.eqb_spec (p - q) 0); [lia|]. ring.
Qed.

(** The entries of the matrix. *)
Lemma K_z_entry K i j ki kj :
  rcompute_K_z m = Ok K -> nth_error (r_ms m) i = Some ki -> nth_error (r_ms m) j = Some kj ->
  at2 K i j = Some ((if Nat.eqb i j then (b - a) / 2 * (lam ^ 2 + om m (harm ki) ^ 2) * (if (ki =? 0)%Z then 2 else 1) / (2 * lam) else 0)
                    + K_z_beta m ki * K_z_beta m kj).
Proof.
  intros HK Hi Hj. unfold rcompute_K_z in HK.
  assert (V : forall k, K_z_alpha m k = Ok ((b - a) / 2 * (lam ^ 2 + om m (harm k) ^ 2) * (if (k =? 0)%Z then 2 else 1) / (2 * lam))).
  { intros k. unfold K_z_alpha, psd_matern_12. rewrite rdiv_ok by lra. cbn [bind].
    assert (Eh : IZR k - cast_bool (k >? r_m_max m)%Z * IZR (r_m_max m) = IZR (harm k)).
    { unfold harm, cast_bool. rewrite Z.gtb_ltb. destruct (Z.leb_spec k (r_m_max m)), (Z.ltb_spec (r_m_max m) k); try lia; rewrite ?minus_IZR; ring. }
    rewrite Eh. change (2 * PI * IZR (harm k) / (r_b m - r_a m)) with (om m (harm k)).
    assert (P : 0 < r_lam m ^ 2 + om m (harm k) ^ 2) by (pose proof (pow2_ge_0 (om m (harm k))); nra).
    rewrite rdiv_ok by lra. cbn [bind]. rewrite rdiv_ok.
    2:{ assert (0 < 2 * 1 * r_lam m / (r_lam m ^ 2 + om m (harm k) ^ 2)); [|lra]. apply Rdiv_lt_0_compat; lra. }
    cbn [bind]. f_equal. unfold a, b, lam, cast_bool. destruct (k =? 0)%Z; field; lra. }
  rewrite (mapM_ext_In _ (fun k => (b - a) / 2 * (lam ^ 2 + om m (harm k) ^ 2) * (if (k =? 0)%Z then 2 else 1) / (2 * lam))) in HK by (intros; apply V).
  cbn [bind] in HK. injection HK as <-.
  set (al := fun k => (b - a) / 2 * (lam ^ 2 + om m (harm k) ^ 2) * (if (k =? 0)%Z then 2 else 1) / (2 * lam)).
  set (F := fun p q : nat * (Z * R) => (if Nat.eqb (fst p) (fst q) then snd (snd p) else 0) + K_z_beta m (fst (snd p)) * K_z_beta m (fst (snd q))).
  change (at2 (map (fun p => map (F p) (combine (seq 0 (List.length (r_ms m))) (combine (r_ms m) (map al (r_ms m)))))
    (combine (seq 0 (List.length (r_ms m))) (combine (r_ms m) (map al (r_ms m))))) i j = Some ((if Nat.eqb i j then al ki else 0) + K_z_beta m ki * K_z_beta m kj)).
  assert (N : forall i k, nth_error (r_ms m) i = Some k -> nth_error (combine (seq 0 (List.length (r_ms m))) (combine (r_ms m) (map al (r_ms m)))) i = Some (i, (k, al k))).
  { intros i0 k H. assert (L : (i0 < List.length (r_ms m))%nat) by (apply nth_error_Some; congruence).
    assert (forall {A B} (l : list A) (l' : list B) n x y, nth_error l n = Some x -> nth_error l' n = Some y -> nth_error (combine l l') n = Some (x, y)) as Nc.
    { intros A B l. induction l as [|x l IH]; intros l' n x0 y0 H1 H2; [destruct n; discriminate|]. destruct l' as [|y l']; [destruct n; discriminate|].
      destruct n; simpl in *; [congruence|]. now apply IH. }
    apply Nc; [now rewrite nth_error_seq by auto|]. apply Nc; auto. now rewrite nth_error_map, H. }
  rewrite table_at2g, (N i ki Hi), (N j kj Hj). reflexivity.
Qed.

Lemma kernel_derive tau x : ~ In x [tau] ->
  is_derive (fun x => exp (- lam * Rabs (tau - x))) x
    (if Rlt_dec x tau then lam * exp (- lam * (tau - x)) else - lam * exp (- lam * (x - tau))).
Proof.
  intros Nx. assert (x <> tau) by (intros ->; apply Nx; simpl; auto).
  assert (P : 0 < Rabs (x - tau)) by (apply Rabs_pos_lt; lra).
  destruct (Rlt_dec x tau) as [L|L].
  - apply (is_derive_ext_loc (fun x => exp (- lam * (tau - x)))).
    + exists (mkposreal _ P). intros y Hy. change (Rabs (y - x) < Rabs (x - tau)) in Hy. rewrite (Rabs_left (x - tau)) in Hy by lra.
      apply Rabs_def2 in Hy. rewrite Rabs_right by lra. reflexivity.
    + auto_derive; auto. unfold Rminus. ring.
  - apply (is_derive_ext_loc (fun x => exp (- lam * (x - tau)))).
    + exists (mkposreal _ P). intros y Hy. change (Rabs (y - x) < Rabs (x - tau)) in Hy. rewrite (Rabs_right (x - tau)) in Hy by lra.
      apply Rabs_def2 in Hy. rewrite Rabs_left by lra. f_equal. ring.
    + auto_derive; auto. unfold Rminus. ring.
Qed.

(** The kernel and its inner product with a feature. *)
Lemma reproduces k tau : (0 <= k)%Z -> rkhs_inner lam a b (beta m k) (fun x => exp (- lam * Rabs (tau - x))) (beta m k tau).
Proof.
  intros Hk. split; [now apply beta_on|]. split.
  { apply on_ext with (fun x => exp (- lam * Rabs (tau - x))); auto. intros x.
    apply (continuous_comp (fun x => - lam * Rabs (tau - x)) exp); [|apply continuous_exp].
    apply (continuous_mult (fun _ => - lam) (fun x => Rabs (tau - x))); [apply continuous_const|].
    apply (continuous_comp (fun x => tau - x) Rabs); [|apply continuous_Rabs].
    apply (continuous_minus (fun _ => tau) (fun x => x)); [apply continuous_const|apply continuous_id]. }
  destruct (psi_ends k Hk) as [Ea Eb].
  set (gl := fun x => exp (- lam * (tau - x))). set (gr := fun x => exp (- lam * (x - tau))).
  assert (Dl : forall x : R, is_derive gl x (lam * gl x)) by (intros; unfold gl; auto_derive; auto; unfold Rminus; ring).
  assert (Dr : forall x : R, is_derive gr x (- lam * gr x)) by (intros; unfold gr; auto_derive; auto; unfold Rminus; ring).
  assert (Cp : forall x : R, continuous (psi k) x) by (intros x; apply (ex_derive_continuous (psi k) x); exists (psi' k x); apply psi_derive).
  assert (Cp' : forall x : R, continuous (psi' k) x).
  { intros x. apply (ex_derive_continuous (psi' k) x). unfold psi'. destruct (k <=? r_m_max m)%Z; auto_derive; auto. }
  assert (Cl : forall x : R, continuous gl x) by (intros x; apply (ex_derive_continuous gl x); exists (lam * gl x); apply Dl).
  assert (Cr : forall x : R, continuous gr x) by (intros x; apply (ex_derive_continuous gr x); exists (- lam * gr x); apply Dr).
  assert (IL : forall p q, is_RInt (fun x => psi' k x * (lam * gl x) + lam ^ 2 * psi k x * gl x) p q (lam * (psi k q * gl q) - lam * (psi k p * gl p))).
  { intros p q. apply (is_RInt_ftc (fun x => lam * (psi k x * gl x))).
    - intros x. assert (D := is_derive_scal (fun x => psi k x * gl x) x lam _ (is_derive_mult (psi k) gl x _ _ (psi_derive k x) (Dl x) Rmult_comm)).
      replace (psi' k x * (lam * gl x) + lam ^ 2 * psi k x * gl x) with (lam * (psi' k x * gl x + psi k x * (lam * gl x))) by ring. exact D.
    - intros x. apply (continuous_plus (fun x => psi' k x * (lam * gl x)) (fun x => lam ^ 2 * psi k x * gl x)).
      + apply (continuous_mult (psi' k) (fun x => lam * gl x)); auto. apply (continuous_mult (fun _ => lam) gl); auto. apply continuous_const.
      + apply (continuous_mult (fun x => lam ^ 2 * psi k x) gl); auto. apply (continuous_mult (fun _ => lam ^ 2) (psi k)); auto. apply continuous_const. }
  assert (IR : forall p q, is_RInt (fun x => psi' k x * (- lam * gr x) + lam ^ 2 * psi k x * gr x) p q (- lam * (psi k q * gr q) - - lam * (psi k p * gr p))).
  { intros p q. apply (is_RInt_ftc (fun x => - lam * (psi k x * gr x))).
    - intros x. assert (D := is_derive_scal (fun x => psi k x * gr x) x (- lam) _ (is_derive_mult (psi k) gr x _ _ (psi_derive k x) (Dr x) Rmult_comm)).
      replace (psi' k x * (- lam * gr x) + lam ^ 2 * psi k x * gr x) with (- lam * (psi' k x * gr x + psi k x * (- lam * gr x))) by ring. exact D.
    - intros x. apply (continuous_plus (fun x => psi' k x * (- lam * gr x)) (fun x => lam ^ 2 * psi k x * gr x)).
      + apply (continuous_mult (psi' k) (fun x => - lam * gr x)); auto. apply (continuous_mult (fun _ => - lam) gr); auto. apply continuous_const.
      + apply (continuous_mult (fun x => lam ^ 2 * psi k x) gr); auto. apply (continuous_mult (fun _ => lam ^ 2) (psi k)); auto. apply continuous_const. }
  assert (Gl : forall x, x <= tau -> exp (- lam * Rabs (tau - x)) = gl x) by (intros; unfold gl; now rewrite Rabs_right by lra).
  assert (Gr : forall x, tau <= x -> exp (- lam * Rabs (tau - x)) = gr x) by (intros; unfold gr; rewrite Rabs_left1 by lra; f_equal; ring).
  assert (Hab' : a < b) by exact Hab. assert (Hl' : 0 < lam) by exact Hl.
  exists (psi' k), (fun x => if Rlt_dec x tau then lam * gl x else - lam * gr x).
  destruct (Rlt_le_dec tau a) as [C1|C1]; [|destruct (Rle_lt_dec tau b) as [C2|C2]].
  - exists (- lam * (psi k b * gr b) - - lam * (psi k a * gr a)), [tau]. split; [|split].
    + intros x Hx Nx. split; [apply beta_derive; auto|]. exact (kernel_derive tau x Nx).
    + apply (is_RInt_ext (fun x => psi' k x * (- lam * gr x) + lam ^ 2 * psi k x * gr x)); [|apply IR].
      intros x. rewrite Rmin_left, Rmax_right by lra. intros Hx. destruct (Rlt_dec x tau); [lra|].
      rewrite Gr by lra. rewrite beta_psi by (auto; lra). reflexivity.
    + rewrite (beta_psi k a), (beta_psi k b) by (auto; lra). rewrite !Gr by lra. rewrite beta_below by auto. fold a lam.
      assert (Ega : gr a = exp (- lam * (a - tau))) by reflexivity. rewrite <- Ega. rewrite Ea, Eb. unfold K_z_beta, cast_bool, cosine.
      rewrite sqrt_1. destruct (k <=? r_m_max m)%Z; field; lra.
  - exists ((lam * (psi k tau * gl tau) - lam * (psi k a * gl a)) + (- lam * (psi k b * gr b) - - lam * (psi k tau * gr tau))), [tau]. split; [|split].
    + intros x Hx Nx. split; [apply beta_derive; auto|]. exact (kernel_derive tau x Nx).
    + match goal with |- is_RInt ?f _ _ _ => apply (is_RInt_Chasles f a tau b) end.
      * apply (is_RInt_ext (fun x => psi' k x * (lam * gl x) + lam ^ 2 * psi k x * gl x)); [|apply IL].
        intros x. rewrite Rmin_left, Rmax_right by lra. intros Hx. destruct (Rlt_dec x tau); [|lra].
        rewrite Gl by lra. rewrite beta_psi by (auto; lra). reflexivity.
      * apply (is_RInt_ext (fun x => psi' k x * (- lam * gr x) + lam ^ 2 * psi k x * gr x)); [|apply IR].
        intros x. rewrite Rmin_left, Rmax_right by lra. intros Hx. destruct (Rlt_dec x tau); [lra|].
        rewrite Gr by lra. rewrite beta_psi by (auto; lra). reflexivity.
    + rewrite !beta_psi by (auto; lra). rewrite (Gl a), (Gr b) by lra.
      assert (gl tau = 1) as -> by (unfold gl; now rewrite Rminus_eq_0, Rmult_0_r, exp_0).
      assert (gr tau = 1) as -> by (unfold gr; now rewrite Rminus_eq_0, Rmult_0_r, exp_0). field. lra.
  - exists (lam * (psi k b * gl b) - lam * (psi k a * gl a)), [tau]. split; [|split].
    + intros x Hx Nx. split; [apply beta_derive; auto|]. exact (kernel_derive tau x Nx).
    + apply (is_RInt_ext (fun x => psi' k x * (lam * gl x) + lam ^ 2 * psi k x * gl x)); [|apply IL].
      intros x. rewrite Rmin_left, Rmax_right by lra. intros Hx. destruct (Rlt_dec x tau); [|lra].
      rewrite Gl by lra. rewrite beta_psi by (auto; lra). reflexivity.
    + rewrite (beta_psi k a), (beta_psi k b) by (auto; lra). rewrite !Gl by lra. rewrite beta_above by auto. fold b lam.
      assert (Egb : gl b = exp (- lam * (tau - b))) by reflexivity. rewrite <- Egb. rewrite Ea, Eb. unfold K_z_beta, cast_bool, cosine.
      rewrite sqrt_1. destruct (k <=? r_m_max m)%Z; field; lra.
Qed.
End Rkhs.

(** * C76 *)

Theorem C76_K_z_is_the_gram_matrix :
  forall m, 0 < r_lam m -> r_a m < r_b m -> (0 <= r_m_max m)%Z ->
    NoDup (r_ms m) -> List.Forall (fun k => (0 <= k)%Z) (r_ms m) ->
    (exists K, rcompute_K_z m = Ok K
      /\ forall i j ki kj, nth_error (r_ms m) i = Some ki -> nth_error (r_ms m) j = Some kj ->
           exists v, at2 K i j = Some v /\ rkhs_inner (r_lam m) (r_a m) (r_b m) (beta m ki) (beta m kj) v)
    /\ forall k tau, In k (r_ms m) ->
         rkhs_inner (r_lam m) (r_a m) (r_b m) (beta m k) (fun x => exp (- r_lam m * Rabs (tau - x))) (beta m k tau).
Proof.
  intros m Hl Hab HM ND Hp. rewrite List.Forall_forall in Hp. split; [|intros k tau Hk; apply reproduces; auto].
  assert (exists K, rcompute_K_z m = Ok K) as [K HK].
  { unfold rcompute_K_z. destruct (K_z_total m Hl Hab) as [als [E _]]. rewrite E. cbn [bind]. eauto. }
  exists K. split; auto. intros i j ki kj Hi Hj. rewrite (K_z_entry m Hl Hab K i j ki kj HK Hi Hj). eexists. split; [reflexivity|].
  assert (Pi : (0 <= ki)%Z) by (apply Hp; eapply nth_error_In; eauto). assert (Pj : (0 <= kj)%Z) by (apply Hp; eapply nth_error_In; eauto).
  split; [now apply beta_on|]. split; [now apply beta_on|].
  exists (psi' m ki), (psi' m kj), (energy m ki kj), []. split; [|split].
  - intros x Hx _. split; now apply beta_derive.
  - eapply is_RInt_ext; [|now apply int_features]. intros x. rewrite Rmin_left, Rmax_right by lra. intros Hx. simpl.
    rewrite !beta_psi by (auto; lra). reflexivity.
  - rewrite !beta_psi by (auto; lra). destruct (psi_ends m Hab ki Pi) as [-> ->]. destruct (psi_ends m Hab kj Pj) as [-> ->].
    unfold energy. destruct (Nat.eqb_spec i j) as [<-|Nij].
    + rewrite Hi in Hj. injection Hj as <-. rewrite Z.eqb_refl. field. lra.
    + destruct (Z.eqb_spec ki kj) as [<-|_]; [|field; lra]. exfalso. apply Nij.
      rewrite NoDup_nth_error in ND. apply ND; [apply nth_error_Some|]; congruence.
Qed.

Print Assumptions C76_K_z_is_the_gram_matrix.

Example C76_witness : exists K, rcompute_K_z toy = Ok K /\ exists v, at2 K 0 3 = Some v /\ rkhs_inner 3 (-1) 4 (beta toy 3) (beta toy 1) v.
Proof.
  destruct (C76_K_z_is_the_gram_matrix toy) as [[K [HK I]] _]; simpl.
  - lra.
  - lra.
  - lia.
  - repeat constructor; simpl; intuition discriminate.
  - repeat constructor; lia.
  - exists K. split; [exact HK|]. exact (I 0%nat 3%nat 3%Z 1%Z eq_refl eq_refl).
Qed.
