(** Integrals over the whole line: linearity, monotonicity, change of variables, and the moments of
    the standard normal distribution. *)
From Coq Require Import Reals Lra Lia Psatz.
From Coquelicot Require Import Coquelicot.
From Verif Require Import Gauss Gauss2 Gauss3 Fubini GaussDom.
Local Open Scope R_scope.

(** The improper integral of [f] over the line exists and is [v]. *)
Definition line (f : R -> R) (v : R) : Prop := is_integral f m_infty p_infty v.

Lemma line_ext f g v : (forall x, f x = g x) -> line f v -> line g v.
Proof. apply is_integral_ext. Qed.
Lemma line_plus f g v w : line f v -> line g w -> line (fun x => f x + g x) (v + w).
Proof. apply is_integral_plus. Qed.
Lemma line_scal k f v : line f v -> line (fun x => k * f x) (k * v).
Proof. apply is_integral_scal. Qed.
Lemma line_unique f v w : line f v -> line f w -> v = w.
Proof. apply is_integral_unique. Qed.
Lemma line_affine f s m v : 0 < s -> line f v -> line (fun x => s * f (s * x + m)) v.
Proof. intros H L. apply is_integral_affine; auto. Qed.
Lemma line_zero : line (fun _ => 0) 0.
Proof.
  unfold line. enough (H : is_integral (fun _ => 0) m_infty p_infty (0 - 0)) by (rewrite Rminus_0_r in H; exact H). apply (is_integral_ftc (fun _ => 0)).
  - intros x. apply is_derive_Reals. apply derivable_pt_lim_const.
  - intros x. apply continuous_const.
  - apply filterlim_const.
  - apply filterlim_const.
Qed.

Lemma line_pos f v : (forall x, 0 <= f x) -> line f v -> 0 <= v.
Proof.
  intros P H. destruct (Rle_lt_dec 0 v) as [L|L]; [exact L|exfalso].
  assert (V : 0 < - v) by lra. specialize (H (fun y => ball v (mkposreal _ V) y)).
  destruct H as [Q1 Q2 H1 H2 H]; [apply locally_ball|].
  destruct H1 as [M1 H1]. destruct H2 as [M2 H2].
  set (a := Rmin (M1 - 1) 0). set (b := Rmax (M2 + 1) 0).
  assert (Ha : Q1 a) by (apply H1; unfold a; pose proof (Rmin_l (M1 - 1) 0); lra).
  assert (Hb : Q2 b) by (apply H2; unfold b; pose proof (Rmax_l (M2 + 1) 0); lra).
  destruct (H a b Ha Hb) as [i [I B]]. cbn [fst snd] in I.
  assert (ab : a <= b) by (unfold a, b; pose proof (Rmin_r (M1 - 1) 0); pose proof (Rmax_r (M2 + 1) 0); lra).
  assert (0 <= i).
  { pose proof (@is_RInt_const R_NormedModule a b 0) as K.
    replace (scal (b - a) (0 : R_NormedModule)) with (0 : R) in K by (unfold scal; cbn; unfold mult; cbn; ring).
    apply (is_RInt_le (fun _ => 0) f a b 0 i ab K I). auto. }
  unfold ball in B. cbn in B. unfold AbsRing_ball, abs, minus, plus, opp in B. cbn in B.
  apply Rabs_def2 in B. lra.
Qed.
Lemma line_le f g v w : (forall x, f x <= g x) -> line f v -> line g w -> v <= w.
Proof.
  intros H A B. assert (0 <= w + -1 * v); [|lra].
  apply (line_pos (fun x => g x + -1 * f x)); [intros x; specialize (H x); lra|]. apply line_plus; [exact B|]. now apply line_scal.
Qed.

(** * The standard normal density *)
Definition phi (x : R) : R := / sqrt (2 * PI) * exp (- (1 / 2) * x ^ 2).

Lemma sqrt_2PI_pos : 0 < sqrt (2 * PI).
Proof. apply sqrt_lt_R0. pose proof PI_RGT_0. lra. Qed.
Lemma phi_pos x : 0 < phi x.
Proof. unfold phi. apply Rmult_lt_0_compat; [apply Rinv_0_lt_compat, sqrt_2PI_pos|apply exp_pos]. Qed.

Lemma line_phi : line phi 1.
Proof.
  pose proof sqrt_2PI_pos as P2. assert (S2 : 0 < sqrt 2) by (apply sqrt_lt_R0; lra). pose proof sqrt_PI_pos as SP.
  assert (E : sqrt (2 * PI) = sqrt 2 * sqrt PI) by (apply sqrt_mult; [lra|pose proof PI_RGT_0; lra]).
  assert (Q : sqrt 2 * sqrt 2 = 2) by (apply sqrt_sqrt; lra).
  assert (L : line (fun x => exp (- x ^ 2)) (sqrt PI)).
  { unfold line. replace (sqrt PI) with (sqrt PI / 2 - - (sqrt PI / 2)) by field. apply (is_integral_ftc Gi).
    - apply Gi_derive.
    - intros x. apply g0_cont.
    - assert (K : filterlim (fun x => - Gi (- x)) (Rbar_locally m_infty) (locally (- (sqrt PI / 2)))).
      { apply (filterlim_comp _ _ _ (fun x => Gi (- x)) Ropp _ (locally (sqrt PI / 2))).
        - apply (filterlim_comp _ _ _ Ropp Gi _ (Rbar_locally p_infty)).
          + apply (filterlim_Rbar_opp m_infty).
          + apply Gi_lim.
        - apply (filterlim_opp (sqrt PI / 2)). }
      apply (filterlim_ext (fun x => - Gi (- x))); [|exact K]. intros x. rewrite Gi_odd. ring.
    - apply Gi_lim. }
  assert (I2 : 0 < / sqrt 2) by (now apply Rinv_0_lt_compat).
  pose proof (line_scal (/ sqrt PI) _ _ (line_affine _ (/ sqrt 2) 0 _ I2 L)) as H.
  replace (/ sqrt PI * sqrt PI) with 1 in H by (field; lra).
  eapply line_ext; [|exact H]. intros x. cbn beta. unfold phi. rewrite E, <- Rmult_assoc. f_equal.
  - field. lra.
  - f_equal. replace ((/ sqrt 2 * x + 0) ^ 2) with (x ^ 2 / (sqrt 2 * sqrt 2)) by (field; lra). rewrite Q. field.
Qed.

Lemma phi_derive (x : R) : is_derive phi x (- x * phi x).
Proof.
  unfold phi. auto_derive; auto. replace (x * (x * 1)) with (x ^ 2) by ring. set (e := exp _). field. apply Rgt_not_eq, sqrt_2PI_pos.
Qed.
Lemma phi_cont x : continuous phi x.
Proof. apply (ex_derive_continuous phi). eexists. apply phi_derive. Qed.

Lemma xphi_bound x : 1 <= Rabs x -> Rabs (x * phi x) <= / sqrt (2 * PI) * (16 * / Rabs x).
Proof.
  intros H. set (a := Rabs x) in *. assert (A2 : a ^ 2 = x ^ 2) by (unfold a; rewrite RPow_abs, Rabs_pos_eq; [reflexivity|apply pow2_ge_0]).
  rewrite Rabs_mult. fold a. rewrite (Rabs_pos_eq (phi x)) by (left; apply phi_pos). unfold phi. rewrite <- A2.
  assert (B : exp (- (a / 2) ^ 2) <= / (a / 2) ^ 2) by (apply exp_opp_sq_bound; lra).
  assert (E : exp (- (1 / 2) * a ^ 2) = exp (- (a / 2) ^ 2) * exp (- (a / 2) ^ 2)) by (rewrite <- exp_plus; f_equal; field).
  assert (B0 : 0 < exp (- (a / 2) ^ 2)) by apply exp_pos.
  assert (I : / (a / 2) ^ 2 = 4 * (/ a * / a)) by (field; lra). rewrite I in B. rewrite E.
  assert (Ia : 0 < / a <= 1) by (split; [apply Rinv_0_lt_compat; lra|rewrite <- Rinv_1; apply Rinv_le_contravar; lra]).
  pose proof sqrt_2PI_pos as P2. apply Rinv_0_lt_compat in P2.
  rewrite (Rmult_comm a), Rmult_assoc. apply Rmult_le_compat_l; [lra|].
  assert (V : exp (- (a / 2) ^ 2) * exp (- (a / 2) ^ 2) <= (4 * (/ a * / a)) * (4 * (/ a * / a))) by (apply Rmult_le_compat; lra).
  apply (Rmult_le_compat_r a) in V; [|lra]. replace (4 * (/ a * / a) * (4 * (/ a * / a)) * a) with (16 * (/ a * (/ a * / a))) in V by (field; lra).
  assert (/ a * (/ a * / a) <= / a) by nra. lra.
Qed.
Lemma xphi_lim : filterlim (fun x => x * phi x) (Rbar_locally p_infty) (locally 0)
  /\ filterlim (fun x => x * phi x) (Rbar_locally m_infty) (locally 0).
Proof.
  assert (G : forall (s : R), s = 1 \/ s = -1 -> forall eps : posreal, exists M, forall x, M < s * x -> Rabs (x * phi x) < eps).
  { intros s Hs eps. set (k := / sqrt (2 * PI)). assert (K : 0 < k) by (apply Rinv_0_lt_compat, sqrt_2PI_pos).
    exists (Rmax 1 (16 * k / eps)). intros x Hx. pose proof (Rmax_l 1 (16 * k / eps)). pose proof (Rmax_r 1 (16 * k / eps)).
    assert (A : Rabs x = s * x) by (destruct Hs as [-> | ->]; [rewrite Rabs_pos_eq|rewrite Rabs_left]; lra).
    apply Rle_lt_trans with (1 := xphi_bound x ltac:(rewrite A; lra)). rewrite A. fold k.
    pose proof (cond_pos eps) as Pe. assert (L : 16 * k / eps < s * x) by lra.
    apply (Rmult_lt_compat_r eps) in L; [|exact Pe]. replace (16 * k / eps * eps) with (16 * k) in L by (field; lra).
    set (y := s * x) in *. apply (Rmult_lt_reg_r y); [lra|]. replace (k * (16 * / y) * y) with (16 * k) by (field; lra). lra. }
  split; apply filterlim_locally; intros eps.
  - destruct (G 1 (or_introl eq_refl) eps) as [M HM]. exists M. intros x Hx. unfold ball. cbn. unfold AbsRing_ball, abs, minus, plus, opp. cbn.
    rewrite Ropp_0, Rplus_0_r. apply HM. lra.
  - destruct (G (-1) (or_intror eq_refl) eps) as [M HM]. exists (- M). intros x Hx. unfold ball. cbn. unfold AbsRing_ball, abs, minus, plus, opp. cbn.
    rewrite Ropp_0, Rplus_0_r. apply HM. lra.
Qed.
Lemma phi_lim : filterlim phi (Rbar_locally p_infty) (locally 0) /\ filterlim phi (Rbar_locally m_infty) (locally 0).
Proof.
  assert (B : forall x, 1 <= Rabs x -> Rabs (phi x) <= Rabs (x * phi x)).
  { intros x H. rewrite Rabs_mult. pose proof (Rabs_pos (phi x)). nra. }
  destruct xphi_lim as [A C]. split; apply filterlim_locally; intros eps.
  - pose proof (proj1 (filterlim_locally _ _) A eps) as [M HM]. exists (Rmax M 1). intros x Hx.
    pose proof (Rmax_l M 1). pose proof (Rmax_r M 1). specialize (HM x ltac:(lra)).
    unfold ball in *. cbn in *. unfold AbsRing_ball, abs, minus, plus, opp in *. cbn in *. rewrite Ropp_0, Rplus_0_r in *.
    apply Rle_lt_trans with (2 := HM). apply B. rewrite Rabs_pos_eq; lra.
  - pose proof (proj1 (filterlim_locally _ _) C eps) as [M HM]. exists (Rmin M (-1)). intros x Hx.
    pose proof (Rmin_l M (-1)). pose proof (Rmin_r M (-1)). specialize (HM x ltac:(lra)).
    unfold ball in *. cbn in *. unfold AbsRing_ball, abs, minus, plus, opp in *. cbn in *. rewrite Ropp_0, Rplus_0_r in *.
    apply Rle_lt_trans with (2 := HM). apply B. rewrite Rabs_left; lra.
Qed.

Lemma line_phi1 : line (fun x => phi x * x) 0.
Proof.
  assert (L : line (fun x => - x * phi x) 0).
  { unfold line. match goal with |- is_integral ?f _ _ _ => enough (H : is_integral f m_infty p_infty (0 - 0)) by (rewrite Rminus_0_r in H; exact H) end. apply (is_integral_ftc phi).
    - apply phi_derive.
    - intros x. apply (continuous_mult (fun x => - x) phi); [|apply phi_cont]. apply (ex_derive_continuous (fun x => - x)). now auto_derive.
    - apply phi_lim.
    - apply phi_lim. }
  pose proof (line_scal (-1) _ _ L) as H. rewrite Rmult_0_r in H. eapply line_ext; [|exact H]. intros x. cbn beta. ring.
Qed.
Lemma line_phi2 : line (fun x => phi x * x ^ 2) 1.
Proof.
  assert (L : line (fun x => phi x + -1 * (phi x * x ^ 2)) 0).
  { unfold line. match goal with |- is_integral ?f _ _ _ => enough (H : is_integral f m_infty p_infty (0 - 0)) by (rewrite Rminus_0_r in H; exact H) end. apply (is_integral_ftc (fun x => x * phi x)).
    - intros x. replace (phi x + -1 * (phi x * x ^ 2)) with (1 * phi x + x * (- x * phi x)) by ring.
      apply (is_derive_mult (fun x => x) phi x 1 (- x * phi x)); [apply (@is_derive_id R_AbsRing)|apply phi_derive|]. intros; apply Rmult_comm.
    - intros x. apply (continuous_plus phi (fun x => -1 * (phi x * x ^ 2))); [apply phi_cont|].
      apply (continuous_mult (fun _ => -1) (fun x => phi x * x ^ 2)); [apply continuous_const|].
      apply (continuous_mult phi (fun x => x ^ 2)); [apply phi_cont|]. apply (ex_derive_continuous (fun x => x ^ 2)). now auto_derive.
    - apply xphi_lim.
    - apply xphi_lim. }
  pose proof (line_plus _ _ _ _ line_phi (line_scal (-1) _ _ L)) as H. replace (1 + -1 * 0) with 1 in H by ring.
  eapply line_ext; [|exact H]. intros x. cbn beta. ring.
Qed.

(** * Existence *)
Lemma line_gauss a : 0 < a -> exists v, 0 <= v /\ line (fun x => exp (- a * x ^ 2)) v.
Proof.
  intros H. destruct (dom1_ex (fun x => exp (- a * x ^ 2)) p_infty I) as [v V].
  - split; [intros x; apply gauss_cont|]. exists 1, a. split; [exact H|]. intros x. rewrite Rabs_pos_eq; [lra|left; apply exp_pos].
  - exists v. split; [|exact V]. apply (line_pos _ _ (fun x => Rlt_le _ _ (exp_pos (- a * x ^ 2))) V).
Qed.

Lemma line_exists f C a : 0 < a -> 0 <= C -> (forall x, Rabs (f x) <= C * exp (- a * x ^ 2)) ->
  (forall x d, Rabs d <= 1 -> Rabs (f (x + d) - f x) <= C * Rabs d) -> exists v, line f v.
Proof.
  intros Ha HC B L. apply (dom1_ex f p_infty I). split; [|now exists C, a].
  intros x. apply filterlim_locally. intros eps.
  assert (P : 0 < Rmin 1 (eps / (C + 1))).
  { apply Rmin_pos; [lra|]. apply Rdiv_lt_0_compat; [apply cond_pos|lra]. }
  exists (mkposreal _ P). intros y Hy. unfold ball in *. cbn in *. unfold AbsRing_ball, abs, minus, plus, opp in *. cbn in *.
  fold (y - x) in Hy. fold (f y - f x). pose proof (Rmin_l 1 (eps / (C + 1))). pose proof (Rmin_r 1 (eps / (C + 1))).
  replace y with (x + (y - x)) at 1 by ring. apply Rle_lt_trans with (1 := L x (y - x) ltac:(lra)).
  pose proof (Rabs_pos (y - x)). assert (Q : Rabs (y - x) < eps / (C + 1)) by lra.
  apply (Rmult_lt_compat_r (C + 1)) in Q; [|lra]. replace (eps / (C + 1) * (C + 1)) with (pos eps) in Q by (field; lra). nra.
Qed.
