(** The integrals of the GPCM as inner products: joint positive semi-definiteness and the
    variance that remains given the inducing variables. *)
From Coq Require Import Reals Lra Lia Psatz.
From Coquelicot Require Import Coquelicot.
From Verif Require Import Gauss Gauss2 Gauss3 Fubini GaussDom GaussFeat GaussFeat2 GpcmModel GpcmSpec GpcmPsd.
Local Open Scope R_scope.

Lemma dom1_exp q K c : (forall x, continuous q x) -> 0 < c -> (forall x, q x <= K - c * x ^ 2) -> dom1 (fun x => exp (q x)).
Proof.
  intros Cq Hc H. split.
  - intros x. apply (continuous_comp q exp); [apply Cq|]. apply (ex_derive_continuous exp). auto_derive. trivial.
  - exists (exp K), c. split; auto. intros x. rewrite Rabs_pos_eq by (left; apply exp_pos). rewrite <- exp_plus.
    apply exp_le. specialize (H x). lra.
Qed.
Lemma dom2_exp q K c : (forall x y, continuity_2d_pt q x y) -> 0 < c ->
  (forall x y, q x y <= K - c * x ^ 2 - c * y ^ 2) -> dom2 (fun x y => exp (q x y)).
Proof.
  intros Cq Hc H. split; [now apply cont2_exp_poly|].
  exists (exp K), c. split; auto. intros x y. rewrite Rabs_pos_eq by (left; apply exp_pos). rewrite <- !exp_plus.
  apply exp_le. specialize (H x y). lra.
Qed.

Lemma upto_ulim m t : ulim (upto m t).
Proof. unfold upto. destruct (g_causal m); exact I. Qed.

Section Model.
Context (m : gpcm) (Pa : 0 < g_alpha m) (Pg : 0 < g_gamma m).
Notation al := (g_alpha m). Notation ga := (g_gamma m).

(** The features of the prior kernel of the filter. *)
Definition phi (s x : R) : R :=
  g_alpha_t m * sqrt (sqrt (4 * ga / PI)) * exp (- al * s ^ 2 - 2 * ga * (s - x) ^ 2).

Lemma cont_quad a b c x : continuous (fun y => a * y ^ 2 + b * y + c) x.
Proof. apply (ex_derive_continuous (fun y => a * y ^ 2 + b * y + c)). auto_derive. trivial. Qed.

(** For every time of the data. *)
Lemma phi_dom2 t : dom2 (fun tau x => phi (t - tau) x).
Proof.
  unfold phi. apply dom2_scal. set (mu := Rmin al (2 * ga)).
  assert (Pm : 0 < mu) by (apply Rmin_glb_lt; lra).
  pose proof (Rmin_l al (2 * ga)) as M1. pose proof (Rmin_r al (2 * ga)) as M2. fold mu in M1, M2.
  apply (dom2_exp _ (mu / 2 * t ^ 2) (mu / 4)); [|lra|].
  - intros x y.
    assert (C1 : continuity_2d_pt (fun u _ : R => t - u) x y).
    { apply continuity_2d_pt_minus; [apply continuity_2d_pt_const|apply continuity_2d_pt_id1]. }
    assert (C2 : continuity_2d_pt (fun u v : R => t - u - v) x y).
    { apply continuity_2d_pt_minus; [exact C1|apply continuity_2d_pt_id2]. }
    apply continuity_2d_pt_minus; (apply continuity_2d_pt_mult; [apply continuity_2d_pt_const|]);
      simpl; repeat (apply continuity_2d_pt_mult; auto); apply continuity_2d_pt_const.
  - intros x y. set (s := t - x).
    assert (H1 : - al * s ^ 2 - 2 * ga * (s - y) ^ 2 <= - mu * s ^ 2 - mu * (s - y) ^ 2).
    { pose proof (pow2_ge_0 s). pose proof (pow2_ge_0 (s - y)). nra. }
    assert (H2 : y ^ 2 <= 2 * s ^ 2 + 2 * (s - y) ^ 2) by (pose proof (pow2_ge_0 (s - y + s)); nra).
    assert (H3 : x ^ 2 <= 2 * t ^ 2 + 2 * s ^ 2) by (unfold s; pose proof (pow2_ge_0 (t + (t - x))); nra).
    apply (Rmult_le_compat_l (mu / 4)) in H2; [|lra]. apply (Rmult_le_compat_l (mu / 4)) in H3; [|lra].
    assert (0 <= mu / 2 * (s - y) ^ 2) by (apply Rmult_le_pos; [lra|apply pow2_ge_0]).
    eapply Rle_trans; [exact H1|]. lra.
Qed.

Lemma phi_dom1 s : dom1 (phi s).
Proof.
  apply (dom1_ext (fun x => g_alpha_t m * sqrt (sqrt (4 * ga / PI)) * exp (-2 * ga * x ^ 2 + (4 * ga * s) * x + (- al * s ^ 2 - 2 * ga * s ^ 2)))).
  - intros x. unfold phi. do 2 f_equal. ring.
  - apply dom1_scal. apply (dom1_exp _ (- al * s ^ 2 + 2 * ga * s ^ 2) ga); auto; [intros; apply cont_quad|].
    intros x. pose proof (pow2_ge_0 (x - 2 * s)). nra.
Qed.

Lemma kh_feature s s' : Int p_infty (fun x => phi s x * phi s' x) = kh m s s'.
Proof.
  pose proof PI_RGT_0 as Pi. apply Int_unique.
  pose proof (is_integral_scal (g_alpha_t m ^ 2 * sqrt (4 * ga / PI) * exp (- al * (s ^ 2 + s' ^ 2))) _ _ _ _
    (gauss_product (2 * ga) s s' ltac:(lra))) as J.
  assert (P4 : 0 < 4 * ga / PI) by (apply Rdiv_lt_0_compat; lra).
  replace (kh m s s') with (g_alpha_t m ^ 2 * sqrt (4 * ga / PI) * exp (- al * (s ^ 2 + s' ^ 2)) *
    (sqrt (PI / (2 * (2 * ga))) * exp (- (2 * ga / 2) * (s - s') ^ 2))).
  - eapply is_integral_ext; [|exact J]. intros x. cbv beta. unfold phi.
    unfold Rminus. rewrite !exp_plus.
    assert (S : sqrt (sqrt (4 * ga / PI)) * sqrt (sqrt (4 * ga / PI)) = sqrt (4 * ga / PI)) by (apply sqrt_sqrt, sqrt_pos).
    set (r := sqrt (sqrt (4 * ga / PI))) in *. rewrite <- S. replace (- al * (s ^ 2 + s' ^ 2)) with (- al * s ^ 2 + - al * s' ^ 2) by ring. rewrite exp_plus.
    replace (- (2 * ga) * (s + - x) ^ 2) with (- (2 * ga * (s + - x) ^ 2)) by ring.
    replace (- (2 * ga) * (s' + - x) ^ 2) with (- (2 * ga * (s' + - x) ^ 2)) by ring. ring.
  - assert (Q : sqrt (4 * ga / PI) * sqrt (PI / (2 * (2 * ga))) = 1).
    { rewrite <- sqrt_mult by (left; try exact P4; apply Rdiv_lt_0_compat; lra).
      replace (4 * ga / PI * (PI / (2 * (2 * ga)))) with 1 by (field; lra). apply sqrt_1. }
    unfold kh. unfold Rminus at 2. rewrite exp_plus.
    replace (- (2 * ga / 2) * (s - s') ^ 2) with (- (ga * (s - s') ^ 2)) by field.
    transitivity (g_alpha_t m ^ 2 * (sqrt (4 * ga / PI) * sqrt (PI / (2 * (2 * ga)))) * (exp (- al * (s ^ 2 + s' ^ 2)) * exp (- (ga * (s - s') ^ 2)))).
    + ring.
    + rewrite Q. ring.
Qed.

Lemma kh_sym s s' : kh m s s' = kh m s' s.
Proof. unfold kh. do 2 f_equal. ring. Qed.
Lemma kxs_sym s s' : kxs m s s' = kxs m s' s.
Proof. unfold kxs. do 2 f_equal. ring. Qed.

Lemma kxs_dom1 z : 0 < g_omega m -> dom1 (fun tau => kxs m tau z).
Proof.
  intros Po.
  apply (dom1_ext (fun x => g_omega_t m * exp (- g_omega m * x ^ 2 + (2 * g_omega m * z) * x + - g_omega m * z ^ 2))).
  - intros x. unfold kxs. do 2 f_equal. ring.
  - apply dom1_scal. apply (dom1_exp _ (g_omega m * z ^ 2) (g_omega m / 2)); [intros; apply cont_quad|lra|].
    intros x. pose proof (pow2_ge_0 (x - 2 * z)). nra.
Qed.

(** * The integrals *)
Section Integrals.
Context (Po : 0 < g_omega m) (t : R) (nu nz : nat) (tu tz : nat -> R).
Context (hx : R) (ux uz hz Kz : nat -> nat -> R).
Hypothesis Hhx : is_integral (fun tau => kh m (t - tau) (t - tau)) m_infty (upto m t) hx.
Hypothesis Hux : forall a b, (a < nu)%nat -> (b < nu)%nat ->
  is_integral (fun tau => kh m (t - tau) (tu a) * kh m (tu b) (t - tau)) m_infty (upto m t) (ux a b).
Hypothesis Huz : forall a k, (a < nu)%nat -> (k < nz)%nat ->
  is_integral (fun tau => kh m (t - tau) (tu a) * kxs m tau (tz k)) m_infty (upto m t) (uz a k).
Hypothesis Hhz : forall k l, (k < nz)%nat -> (l < nz)%nat ->
  is_integral2 (fun tau1 tau2 => kh m (t - tau1) (t - tau2) * kxs m tau1 (tz k) * kxs m (tz l) tau2)
    m_infty (upto m t) m_infty (upto m t) (hz k l).
Hypothesis HKz : forall k l, (k < nz)%nat -> (l < nz)%nat ->
  is_integral (fun tau => kxs m (tz k) tau * kxs m tau (tz l)) m_infty p_infty (Kz k l).

Let U := upto_ulim m t.
Let psi (tau x : R) : R := phi (t - tau) x.
Let D : dom2 psi := phi_dom2 t.
Let u (a : nat) (x : R) : R := phi (tu a) x.
Let g (k : nat) (tau : R) : R := kxs m tau (tz k).

Lemma fcov_kh s s' : fcov psi s s' = kh m (t - s) (t - s').
Proof. apply kh_feature. Qed.
Lemma qcov_kh a s : qcov psi u a s = kh m (t - s) (tu a).
Proof. rewrite kh_sym. apply kh_feature. Qed.
Lemma Du a : (a < nu)%nat -> dom1 (u a).
Proof. intros _. apply phi_dom1. Qed.
Lemma Dg k : (k < nz)%nat -> dom1 (g k).
Proof. intros _. now apply kxs_dom1. Qed.

Lemma v_hx : Int (upto m t) (fun s => fcov psi s s) = hx.
Proof. apply Int_unique. eapply is_integral_ext; [|exact Hhx]. intros s. symmetry. apply fcov_kh. Qed.
Lemma v_ux a c : (a < nu)%nat -> (c < nu)%nat -> Int (upto m t) (fun s => qcov psi u a s * qcov psi u c s) = ux a c.
Proof.
  intros Ha Hc. apply Int_unique. eapply is_integral_ext; [|apply Hux; auto]. intros s. cbv beta.
  rewrite !qcov_kh. now rewrite (kh_sym (tu c)).
Qed.
Lemma v_uz a k : (a < nu)%nat -> (k < nz)%nat -> Int (upto m t) (fun s => qcov psi u a s * g k s) = uz a k.
Proof.
  intros Ha Hk. apply Int_unique. eapply is_integral_ext; [|apply Huz; auto]. intros s. cbv beta. now rewrite qcov_kh.
Qed.
Lemma v_hz k l : (k < nz)%nat -> (l < nz)%nat ->
  Int (upto m t) (fun s => Int (upto m t) (fun s' => fcov psi s s' * g k s * g l s')) = hz k l.
Proof.
  intros Hk Hl. destruct (Hhz k l Hk Hl) as [h [H1 H2]]. apply Int_unique. eapply is_integral_ext; [|exact H2].
  intros s. symmetry. apply Int_unique. eapply is_integral_ext; [|apply H1]. intros s'. cbv beta. unfold g.
  now rewrite fcov_kh, (kxs_sym (tz l)).
Qed.
Lemma v_Kz k l : (k < nz)%nat -> (l < nz)%nat -> Kz k l = Int p_infty (fun s => g k s * g l s).
Proof.
  intros Hk Hl. symmetry. apply Int_unique. eapply is_integral_ext; [|apply HKz; auto]. intros s. cbv beta. unfold g.
  now rewrite (kxs_sym (tz k)).
Qed.
Lemma v_Ku a c : (a < nu)%nat -> (c < nu)%nat -> kh m (tu a) (tu c) = Int p_infty (fun x => u a x * u c x).
Proof. intros _ _. symmetry. apply kh_feature. Qed.

Lemma ux_sym a c : (a < nu)%nat -> (c < nu)%nat -> ux a c = ux c a.
Proof. intros Ha Hc. rewrite <- !v_ux by auto. apply Int_ext. intros; ring. Qed.
Lemma hz_sym k l : (k < nz)%nat -> (l < nz)%nat -> hz k l = hz l k.
Proof.
  intros Hk Hl. rewrite <- !v_hz by auto. rewrite !(fcov_mean_square psi D _ U) by (apply Dg; auto).
  apply Int_ext. intros; ring.
Qed.

Lemma gpcm_joint1 (x w : nat -> R) :
  0 <= Sum nu (fun a => Sum nu (fun c => x a * x c * ux a c))
       + 2 * Sum nu (fun a => x a * Sum nz (fun k => w k * uz a k))
       + Sum nz (fun k => Sum nz (fun l => w k * w l * Kz k l)).
Proof.
  set (f := fun s => Sum nu (fun a => x a * qcov psi u a s)).
  assert (Dq : forall a, (a < nu)%nat -> dom1 (qcov psi u a)) by (intros; apply (qcov_dom1 psi D nu u Du); auto).
  assert (Df : dom1 f) by (apply dom1_Sum; intros; apply dom1_scal; auto).
  pose proof (joint_square nz g Dg Kz v_Kz (upto m t) U f w Df) as J.
  assert (E1 : Int (upto m t) (fun s => f s * f s) = Sum nu (fun a => Sum nu (fun c => x a * x c * ux a c))).
  { rewrite (Int_ext _ _ (fun s => Sum nu (fun a => Sum nu (fun c => x a * x c * (qcov psi u a s * qcov psi u c s))))).
    2:{ intros s. unfold f. rewrite Sum_sq. apply Sum_ext. intros a _. apply Sum_ext. intros c _. ring. }
    rewrite (Int_Sum _ _ _ U).
    2:{ intros a Ha. apply dom1_Sum. intros c Hc. apply dom1_scal, dom1_mult; auto. }
    apply Sum_ext. intros a Ha. rewrite (Int_Sum _ _ _ U).
    2:{ intros c Hc. apply dom1_scal, dom1_mult; auto. }
    apply Sum_ext. intros c Hc. rewrite (Int_scal _ U) by (apply dom1_mult; auto). now rewrite v_ux. }
  assert (E2 : Sum nz (fun k => w k * Int (upto m t) (fun s => f s * g k s)) =
               Sum nu (fun a => x a * Sum nz (fun k => w k * uz a k))).
  { transitivity (Sum nz (fun k => Sum nu (fun a => x a * (w k * uz a k)))).
    - apply Sum_ext. intros k Hk.
      rewrite (Int_ext _ _ (fun s => Sum nu (fun a => x a * (qcov psi u a s * g k s)))).
      2:{ intros s. unfold f. rewrite <- Sum_scal_r. apply Sum_ext. intros; ring. }
      rewrite (Int_Sum _ _ _ U).
      2:{ intros a Ha. apply dom1_scal, dom1_mult; auto. now apply Dg. }
      rewrite <- Sum_scal. apply Sum_ext. intros a Ha.
      rewrite (Int_scal _ U) by (apply dom1_mult; auto; now apply Dg). rewrite v_uz by auto. ring.
    - rewrite Sum_swap. apply Sum_ext. intros a _. apply Sum_scal. }
  rewrite E1, E2 in J. exact J.
Qed.

Lemma gpcm_joint2 (x w : nat -> R) :
  0 <= Sum nz (fun k => Sum nz (fun l => w k * w l * hz k l))
       + 2 * Sum nu (fun a => x a * Sum nz (fun k => w k * uz a k))
       + Sum nu (fun a => Sum nu (fun c => x a * x c * kh m (tu a) (tu c))).
Proof.
  pose proof (joint_cov psi D nu u Du (fun a c => kh m (tu a) (tu c)) v_Ku (upto m t) U nz g Dg w x) as J.
  rewrite (Sum_ext nz _ (fun k => Sum nz (fun l => w k * w l * hz k l))) in J.
  2:{ intros k Hk. apply Sum_ext. intros l Hl. now rewrite v_hz. }
  rewrite (Sum_ext nu (fun a => x a * _) (fun a => x a * Sum nz (fun k => w k * uz a k))) in J.
  2:{ intros a Ha. f_equal. apply Sum_ext. intros k Hk. now rewrite v_uz. }
  exact J.
Qed.

Context (Wu Wz : nat -> nat -> R).
Hypothesis Wsym : forall a b, (a < nu)%nat -> (b < nu)%nat -> Wu a b = Wu b a.
Hypothesis HWu : forall i j, (i < nu)%nat -> (j < nu)%nat ->
  Sum nu (fun k => Sum nu (fun l => Wu k i * kh m (tu k) (tu l) * Wu l j)) = Wu i j.
Hypothesis HWz : forall i j, (i < nz)%nat -> (j < nz)%nat ->
  Sum nz (fun k => Sum nz (fun l => Wz k i * Kz k l * Wz l j)) = Wz i j.

Lemma gpcm_residual :
  0 <= hx - Sum nu (fun a => Sum nu (fun c => Wu a c * ux a c))
       - Sum nz (fun k => Sum nz (fun l => Wz k l * hz k l))
       + Sum nz (fun k => Sum nz (fun l => Wz k l *
           Sum nu (fun a => Sum nu (fun c => Wu a c * (uz a k * uz c l))))).
Proof.
  pose proof (residual_variance psi D nu u Du (fun a c => kh m (tu a) (tu c)) Wu v_Ku Wsym HWu (upto m t) U nz g Dg Kz Wz v_Kz HWz) as J.
  rewrite v_hx in J.
  rewrite (Sum_ext nu _ (fun a => Sum nu (fun c => Wu a c * ux a c))) in J.
  2:{ intros a Ha. apply Sum_ext. intros c Hc. now rewrite v_ux. }
  rewrite (Sum_ext nz (fun k => Sum nz (fun l => Wz k l * Int _ _)) (fun k => Sum nz (fun l => Wz k l * hz k l))) in J.
  2:{ intros k Hk. apply Sum_ext. intros l Hl. now rewrite v_hz. }
  eapply Rle_trans; [exact J|]. right. f_equal.
  apply Sum_ext. intros k Hk. apply Sum_ext. intros l Hl. f_equal. apply Sum_ext. intros a Ha. apply Sum_ext. intros c Hc.
  now rewrite !v_uz.
Qed.
End Integrals.
End Model.
