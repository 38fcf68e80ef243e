(** The integrals in the kernel vanish for large lags and are positive at lag zero. *)
From Coq Require Import Reals ZArith List Bool String Lia Lra Psatz.
From Coquelicot Require Import Coquelicot.
From Verif Require Import Py ExpPolyModel ListFacts ExpPolySpec ExpPolyIntModel ExpPolyIntProofs.
From Verif Require Import Gauss Gauss2 Gauss3 Fubini ExpPolyIntProps GaussDom GaussFeat GaussFeat2 GaussCausal.
From Verif Require Import GpcmModel GpcmSpec GpcmPsd GpcmPd GpcmProps GpcmProps3 GpcmFeat GpcmEntries GpcmKernel.
From Verif Require Import RgpcmModel RgpcmSpec RgpcmUx RgpcmKernel.
Import ListNotations.
Local Open Scope R_scope.

(** [f] tends to zero. *)
Definition vanishes (f : R -> R) : Prop := forall e, 0 < e -> exists S, forall s, S <= s -> Rabs (f s) <= e.

Lemma vanishes_zero : vanishes (fun _ => 0).
Proof. intros e He. exists 0. intros s _. rewrite Rabs_R0. lra. Qed.
Lemma vanishes_plus f g : vanishes f -> vanishes g -> vanishes (fun s => f s + g s).
Proof.
  intros Hf Hg e He. destruct (Hf (e / 2)) as [S1 H1]; [lra|]. destruct (Hg (e / 2)) as [S2 H2]; [lra|].
  exists (Rmax S1 S2). intros s Hs. pose proof (Rmax_l S1 S2). pose proof (Rmax_r S1 S2).
  specialize (H1 s ltac:(lra)). specialize (H2 s ltac:(lra)). eapply Rle_trans; [apply Rabs_triang|]. lra.
Qed.
Lemma vanishes_scal c f : vanishes f -> vanishes (fun s => c * f s).
Proof.
  intros Hf e He. assert (P : 0 < Rabs c + 1) by (pose proof (Rabs_pos c); lra).
  destruct (Hf (e / (Rabs c + 1))) as [S H]; [now apply Rdiv_lt_0_compat|].
  exists S. intros s Hs. specialize (H s Hs). rewrite Rabs_mult.
  apply Rle_trans with ((Rabs c + 1) * (e / (Rabs c + 1))); [|right; field; lra].
  apply Rmult_le_compat; try apply Rabs_pos; lra.
Qed.
Lemma vanishes_ext f g : (forall s, f s = g s) -> vanishes f -> vanishes g.
Proof. intros E Hf e He. destruct (Hf e He) as [S H]. exists S. intros s Hs. rewrite <- E. auto. Qed.

Lemma vanishes_exp f C c s0 : 0 < c -> (forall s, s0 <= s -> Rabs (f s) <= C * exp (- c * s)) -> vanishes f.
Proof.
  intros Pc H e He. set (D := Rmax C 1). assert (PD : 1 <= D /\ C <= D) by (unfold D; split; [apply Rmax_r|apply Rmax_l]).
  exists (Rmax s0 (ln (D / e) / c)). intros s Hs. pose proof (Rmax_l s0 (ln (D / e) / c)). pose proof (Rmax_r s0 (ln (D / e) / c)).
  eapply Rle_trans; [apply H; lra|]. apply Rle_trans with (D * exp (- c * s)).
  { apply Rmult_le_compat_r; [left; apply exp_pos|lra]. }
  assert (Q : 0 < D / e) by (apply Rdiv_lt_0_compat; lra).
  assert (A : - c * s <= - ln (D / e)).
  { assert (ln (D / e) <= c * s); [|lra]. apply (Rmult_le_reg_r (/ c)); [now apply Rinv_0_lt_compat|].
    replace (c * s * / c) with s by (field; lra). unfold Rdiv at 1 in H1. lra. }
  apply Rle_trans with (D * exp (- ln (D / e))); [apply Rmult_le_compat_l; [lra|now apply exp_le]|].
  rewrite exp_Ropp, exp_ln by auto. right. field. lra.
Qed.

(** ** The GPCM and the CGPCM *)
Section Gpcm.
Context (m : gpcm) (Pa : 0 < g_alpha m) (Pg : 0 < g_gamma m).
Let al := g_alpha m.

Lemma gauss_split f (b : Rbar) C : ulim b -> 0 <= C ->
  (forall s, dom1 (f s)) -> (forall s x, Rabs (f s x) <= C * exp (- al * ((s - x) ^ 2 + x ^ 2))) ->
  exists D, forall s, 1 <= s -> Rabs (Int b (f s)) <= D * exp (- (al / 4) * s).
Proof.
  intros Hb HC Hf H. exists (C * Int b (fun x => exp (- (al / 2) * x ^ 2))). intros s Hs.
  assert (G : dom1 (fun x => exp (- (al / 2) * x ^ 2))) by (apply gauss_dom1; unfold al; lra).
  apply Rle_trans with (Int b (fun x => C * exp (- (al / 4) * s) * exp (- (al / 2) * x ^ 2))).
  - apply (Int_abs b Hb); [apply Hf|now apply dom1_scal|]. intros x. eapply Rle_trans; [apply H|].
    rewrite Rmult_assoc. apply Rmult_le_compat_l; [exact HC|]. rewrite <- exp_plus. apply exp_le.
    assert (Q : s / 4 + x ^ 2 / 2 <= (s - x) ^ 2 + x ^ 2).
    { assert (s <= s ^ 2) by nra. assert (0 <= (6 * s - 8 * x) ^ 2) by apply pow2_ge_0. nra. }
    assert (Z : al * (s / 4 + x ^ 2 / 2) <= al * ((s - x) ^ 2 + x ^ 2)) by (apply Rmult_le_compat_l; [unfold al; lra|exact Q]). lra.
  - rewrite (Int_scal b Hb) by exact G. right. ring.
Qed.

Lemma kh_bound s t : Rabs (kh m s t) <= g_alpha_t m ^ 2 * exp (- al * (s ^ 2 + t ^ 2)).
Proof.
  unfold kh. rewrite Rabs_mult, (Rabs_pos_eq (_ ^ 2)) by apply pow2_ge_0. apply Rmult_le_compat_l; [apply pow2_ge_0|].
  rewrite Rabs_pos_eq by (left; apply exp_pos). apply exp_le. fold al. assert (0 <= g_gamma m * (s - t) ^ 2) by (apply Rmult_le_pos; [lra|apply pow2_ge_0]). lra.
Qed.

Lemma upto_lag s : 1 <= s -> upto m (Rmin s 0) = upto m 0.
Proof. intros Hs. unfold upto. rewrite Rmin_right by lra. reflexivity. Qed.

Lemma gpcm_hx_vanishes (hx : R -> R) :
  (forall s, is_integral (fun x => kh m (s - x) (0 - x)) m_infty (upto m (Rmin s 0)) (hx s)) -> vanishes hx.
Proof.
  intros H. destruct (gauss_split (fun s x => kh m (s - x) (0 - x)) (upto m 0) (g_alpha_t m ^ 2)) as [D HD].
  - apply upto_ulim.
  - apply pow2_ge_0.
  - intros s. exact (kh_dom1 m Pa Pg (fun p => match p with O => s | _ => 0 end) 0%nat 1%nat).
  - intros s x. eapply Rle_trans; [apply kh_bound|]. right. do 3 f_equal. ring.
  - apply (vanishes_exp hx D (al / 4) 1); [unfold al; lra|]. intros s Hs. specialize (HD s Hs).
    replace (hx s) with (Int (upto m 0) (fun x => kh m (s - x) (0 - x))); [exact HD|]. apply Int_unique. rewrite <- (upto_lag s Hs). apply H.
Qed.

Lemma gpcm_ux_vanishes (ux : R -> R) a b :
  (forall s, is_integral (fun x => kh m (s - x) a * kh m b (0 - x)) m_infty (upto m (Rmin s 0)) (ux s)) -> vanishes ux.
Proof.
  intros H. destruct (gauss_split (fun s x => kh m (s - x) a * kh m b (0 - x)) (upto m 0) (g_alpha_t m ^ 2 * g_alpha_t m ^ 2)) as [D HD].
  - apply upto_ulim.
  - apply Rmult_le_pos; apply pow2_ge_0.
  - intros s. apply dom1_mult.
    + exact (q1_dom1 m Pa Pg (fun _ => s) (fun _ => a) 0%nat 0%nat).
    + apply dom1_ext with (fun x => kh m (0 - x) b); [intros; apply kh_sym|]. exact (q1_dom1 m Pa Pg (fun _ => 0) (fun _ => b) 0%nat 0%nat).
  - intros s x. rewrite Rabs_mult. replace (g_alpha_t m ^ 2 * g_alpha_t m ^ 2 * exp (- al * ((s - x) ^ 2 + x ^ 2)))
      with (g_alpha_t m ^ 2 * exp (- al * (s - x) ^ 2) * (g_alpha_t m ^ 2 * exp (- al * x ^ 2))).
    2:{ replace (- al * ((s - x) ^ 2 + x ^ 2)) with (- al * (s - x) ^ 2 + - al * x ^ 2) by ring. rewrite exp_plus. ring. }
    apply Rmult_le_compat; try apply Rabs_pos; (eapply Rle_trans; [apply kh_bound|]); (apply Rmult_le_compat_l; [apply pow2_ge_0|]); apply exp_le.
    + assert (0 <= al * a ^ 2) by (apply Rmult_le_pos; [unfold al; lra|apply pow2_ge_0]). lra.
    + assert (0 <= al * b ^ 2) by (apply Rmult_le_pos; [unfold al; lra|apply pow2_ge_0]). replace ((0 - x) ^ 2) with (x ^ 2) by ring. lra.
  - apply (vanishes_exp ux D (al / 4) 1); [unfold al; lra|]. intros s Hs. specialize (HD s Hs).
    replace (ux s) with (Int (upto m 0) (fun x => kh m (s - x) a * kh m b (0 - x))); [exact HD|]. apply Int_unique. rewrite <- (upto_lag s Hs). apply H.
Qed.

Lemma gpcm_ux_pos a v : g_alpha_t m <> 0 ->
  is_integral (fun x => kh m (0 - x) a * kh m a (0 - x)) m_infty (upto m (Rmin 0 0)) v -> 0 < v.
Proof.
  intros Na H. rewrite Rmin_left in H by lra.
  assert (D : dom1 (fun x => kh m (0 - x) a * kh m a (0 - x))).
  { apply dom1_mult.
    + exact (q1_dom1 m Pa Pg (fun _ => 0) (fun _ => a) 0%nat 0%nat).
    + apply dom1_ext with (fun x => kh m (0 - x) a); [intros; apply kh_sym|]. exact (q1_dom1 m Pa Pg (fun _ => 0) (fun _ => a) 0%nat 0%nat). }
  rewrite <- (Int_unique _ _ _ H).
  assert (K : forall x, 0 < kh m (0 - x) a * kh m a (0 - x)).
  { intros x. rewrite (kh_sym m a). assert (0 < kh m (0 - x) a); [|now apply Rmult_lt_0_compat].
    unfold kh. apply Rmult_lt_0_compat; [|apply exp_pos]. pose proof (Rsqr_pos_lt _ Na) as P. unfold Rsqr in P. lra. }
  apply (Int_pos (fun x => kh m (0 - x) a * kh m a (0 - x)) (upto m 0) (-1) (upto_ulim m 0) D (fun x => Rlt_le _ _ (K x)) (K _)); [lra|].
  unfold upto. destruct (g_causal m); cbn; auto; lra.
Qed.
End Gpcm.

(** ** The RGPCM *)
Section Rgpcm.
Context (m : rgpcm) (Pa : 0 < r_alpha m) (Pg : 0 < r_gamma m) (Pl : 0 < r_lam m).
Let C := r_alpha_t m ^ 2 * r_gamma_t m ^ 2.

Lemma RInt_bounds (f : R -> R) a b lo hi v : a <= b -> is_RInt f a b v -> (forall x, a <= x <= b -> lo <= f x <= hi) ->
  lo * (b - a) <= v <= hi * (b - a).
Proof.
  intros Hab Hf H.
  assert (K : forall c, is_RInt (fun _ : R => c) a b ((b - a) * c)) by (intros c; exact (@is_RInt_const R_NormedModule a b c)).
  split.
  - apply Rle_trans with ((b - a) * lo); [lra|].
    apply (is_RInt_le (fun _ => lo) f a b); auto. intros x Hx. apply H. lra.
  - apply Rle_trans with ((b - a) * hi); [|lra].
    apply (is_RInt_le f (fun _ => hi) a b); auto. intros x Hx. apply H. lra.
Qed.

Lemma rect_bounds f x1 y1 lo hi v : 0 <= x1 -> 0 <= y1 -> is_rect_integral f 0 x1 0 y1 v ->
  (forall x y, 0 <= x <= x1 -> 0 <= y <= y1 -> lo <= f x y <= hi) -> lo * y1 * x1 <= v <= hi * y1 * x1.
Proof.
  intros Hx Hy [g [Hg H]] B.
  assert (G : forall x, 0 <= x <= x1 -> lo * y1 <= g x <= hi * y1).
  { intros x Ix. pose proof (RInt_bounds (f x) 0 y1 lo hi (g x) Hy (Hg x) (fun y => B x y Ix)). lra. }
  pose proof (RInt_bounds g 0 x1 _ _ v Hx H G). lra.
Qed.

Lemma rgpcm_hx_vanishes : vanishes (fun s => r_alpha_t m ^ 2 / 2 / r_alpha m * exp (- r_lam m * Rabs (s - 0))).
Proof.
  apply (vanishes_exp _ (r_alpha_t m ^ 2 / 2 / r_alpha m) (r_lam m) 0); [exact Pl|]. intros s Hs.
  rewrite Rminus_0_r, (Rabs_pos_eq s) by exact Hs. right. apply Rabs_pos_eq. apply Rmult_le_pos; [|left; apply exp_pos].
  unfold Rdiv. pose proof (pow2_ge_0 (r_alpha_t m)). pose proof (Rinv_0_lt_compat _ Pa). apply Rmult_le_pos; lra.
Qed.

Lemma rgpcm_ux_vanishes a b : r_gamma m <> r_alpha m -> (r_gamma m - r_alpha m) ^ 2 <> r_lam m ^ 2 ->
  0 <= a -> 0 <= b -> vanishes (fun s => ux_value m s 0 a b).
Proof.
  intros Ng Nl Ha Hb. assert (HC : 0 <= C) by (apply Rmult_le_pos; apply pow2_ge_0).
  apply (vanishes_exp _ (C * exp (r_lam m * b) * a * b) (r_lam m) b); [exact Pl|]. intros s Hs.
  assert (B := rect_bounds _ b a 0 (C * exp (- r_lam m * (s - b))) _ Hb Ha (ux_spec m Ng Nl s 0 a b)).
  destruct B as [B1 B2].
  - intros x y Hx Hy. unfold ux_integrand. fold C.
    assert (E1 := exp_pos (- r_alpha m * (x + y) - r_gamma m * (b - x) - r_gamma m * (a - y))).
    assert (E2 := exp_pos (- r_lam m * Rabs (s - x - (0 - y)))). split.
    + apply Rmult_le_pos; [apply Rmult_le_pos|]; lra.
    + apply Rmult_le_compat; [apply Rmult_le_pos; lra|lra| |].
      * rewrite <- (Rmult_1_r C) at 2. apply Rmult_le_compat_l; [exact HC|]. rewrite <- exp_0. apply exp_le.
        assert (0 <= r_alpha m * (x + y)) by (apply Rmult_le_pos; lra).
        assert (0 <= r_gamma m * (b - x)) by (apply Rmult_le_pos; lra).
        assert (0 <= r_gamma m * (a - y)) by (apply Rmult_le_pos; lra). lra.
      * apply exp_le. assert (L := Rle_abs (s - x - (0 - y))).
        assert (r_lam m * (s - b) <= r_lam m * Rabs (s - x - (0 - y))) by (apply Rmult_le_compat_l; lra). lra.
  - rewrite Rabs_pos_eq by lra. eapply Rle_trans; [exact B2|].
    replace (- r_lam m * (s - b)) with (r_lam m * b + - r_lam m * s) by ring. rewrite exp_plus. right. ring.
Qed.

Lemma rgpcm_ux_pos a : r_gamma m <> r_alpha m -> (r_gamma m - r_alpha m) ^ 2 <> r_lam m ^ 2 ->
  r_alpha_t m <> 0 -> r_gamma_t m <> 0 -> 0 < a -> 0 < ux_value m 0 0 a a.
Proof.
  intros Ng Nl Na Nt Ha.
  assert (HC : 0 < C).
  { assert (Q1 := Rsqr_pos_lt _ Na). assert (Q2 := Rsqr_pos_lt _ Nt). unfold Rsqr in *. unfold C. apply Rmult_lt_0_compat; lra. }
  pose (k := (2 * r_alpha m + 2 * r_gamma m + r_lam m) * a).
  assert (B := rect_bounds _ a a (C * exp (- k)) C _ (Rlt_le _ _ Ha) (Rlt_le _ _ Ha) (ux_spec m Ng Nl 0 0 a a)).
  destruct B as [B1 _].
  - intros x y Hx Hy. unfold ux_integrand. fold C. rewrite Rmult_assoc, <- exp_plus.
    assert (L : Rabs (0 - x - (0 - y)) <= a) by (apply Rabs_le; lra). assert (L0 := Rabs_pos (0 - x - (0 - y))).
    assert (G1 : 0 <= r_alpha m * (x + y) <= 2 * r_alpha m * a).
    { split; [apply Rmult_le_pos; lra|]. replace (2 * r_alpha m * a) with (r_alpha m * (a + a)) by ring. apply Rmult_le_compat_l; lra. }
    assert (G2 : 0 <= r_gamma m * (a - x) <= r_gamma m * a) by (split; [apply Rmult_le_pos|apply Rmult_le_compat_l]; lra).
    assert (G3 : 0 <= r_gamma m * (a - y) <= r_gamma m * a) by (split; [apply Rmult_le_pos|apply Rmult_le_compat_l]; lra).
    assert (G4 : 0 <= r_lam m * Rabs (0 - x - (0 - y)) <= r_lam m * a) by (split; [apply Rmult_le_pos|apply Rmult_le_compat_l]; lra).
    split.
    + apply Rmult_le_compat_l; [lra|]. apply exp_le. unfold k. lra.
    + rewrite <- (Rmult_1_r C) at 2. apply Rmult_le_compat_l; [lra|]. rewrite <- exp_0. apply exp_le. lra.
  - eapply Rlt_le_trans; [|exact B1].
    apply Rmult_lt_0_compat; [apply Rmult_lt_0_compat; [apply Rmult_lt_0_compat; [exact HC|apply exp_pos]|]|]; exact Ha.
Qed.
End Rgpcm.
