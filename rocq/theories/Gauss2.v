(** Improper integrals of exponentiated quadratics, in closed form. *)
From Coq Require Import Reals Lra Lia.
From Coquelicot Require Import Coquelicot.
From Verif Require Import Gauss.
Local Open Scope R_scope.

(** * General facts *)

Lemma is_integral_unique f lo hi v w : is_integral f lo hi v -> is_integral f lo hi w -> v = w.
Proof.
  intros A B. unfold is_integral in *.
  rewrite <- (@is_RInt_gen_unique R_CompleteNormedModule _ _ _ _ f v A).
  apply (@is_RInt_gen_unique R_CompleteNormedModule _ _ _ _ f w B).
Qed.

Lemma is_integral_ext f g lo hi v :
  (forall x, f x = g x) -> is_integral f lo hi v -> is_integral g lo hi v.
Proof.
  intros E. apply is_RInt_gen_ext. apply filter_forall. intros [x y] z _. apply E.
Qed.

Lemma is_integral_scal k f lo hi v : is_integral f lo hi v -> is_integral (fun x => k * f x) lo hi (k * v).
Proof. intros H. apply (is_RInt_gen_scal f k v H). Qed.

Lemma is_integral_plus f g lo hi v w :
  is_integral f lo hi v -> is_integral g lo hi w -> is_integral (fun x => f x + g x) lo hi (v + w).
Proof. intros A B. apply (is_RInt_gen_plus f g v w A B). Qed.

Lemma is_integral_minus f g lo hi v w :
  is_integral f lo hi v -> is_integral g lo hi w -> is_integral (fun x => f x - g x) lo hi (v - w).
Proof. intros A B. apply (is_RInt_gen_minus f g v w A B). Qed.

Lemma is_integral_opp f lo hi v :
  is_integral f lo hi v -> is_integral (fun x => - f x) lo hi (- v).
Proof. intros A. apply (is_RInt_gen_opp f v A). Qed.

Lemma is_integral_Chasles f lo (m : R) hi v w :
  is_integral f lo m v -> is_integral f m hi w -> is_integral f lo hi (v + w).
Proof. intros A B. apply (is_RInt_gen_Chasles f m v w A B). Qed.

Lemma is_integral_swap f lo hi v : is_integral f lo hi v -> is_integral f hi lo (- v).
Proof. intros A. apply (is_RInt_gen_swap f v A). Qed.

Lemma is_integral_finite f (a b v : R) : is_integral f a b v <-> is_RInt f a b v.
Proof. apply is_RInt_gen_at_point. Qed.

(** The part below [hi] minus the part below [lo] is the part between. *)
Lemma is_integral_diff f l0 (lo hi : R) v w :
  is_integral f l0 hi v -> is_integral f l0 lo w -> is_integral f lo hi (v - w).
Proof.
  intros A B. replace (v - w) with (- w + v) by ring.
  unfold is_integral in *.
  assert (E : is_RInt_gen f (at_point lo) (lim_filter l0) (- w)) by exact (is_integral_swap f l0 (Finite lo) w B).
  intros P HP.
  (* both hold for some point of the filter l0 *)
  destruct HP as [eps HP].
  assert (H1 : locally (- w) (ball (- w) (pos_div_2 eps))) by (exists (pos_div_2 eps); auto).
  assert (H2 : locally v (ball v (pos_div_2 eps))) by (exists (pos_div_2 eps); auto).
  specialize (E _ H1). specialize (A _ H2).
  destruct E as [Q1 R1 HQ1 HR1 E]. destruct A as [Q2 R2 HQ2 HR2 A].
  pose proof (filter_and _ _ HR1 HQ2) as HM.
  destruct (filter_ex _ HM) as [m [M1 M2]].
  exists Q1 R2; auto. intros x y Hx Hy.
  destruct (E x m Hx M1) as [i1 [I1 B1]]. destruct (A m y M2 Hy) as [i2 [I2 B2]].
  exists (i1 + i2). split.
  - simpl in *. apply (is_RInt_Chasles f x m y i1 i2 I1 I2).
  - apply HP. unfold ball in *; simpl in *; unfold AbsRing_ball, abs, minus, plus, opp in *; simpl in *.
    replace (i1 + i2 + - (- w + v)) with ((i1 + - - w) + (i2 + - v)) by ring.
    eapply Rle_lt_trans; [apply Rabs_triang|]. lra.
Qed.

(** Affine substitution with positive slope. *)
Definition lim_affine (s m : R) (l : Rbar) : Rbar :=
  match l with Finite x => Finite (s * x + m) | p_infty => p_infty | m_infty => m_infty end.

Lemma lim_affine_filter s m l :
  0 < s -> filterlim (fun x => s * x + m) (lim_filter l) (lim_filter (lim_affine s m l)).
Proof.
  intros H. destruct l as [x| |]; simpl.
  - intros P HP. exact HP.
  - intros P [M HM]. exists ((M - m) / s). intros x Hx. apply HM.
    apply (Rmult_lt_compat_l s) in Hx; auto. unfold Rdiv in Hx.
    replace (s * ((M - m) * / s)) with (M - m) in Hx by (field; lra). lra.
  - intros P [M HM]. exists ((M - m) / s). intros x Hx. apply HM.
    apply (Rmult_lt_compat_l s) in Hx; auto. unfold Rdiv in Hx.
    replace (s * ((M - m) * / s)) with (M - m) in Hx by (field; lra). lra.
Qed.

Lemma is_integral_affine f s m lo hi v :
  0 < s -> is_integral f (lim_affine s m lo) (lim_affine s m hi) v ->
  is_integral (fun x => s * f (s * x + m)) lo hi v.
Proof.
  intros Hs A P HP. specialize (A P HP). destruct A as [Q1 Q2 H1 H2 A].
  exists (fun x => Q1 (s * x + m)) (fun x => Q2 (s * x + m)).
  - now apply (lim_affine_filter s m lo Hs).
  - now apply (lim_affine_filter s m hi Hs).
  - intros x y Hx Hy. destruct (A _ _ Hx Hy) as [i [I Pi]]. exists i. split; auto. simpl in *.
    apply (is_RInt_comp_lin f s m x y i). exact I.
Qed.

Lemma is_integral_shift f m lo hi v :
  is_integral f (lim_affine 1 m lo) (lim_affine 1 m hi) v -> is_integral (fun x => f (x + m)) lo hi v.
Proof.
  intros A. eapply is_integral_ext; [|apply (is_integral_affine f 1 m); [lra|exact A]].
  intros x. cbv beta. rewrite !Rmult_1_l. reflexivity.
Qed.

(** * Integral of exp of a quadratic *)

Section Quad.
Variables a b c : R.
Hypothesis Ha : a < 0.

Definition qf (x : R) : R := exp (a * x ^ 2 + b * x + c).
Definition qs : R := sqrt (- a).
Definition qK : R := / 2 * sqrt (- PI / a) * exp (- / 4 * b ^ 2 / a + c).
Definition qF (x : R) : R := qK * erf (qs * x - b / (2 * qs)).

Lemma qs_pos : 0 < qs.
Proof. apply sqrt_lt_R0. lra. Qed.

Lemma qs_sq : qs * qs = - a.
Proof. apply sqrt_sqrt. lra. Qed.

Lemma sqrt_ratio : sqrt (- PI / a) = sqrt PI / qs.
Proof.
  unfold qs. rewrite <- sqrt_div; [|left; apply PI_RGT_0|lra]. f_equal. field. lra.
Qed.

Lemma qf_cont x : continuous qf x.
Proof. apply (ex_derive_continuous qf). unfold qf. auto_derive. trivial. Qed.

Lemma qF_derive x : is_derive qF x (qf x).
Proof.
  pose proof qs_pos as S. pose proof sqrt_PI_pos as SP. pose proof qs_sq as SS.
  set (w := qs * x - b / (2 * qs)).
  assert (D : is_derive (fun y => erf (qs * y - b / (2 * qs))) x (qs * (2 / sqrt PI * exp (- w ^ 2)))).
  { apply (is_derive_comp erf (fun y => qs * y - b / (2 * qs)) x).
    - apply erf_derive.
    - auto_derive; [trivial|ring]. }
  apply (is_derive_scal _ x qK) in D.
  eapply is_derive_ext with (f := fun y => qK * erf (qs * y - b / (2 * qs))); [reflexivity|].
  replace (qf x) with (qK * (qs * (2 / sqrt PI * exp (- w ^ 2)))); [exact D|].
  unfold qK, qf. rewrite sqrt_ratio.
  replace (a * x ^ 2 + b * x + c) with (- / 4 * b ^ 2 / a + c + - w ^ 2).
  - rewrite (exp_plus _ (- w ^ 2)). field. lra.
  - unfold w. replace a with (- (qs * qs)) by lra. field. lra.
Qed.

Lemma qF_lim_p : filterlim qF (Rbar_locally p_infty) (locally qK).
Proof.
  replace qK with (scal qK 1) at 1 by (unfold scal; simpl; unfold mult; simpl; ring).
  eapply filterlim_comp with (G := locally 1) (f := fun x => erf (qs * x - b / (2 * qs))).
  - eapply filterlim_comp; [|apply erf_lim_p].
    apply (lim_affine_filter qs (- (b / (2 * qs))) p_infty qs_pos).
  - apply (filterlim_scal_r qK 1).
Qed.

Lemma qF_lim_m : filterlim qF (Rbar_locally m_infty) (locally (- qK)).
Proof.
  replace (- qK) with (scal qK (-1)) by (unfold scal; simpl; unfold mult; simpl; ring).
  eapply filterlim_comp with (G := locally (-1)) (f := fun x => erf (qs * x - b / (2 * qs))).
  - eapply filterlim_comp; [|apply erf_lim_m].
    apply (lim_affine_filter qs (- (b / (2 * qs))) m_infty qs_pos).
  - apply (filterlim_scal_r qK (-1)).
Qed.

Definition qlim (l : Rbar) : R :=
  match l with Finite x => qF x | p_infty => qK | m_infty => - qK end.

Lemma qF_lim l : filterlim qF (lim_filter l) (locally (qlim l)).
Proof.
  destruct l; simpl; [apply filterlim_at_point|apply qF_lim_p|apply qF_lim_m].
Qed.

Lemma quad_integral lo hi : is_integral qf lo hi (qlim hi - qlim lo).
Proof.
  apply is_integral_ftc with (F := qF); auto using qF_derive, qf_cont, qF_lim.
Qed.

Lemma gauss_full :
  is_integral qf m_infty p_infty (sqrt (- PI / a) * exp (- / 4 * b ^ 2 / a + c)).
Proof.
  replace (sqrt (- PI / a) * exp (- / 4 * b ^ 2 / a + c)) with (qlim p_infty - qlim m_infty).
  - apply quad_integral.
  - unfold qlim, qK. field.
Qed.

Lemma gauss_below (z : R) :
  is_integral qf m_infty z
    (/ 2 * sqrt (- PI / a) * exp (- / 4 * b ^ 2 / a + c) * (1 + erf (qs * z - b / (2 * qs)))).
Proof.
  replace (_ * (1 + _)) with (qlim z - qlim m_infty).
  - apply quad_integral.
  - unfold qlim, qF, qK. field.
Qed.

Lemma gauss_half :
  is_integral qf m_infty 0
    (/ 2 * sqrt (- PI / a) * exp (- / 4 * b ^ 2 / a + c) * (1 - erf (/ 2 * b / sqrt (- a)))).
Proof.
  pose proof qs_pos as S.
  replace (1 - erf (/ 2 * b / sqrt (- a))) with (1 + erf (qs * 0 - b / (2 * qs))).
  - apply gauss_below.
  - unfold Rminus at 2. rewrite <- erf_odd. do 2 f_equal. fold qs. field. lra.
Qed.

End Quad.

(** * Existence by domination *)

Lemma is_integral_m_intro f (b l : R) :
  (forall x, continuous f x) ->
  filterlim (fun x => RInt f x b) (Rbar_locally m_infty) (locally l) -> is_integral f m_infty b l.
Proof.
  intros Cf H P HP. specialize (H P HP).
  exists (fun x => P (RInt f x b)) (fun y => y = b); auto.
  - reflexivity.
  - intros x y Hx ->. exists (RInt f x b). split; auto. simpl.
    apply (@RInt_correct R_CompleteNormedModule), (@ex_RInt_continuous R_CompleteNormedModule). auto.
Qed.

Lemma is_integral_m_elim f (b l : R) :
  (forall x, continuous f x) ->
  is_integral f m_infty b l -> filterlim (fun x => RInt f x b) (Rbar_locally m_infty) (locally l).
Proof.
  intros Cf H P HP. specialize (H P HP). destruct H as [Q1 Q2 H1 H2 H].
  unfold filtermap. eapply filter_imp; [|exact H1]. intros x Hx.
  destruct (H x b Hx H2) as [i [I Pi]]. simpl in I. now rewrite (is_RInt_unique _ _ _ _ I).
Qed.

Lemma integral_dominated f g (b : R) vg :
  (forall x, continuous f x) -> (forall x, continuous g x) ->
  (forall x, Rabs (f x) <= g x) ->
  is_integral g m_infty b vg -> exists vf, is_integral f m_infty b vf.
Proof.
  intros Cf Cg Hfg Hg. apply is_integral_m_elim in Hg; auto.
  assert (Ef : forall x y, ex_RInt f x y).
  { intros. apply (@ex_RInt_continuous R_CompleteNormedModule). auto. }
  assert (Eg : forall x y, ex_RInt g x y).
  { intros. apply (@ex_RInt_continuous R_CompleteNormedModule). auto. }
  assert (K : exists y, filterlim (fun x => RInt f x b) (Rbar_locally m_infty) (locally y)).
  { apply (@filterlim_locally_cauchy R R_CompleteSpace (Rbar_locally m_infty) _ (fun x => RInt f x b)).
    intros eps.
    assert (G : exists y : R, filterlim (fun x => RInt g x b) (Rbar_locally m_infty) (locally y)) by eauto.
    pose proof (proj2 (@filterlim_locally_cauchy R R_CompleteSpace (Rbar_locally m_infty) _ (fun x => RInt g x b)) G) as G'.
    destruct (G' eps) as [P [HP HB]]. exists P. split; auto. intros u v Hu Hv.
    specialize (HB u v Hu Hv).
    unfold ball in *; simpl in *; unfold AbsRing_ball, abs, minus, plus, opp in *; simpl in *.
    assert (D : forall h, (forall x y, ex_RInt h x y) -> RInt h v b + - RInt h u b = - RInt h u v).
    { intros h Eh. rewrite <- (RInt_Chasles h u v b) by auto. unfold plus; simpl. ring. }
    rewrite D in * by auto. rewrite Rabs_Ropp in *.
    eapply Rle_lt_trans; [|exact HB].
    assert (L : forall p q, p <= q -> Rabs (RInt f p q) <= Rabs (RInt g p q)).
    { intros p q Hpq. rewrite (Rabs_pos_eq (RInt g p q)).
      - apply (norm_RInt_le f g p q (RInt f p q) (RInt g p q) Hpq).
        + intros x _. apply Hfg.
        + apply (@RInt_correct R_CompleteNormedModule), Ef.
        + apply (@RInt_correct R_CompleteNormedModule), Eg.
      - apply RInt_ge_0; auto. intros x _. eapply Rle_trans; [apply Rabs_pos|apply Hfg]. }
    destruct (Rle_dec u v) as [H|H]; [now apply L|].
    rewrite <- (opp_RInt_swap f v u), <- (opp_RInt_swap g v u) by auto.
    unfold opp; simpl. rewrite !Rabs_Ropp. apply L. lra. }
  destruct K as [y Hy]. exists y. now apply is_integral_m_intro.
Qed.
