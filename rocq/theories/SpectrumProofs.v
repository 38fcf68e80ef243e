(** Lemmas for C123: the Fourier transform of an exponential kernel. *)
From Coq Require Import Reals ZArith List Lra Lia.
From Coquelicot Require Import Coquelicot.
From Verif Require Import Gauss Gauss2 RgpcmHz.
Local Open Scope R_scope.

Section OneSided.
Variables lam w : R.
Hypothesis Hl : 0 < lam.

Let d := lam ^ 2 + w ^ 2.
Lemma d_pos : 0 < d. Proof. unfold d. nra. Qed.

Definition Gc x := exp (lam * x) * (lam * cos (w * x) + w * sin (w * x)) / d.
Definition Gs x := exp (lam * x) * (lam * sin (w * x) - w * cos (w * x)) / d.

Lemma Gc_derive x : is_derive Gc x (exp (lam * x) * cos (w * x)).
Proof. pose proof d_pos. unfold Gc. auto_derive; auto. unfold d in *. field. lra. Qed.
Lemma Gs_derive x : is_derive Gs x (exp (lam * x) * sin (w * x)).
Proof. pose proof d_pos. unfold Gs. auto_derive; auto. unfold d in *. field. lra. Qed.

Lemma decay (g : R -> R) (C : R) : (forall x, Rabs (g x) <= C) ->
  filterlim (fun x => exp (lam * x) * g x) (Rbar_locally m_infty) (locally 0).
Proof.
  intros H. assert (E : is_lim (fun x => exp (lam * x + 0)) m_infty 0) by apply (exp_lim_m lam 0 Hl).
  change (is_lim (fun x => exp (lam * x) * g x) m_infty 0).
  apply (is_lim_le_le_loc (fun x => - C * exp (lam * x + 0)) (fun x => C * exp (lam * x + 0))).
  - apply filter_forall. intros x. rewrite Rplus_0_r. specialize (H x). pose proof (exp_pos (lam * x)).
    apply Rabs_le_between in H. split; nra.
  - replace (Finite 0) with (Rbar_mult (- C) 0) by (simpl; f_equal; ring). now apply is_lim_scal_l.
  - replace (Finite 0) with (Rbar_mult C 0) by (simpl; f_equal; ring). now apply is_lim_scal_l.
Qed.

Lemma trig_bound a b x : Rabs (a * cos x + b * sin x) <= Rabs a + Rabs b.
Proof.
  eapply Rle_trans; [apply Rabs_triang|]. rewrite !Rabs_mult.
  assert (Rabs (cos x) <= 1) by (apply Rabs_le, COS_bound). assert (Rabs (sin x) <= 1) by (apply Rabs_le, SIN_bound).
  pose proof (Rabs_pos a). pose proof (Rabs_pos b). nra.
Qed.

Lemma cont_of_derive (f : R -> R) : (forall x, ex_derive f x) -> forall x, continuous f x.
Proof. intros H x. apply (ex_derive_continuous f x), H. Qed.

Lemma left_cos : is_integral (fun x => exp (lam * x) * cos (w * x)) m_infty 0 (lam / d).
Proof.
  replace (lam / d) with (lam / d - 0) by ring.
  apply (is_integral_ftc Gc).
  - apply Gc_derive.
  - apply cont_of_derive. intros x. auto_derive. auto.
  - eapply filterlim_ext; [|apply (decay (fun x => (lam / d) * cos (w * x) + (w / d) * sin (w * x)) _ (fun x => trig_bound _ _ _))].
    intros x. unfold Gc. pose proof d_pos. simpl. field. lra.
  - intros P HP. replace (lam / d) with (Gc 0) in HP.
    + unfold filtermap, lim_filter, at_point. now apply locally_singleton.
    + unfold Gc. rewrite !Rmult_0_r, exp_0, cos_0, sin_0. pose proof d_pos. field. lra.
Qed.
Lemma left_sin : is_integral (fun x => exp (lam * x) * sin (w * x)) m_infty 0 (- w / d).
Proof.
  replace (- w / d) with (- w / d - 0) by ring.
  apply (is_integral_ftc Gs).
  - apply Gs_derive.
  - apply cont_of_derive. intros x. auto_derive. auto.
  - eapply filterlim_ext; [|apply (decay (fun x => (- w / d) * cos (w * x) + (lam / d) * sin (w * x)) _ (fun x => trig_bound _ _ _))].
    intros x. unfold Gs. pose proof d_pos. simpl. field. lra.
  - intros P HP. replace (- w / d) with (Gs 0) in HP.
    + unfold filtermap, lim_filter, at_point. now apply locally_singleton.
    + unfold Gs. rewrite !Rmult_0_r, exp_0, cos_0, sin_0. pose proof d_pos. field. lra.
Qed.
End OneSided.

(** Reflection. *)
Lemma is_integral_reflect f (v : R) : is_integral f m_infty 0 v -> is_integral (fun x => f (- x)) 0 p_infty v.
Proof.
  intros A P HP. specialize (A P HP). destruct A as [Q1 Q2 H1 H2 A].
  exists (fun x => Q2 (- x)) (fun x => Q1 (- x)).
  - unfold lim_filter, at_point in *. now rewrite Ropp_0.
  - destruct H1 as [M HM]. exists (- M). intros x Hx. apply HM. lra.
  - intros x y Hx Hy. destruct (A _ _ Hy Hx) as [i [I Pi]]. exists i. split; auto. simpl in *.
    apply is_RInt_swap, (is_RInt_comp_opp f), (@is_RInt_opp R_NormedModule) in I. rewrite opp_opp in I.
    eapply is_RInt_ext; [|exact I]. intros z _. apply (opp_opp (f (- z))).
Qed.

Lemma left_ext f g (v : R) : (forall x, x <= 0 -> f x = g x) -> is_integral f m_infty 0 v -> is_integral g m_infty 0 v.
Proof.
  intros E. apply is_RInt_gen_ext. exists (fun x => x < 0) (fun y => y = 0).
  - exists 0. auto.
  - reflexivity.
  - intros x y Hx -> z [_ Hz]. apply E. simpl in Hz. rewrite Rmax_right in Hz by lra. lra.
Qed.
Lemma right_ext f g (v : R) : (forall x, 0 <= x -> f x = g x) -> is_integral f 0 p_infty v -> is_integral g 0 p_infty v.
Proof.
  intros E. apply is_RInt_gen_ext. exists (fun y => y = 0) (fun x => 0 < x).
  - reflexivity.
  - exists 0. auto.
  - intros x y -> Hy z [Hz _]. apply E. simpl in Hz. rewrite Rmin_left in Hz by lra. lra.
Qed.

Lemma fourier_cos lam w : 0 < lam ->
  is_integral (fun x => exp (- lam * Rabs x) * cos (w * x)) m_infty p_infty (2 * lam / (lam ^ 2 + w ^ 2)).
Proof.
  intros Hl. pose proof (left_cos lam w Hl) as A. set (v := lam / _) in A.
  replace (2 * lam / _) with (v + v) by (unfold v; field; nra).
  apply (is_integral_Chasles _ _ 0).
  - eapply left_ext; [|exact A]. intros x Hx. cbv beta. rewrite Rabs_left1 by lra. do 2 f_equal; ring.
  - eapply right_ext; [|apply is_integral_reflect, A]. intros x Hx. cbv beta. rewrite Rabs_right by lra.
    rewrite Ropp_mult_distr_r_reverse, (Ropp_mult_distr_r_reverse w), cos_neg. do 2 f_equal; ring.
Qed.
Lemma fourier_sin lam w : 0 < lam ->
  is_integral (fun x => exp (- lam * Rabs x) * sin (w * x)) m_infty p_infty 0.
Proof.
  intros Hl. pose proof (left_sin lam w Hl) as A. set (v := - w / _) in A.
  replace 0 with (v + - v) at 1 by ring.
  apply (is_integral_Chasles _ _ 0).
  - eapply left_ext; [|exact A]. intros x Hx. cbv beta. rewrite Rabs_left1 by lra. do 2 f_equal; ring.
  - apply is_integral_reflect, is_integral_opp in A. eapply right_ext; [|exact A]. intros x Hx. cbv beta. rewrite Rabs_right by lra.
    rewrite Ropp_mult_distr_r_reverse, (Ropp_mult_distr_r_reverse w), sin_neg. 
    rewrite Ropp_mult_distr_r_reverse, Ropp_involutive. do 2 f_equal; ring.
Qed.
