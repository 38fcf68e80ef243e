(** The bivariate normal CDF and integrals of exponentiated quadratics over quadrants. *)
From Coq Require Import Reals Lra Lia Psatz.
From Coquelicot Require Import Coquelicot.
From Verif Require Import Gauss Gauss2.
Local Open Scope R_scope.

(** Iterated integral: the second argument is integrated first. *)
Definition is_integral2 (f : R -> R -> R) (lo1 hi1 lo2 hi2 : Rbar) (v : R) : Prop :=
  exists g, (forall x, is_integral (f x) lo2 hi2 (g x)) /\ is_integral g lo1 hi1 v.

(** Density of a bivariate normal with unit variances and correlation [rho]. *)
Definition bvn_pdf (rho u v : R) : R :=
  / (2 * PI * sqrt (1 - rho ^ 2)) * exp (- (u ^ 2 - 2 * rho * u * v + v ^ 2) / (2 * (1 - rho ^ 2))).

(** Its distribution function: the external [B.bvn_cdf] used in exppoly.py:699. *)
Definition bvn_cdf (x1 x2 rho : R) : R :=
  RInt_gen (V := R_CompleteNormedModule)
    (fun u => RInt_gen (V := R_CompleteNormedModule) (bvn_pdf rho u) (Rbar_locally m_infty) (at_point x2))
    (Rbar_locally m_infty) (at_point x1).

Lemma RInt_gen_integral f lo hi v :
  is_integral f lo hi v ->
  RInt_gen (V := R_CompleteNormedModule) f (lim_filter lo) (lim_filter hi) = v.
Proof. intros H. apply (@is_RInt_gen_unique R_CompleteNormedModule _ _ _ _ f v H). Qed.

Lemma is_integral2_unique f lo1 hi1 lo2 hi2 v w :
  is_integral2 f lo1 hi1 lo2 hi2 v -> is_integral2 f lo1 hi1 lo2 hi2 w -> v = w.
Proof.
  intros [g [G1 G2]] [h [H1 H2]]. eapply is_integral_unique; [exact G2|].
  eapply is_integral_ext; [|exact H2]. intros x. symmetry.
  eapply is_integral_unique; eauto.
Qed.

Lemma is_integral2_ext f1 f2 lo1 hi1 lo2 hi2 v :
  (forall x y, f1 x y = f2 x y) -> is_integral2 f1 lo1 hi1 lo2 hi2 v -> is_integral2 f2 lo1 hi1 lo2 hi2 v.
Proof.
  intros E [g [G1 G2]]. exists g. split; auto. intros x. eapply is_integral_ext; [|apply G1]. auto.
Qed.

Lemma is_integral2_scal k f lo1 hi1 lo2 hi2 v :
  is_integral2 f lo1 hi1 lo2 hi2 v -> is_integral2 (fun x y => k * f x y) lo1 hi1 lo2 hi2 (k * v).
Proof.
  intros [g [G1 G2]]. exists (fun x => k * g x). split.
  - intros x. apply is_integral_scal. apply G1.
  - now apply is_integral_scal.
Qed.

Lemma is_integral2_affine f s1 m1 s2 m2 lo1 hi1 lo2 hi2 v :
  0 < s1 -> 0 < s2 ->
  is_integral2 f (lim_affine s1 m1 lo1) (lim_affine s1 m1 hi1)
                 (lim_affine s2 m2 lo2) (lim_affine s2 m2 hi2) v ->
  is_integral2 (fun x y => s1 * s2 * f (s1 * x + m1) (s2 * y + m2)) lo1 hi1 lo2 hi2 v.
Proof.
  intros H1 H2 [g [G1 G2]]. exists (fun x => s1 * g (s1 * x + m1)). split.
  - intros x. eapply is_integral_ext.
    2: { apply is_integral_scal with (k := s1). apply (is_integral_affine (f (s1 * x + m1)) s2 m2); auto. }
    intros y. simpl. ring.
  - now apply is_integral_affine.
Qed.

Lemma is_integral2_shift f m1 m2 lo1 hi1 lo2 hi2 v :
  is_integral2 f (lim_affine 1 m1 lo1) (lim_affine 1 m1 hi1)
                 (lim_affine 1 m2 lo2) (lim_affine 1 m2 hi2) v ->
  is_integral2 (fun x y => f (x + m1) (y + m2)) lo1 hi1 lo2 hi2 v.
Proof.
  intros H. eapply is_integral2_ext; [|apply (is_integral2_affine f 1 m1 1 m2); [lra|lra|exact H]].
  intros x y. cbv beta. rewrite !Rmult_1_l. reflexivity.
Qed.

(** Differences in each direction. *)
Lemma is_integral2_diff1 f l0 (lo hi : R) lo2 hi2 v w :
  is_integral2 f l0 hi lo2 hi2 v -> is_integral2 f l0 lo lo2 hi2 w ->
  is_integral2 f lo hi lo2 hi2 (v - w).
Proof.
  intros [g [G1 G2]] [h [H1 H2]]. exists g. split; auto.
  eapply is_integral_diff; [exact G2|]. eapply is_integral_ext; [|exact H2].
  intros x. eapply is_integral_unique; eauto.
Qed.

Lemma is_integral2_diff2 f lo1 hi1 l0 (lo hi : R) v w :
  is_integral2 f lo1 hi1 l0 hi v -> is_integral2 f lo1 hi1 l0 lo w ->
  is_integral2 f lo1 hi1 lo hi (v - w).
Proof.
  intros [g [G1 G2]] [h [H1 H2]]. exists (fun x => g x - h x). split.
  - intros x. eapply is_integral_diff; eauto.
  - now apply is_integral_minus.
Qed.

Section Bvn.
Variable rho : R.
Hypothesis Hrho : -1 < rho < 1.

Let d := 1 - rho ^ 2.
Lemma d_pos : 0 < d.
Proof. unfold d. nra. Qed.

Let aa := - / (2 * d).
Let bb (u : R) := rho * u / d.
Let cc (u : R) := - u ^ 2 / (2 * d).
Let kk := / (2 * PI * sqrt d).

Lemma aa_neg : aa < 0.
Proof.
  unfold aa. pose proof d_pos. assert (0 < / (2 * d)) by (apply Rinv_0_lt_compat; lra). lra.
Qed.

Lemma bvn_pdf_quad u v : bvn_pdf rho u v = kk * qf aa (bb u) (cc u) v.
Proof.
  pose proof d_pos. unfold bvn_pdf, qf, kk, aa, bb, cc. fold d. f_equal. f_equal. field. lra.
Qed.

Definition bvn_inner (x2 u : R) : R :=
  kk * (/ 2 * sqrt (- PI / aa) * exp (- / 4 * bb u ^ 2 / aa + cc u)
        * (1 + erf (qs aa * x2 - bb u / (2 * qs aa)))).

Lemma bvn_inner_spec (x2 u : R) : is_integral (bvn_pdf rho u) m_infty x2 (bvn_inner x2 u).
Proof.
  eapply is_integral_ext; [intros v; symmetry; apply bvn_pdf_quad|].
  apply is_integral_scal. apply gauss_below, aa_neg.
Qed.

Lemma bvn_inner_exp u : - / 4 * bb u ^ 2 / aa + cc u = - / 2 * u ^ 2 + 0 * u + 0.
Proof.
  pose proof d_pos. unfold aa, bb, cc. unfold d in *. field. lra.
Qed.

Lemma bvn_inner_cont x2 u : continuous (bvn_inner x2) u.
Proof.
  apply (ex_derive_continuous (bvn_inner x2)).
  apply (ex_derive_ext (fun u => kk * (/ 2 * sqrt (- PI / aa) * exp (- / 2 * u ^ 2 + 0 * u + 0)
        * (1 + erf (qs aa * x2 - bb u / (2 * qs aa)))))).
  { intros t. unfold bvn_inner. now rewrite bvn_inner_exp. }
  apply ex_derive_scal.
  apply (ex_derive_mult (fun u => / 2 * sqrt (- PI / aa) * exp (- / 2 * u ^ 2 + 0 * u + 0))
                        (fun u => 1 + erf (qs aa * x2 - bb u / (2 * qs aa)))).
  - auto_derive. trivial.
  - apply (@ex_derive_plus R_AbsRing R_NormedModule (fun _ => 1)); [apply ex_derive_const|].
    apply (ex_derive_comp erf).
    + eexists. apply erf_derive.
    + unfold bb. auto_derive. trivial.
Qed.

Lemma bvn_cdf_spec (x1 x2 : R) : is_integral2 (bvn_pdf rho) m_infty x1 m_infty x2 (bvn_cdf x1 x2 rho).
Proof.
  exists (bvn_inner x2). split; [apply bvn_inner_spec|].
  assert (E : exists v, is_integral (bvn_inner x2) m_infty x1 v).
  { apply (integral_dominated (bvn_inner x2)
             (fun u => (kk * sqrt (- PI / aa)) * qf (- / 2) 0 0 u) x1
             ((kk * sqrt (- PI / aa)) * (qlim (- / 2) 0 0 x1 - qlim (- / 2) 0 0 m_infty))).
    - apply bvn_inner_cont.
    - intros x. apply (ex_derive_continuous (fun u => (kk * sqrt (- PI / aa)) * qf (- / 2) 0 0 u)).
      unfold qf. auto_derive. trivial.
    - intros u. unfold bvn_inner. rewrite bvn_inner_exp. fold (qf (- / 2) 0 0 u).
      assert (K0 : 0 < kk).
      { unfold kk. apply Rinv_0_lt_compat. pose proof PI_RGT_0.
        assert (0 < sqrt d) by (apply sqrt_lt_R0, d_pos). nra. }
      assert (S0 : 0 <= sqrt (- PI / aa)) by apply sqrt_pos.
      assert (Q0 : 0 < qf (- / 2) 0 0 u) by apply exp_pos.
      pose proof (erf_bounds (qs aa * x2 - bb u / (2 * qs aa))) as B.
      set (er := erf (qs aa * x2 - bb u / (2 * qs aa))) in *.
      replace (kk * (/ 2 * sqrt (- PI / aa) * qf (- / 2) 0 0 u * (1 + er)))
        with ((kk * sqrt (- PI / aa) * qf (- / 2) 0 0 u) * (/ 2 * (1 + er))) by field.
      assert (P : 0 <= kk * sqrt (- PI / aa) * qf (- / 2) 0 0 u).
      { apply Rmult_le_pos; [apply Rmult_le_pos|]; lra. }
      rewrite Rabs_pos_eq; [|apply Rmult_le_pos; lra].
      rewrite <- (Rmult_1_r (kk * sqrt (- PI / aa) * qf (- / 2) 0 0 u)) at 2.
      apply Rmult_le_compat_l; lra.
    - apply is_integral_scal. apply quad_integral. lra. }
  destruct E as [v Hv].
  replace (bvn_cdf x1 x2 rho) with v; auto. symmetry. unfold bvn_cdf.
  apply (RInt_gen_integral _ m_infty x1).
  apply (is_integral_ext (bvn_inner x2) _ m_infty x1 v); auto.
  intros u. symmetry. apply (RInt_gen_integral _ m_infty x2). apply bvn_inner_spec.
Qed.

End Bvn.

(** * Exponentiated quadratics in two variables over the negative quadrant *)

Section Quad2.
Variables a11 a12 a22 b1 b2 c : R.
Hypothesis H11 : a11 < 0.
Hypothesis Hdet : 0 < 4 * a11 * a22 - a12 ^ 2.

Definition qf2 (x y : R) : R :=
  exp (a11 * x ^ 2 + a12 * x * y + a22 * y ^ 2 + b1 * x + b2 * y + c).

Let A11 := -2 * a11.
Let A22 := -2 * a22.
Let A12 := -1 * a12.
Let det := A11 * A22 - A12 ^ 2.
Let i11 := A22 / det.
Let i12 := - A12 / det.
Let i22 := A11 / det.
Let mu1 := i11 * b1 + i12 * b2.
Let mu2 := i12 * b1 + i22 * b2.
Let rho := i12 / sqrt (i11 * i22).
Let quad := / 2 * (i11 * b1 ^ 2 + i22 * b2 ^ 2 + 2 * i12 * b1 * b2).

Lemma det_pos : 0 < det.
Proof. unfold det, A11, A22, A12. lra. Qed.
Lemma a22_neg : a22 < 0.
Proof. nra. Qed.
Lemma i11_pos : 0 < i11.
Proof. unfold i11, A22. apply Rdiv_lt_0_compat; [pose proof a22_neg; lra|apply det_pos]. Qed.
Lemma i22_pos : 0 < i22.
Proof. unfold i22, A11. apply Rdiv_lt_0_compat; [lra|apply det_pos]. Qed.
Lemma i_det : i11 * i22 - i12 ^ 2 = / det.
Proof. unfold i11, i22, i12. pose proof det_pos. unfold det in *. field. lra. Qed.
Lemma i1122_pos : 0 < i11 * i22.
Proof. apply Rmult_lt_0_compat; [apply i11_pos|apply i22_pos]. Qed.

Lemma rho_sq : 1 - rho ^ 2 = / det / (i11 * i22).
Proof.
  pose proof i1122_pos. unfold rho. rewrite <- i_det.
  assert (S : sqrt (i11 * i22) ^ 2 = i11 * i22) by (apply pow2_sqrt; lra).
  assert (0 < sqrt (i11 * i22)) by (apply sqrt_lt_R0; lra).
  unfold Rdiv at 1. rewrite Rpow_mult_distr, pow_inv, S. field. split; apply Rgt_not_eq.
  - apply i22_pos.
  - apply i11_pos.
Qed.

Lemma rho_bound : -1 < rho < 1.
Proof.
  assert (0 < 1 - rho ^ 2).
  { rewrite rho_sq. apply Rdiv_lt_0_compat; [apply Rinv_0_lt_compat, det_pos|apply i1122_pos]. }
  split; nra.
Qed.

Let s1 := sqrt i11.
Let s2 := sqrt i22.
Lemma s1_pos : 0 < s1. Proof. apply sqrt_lt_R0, i11_pos. Qed.
Lemma s2_pos : 0 < s2. Proof. apply sqrt_lt_R0, i22_pos. Qed.
Lemma s1_sq : s1 * s1 = i11. Proof. apply sqrt_sqrt. left. apply i11_pos. Qed.
Lemma s2_sq : s2 * s2 = i22. Proof. apply sqrt_sqrt. left. apply i22_pos. Qed.
Lemma s12 : sqrt (i11 * i22) = s1 * s2.
Proof. apply sqrt_mult; left; [apply i11_pos|apply i22_pos]. Qed.

(** Completing the square. *)
Lemma qf2_bvn x y :
  qf2 x y = (2 * PI / sqrt det * exp (quad + c))
            * (/ s1 * / s2 * bvn_pdf rho (/ s1 * x + - mu1 / s1) (/ s2 * y + - mu2 / s2)).
Proof.
  pose proof det_pos as D. pose proof s1_pos as S1. pose proof s2_pos as S2.
  pose proof s1_sq as E1. pose proof s2_sq as E2. pose proof i11_pos as I1. pose proof i22_pos as I2.
  pose proof PI_RGT_0 as PP.
  assert (SD : 0 < sqrt det) by (apply sqrt_lt_R0, D).
  unfold bvn_pdf. rewrite rho_sq.
  assert (Q : sqrt (/ det / (i11 * i22)) = / (sqrt det * (s1 * s2))).
  { rewrite <- E1, <- E2.
    replace (/ det / (s1 * s1 * (s2 * s2))) with ((/ (sqrt det * (s1 * s2))) * (/ (sqrt det * (s1 * s2)))).
    - apply sqrt_square. left. apply Rinv_0_lt_compat. apply Rmult_lt_0_compat; auto. nra.
    - rewrite <- (sqrt_sqrt det) at 3 by lra. field. repeat split; lra. }
  rewrite Q.
  match goal with |- _ = _ * (_ * (_ * exp ?e)) => set (ee := e) end.
  replace (2 * PI / sqrt det * exp (quad + c) * (/ s1 * / s2 * (/ (2 * PI * / (sqrt det * (s1 * s2))) * exp ee)))
    with (exp (quad + c) * exp ee).
  2: { field. repeat split; lra. }
  rewrite <- exp_plus. unfold qf2. f_equal. unfold ee. clear ee Q.
  unfold rho. rewrite s12.
  (* all in terms of s1, s2 *)
  replace ((/ s1 * x + - mu1 / s1) ^ 2) with ((x - mu1) ^ 2 / i11).
  2: { rewrite <- E1. field. lra. }
  replace ((/ s2 * y + - mu2 / s2) ^ 2) with ((y - mu2) ^ 2 / i22).
  2: { rewrite <- E2. field. lra. }
  replace (2 * (i12 / (s1 * s2)) * (/ s1 * x + - mu1 / s1) * (/ s2 * y + - mu2 / s2))
    with (2 * i12 * (x - mu1) * (y - mu2) / (i11 * i22)).
  2: { rewrite <- E1, <- E2. field. lra. }
  assert (N22 : A22 <> 0) by (unfold A22; pose proof a22_neg; lra).
  assert (N11 : A11 <> 0) by (unfold A11; lra).
  unfold quad, mu1, mu2, i11, i22, i12. unfold det in D |- *.
  replace a11 with (- A11 / 2) by (unfold A11; field).
  replace a22 with (- A22 / 2) by (unfold A22; field).
  replace a12 with (- A12) by (unfold A12; ring).
  field. repeat split; try lra; auto.
Qed.

(** The closed form of exppoly.py:676-701. *)
Lemma gauss_quadrant :
  is_integral2 qf2 m_infty 0 m_infty 0
    (bvn_cdf (- mu1 / sqrt i11) (- mu2 / sqrt i22) rho * (2 * PI / sqrt det * exp (quad + c))).
Proof.
  eapply is_integral2_ext; [intros x y; symmetry; apply qf2_bvn|].
  rewrite (Rmult_comm (bvn_cdf _ _ _)). apply is_integral2_scal.
  apply is_integral2_affine with (f := bvn_pdf rho).
  - apply Rinv_0_lt_compat, s1_pos.
  - apply Rinv_0_lt_compat, s2_pos.
  - unfold lim_affine. rewrite !Rmult_0_r, !Rplus_0_l. apply (bvn_cdf_spec rho rho_bound).
Qed.

End Quad2.
