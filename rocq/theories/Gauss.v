(** Gaussian integrals from scratch: the analysis behind the closed forms of
    gpcm/exppoly.py:621-701 and gpcm/gpcm.py. Models nothing by itself, except [erf], which is
    the mathematical definition of the external [B.erf]. *)
From Coq Require Import Reals Lra Lia.
From Coquelicot Require Import Coquelicot.
Local Open Scope R_scope.

(** The error function: the external [B.erf] used in exppoly.py:655. *)
Definition erf (x : R) : R := 2 / sqrt PI * RInt (fun t => exp (- t ^ 2)) 0 x.

(** Integral between limits that may be infinite. *)
Definition lim_filter (l : Rbar) : (R -> Prop) -> Prop :=
  match l with Finite x => at_point x | p_infty => Rbar_locally p_infty | m_infty => Rbar_locally m_infty end.
Definition is_integral (f : R -> R) (lo hi : Rbar) (v : R) : Prop :=
  is_RInt_gen f (lim_filter lo) (lim_filter hi) v.

Global Instance lim_filter_proper l : ProperFilter (lim_filter l).
Proof. destruct l; simpl; apply at_point_filter || apply Rbar_locally_filter || idtac. Qed.

Lemma exp_le x y : x <= y -> exp x <= exp y.
Proof. intros [H| ->]; [left; now apply exp_increasing|right; reflexivity]. Qed.

(** * The classical value *)

Definition g0 (t : R) := exp (- t ^ 2).

Lemma g0_cont x : continuous g0 x.
Proof. apply (ex_derive_continuous g0). unfold g0. auto_derive. trivial. Qed.

Lemma g0_ex_RInt a b : ex_RInt g0 a b.
Proof. apply (@ex_RInt_continuous R_CompleteNormedModule). intros; apply g0_cont. Qed.

Definition Gi (x : R) := RInt g0 0 x.

Lemma Gi_derive x : is_derive Gi x (g0 x).
Proof.
  apply (is_derive_RInt g0 Gi 0 x).
  - apply filter_forall. intros y. apply (@RInt_correct R_CompleteNormedModule), g0_ex_RInt.
  - apply g0_cont.
Qed.

Definition hh (x t : R) := exp (- x ^ 2 * (1 + t ^ 2)) / (1 + t ^ 2).

Lemma hh_derive x t : is_derive (fun u => hh u t) x (- 2 * x * exp (- x ^ 2 * (1 + t ^ 2))).
Proof.
  unfold hh. assert (0 < 1 + t ^ 2) by (pose proof (pow2_ge_0 t); lra).
  auto_derive; [lra|]. simpl. field. simpl in H. lra.
Qed.

Lemma hh_cont x t : continuous (hh x) t.
Proof.
  apply (ex_derive_continuous (hh x)). unfold hh.
  assert (0 < 1 + t ^ 2) by (pose proof (pow2_ge_0 t); lra).
  auto_derive. simpl in H. lra.
Qed.

Lemma hh_ex_RInt x a b : ex_RInt (hh x) a b.
Proof. apply (@ex_RInt_continuous R_CompleteNormedModule). intros; apply hh_cont. Qed.

Lemma gg_derive x : is_derive (fun x => RInt (hh x) 0 1) x (- 2 * g0 x * Gi x).
Proof.
  assert (E : RInt (fun t => Derive (fun u => hh u t) x) 0 1 = - 2 * g0 x * Gi x).
  { transitivity (RInt (fun t => scal (-2 * g0 x) (scal x (g0 (x * t + 0)))) 0 1).
    - apply RInt_ext. intros t _. etransitivity; [apply is_derive_unique, hh_derive|].
      change (-2 * x * exp (- x ^ 2 * (1 + t ^ 2)) = -2 * exp (- x ^ 2) * (x * exp (- (x * t + 0) ^ 2))).
      replace (- x ^ 2 * (1 + t ^ 2)) with (- x ^ 2 + - (x * t + 0) ^ 2) by ring.
      rewrite exp_plus. ring.
    - assert (F : ex_RInt (fun t => scal x (g0 (x * t + 0))) 0 1).
      { apply (ex_RInt_comp_lin g0). apply g0_ex_RInt. }
      transitivity (-2 * g0 x * RInt (fun t => scal x (g0 (x * t + 0))) 0 1).
      { apply (@RInt_scal R_CompleteNormedModule). exact F. }
      f_equal. etransitivity.
      { apply (RInt_comp_lin g0 x 0 0 1), g0_ex_RInt. }
      unfold Gi. f_equal; ring. }
  rewrite <- E.
  apply (is_derive_RInt_param hh 0 1 x).
  - apply filter_forall. intros y t _. eexists. apply hh_derive.
  - intros t _.
    apply continuity_2d_pt_ext with (fun u v => (-2 * u) * exp (- u ^ 2 * (1 + v ^ 2))).
    { intros u v. symmetry. apply is_derive_unique, hh_derive. }
    apply continuity_2d_pt_mult.
    + apply continuity_2d_pt_mult; [apply continuity_2d_pt_const|apply continuity_2d_pt_id1].
    + apply (continuity_1d_2d_pt_comp exp (fun u v => - u ^ 2 * (1 + v ^ 2))).
      { apply derivable_continuous, derivable_exp. }
      apply continuity_2d_pt_mult.
      * apply (continuity_1d_2d_pt_comp (fun u => - u ^ 2) (fun u v => u)); [|apply continuity_2d_pt_id1].
        apply derivable_continuous_pt. apply ex_derive_Reals_0. auto_derive. trivial.
      * apply (continuity_1d_2d_pt_comp (fun u => 1 + u ^ 2) (fun u v => v)); [|apply continuity_2d_pt_id2].
        apply derivable_continuous_pt. apply ex_derive_Reals_0. auto_derive. trivial.
  - apply filter_forall. intros y. apply hh_ex_RInt.
Qed.

Lemma gauss_identity x : Gi x ^ 2 + RInt (hh x) 0 1 = PI / 4.
Proof.
  assert (D : forall y, is_derive (fun x => Gi x ^ 2 + RInt (hh x) 0 1) y 0).
  { intros y.
    assert (Q : is_derive (fun x => Gi x ^ 2 + RInt (hh x) 0 1) y
                  (2 * Gi y * g0 y + - 2 * g0 y * Gi y)).
    { apply (@is_derive_plus R_AbsRing R_NormedModule (fun x => Gi x ^ 2) (fun x => RInt (hh x) 0 1) y
             (2 * Gi y * g0 y) (- 2 * g0 y * Gi y)); [|apply gg_derive].
      replace (2 * Gi y * g0 y) with (INR 2 * g0 y * Gi y ^ 1) by (simpl; ring).
      apply (is_derive_pow Gi 2 y (g0 y)). apply Gi_derive. }
    replace (2 * Gi y * g0 y + - 2 * g0 y * Gi y) with 0 in Q by ring. exact Q. }
  assert (E : Gi x ^ 2 + RInt (hh x) 0 1 = Gi 0 ^ 2 + RInt (hh 0) 0 1).
  { destruct (MVT_gen (fun x => Gi x ^ 2 + RInt (hh x) 0 1) 0 x (fun _ => 0)) as [c [_ Hc]].
    - intros y _. apply D.
    - intros y _. apply continuity_pt_filterlim. apply (ex_derive_continuous (fun x => Gi x ^ 2 + RInt (hh x) 0 1)).
      eexists; apply D.
    - lra. }
  rewrite E. unfold Gi at 1. rewrite RInt_point. unfold zero; simpl.
  assert (A : is_RInt (hh 0) 0 1 (atan 1 - atan 0)).
  { apply (is_RInt_ext (fun t => / (1 + t ^ 2))).
    - intros t _. unfold hh. replace (- 0 ^ 2 * (1 + t ^ 2)) with 0 by ring. rewrite exp_0.
      unfold Rdiv. now rewrite Rmult_1_l.
    - apply (@is_RInt_derive R_CompleteNormedModule atan).
      + intros y _. apply is_derive_Reals. apply derivable_pt_lim_atan.
      + intros y _. apply (ex_derive_continuous (fun t => / (1 + t ^ 2))). auto_derive.
        pose proof (pow2_ge_0 y); simpl in *; lra. }
  rewrite (is_RInt_unique _ _ _ _ A), atan_1, atan_0. lra.
Qed.

Lemma Gi_nonneg x : 0 <= x -> 0 <= Gi x.
Proof.
  intros H. unfold Gi. apply RInt_ge_0; auto. apply g0_ex_RInt. intros; left; apply exp_pos.
Qed.

Lemma hh_int_bound x : 0 <= RInt (hh x) 0 1 <= exp (- x ^ 2).
Proof.
  assert (P : forall t, 0 < 1 + t ^ 2) by (intros t; pose proof (pow2_ge_0 t); lra).
  split.
  - apply RInt_ge_0; [lra|apply hh_ex_RInt|]. intros t _. unfold hh. left.
    apply Rdiv_lt_0_compat; [apply exp_pos|apply P].
  - replace (exp (- x ^ 2)) with (RInt (fun _ => exp (- x ^ 2)) 0 1).
    2: { rewrite RInt_const. unfold scal; simpl; unfold mult; simpl. ring. }
    apply RInt_le; [lra|apply hh_ex_RInt|apply ex_RInt_const|].
    intros t _. unfold hh.
    apply Rle_trans with (exp (- x ^ 2 * (1 + t ^ 2))).
    + rewrite <- (Rmult_1_r (exp (- x ^ 2 * (1 + t ^ 2)))) at 2. unfold Rdiv.
      apply Rmult_le_compat_l; [left; apply exp_pos|].
      rewrite <- Rinv_1. apply Rinv_le_contravar; [lra|]. pose proof (pow2_ge_0 t); lra.
    + apply exp_le. pose proof (pow2_ge_0 x). pose proof (pow2_ge_0 t). nra.
Qed.

Lemma exp_ge_1 x : 1 + x <= exp x.
Proof.
  destruct (Req_dec x 0) as [->|H]; [rewrite exp_0; lra|]. left. apply exp_ineq1. exact H.
Qed.

Lemma exp_opp_sq_bound x : 0 < x -> exp (- x ^ 2) <= / x ^ 2.
Proof.
  intros H. rewrite exp_Ropp. apply Rinv_le_contravar; [apply pow_lt; lra|].
  pose proof (exp_ge_1 (x ^ 2)). lra.
Qed.

(** The Gaussian integral. *)
Lemma Gi_lim : filterlim Gi (Rbar_locally p_infty) (locally (sqrt PI / 2)).
Proof.
  assert (S0 : 0 < sqrt PI) by (apply sqrt_lt_R0, PI_RGT_0).
  assert (SS : sqrt PI * sqrt PI = PI) by (apply sqrt_sqrt; left; apply PI_RGT_0).
  apply filterlim_locally. intros eps. simpl.
  exists (Rmax 1 (2 / (sqrt PI * eps))). intros x Hx.
  assert (H1 : 1 < x) by (eapply Rle_lt_trans; [apply Rmax_l|exact Hx]).
  assert (H2 : 2 / (sqrt PI * eps) < x) by (eapply Rle_lt_trans; [apply Rmax_r|exact Hx]).
  assert (He : 0 < eps) by apply cond_pos.
  assert (Ib : / x ^ 2 < eps * (sqrt PI / 2)).
  { apply Rlt_le_trans with (/ x).
    - apply Rinv_lt_contravar; [apply Rmult_lt_0_compat; [lra|apply pow_lt; lra]|]. simpl. nra.
    - assert (0 < sqrt PI * eps) by (apply Rmult_lt_0_compat; auto).
      apply (Rmult_lt_compat_r (sqrt PI * eps)) in H2; auto.
      unfold Rdiv in H2. rewrite Rmult_assoc, Rinv_l, Rmult_1_r in H2; [|lra].
      apply (Rmult_le_reg_l x); [lra|]. rewrite Rinv_r; [|lra]. lra. }
  pose proof (gauss_identity x) as E. pose proof (hh_int_bound x) as [B1 B2].
  pose proof (exp_opp_sq_bound x ltac:(lra)) as B3.
  pose proof (Gi_nonneg x ltac:(lra)) as B4.
  unfold ball; simpl; unfold AbsRing_ball, abs, minus, plus, opp; simpl.
  apply Rabs_def1; nra.
Qed.

Lemma Gi_odd x : Gi (- x) = - Gi x.
Proof.
  unfold Gi.
  pose proof (RInt_comp_lin g0 (-1) 0 0 x) as H.
  replace (-1 * 0 + 0) with 0 in H by ring. replace (-1 * x + 0) with (- x) in H by ring.
  rewrite <- H by apply g0_ex_RInt.
  rewrite <- (@RInt_opp R_CompleteNormedModule) by apply g0_ex_RInt.
  apply RInt_ext. intros t _. unfold scal, opp; simpl; unfold mult; simpl. unfold g0.
  replace ((-1 * t + 0) ^ 2) with (t ^ 2) by ring. ring.
Qed.

(** * The error function *)

Lemma sqrt_PI_pos : 0 < sqrt PI.
Proof. apply sqrt_lt_R0, PI_RGT_0. Qed.

Lemma erf_eq x : erf x = 2 / sqrt PI * Gi x.
Proof. reflexivity. Qed.

Lemma erf_odd x : erf (- x) = - erf x.
Proof. rewrite !erf_eq, Gi_odd. ring. Qed.

Lemma erf_0 : erf 0 = 0.
Proof. rewrite erf_eq. unfold Gi. rewrite RInt_point. unfold zero; simpl. ring. Qed.

Lemma erf_derive x : is_derive erf x (2 / sqrt PI * exp (- x ^ 2)).
Proof.
  apply (is_derive_ext (fun y => 2 / sqrt PI * Gi y)); [reflexivity|].
  apply (is_derive_scal Gi). apply Gi_derive.
Qed.

Lemma erf_lim_p : filterlim erf (Rbar_locally p_infty) (locally 1).
Proof.
  pose proof sqrt_PI_pos.
  apply (filterlim_ext (fun y => scal (2 / sqrt PI) (Gi y))); [reflexivity|].
  replace 1 with (scal (2 / sqrt PI) (sqrt PI / 2)).
  - eapply filterlim_comp; [apply Gi_lim|]. apply (filterlim_scal_r (2 / sqrt PI) (sqrt PI / 2)).
  - unfold scal; simpl; unfold mult; simpl. field. lra.
Qed.

Lemma erf_lim_m : filterlim erf (Rbar_locally m_infty) (locally (-1)).
Proof.
  apply (filterlim_ext (fun y => opp (erf (- y)))).
  { intros y. rewrite erf_odd. unfold opp; simpl. ring. }
  eapply filterlim_comp with (G := locally 1).
  - eapply filterlim_comp; [|apply erf_lim_p].
    apply (filterlim_Rbar_opp m_infty).
  - apply (@filterlim_opp R_AbsRing R_NormedModule 1).
Qed.

Lemma erf_incr x y : x <= y -> erf x <= erf y.
Proof.
  intros H. rewrite !erf_eq. apply Rmult_le_compat_l.
  { left. apply Rdiv_lt_0_compat; [lra|apply sqrt_PI_pos]. }
  unfold Gi. rewrite <- (RInt_Chasles g0 0 x y) by apply g0_ex_RInt.
  unfold plus; simpl.
  assert (0 <= RInt g0 x y); [|lra].
  apply RInt_ge_0; auto. apply g0_ex_RInt. intros; left; apply exp_pos.
Qed.

Lemma erf_bounds x : -1 <= erf x <= 1.
Proof.
  assert (A : forall x, erf x <= 1).
  { intros z.
    assert (H : Rbar_le (erf z) 1); [|exact H].
    apply (filterlim_le (F := Rbar_locally p_infty) (fun _ => erf z) erf (erf z) 1).
    - exists z. intros y Hy. apply erf_incr. lra.
    - apply filterlim_const.
    - apply erf_lim_p. }
  split; [|apply A]. pose proof (A (- x)). rewrite erf_odd in H. lra.
Qed.

(** * Fundamental theorem for improper integrals *)

Lemma is_integral_ftc (F f : R -> R) (lo hi : Rbar) (la lb : R) :
  (forall x, is_derive F x (f x)) -> (forall x, continuous f x) ->
  filterlim F (lim_filter lo) (locally la) -> filterlim F (lim_filter hi) (locally lb) ->
  is_integral f lo hi (lb - la).
Proof.
  intros D Cf A B. unfold is_integral.
  apply (is_RInt_gen_ext (Derive F)).
  - apply filter_forall. intros [x y] z _. apply is_derive_unique, D.
  - apply is_RInt_gen_Derive; auto.
    + apply filter_forall. intros [x y] z _. eexists; apply D.
    + apply filter_forall. intros [x y] z _.
      apply (continuous_ext f); auto. intros t. symmetry. apply is_derive_unique, D.
Qed.

Lemma filterlim_at_point (F : R -> R) (x : R) : filterlim F (at_point x) (locally (F x)).
Proof. intros P HP. apply locally_singleton in HP. exact HP. Qed.
