(** Exchanging the order of integration of a dominated continuous function over a quadrant, and
    the symmetry of the bivariate normal distribution function. *)
From Coq Require Import Reals Lra Lia Psatz.
From Coquelicot Require Import Coquelicot.
From Verif Require Import Gauss Gauss2 Gauss3.
Local Open Scope R_scope.

Section Rect.
Context (f : R -> R -> R).
Hypothesis Cf : forall x y, continuity_2d_pt f x y.

Lemma cont_1 x y : continuous (fun u => f u y) x.
Proof.
  apply continuity_pt_filterlim. intros e He. destruct (Cf x y (mkposreal e He)) as [d Hd].
  exists d. split; [apply cond_pos|]. intros u [_ Hu]. simpl in *. unfold R_dist in *. apply Hd; auto.
  rewrite Rminus_eq_0, Rabs_R0. apply cond_pos.
Qed.

Lemma cont_2 x y : continuous (f x) y.
Proof.
  apply continuity_pt_filterlim. intros e He. destruct (Cf x y (mkposreal e He)) as [d Hd].
  exists d. split; [apply cond_pos|]. intros u [_ Hu]. simpl in *. unfold R_dist in *. apply Hd; auto.
  rewrite Rminus_eq_0, Rabs_R0. apply cond_pos.
Qed.

Lemma ex_2 x c d : ex_RInt (f x) c d.
Proof. apply (@ex_RInt_continuous R_CompleteNormedModule). intros; apply cont_2. Qed.
Lemma ex_1 y a b : ex_RInt (fun x => f x y) a b.
Proof. apply (@ex_RInt_continuous R_CompleteNormedModule). intros; apply cont_1. Qed.

Lemma RInt_param_cont c d x : continuous (fun x => RInt (f x) c d) x.
Proof.
  apply continuity_pt_filterlim. intros e He.
  assert (Hp : 0 < e / (Rabs (d - c) + 1)).
  { apply Rdiv_lt_0_compat; auto. pose proof (Rabs_pos (d - c)). lra. }
  destruct (uniform_continuity_2d_1d' f (Rmin c d) (Rmax c d) x (fun y _ => Cf x y) (mkposreal _ Hp)) as [dl Hd].
  exists dl. split; [apply cond_pos|]. intros u [_ Hu]. simpl in *. unfold R_dist in *.
  assert (B : Rabs (RInt (f u) c d - RInt (f x) c d) <= Rabs (d - c) * (e / (Rabs (d - c) + 1))).
  { apply (@norm_RInt_le_const_abs R_NormedModule (fun y => minus (f u y) (f x y)) c d).
    - intros y Hy. left. change (Rabs (f u y - f x y) < e / (Rabs (d - c) + 1)).
      apply Rabs_def2 in Hu. destruct dl as [dl Hdl]; simpl in *.
      apply (Hd y x y u); auto; try lra. rewrite Rminus_eq_0, Rabs_R0. exact Hdl.
    - apply (@is_RInt_minus R_NormedModule); apply (@RInt_correct R_CompleteNormedModule); apply ex_2. }
  eapply Rle_lt_trans; [exact B|].
  pose proof (Rabs_pos (d - c)).
  apply Rlt_le_trans with ((Rabs (d - c) + 1) * (e / (Rabs (d - c) + 1))).
  - apply Rmult_lt_compat_r; lra.
  - right. field. lra.
Qed.
End Rect.

Lemma swap_2d f : (forall x y, continuity_2d_pt f x y) -> forall x y, continuity_2d_pt (fun u v => f v u) x y.
Proof. intros C x y e. destruct (C y x e) as [d Hd]. exists d. intros u v Hu Hv. now apply Hd. Qed.

Lemma fubini_rect f a b c d : (forall x y, continuity_2d_pt f x y) ->
  RInt (fun x => RInt (f x) c d) a b = RInt (fun y => RInt (fun x => f x y) a b) c d.
Proof.
  intros C.
  assert (Ex : forall b, ex_RInt (fun x => RInt (f x) c d) a b).
  { intros b'. apply (@ex_RInt_continuous R_CompleteNormedModule). intros. apply RInt_param_cont; auto. }
  set (D := fun b => RInt (fun y => RInt (fun x => f x y) a b) c d - RInt (fun x => RInt (f x) c d) a b).
  assert (D0 : forall t, is_derive D t 0).
  { intros t. unfold D. replace 0 with (RInt (f t) c d - RInt (f t) c d) by ring.
    apply (@is_derive_minus R_AbsRing R_NormedModule).
    - assert (Dv : forall u v, is_derive (fun z => RInt (fun x => f x v) a z) u (f u v)).
      { intros u v. apply (@is_derive_RInt R_NormedModule (fun x => f x v) _ a).
        - apply filter_forall. intros z. apply (@RInt_correct R_CompleteNormedModule). apply ex_1; auto.
        - apply (cont_1 f C). }
      replace (RInt (f t) c d) with (RInt (fun y => Derive (fun u => RInt (fun x => f x y) a u) t) c d).
      2:{ apply RInt_ext. intros y _. apply is_derive_unique, Dv. }
      apply (is_derive_RInt_param (fun u y => RInt (fun x => f x y) a u) c d t).
      + apply filter_forall. intros u y _. eexists. apply Dv.
      + intros y _. apply continuity_2d_pt_ext with (f := f); auto. intros u v. symmetry. apply is_derive_unique, Dv.
      + apply filter_forall. intros u. apply (@ex_RInt_continuous R_CompleteNormedModule). intros z _.
        apply (RInt_param_cont (fun y x => f x y) (swap_2d f C)).
    - apply (@is_derive_RInt R_NormedModule (fun x => RInt (f x) c d) _ a).
      + apply filter_forall. intros z. apply (@RInt_correct R_CompleteNormedModule). apply Ex.
      + apply RInt_param_cont; auto. }
  assert (Da : D a = 0).
  { unfold D. rewrite RInt_point. rewrite (RInt_ext _ (fun _ => 0)).
    - rewrite RInt_const. change (scal (d - c) 0) with ((d - c) * 0). change (@zero R_CompleteNormedModule) with 0. ring.
    - intros y _. apply (@RInt_point R_CompleteNormedModule). }
  assert (Db : D b = 0).
  { destruct (Rtotal_order a b) as [H|[H|H]].
    - rewrite <- Da. symmetry. apply (eq_is_derive D a b); auto.
    - now subst.
    - rewrite <- Da. apply (eq_is_derive D b a); auto. }
  unfold D in Db. lra.
Qed.

(** * Over a quadrant *)
Section Quadrant.

Lemma below_le f (b v a : R) :
  (forall x, continuous f x) -> (forall x, 0 <= f x) -> a <= b -> is_integral f m_infty b v -> 0 <= RInt f a b <= v.
Proof.
  intros C P Hab I.
  assert (E : forall x y, ex_RInt f x y). { intros. apply (@ex_RInt_continuous R_CompleteNormedModule). auto. }
  assert (M : forall x, x <= b -> 0 <= RInt f x b). { intros x Hx. apply RInt_ge_0; auto. }
  split; auto.
  pose proof (is_integral_m_elim f b v C I) as L.
  destruct (Rle_dec (RInt f a b) v) as [H|H]; auto. exfalso.
  assert (Hp : 0 < RInt f a b - v) by lra.
  specialize (L (ball v (mkposreal _ Hp)) (locally_ball _ _)). destruct L as [A HA].
  set (x := Rmin (A - 1) a).
  assert (x < A) by (unfold x; pose proof (Rmin_l (A - 1) a); lra).
  assert (x <= a) by apply Rmin_r.
  specialize (HA x H0). unfold ball in HA; simpl in HA; unfold AbsRing_ball, abs, minus, plus, opp in HA; simpl in HA.
  apply Rabs_def2 in HA.
  rewrite <- (RInt_Chasles f x a b) in HA by auto. unfold plus in HA; simpl in HA.
  assert (0 <= RInt f x a) by (apply RInt_ge_0; auto). lra.
Qed.

Lemma below_nonneg f (b v : R) :
  (forall x, continuous f x) -> (forall x, 0 <= f x) -> is_integral f m_infty b v -> 0 <= v.
Proof. intros C P I. pose proof (below_le f b v b C P (Rle_refl b) I). lra. Qed.

Lemma below_mono f g (b v w : R) :
  (forall x, continuous f x) -> (forall x, continuous g x) -> (forall x, f x <= g x) ->
  is_integral f m_infty b v -> is_integral g m_infty b w -> v <= w.
Proof.
  intros Cf Cg L If Ig.
  assert (I : is_integral (fun x => g x - f x) m_infty b (w - v)) by now apply is_integral_minus.
  apply below_nonneg in I; [lra| |].
  - intros x. apply (@continuous_minus _ _ R_NormedModule); auto.
  - intros x. specialize (L x). lra.
Qed.

(** The part below [a]. *)
Lemma below_split f (a b v : R) :
  (forall x, continuous f x) -> is_integral f m_infty b v -> is_integral f m_infty a (v - RInt f a b).
Proof.
  intros C I. replace (v - RInt f a b) with (v + - RInt f a b) by ring.
  apply (is_integral_Chasles f m_infty b a); auto. apply is_integral_finite.
  apply (@is_RInt_swap R_NormedModule). apply (@RInt_correct R_CompleteNormedModule).
  apply (@ex_RInt_continuous R_CompleteNormedModule). auto.
Qed.

Lemma below_small f (b v : R) : (forall x, continuous f x) -> is_integral f m_infty b v ->
  forall e, 0 < e -> exists a, a <= b /\ v - RInt f a b <= e.
Proof.
  intros C I e He. pose proof (is_integral_m_elim f b v C I) as L.
  specialize (L (ball v (mkposreal _ He)) (locally_ball _ _)). destruct L as [A HA].
  exists (Rmin (A - 1) b). split; [apply Rmin_r|].
  assert (Rmin (A - 1) b < A) by (pose proof (Rmin_l (A - 1) b); lra).
  specialize (HA _ H). unfold ball in HA; simpl in HA; unfold AbsRing_ball, abs, minus, plus, opp in HA; simpl in HA.
  apply Rabs_def2 in HA. lra.
Qed.

(** The iterated integral is close to the one over a large rectangle. *)
Lemma iterated_close f (phi psi g : R -> R) (b d v P Q a c : R) :
  (forall x y, continuity_2d_pt f x y) -> (forall x, continuous phi x) -> (forall x, continuous psi x) -> (forall x, continuous g x) ->
  (forall x y, 0 <= f x y <= phi x * psi y) -> (forall x, 0 <= phi x) -> (forall y, 0 <= psi y) ->
  is_integral phi m_infty b P -> is_integral psi m_infty d Q ->
  (forall x, is_integral (f x) m_infty d (g x)) -> is_integral g m_infty b v ->
  a <= b -> c <= d ->
  let I := RInt (fun x => RInt (f x) c d) a b in
  I <= v <= I + (P - RInt phi a b) * Q + P * (Q - RInt psi c d).
Proof.
  intros C Cp Cs Cg B Pp Ps IP IQ Ig Iv Hab Hcd I.
  assert (Ec : forall (h : R -> R) (x y : R), (forall x : R, continuous h x) -> ex_RInt h x y).
  { intros. apply (@ex_RInt_continuous R_CompleteNormedModule). auto. }
  assert (C2 := cont_2 f C). assert (CI := RInt_param_cont f C c d).
  assert (G0 : forall x, 0 <= g x).
  { intros x. eapply (below_nonneg (f x)); [apply C2|apply B|apply Ig]. }
  assert (GQ : forall x, g x <= phi x * Q).
  { intros x. eapply (below_mono (f x) (fun y => phi x * psi y) d); [apply C2| |apply B|apply Ig|].
    - intros y. apply (@continuous_scal_r _ _ R_NormedModule). apply Cs.
    - now apply is_integral_scal. }
  assert (Q0 : 0 <= Q) by (eapply (below_nonneg psi); eauto).
  (* the strip below a *)
  assert (T1 : v - RInt g a b <= (P - RInt phi a b) * Q).
  { eapply (below_mono g (fun x => phi x * Q) a); auto.
    - intros x. apply (@continuous_scal_l _ _ R_NormedModule). apply Cp.
    - apply below_split; auto.
    - eapply is_integral_ext; [intros x; apply Rmult_comm|]. rewrite (Rmult_comm (P - RInt phi a b)). apply is_integral_scal.
      now apply below_split. }
  assert (T0 : RInt g a b <= v) by (apply below_le; auto).
  (* the inner tails *)
  set (q := Q - RInt psi c d).
  assert (Gq : forall x, 0 <= g x - RInt (f x) c d <= phi x * q).
  { intros x. pose proof (below_split (f x) c d (g x) (C2 x) (Ig x)) as S. split.
    - eapply (below_nonneg (f x)); [apply C2|apply B|exact S].
    - eapply (below_mono (f x) (fun y => phi x * psi y) c); [apply C2| |apply B|exact S|].
      + intros y. apply (@continuous_scal_r _ _ R_NormedModule). apply Cs.
      + apply is_integral_scal. now apply below_split. }
  assert (q0 : 0 <= q).
  { eapply (below_nonneg psi); [apply Cs|apply Ps|]. unfold q. apply below_split; eauto. }
  assert (T2 : I <= RInt g a b).
  { apply RInt_le; auto. intros x _. specialize (Gq x). lra. }
  assert (T3 : RInt g a b <= I + RInt phi a b * q).
  { assert (E : RInt (fun x => RInt (f x) c d + q * phi x) a b = I + RInt phi a b * q).
    { apply (@is_RInt_unique R_CompleteNormedModule). rewrite (Rmult_comm _ q).
      apply (@is_RInt_plus R_NormedModule (fun x => RInt (f x) c d) (fun x => q * phi x)).
      - apply (@RInt_correct R_CompleteNormedModule); auto.
      - apply (@is_RInt_scal R_NormedModule phi a b q). apply (@RInt_correct R_CompleteNormedModule); auto. }
    rewrite <- E. apply RInt_le; auto.
    - apply Ec. intros x. apply (@continuous_plus _ _ R_NormedModule); auto.
      apply (@continuous_scal_r _ _ R_NormedModule). apply Cp.
    - intros x _. specialize (Gq x). lra. }
  assert (T4 : RInt phi a b <= P) by (apply below_le; auto).
  nra.
Qed.

Lemma fubini_quadrant f (phi psi g h : R -> R) (b d v w P Q : R) :
  (forall x y, continuity_2d_pt f x y) -> (forall x, continuous phi x) -> (forall x, continuous psi x) ->
  (forall x, continuous g x) -> (forall y, continuous h y) ->
  (forall x y, 0 <= f x y <= phi x * psi y) -> (forall x, 0 <= phi x) -> (forall y, 0 <= psi y) ->
  is_integral phi m_infty b P -> is_integral psi m_infty d Q ->
  (forall x, is_integral (f x) m_infty d (g x)) -> is_integral g m_infty b v ->
  (forall y, is_integral (fun x => f x y) m_infty b (h y)) -> is_integral h m_infty d w ->
  v = w.
Proof.
  intros C Cp Cs Cg Ch B Pp Ps IP IQ Ig Iv Ih Iw.
  assert (Q0 : 0 <= Q) by (eapply (below_nonneg psi); eauto).
  assert (P0 : 0 <= P) by (eapply (below_nonneg phi); eauto).
  assert (K : forall e, 0 < e -> Rabs (v - w) <= e).
  { intros e He.
    assert (He1 : 0 < e / 2 / (Q + 1)) by (apply Rdiv_lt_0_compat; lra).
    assert (He2 : 0 < e / 2 / (P + 1)) by (apply Rdiv_lt_0_compat; lra).
    destruct (below_small phi b P Cp IP _ He1) as [a [Ha Ta]].
    destruct (below_small psi d Q Cs IQ _ He2) as [c [Hc Tc]].
    assert (A1 := iterated_close f phi psi g b d v P Q a c C Cp Cs Cg B Pp Ps IP IQ Ig Iv Ha Hc).
    assert (A2 := iterated_close (fun y x => f x y) psi phi h d b w Q P c a (swap_2d f C) Cs Cp Ch
      (fun y x => ltac:(specialize (B x y); lra)) Ps Pp IQ IP Ih Iw Hc Ha).
    cbv zeta in A1, A2. rewrite (fubini_rect f a b c d C) in A1.
    set (I := RInt (fun y => RInt (fun x => f x y) a b) c d) in *.
    set (p := P - RInt phi a b) in *. set (q := Q - RInt psi c d) in *.
    assert (p * Q <= e / 2).
    { apply Rle_trans with (e / 2 / (Q + 1) * Q); [apply Rmult_le_compat_r; lra|].
      apply Rle_trans with (e / 2 / (Q + 1) * (Q + 1)); [apply Rmult_le_compat_l; lra|]. right. field. lra. }
    assert (P * q <= e / 2).
    { apply Rle_trans with (P * (e / 2 / (P + 1))); [apply Rmult_le_compat_l; lra|].
      apply Rle_trans with ((P + 1) * (e / 2 / (P + 1))); [apply Rmult_le_compat_r; lra|]. right. field. lra. }
    apply Rabs_le. lra. }
  destruct (Req_dec v w) as [|Ne]; auto. exfalso.
  assert (0 < Rabs (v - w)) by (apply Rabs_pos_lt; lra).
  specialize (K (Rabs (v - w) / 2) ltac:(lra)). lra.
Qed.
End Quadrant.

(** * The bivariate normal distribution function is symmetric *)

Lemma bvn_pdf_sym rho u v : bvn_pdf rho u v = bvn_pdf rho v u.
Proof. unfold bvn_pdf. f_equal. f_equal. f_equal. ring. Qed.

Lemma cont2_exp_poly g : (forall x y, continuity_2d_pt g x y) -> forall x y, continuity_2d_pt (fun u v => exp (g u v)) x y.
Proof. intros C x y. apply (continuity_1d_2d_pt_comp exp g); auto. apply derivable_continuous, derivable_exp. Qed.

Lemma bvn_pdf_cont rho x y : continuity_2d_pt (bvn_pdf rho) x y.
Proof.
  unfold bvn_pdf. apply continuity_2d_pt_mult; [apply continuity_2d_pt_const|].
  apply (cont2_exp_poly (fun u v => - (u ^ 2 - 2 * rho * u * v + v ^ 2) / (2 * (1 - rho ^ 2)))). intros u v.
  assert (Sq : forall u v, continuity_2d_pt (fun u v => u ^ 2) u v).
  { intros. apply (continuity_1d_2d_pt_comp (fun z => z ^ 2) (fun u v => u)); [|apply continuity_2d_pt_id1].
    apply derivable_continuous_pt, derivable_pt_pow. }
  assert (Sq' : forall u v, continuity_2d_pt (fun u v => v ^ 2) u v).
  { intros. apply (continuity_1d_2d_pt_comp (fun z => z ^ 2) (fun u v => v)); [|apply continuity_2d_pt_id2].
    apply derivable_continuous_pt, derivable_pt_pow. }
  unfold Rdiv. apply continuity_2d_pt_mult; [|apply continuity_2d_pt_const].
  apply (continuity_2d_pt_opp (fun u v => u ^ 2 - 2 * rho * u * v + v ^ 2)).
  apply (continuity_2d_pt_plus (fun u v => u ^ 2 - 2 * rho * u * v) (fun u v => v ^ 2)); auto.
  apply (continuity_2d_pt_minus (fun u v => u ^ 2) (fun u v => 2 * rho * u * v)); auto.
  apply (continuity_2d_pt_mult (fun u v => 2 * rho * u) (fun u v => v)); [|apply continuity_2d_pt_id2].
  apply (continuity_2d_pt_mult (fun u v => 2 * rho) (fun u v => u)); [apply continuity_2d_pt_const|apply continuity_2d_pt_id1].
Qed.

Lemma bvn_cdf_sym x1 x2 rho : -1 < rho < 1 -> bvn_cdf x1 x2 rho = bvn_cdf x2 x1 rho.
Proof.
  intros Hr.
  destruct (bvn_cdf_spec rho Hr x1 x2) as [g [Ig Iv]].
  destruct (bvn_cdf_spec rho Hr x2 x1) as [h [Ih Iw]].
  assert (Eg : forall x, g x = bvn_inner rho x2 x).
  { intros x. eapply is_integral_unique; [apply Ig|]. now apply bvn_inner_spec. }
  assert (Eh : forall x, h x = bvn_inner rho x1 x).
  { intros x. eapply is_integral_unique; [apply Ih|]. now apply bvn_inner_spec. }
  set (e := / (4 : R)).
  set (k := / (2 * PI * sqrt (1 - rho ^ 2))).
  assert (Hs : 0 < 1 - rho ^ 2) by nra.
  assert (Hk : 0 < k).
  { unfold k. apply Rinv_0_lt_compat. pose proof PI_RGT_0. apply Rmult_lt_0_compat; [lra|]. now apply sqrt_lt_R0. }
  assert (Cq : forall x, continuous (qf (- e) 0 0) x) by (intros; apply qf_cont).
  eapply (fubini_quadrant (bvn_pdf rho) (fun x => k * qf (- e) 0 0 x) (qf (- e) 0 0) g h x1 x2).
  - apply bvn_pdf_cont.
  - intros x. apply (@continuous_scal_r _ _ R_NormedModule). apply Cq.
  - apply Cq.
  - intros x. apply (continuous_ext (bvn_inner rho x2)); [intros; symmetry; apply Eg|]. now apply bvn_inner_cont.
  - intros x. apply (continuous_ext (bvn_inner rho x1)); [intros; symmetry; apply Eh|]. now apply bvn_inner_cont.
  - intros x y. unfold bvn_pdf. fold k. split.
    + apply Rmult_le_pos; [lra|]. left. apply exp_pos.
    + rewrite (Rmult_assoc k (qf (- e) 0 0 x)). apply Rmult_le_compat_l; [lra|]. unfold qf. rewrite <- exp_plus. apply exp_le.
      apply Rmult_le_reg_r with (2 * (1 - rho ^ 2)); [lra|].
      replace (- (x ^ 2 - 2 * rho * x * y + y ^ 2) / (2 * (1 - rho ^ 2)) * (2 * (1 - rho ^ 2)))
        with (- (x ^ 2 - 2 * rho * x * y + y ^ 2)) by (field; lra).
      unfold e.
      replace ((- / 4 * x ^ 2 + 0 * x + 0 + (- / 4 * y ^ 2 + 0 * y + 0)) * (2 * (1 - rho ^ 2)))
        with (- / 2 * (1 - rho ^ 2) * (x ^ 2 + y ^ 2)) by field.
      (* x^2 - 2 rho x y + y^2 - (1 - rho^2)/2 (x^2+y^2) >= 0 *)
      destruct (Rle_dec 0 rho).
      * assert (0 <= rho * (x - y) ^ 2) by (apply Rmult_le_pos; [auto|apply pow2_ge_0]).
        assert (0 <= (1 - rho) ^ 2 * (x ^ 2 + y ^ 2)).
        { apply Rmult_le_pos; [apply pow2_ge_0|]. pose proof (pow2_ge_0 x). pose proof (pow2_ge_0 y). lra. }
        nra.
      * assert (0 <= - rho * (x + y) ^ 2) by (apply Rmult_le_pos; [lra|apply pow2_ge_0]).
        assert (0 <= (1 + rho) ^ 2 * (x ^ 2 + y ^ 2)).
        { apply Rmult_le_pos; [apply pow2_ge_0|]. pose proof (pow2_ge_0 x). pose proof (pow2_ge_0 y). lra. }
        nra.
  - intros x. apply Rmult_le_pos; [lra|]. left. apply exp_pos.
  - intros y. left. apply exp_pos.
  - apply is_integral_scal. apply quad_integral. unfold e. lra.
  - apply quad_integral. unfold e. lra.
  - exact Ig.
  - exact Iv.
  - intros y. eapply is_integral_ext; [|apply Ih]. intros x. apply bvn_pdf_sym.
  - exact Iw.
Qed.

(** * Exponentiated quadratics: both orders of integration agree *)

Lemma quadrant0_swap a11 a12 a22 b1 b2 c v :
  a11 < 0 -> 0 < 4 * a11 * a22 - a12 ^ 2 ->
  is_integral2 (qf2 a11 a12 a22 b1 b2 c) m_infty 0 m_infty 0 v ->
  is_integral2 (qf2 a22 a12 a11 b2 b1 c) m_infty 0 m_infty 0 v.
Proof.
  intros H11 Hd I.
  assert (H22 : a22 < 0) by nra.
  assert (Hd' : 0 < 4 * a22 * a11 - a12 ^ 2) by lra.
  pose proof (gauss_quadrant a11 a12 a22 b1 b2 c H11 Hd) as G.
  pose proof (gauss_quadrant a22 a12 a11 b2 b1 c H22 Hd') as G'.
  rewrite (is_integral2_unique _ _ _ _ _ _ _ I G).
  pose proof (rho_bound a11 a12 a22 H11 Hd) as Hr.
  cbv zeta in *. revert G' Hr.
  replace (-2 * a22 * (-2 * a11) - (-1 * a12) ^ 2) with (-2 * a11 * (-2 * a22) - (-1 * a12) ^ 2) by ring.
  set (det := -2 * a11 * (-2 * a22) - (-1 * a12) ^ 2).
  intros G' Hr.
  match goal with |- is_integral2 _ _ _ _ _ ?V => match type of G' with is_integral2 _ _ _ _ _ ?W => replace V with W; [exact G'|] end end.
  rewrite bvn_cdf_sym.
  - rewrite (Rmult_comm (-2 * a11 / det) (-2 * a22 / det)).
    replace (-2 * a11 / det * b2 + - (-1 * a12) / det * b1) with (- (-1 * a12) / det * b1 + -2 * a11 / det * b2) by ring.
    replace (- (-1 * a12) / det * b2 + -2 * a22 / det * b1) with (-2 * a22 / det * b1 + - (-1 * a12) / det * b2) by ring.
    f_equal. f_equal. f_equal. f_equal. ring.
  - rewrite (Rmult_comm (-2 * a11 / det) (-2 * a22 / det)). exact Hr.
Qed.

Lemma quadrant_swap a11 a12 a22 b1 b2 c t1 t2 v :
  a11 < 0 -> 0 < 4 * a11 * a22 - a12 ^ 2 ->
  is_integral2 (fun x y => exp (a11 * x ^ 2 + a12 * x * y + a22 * y ^ 2 + b1 * x + b2 * y + c)) m_infty (Finite t1) m_infty (Finite t2) v ->
  is_integral2 (fun y x => exp (a11 * x ^ 2 + a12 * x * y + a22 * y ^ 2 + b1 * x + b2 * y + c)) m_infty (Finite t2) m_infty (Finite t1) v.
Proof.
  intros H11 Hd I.
  set (c1 := 2 * a11 * t1 + a12 * t2 + b1). set (c2 := 2 * a22 * t2 + a12 * t1 + b2).
  set (c0 := a11 * t1 ^ 2 + a12 * t1 * t2 + a22 * t2 ^ 2 + b1 * t1 + b2 * t2 + c).
  assert (J : is_integral2 (qf2 a11 a12 a22 c1 c2 c0) m_infty 0 m_infty 0 v).
  { eapply is_integral2_ext; [|apply (is_integral2_shift (fun x y => exp (a11 * x ^ 2 + a12 * x * y + a22 * y ^ 2 + b1 * x + b2 * y + c)) t1 t2 m_infty 0 m_infty 0); unfold lim_affine; rewrite !Rmult_0_r, !Rplus_0_l; exact I].
    intros x y. unfold qf2, c1, c2, c0. f_equal. ring. }
  apply quadrant0_swap in J; auto.
  eapply is_integral2_ext.
  2:{ apply (is_integral2_shift (qf2 a22 a12 a11 c2 c1 c0) (- t2) (- t1) m_infty t2 m_infty t1 v). unfold lim_affine.
      replace (1 * t2 + - t2) with 0 by ring. replace (1 * t1 + - t1) with 0 by ring. exact J. }
  intros x y. unfold qf2, c1, c2, c0. f_equal. ring.
Qed.

(** Gaussian integrals over the plane. *)

Definition plane_val (a11 a12 a22 b1 b2 c : R) : R :=
  let det := 4 * a11 * a22 - a12 ^ 2 in
  2 * PI / sqrt det * exp (c - (a22 * b1 ^ 2 - a12 * b1 * b2 + a11 * b2 ^ 2) / det).

Lemma plane_val_sym a11 a12 a22 b1 b2 c : plane_val a22 a12 a11 b2 b1 c = plane_val a11 a12 a22 b1 b2 c.
Proof.
  unfold plane_val. replace (4 * a22 * a11) with (4 * a11 * a22) by ring. f_equal. f_equal. f_equal. f_equal. ring.
Qed.

Lemma gauss_plane a11 a12 a22 b1 b2 c :
  a22 < 0 -> 0 < 4 * a11 * a22 - a12 ^ 2 ->
  is_integral2 (fun x y => exp (a11 * x ^ 2 + a12 * x * y + a22 * y ^ 2 + b1 * x + b2 * y + c))
    m_infty p_infty m_infty p_infty (plane_val a11 a12 a22 b1 b2 c).
Proof.
  intros H2 Hd. set (det := 4 * a11 * a22 - a12 ^ 2) in *.
  exists (fun x => sqrt (- PI / a22) * exp (- / 4 * (a12 * x + b2) ^ 2 / a22 + (a11 * x ^ 2 + b1 * x + c))).
  split.
  - intros x. eapply is_integral_ext; [|apply (gauss_full a22 (a12 * x + b2) (a11 * x ^ 2 + b1 * x + c) H2)].
    intros y. unfold qf. f_equal. ring.
  - set (a' := det / (4 * a22)).
    assert (Ha' : a' < 0).
    { unfold a'. apply Ropp_lt_cancel. replace (- (det / (4 * a22))) with (det / (4 * - a22)) by (field; lra).
      rewrite Ropp_0. apply Rdiv_lt_0_compat; lra. }
    set (b' := b1 - a12 * b2 / (2 * a22)). set (c' := c - b2 ^ 2 / (4 * a22)).
    pose proof (is_integral_scal (sqrt (- PI / a22)) _ _ _ _ (gauss_full a' b' c' Ha')) as I.
    replace (plane_val a11 a12 a22 b1 b2 c) with (sqrt (- PI / a22) * (sqrt (- PI / a') * exp (- / 4 * b' ^ 2 / a' + c'))).
    + eapply is_integral_ext; [|exact I]. intros x. cbv beta. unfold qf. f_equal. f_equal.
      unfold a', b', c', det. field. lra.
    + unfold plane_val. fold det. rewrite <- Rmult_assoc. f_equal.
      * rewrite <- sqrt_mult; [|left|left].
        -- pose proof PI_RGT_0. replace (- PI / a22 * (- PI / a')) with ((2 * PI) ^ 2 / det).
           2:{ unfold a'. field. lra. }
           rewrite sqrt_div; [|apply pow2_ge_0|lra]. rewrite sqrt_pow2; [reflexivity|lra].
        -- pose proof PI_RGT_0. replace (- PI / a22) with (PI / - a22) by (field; lra). apply Rdiv_lt_0_compat; lra.
        -- pose proof PI_RGT_0. replace (- PI / a') with (PI / - a') by (field; lra). apply Rdiv_lt_0_compat; lra.
      * f_equal. unfold a', b', c'. unfold det in *. field. lra.
Qed.

(** The same over the whole plane. *)
Lemma plane_swap a11 a12 a22 b1 b2 c v :
  a11 < 0 -> 0 < 4 * a11 * a22 - a12 ^ 2 ->
  is_integral2 (fun x y => exp (a11 * x ^ 2 + a12 * x * y + a22 * y ^ 2 + b1 * x + b2 * y + c)) m_infty p_infty m_infty p_infty v ->
  is_integral2 (fun y x => exp (a11 * x ^ 2 + a12 * x * y + a22 * y ^ 2 + b1 * x + b2 * y + c)) m_infty p_infty m_infty p_infty v.
Proof.
  intros H11 Hd I.
  assert (H22 : a22 < 0) by nra.
  rewrite (is_integral2_unique _ _ _ _ _ _ _ I (gauss_plane a11 a12 a22 b1 b2 c H22 Hd)).
  rewrite <- plane_val_sym. eapply is_integral2_ext; [|apply (gauss_plane a22 a12 a11 b2 b1 c H11); lra].
  intros x y. cbv beta. f_equal. ring.
Qed.
