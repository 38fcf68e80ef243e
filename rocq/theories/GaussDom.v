(** Integrals of continuous functions that are dominated by a Gaussian: existence, linearity,
    continuity in a parameter and exchange of the order of integration. *)
From Coq Require Import FunctionalExtensionality Reals Lra Lia Psatz.
From Coquelicot Require Import Coquelicot.
From Verif Require Import Gauss Gauss2 Gauss3 Fubini.
Local Open Scope R_scope.

(** Continuous and below a multiple of a Gaussian. *)
Definition dom1 (f : R -> R) : Prop :=
  (forall x, continuous f x) /\ exists C c, 0 < c /\ forall x, Rabs (f x) <= C * exp (- c * x ^ 2).
Definition dom2 (f : R -> R -> R) : Prop :=
  (forall x y, continuity_2d_pt f x y)
  /\ exists C c, 0 < c /\ forall x y, Rabs (f x y) <= C * (exp (- c * x ^ 2) * exp (- c * y ^ 2)).

(** The upper limits: a number or infinity. *)
Definition ulim (b : Rbar) : Prop := match b with m_infty => False | _ => True end.

(** The integral from minus infinity. *)
Definition Int (b : Rbar) (f : R -> R) : R :=
  RInt_gen (V := R_CompleteNormedModule) f (Rbar_locally m_infty) (lim_filter b).

Lemma is_integral_reflect f lo hi v :
  is_integral f (Rbar_opp lo) (Rbar_opp hi) v -> is_integral (fun x => - f (- x)) lo hi v.
Proof.
  intros A P HP. specialize (A P HP). destruct A as [Q1 Q2 H1 H2 A].
  assert (K : forall l Q, lim_filter (Rbar_opp l) Q -> lim_filter l (fun x => Q (- x))).
  { intros l Q H. destruct l as [x| |]; simpl in *; auto.
    - destruct H as [M HM]. exists (- M). intros x Hx. apply HM. lra.
    - destruct H as [M HM]. exists (- M). intros x Hx. apply HM. lra. }
  exists (fun x => Q1 (- x)) (fun x => Q2 (- x)); auto.
  intros x y Hx Hy. destruct (A _ _ Hx Hy) as [i [I Pi]]. exists i. split; auto. simpl in *.
  apply (is_RInt_comp_opp f x y i). exact I.
Qed.

Lemma is_integral_whole f v w :
  is_integral f m_infty 0 v -> is_integral (fun x => f (- x)) m_infty 0 w -> is_integral f m_infty p_infty (v + w).
Proof.
  intros A B. apply (is_integral_Chasles f m_infty 0 p_infty); auto.
  apply is_integral_swap in B. apply is_integral_opp in B.
  replace w with (- - w) by ring.
  eapply is_integral_ext; [|apply (is_integral_reflect (fun x => - f (- x)) 0 p_infty)].
  - intros x. cbv beta. now rewrite !Ropp_involutive.
  - simpl. rewrite Ropp_0. exact B.
Qed.

Lemma gauss_cont c x : continuous (fun y => exp (- c * y ^ 2)) x.
Proof. apply (ex_derive_continuous (fun y => exp (- c * y ^ 2))). auto_derive. trivial. Qed.

Lemma gauss_ex c (b : R) : 0 < c -> exists v, is_integral (fun x => exp (- c * x ^ 2)) m_infty b v.
Proof.
  intros H. eexists. eapply is_integral_ext; [|apply (gauss_below (- c) 0 0); lra].
  intros x. unfold qf. f_equal. ring.
Qed.

Lemma dom1_opp_arg f : dom1 f -> dom1 (fun x => f (- x)).
Proof.
  intros [C [K [c [Hc H]]]]. split.
  - intros x. apply (continuous_comp (fun x : R => - x) f); [|apply C].
    apply (@continuous_opp _ R_AbsRing R_NormedModule (fun x => x)). apply continuous_id.
  - exists K, c. split; auto. intros x. replace (x ^ 2) with ((- x) ^ 2) by ring. apply H.
Qed.

Lemma dom1_ex_fin f (b : R) : dom1 f -> exists v, is_integral f m_infty b v.
Proof.
  intros [C [K [c [Hc H]]]]. destruct (gauss_ex c b Hc) as [w W].
  apply (integral_dominated f (fun x => K * exp (- c * x ^ 2)) b (K * w)); auto.
  - intros x. apply (@continuous_scal_r _ _ R_NormedModule). apply gauss_cont.
  - now apply is_integral_scal.
Qed.

Lemma dom1_ex f b : ulim b -> dom1 f -> exists v, is_integral f m_infty b v.
Proof.
  intros U D. destruct b as [b| |]; [now apply dom1_ex_fin| |destruct U].
  destruct (dom1_ex_fin f 0 D) as [v V]. destruct (dom1_ex_fin _ 0 (dom1_opp_arg f D)) as [w W].
  exists (v + w). now apply is_integral_whole.
Qed.

Lemma Int_unique f b v : is_integral f m_infty b v -> Int b f = v.
Proof. intros H. apply (RInt_gen_integral f m_infty b v H). Qed.

Lemma Int_spec f b : ulim b -> dom1 f -> is_integral f m_infty b (Int b f).
Proof. intros U D. destruct (dom1_ex f b U D) as [v V]. now rewrite (Int_unique f b v V). Qed.

Lemma Int_ext b f g : (forall x, f x = g x) -> Int b f = Int b g.
Proof.
  intros E. replace g with f; auto. apply FunctionalExtensionality.functional_extensionality. exact E.
Qed.

Lemma Int_whole f : dom1 f -> Int p_infty f = Int 0 f + Int 0 (fun x => f (- x)).
Proof.
  intros D. apply Int_unique, is_integral_whole; apply Int_spec; simpl; auto. now apply dom1_opp_arg.
Qed.

(** * Closure *)

Lemma dom1_ext f g : (forall x, f x = g x) -> dom1 f -> dom1 g.
Proof.
  intros E [C [K [c [Hc H]]]]. split.
  - intros x. apply (continuous_ext f); auto.
  - exists K, c. split; auto. intros x. now rewrite <- E.
Qed.

Lemma exp_mono_c c c' x : c <= c' -> exp (- c' * x ^ 2) <= exp (- c * x ^ 2).
Proof. intros H. apply exp_le. pose proof (pow2_ge_0 x). nra. Qed.

Lemma exp_le_1 c x : 0 < c -> exp (- c * x ^ 2) <= 1.
Proof. intros H. rewrite <- exp_0. apply exp_le. pose proof (pow2_ge_0 x). nra. Qed.

(** The constant may be taken non-negative. *)
Lemma dom1_bound f : dom1 f -> exists C c, 0 <= C /\ 0 < c /\ forall x, Rabs (f x) <= C * exp (- c * x ^ 2).
Proof.
  intros [_ [C [c [Hc H]]]]. exists (Rmax 0 C), c. split; [apply Rmax_l|]. split; auto. intros x.
  eapply Rle_trans; [apply H|]. apply Rmult_le_compat_r; [left; apply exp_pos|apply Rmax_r].
Qed.
Lemma dom2_bound f : dom2 f ->
  exists C c, 0 <= C /\ 0 < c /\ forall x y, Rabs (f x y) <= C * (exp (- c * x ^ 2) * exp (- c * y ^ 2)).
Proof.
  intros [_ [C [c [Hc H]]]]. exists (Rmax 0 C), c. split; [apply Rmax_l|]. split; auto. intros x y.
  eapply Rle_trans; [apply H|]. apply Rmult_le_compat_r; [|apply Rmax_r].
  left. apply Rmult_lt_0_compat; apply exp_pos.
Qed.

Lemma dom1_plus f g : dom1 f -> dom1 g -> dom1 (fun x => f x + g x).
Proof.
  intros Df Dg. destruct (dom1_bound f Df) as (C & c & PC & Pc & H). destruct (dom1_bound g Dg) as (D & d & PD & Pd & G).
  split; [intros x; apply (@continuous_plus _ _ R_NormedModule); [apply Df|apply Dg]|].
  exists (C + D), (Rmin c d). split; [now apply Rmin_glb_lt|]. intros x.
  eapply Rle_trans; [apply Rabs_triang|]. rewrite Rmult_plus_distr_r.
  pose proof (exp_mono_c _ _ x (Rmin_l c d)). pose proof (exp_mono_c _ _ x (Rmin_r c d)).
  apply Rplus_le_compat; (eapply Rle_trans; [apply H || apply G|]); apply Rmult_le_compat_l; auto.
Qed.

Lemma dom1_scal k f : dom1 f -> dom1 (fun x => k * f x).
Proof.
  intros [Cf [C [c [Hc H]]]]. split; [intros x; apply (@continuous_scal_r _ _ R_NormedModule); apply Cf|].
  exists (Rabs k * C), c. split; auto. intros x. rewrite Rabs_mult, Rmult_assoc. apply Rmult_le_compat_l; auto. apply Rabs_pos.
Qed.

Lemma dom1_opp f : dom1 f -> dom1 (fun x => - f x).
Proof. intros D. apply (dom1_ext (fun x => -1 * f x)); [intros; ring|]. now apply dom1_scal. Qed.
Lemma dom1_minus f g : dom1 f -> dom1 g -> dom1 (fun x => f x - g x).
Proof. intros A B. apply dom1_plus; auto. now apply dom1_opp. Qed.

Lemma dom1_mult f g : dom1 f -> dom1 g -> dom1 (fun x => f x * g x).
Proof.
  intros Df Dg. destruct (dom1_bound f Df) as (C & c & PC & Pc & H). destruct (dom1_bound g Dg) as (D & d & PD & Pd & G).
  split; [intros x; apply (@continuous_mult _ R_AbsRing); [apply Df|apply Dg]|].
  exists (C * D), c. split; auto. intros x. rewrite Rabs_mult.
  assert (G1 : Rabs (g x) <= D).
  { eapply Rle_trans; [apply G|]. pose proof (exp_le_1 d x Pd). pose proof (exp_pos (- d * x ^ 2)). nra. }
  replace (C * D * exp (- c * x ^ 2)) with ((C * exp (- c * x ^ 2)) * D) by ring.
  apply Rmult_le_compat; auto using Rabs_pos.
Qed.

Lemma dom2_ext f g : (forall x y, f x y = g x y) -> dom2 f -> dom2 g.
Proof.
  intros E [C [K [c [Hc H]]]]. split.
  - intros x y. apply (continuity_2d_pt_ext f); auto.
  - exists K, c. split; auto. intros x y. now rewrite <- E.
Qed.

Lemma dom2_swap f : dom2 f -> dom2 (fun x y => f y x).
Proof.
  intros [C [K [c [Hc H]]]]. split; [now apply swap_2d|]. exists K, c. split; auto. intros x y.
  rewrite (Rmult_comm (exp (- c * x ^ 2))). apply H.
Qed.

Lemma dom2_plus f g : dom2 f -> dom2 g -> dom2 (fun x y => f x y + g x y).
Proof.
  intros Df Dg. destruct (dom2_bound f Df) as (C & c & PC & Pc & H). destruct (dom2_bound g Dg) as (D & d & PD & Pd & G).
  split; [intros x y; apply continuity_2d_pt_plus; [apply Df|apply Dg]|].
  exists (C + D), (Rmin c d). split; [now apply Rmin_glb_lt|]. intros x y.
  eapply Rle_trans; [apply Rabs_triang|]. rewrite Rmult_plus_distr_r.
  pose proof (exp_mono_c _ _ x (Rmin_l c d)). pose proof (exp_mono_c _ _ x (Rmin_r c d)).
  pose proof (exp_mono_c _ _ y (Rmin_l c d)). pose proof (exp_mono_c _ _ y (Rmin_r c d)).
  assert (E : forall z, 0 <= exp z) by (intros; left; apply exp_pos).
  apply Rplus_le_compat; (eapply Rle_trans; [apply H || apply G|]); apply Rmult_le_compat_l; auto;
    apply Rmult_le_compat; auto.
Qed.

Lemma dom2_scal k f : dom2 f -> dom2 (fun x y => k * f x y).
Proof.
  intros [Cf [C [c [Hc H]]]]. split.
  - intros x y. apply (continuity_2d_pt_mult (fun _ _ => k) f); [apply continuity_2d_pt_const|apply Cf].
  - exists (Rabs k * C), c. split; auto. intros x y. rewrite Rabs_mult, Rmult_assoc. apply Rmult_le_compat_l; auto. apply Rabs_pos.
Qed.
Lemma dom2_opp f : dom2 f -> dom2 (fun x y => - f x y).
Proof. intros D. apply (dom2_ext (fun x y => -1 * f x y)); [intros; ring|]. now apply dom2_scal. Qed.
Lemma dom2_minus f g : dom2 f -> dom2 g -> dom2 (fun x y => f x y - g x y).
Proof. intros A B. apply dom2_plus; auto. now apply dom2_opp. Qed.

Lemma cont2_1 (f : R -> R) : (forall x, continuous f x) -> forall x y, continuity_2d_pt (fun u _ => f u) x y.
Proof.
  intros C x y. apply (continuity_1d_2d_pt_comp f (fun u _ => u)).
  - apply continuity_pt_filterlim. apply C.
  - apply continuity_2d_pt_id1.
Qed.
Lemma cont2_2 (f : R -> R) : (forall x, continuous f x) -> forall x y, continuity_2d_pt (fun _ v => f v) x y.
Proof.
  intros C x y. apply (continuity_1d_2d_pt_comp f (fun _ v => v)).
  - apply continuity_pt_filterlim. apply C.
  - apply continuity_2d_pt_id2.
Qed.

(** Continuous and bounded factors. *)
Lemma dom2_bounded f g M : dom2 f -> (forall x y, continuity_2d_pt g x y) -> (forall x y, Rabs (g x y) <= M) ->
  dom2 (fun x y => f x y * g x y).
Proof.
  intros Df Cg Bg. destruct (dom2_bound f Df) as (C & c & PC & Pc & H).
  assert (0 <= M) by (eapply Rle_trans; [apply Rabs_pos|apply (Bg 0 0)]).
  split; [intros x y; apply continuity_2d_pt_mult; [apply Df|apply Cg]|].
  exists (C * M), c. split; auto. intros x y. rewrite Rabs_mult.
  replace (C * M * (exp (- c * x ^ 2) * exp (- c * y ^ 2))) with (C * (exp (- c * x ^ 2) * exp (- c * y ^ 2)) * M) by ring.
  apply Rmult_le_compat; auto using Rabs_pos.
Qed.

Lemma dom1_le f : dom1 f -> exists M, forall x, Rabs (f x) <= M.
Proof.
  intros D. destruct (dom1_bound f D) as (C & c & PC & Pc & H). exists C. intros x. eapply Rle_trans; [apply H|].
  pose proof (exp_le_1 c x Pc). pose proof (exp_pos (- c * x ^ 2)). nra.
Qed.
Lemma dom2_le f : dom2 f -> exists M, forall x y, Rabs (f x y) <= M.
Proof.
  intros D. destruct (dom2_bound f D) as (C & c & PC & Pc & H). exists C. intros x y. eapply Rle_trans; [apply H|].
  pose proof (exp_le_1 c x Pc). pose proof (exp_pos (- c * x ^ 2)). pose proof (exp_le_1 c y Pc). pose proof (exp_pos (- c * y ^ 2)).
  assert (exp (- c * x ^ 2) * exp (- c * y ^ 2) <= 1) by nra. nra.
Qed.

Lemma dom2_mult1 f g : dom2 f -> dom1 g -> dom2 (fun x y => f x y * g x).
Proof.
  intros Df Dg. destruct (dom1_le g Dg) as [M HM].
  apply (dom2_bounded f (fun x _ => g x) M); auto. apply cont2_1, Dg.
Qed.
Lemma dom2_mult2 f g : dom2 f -> dom1 g -> dom2 (fun x y => f x y * g y).
Proof.
  intros Df Dg. destruct (dom1_le g Dg) as [M HM].
  apply (dom2_bounded f (fun _ y => g y) M); auto. apply cont2_2, Dg.
Qed.
Lemma dom2_mult f g : dom2 f -> dom2 g -> dom2 (fun x y => f x y * g x y).
Proof. intros Df Dg. destruct (dom2_le g Dg) as [M HM]. apply (dom2_bounded f g M); auto. apply Dg. Qed.

Lemma dom2_prod f g : dom1 f -> dom1 g -> dom2 (fun x y => f x * g y).
Proof.
  intros Df Dg. destruct (dom1_bound f Df) as (C & c & PC & Pc & H). destruct (dom1_bound g Dg) as (D & d & PD & Pd & G).
  split; [intros x y; apply continuity_2d_pt_mult; [apply cont2_1, Df|apply cont2_2, Dg]|].
  exists (C * D), (Rmin c d). split; [now apply Rmin_glb_lt|]. intros x y. rewrite Rabs_mult.
  pose proof (exp_mono_c _ _ x (Rmin_l c d)). pose proof (exp_mono_c _ _ y (Rmin_r c d)).
  replace (C * D * (exp (- Rmin c d * x ^ 2) * exp (- Rmin c d * y ^ 2)))
    with ((C * exp (- Rmin c d * x ^ 2)) * (D * exp (- Rmin c d * y ^ 2))) by ring.
  apply Rmult_le_compat; auto using Rabs_pos; (eapply Rle_trans; [apply H || apply G|]); apply Rmult_le_compat_l; auto.
Qed.

Lemma dom2_at1 f x : dom2 f -> dom1 (f x).
Proof.
  intros D. destruct (dom2_bound f D) as (C & c & PC & Pc & H). split; [intros y; apply cont_2, D|].
  exists C, c. split; auto. intros y. eapply Rle_trans; [apply H|]. apply Rmult_le_compat_l; auto.
  pose proof (exp_le_1 c x Pc). pose proof (exp_pos (- c * y ^ 2)). nra.
Qed.
Lemma dom2_at2 f y : dom2 f -> dom1 (fun x => f x y).
Proof. intros D. apply (dom2_at1 (fun y x => f x y) y). now apply dom2_swap. Qed.

(** A section along the diagonal. *)
Lemma dom2_diag f : dom2 f -> dom1 (fun x => f x x).
Proof.
  intros D. destruct (dom2_bound f D) as (C & c & PC & Pc & H). split.
  - intros x. apply continuity_pt_filterlim. intros e He. destruct (proj1 D x x (mkposreal e He)) as [d Hd].
    exists d. split; [apply cond_pos|]. intros u [_ Hu]. simpl in *. unfold R_dist in *. apply Hd; auto.
  - exists C, c. split; auto. intros x. eapply Rle_trans; [apply H|]. apply Rmult_le_compat_l; auto.
    pose proof (exp_le_1 c x Pc). pose proof (exp_pos (- c * x ^ 2)). nra.
Qed.

(** * Linearity and order *)

Section Limit.
Context (b : Rbar).
Hypothesis U : ulim b.

Lemma Int_plus f g : dom1 f -> dom1 g -> Int b (fun x => f x + g x) = Int b f + Int b g.
Proof. intros A B. apply Int_unique, is_integral_plus; now apply Int_spec. Qed.
Lemma Int_minus f g : dom1 f -> dom1 g -> Int b (fun x => f x - g x) = Int b f - Int b g.
Proof. intros A B. apply Int_unique, is_integral_minus; now apply Int_spec. Qed.
Lemma Int_scal k f : dom1 f -> Int b (fun x => k * f x) = k * Int b f.
Proof. intros A. apply Int_unique, is_integral_scal; now apply Int_spec. Qed.

Lemma dom1_zero : dom1 (fun _ => 0).
Proof.
  split; [intros x; apply continuous_const|]. exists 0, 1. split; [lra|]. intros x. rewrite Rabs_R0. lra.
Qed.
Lemma Int_zero : Int b (fun _ => 0) = 0.
Proof.
  rewrite (Int_ext b _ (fun x => 0 * (fun _ => 0) x)) by (intros; ring). rewrite Int_scal by apply dom1_zero. ring.
Qed.

Lemma Int_nonneg f : dom1 f -> (forall x, 0 <= f x) -> 0 <= Int b f.
Proof.
  intros D P. destruct b as [b'| |]; [| |destruct U].
  - apply (below_nonneg f b' (Int b' f)); auto; [apply D|now apply Int_spec].
  - rewrite Int_whole by auto. pose proof (dom1_opp_arg f D) as D'.
    assert (0 <= Int 0 f) by (apply (below_nonneg f 0); auto; [apply D|now apply Int_spec]).
    assert (0 <= Int 0 (fun x => f (- x))) by (apply (below_nonneg (fun x => f (- x)) 0); auto; [apply D'|now apply Int_spec]).
    lra.
Qed.

Lemma Int_le f g : dom1 f -> dom1 g -> (forall x, f x <= g x) -> Int b f <= Int b g.
Proof.
  intros A B H. assert (0 <= Int b (fun x => g x - f x)).
  { apply Int_nonneg; [now apply dom1_minus|]. intros x. specialize (H x). lra. }
  rewrite Int_minus in H0 by auto. lra.
Qed.

Lemma Int_abs f g : dom1 f -> dom1 g -> (forall x, Rabs (f x) <= g x) -> Rabs (Int b f) <= Int b g.
Proof.
  intros A B H. apply Rabs_le. split.
  - assert (Int b (fun x => -1 * g x) <= Int b f).
    { apply Int_le; auto; [now apply dom1_scal|]. intros x. specialize (H x). apply Rabs_le_between in H. lra. }
    rewrite Int_scal in H0 by auto. lra.
  - apply Int_le; auto. intros x. specialize (H x). apply Rabs_le_between in H. lra.
Qed.
End Limit.

Lemma gauss_dom1 c : 0 < c -> dom1 (fun x => exp (- c * x ^ 2)).
Proof.
  intros H. split; [intros; apply gauss_cont|]. exists 1, c. split; auto. intros x.
  rewrite Rabs_pos_eq by (left; apply exp_pos). lra.
Qed.

(** * A parameter *)

Lemma param_cont_fin f (d : R) : dom2 f -> forall x, continuous (fun x => Int d (f x)) x.
Proof.
  intros D x. destruct (dom2_bound f D) as (C & c & PC & Pc & H). pose proof (gauss_dom1 c Pc) as G.
  apply continuity_pt_filterlim. intros e He.
  assert (He' : 0 < e / 4 / (C + 1)) by (apply Rdiv_lt_0_compat; lra).
  destruct (below_small (fun y => exp (- c * y ^ 2)) d (Int d (fun y => exp (- c * y ^ 2))) (proj1 G) (Int_spec _ d I G) _ He')
    as [a [Ha Ta]].
  assert (Tail : forall z, Rabs (Int d (f z) - RInt (f z) a d) <= e / 4).
  { intros z. assert (Dz := dom2_at1 f z D).
    pose proof (below_split (f z) a d _ (proj1 Dz) (Int_spec _ d I Dz)) as S. apply Int_unique in S. rewrite <- S.
    pose proof (below_split _ a d _ (proj1 G) (Int_spec _ d I G)) as SG. apply Int_unique in SG.
    eapply Rle_trans; [apply (Int_abs a I (f z) (fun y => C * exp (- c * y ^ 2)) Dz (dom1_scal C _ G))|].
    - intros y. eapply Rle_trans; [apply H|]. apply Rmult_le_compat_l; auto.
      pose proof (exp_le_1 c z Pc). pose proof (exp_pos (- c * y ^ 2)). nra.
    - rewrite (Int_scal a I C _ G), SG. apply Rle_trans with (C * (e / 4 / (C + 1))); [apply Rmult_le_compat_l; [exact PC|exact Ta]|].
      apply Rle_trans with ((C + 1) * (e / 4 / (C + 1))); [apply Rmult_le_compat_r; lra|]. right. field. lra. }
  pose proof (RInt_param_cont f (proj1 D) a d x) as L. apply continuity_pt_filterlim in L.
  destruct (L (e / 2) ltac:(lra)) as [dl [Hd L']]. exists dl. split; auto. intros u Hu. specialize (L' u Hu).
  simpl in *. unfold R_dist in *. pose proof (Tail u) as Tu. pose proof (Tail x) as Tx.
  apply Rabs_le_between in Tu. apply Rabs_le_between in Tx. apply Rabs_def2 in L'. apply Rabs_def1; lra.
Qed.

Lemma dom2_opp2 f : dom2 f -> dom2 (fun x y => f x (- y)).
Proof.
  intros [Cf [C [c [Hc H]]]]. split.
  - intros x y e. destruct (Cf x (- y) e) as [d Hd]. exists d. intros u v Hu Hv. apply Hd; auto.
    replace (- v - - y) with (- (v - y)) by ring. now rewrite Rabs_Ropp.
  - exists C, c. split; auto. intros x y. replace (y ^ 2) with ((- y) ^ 2) by ring. apply H.
Qed.

Lemma dom2_Int2 f d : ulim d -> dom2 f -> dom1 (fun x => Int d (f x)).
Proof.
  intros U D. split.
  - destruct d as [d| |]; [now apply param_cont_fin| |destruct U]. intros x.
    apply (continuous_ext (fun x => Int 0 (f x) + Int 0 (fun y => f x (- y)))).
    { intros z. symmetry. apply Int_whole. now apply dom2_at1. }
    apply (@continuous_plus _ _ R_NormedModule); [now apply param_cont_fin|].
    apply (param_cont_fin (fun x y => f x (- y)) 0). now apply dom2_opp2.
  - destruct (dom2_bound f D) as (C & c & PC & Pc & H). pose proof (gauss_dom1 c Pc) as G.
    exists (C * Int d (fun y => exp (- c * y ^ 2))), c. split; auto. intros x.
    eapply Rle_trans; [apply (Int_abs d U (f x) (fun y => C * exp (- c * x ^ 2) * exp (- c * y ^ 2)))|].
    + now apply dom2_at1.
    + now apply dom1_scal.
    + intros y. rewrite Rmult_assoc. apply H.
    + rewrite Int_scal by auto. right. ring.
Qed.
Lemma dom2_Int1 f b : ulim b -> dom2 f -> dom1 (fun y => Int b (fun x => f x y)).
Proof. intros U D. apply (dom2_Int2 (fun y x => f x y) b U). now apply dom2_swap. Qed.

(** * Exchange of the order of integration *)

Lemma fubini_fin_pos f (b d : R) C c : dom2 f -> 0 <= C -> 0 < c ->
  (forall x y, 0 <= f x y <= C * (exp (- c * x ^ 2) * exp (- c * y ^ 2))) ->
  Int b (fun x => Int d (f x)) = Int d (fun y => Int b (fun x => f x y)).
Proof.
  intros D PC Pc H. pose proof (gauss_dom1 c Pc) as G.
  apply (fubini_quadrant f (fun x => C * exp (- c * x ^ 2)) (fun y => exp (- c * y ^ 2))
           (fun x => Int d (f x)) (fun y => Int b (fun x => f x y)) b d _ _
           (C * Int b (fun x => exp (- c * x ^ 2))) (Int d (fun y => exp (- c * y ^ 2)))).
  - apply D.
  - apply (dom1_scal C _ G).
  - apply G.
  - apply (dom2_Int2 f d I D).
  - apply (dom2_Int1 f b I D).
  - intros x y. rewrite Rmult_assoc. apply H.
  - intros x. apply Rmult_le_pos; auto. left. apply exp_pos.
  - intros y. left. apply exp_pos.
  - apply is_integral_scal. now apply Int_spec.
  - now apply Int_spec.
  - intros x. apply Int_spec; simpl; auto. now apply dom2_at1.
  - apply Int_spec; simpl; auto. now apply dom2_Int2.
  - intros y. apply Int_spec; simpl; auto. now apply dom2_at2.
  - apply Int_spec; simpl; auto. now apply dom2_Int1.
Qed.

Lemma fubini_fin f (b d : R) : dom2 f ->
  Int b (fun x => Int d (f x)) = Int d (fun y => Int b (fun x => f x y)).
Proof.
  intros D. destruct (dom2_bound f D) as (C & c & PC & Pc & H). pose proof (gauss_dom1 c Pc) as G.
  set (g := fun x y => C * (exp (- c * x ^ 2) * exp (- c * y ^ 2))).
  assert (Dg : dom2 g) by (apply dom2_scal, dom2_prod; auto).
  set (h := fun x y => f x y + g x y). assert (Dh : dom2 h) by (apply dom2_plus; auto).
  assert (Fg : Int b (fun x => Int d (g x)) = Int d (fun y => Int b (fun x => g x y))).
  { apply (fubini_fin_pos g b d C c); auto. intros x y. split; [|apply Rle_refl].
    apply Rmult_le_pos; auto. apply Rmult_le_pos; left; apply exp_pos. }
  assert (Fh : Int b (fun x => Int d (h x)) = Int d (fun y => Int b (fun x => h x y))).
  { apply (fubini_fin_pos h b d (2 * C) c); auto; [lra|]. intros x y. unfold h, g.
    specialize (H x y). apply Rabs_le_between in H. lra. }
  assert (E1 : Int b (fun x => Int d (h x)) = Int b (fun x => Int d (f x)) + Int b (fun x => Int d (g x))).
  { rewrite <- (Int_plus b I) by (apply dom2_Int2; simpl; auto). apply Int_ext. intros x.
    apply (Int_plus d I); now apply dom2_at1. }
  assert (E2 : Int d (fun y => Int b (fun x => h x y)) = Int d (fun y => Int b (fun x => f x y)) + Int d (fun y => Int b (fun x => g x y))).
  { rewrite <- (Int_plus d I) by (apply dom2_Int1; simpl; auto). apply Int_ext. intros y.
    apply (Int_plus b I); now apply dom2_at2. }
  lra.
Qed.

Lemma fubini_half f (b : R) d : ulim d -> dom2 f ->
  Int b (fun x => Int d (f x)) = Int d (fun y => Int b (fun x => f x y)).
Proof.
  intros U D. destruct d as [d| |]; [now apply fubini_fin| |destruct U].
  rewrite Int_whole by (apply dom2_Int1; simpl; auto).
  rewrite <- (fubini_fin f b 0 D). rewrite <- (fubini_fin (fun x y => f x (- y)) b 0 (dom2_opp2 f D)).
  rewrite <- (Int_plus b I).
  - apply Int_ext. intros x. apply Int_whole. now apply dom2_at1.
  - now apply dom2_Int2.
  - apply (dom2_Int2 (fun x y => f x (- y))); simpl; auto. now apply dom2_opp2.
Qed.

Theorem fubini f b d : ulim b -> ulim d -> dom2 f ->
  Int b (fun x => Int d (f x)) = Int d (fun y => Int b (fun x => f x y)).
Proof.
  intros Ub Ud D. destruct b as [b| |]; [now apply fubini_half| |destruct Ub].
  destruct d as [d| |]; [| |destruct Ud].
  - symmetry. apply (fubini_half (fun y x => f x y) d p_infty I). now apply dom2_swap.
  - transitivity (Int 0 (fun x => Int p_infty (f x)) + Int 0 (fun x => Int p_infty (f (- x)))).
    { apply (Int_whole (fun x => Int p_infty (f x))). now apply dom2_Int2. }
    rewrite (fubini_half f 0 p_infty I D).
    assert (D' : dom2 (fun x y => f (- x) y)) by (apply (dom2_swap (fun y x => f (- x) y)), (dom2_opp2 (fun y x => f x y)), dom2_swap, D).
    pose proof (fubini_half (fun x y => f (- x) y) 0 p_infty I D') as F.
    transitivity (Int p_infty (fun y => Int 0 (fun x => f x y)) + Int p_infty (fun y => Int 0 (fun x => f (- x) y))).
    { f_equal. exact F. }
    rewrite <- (Int_plus p_infty I).
    + apply Int_ext. intros y. symmetry. apply Int_whole. now apply dom2_at2.
    + now apply dom2_Int1.
    + apply (dom2_Int1 (fun x y => f (- x) y)); simpl; auto.
Qed.
