(** The integrals [integral_abcd], [integral_abcd_lu] and [compute_I_ux] of rgpcm.py. *)
From Coq Require Import Reals ZArith List Bool Lia Lra Psatz.
From Coquelicot Require Import Coquelicot.
From Verif Require Import Py ExpPolyModel ListFacts ExpPolySpec ExpPolyIntModel GpcmModel GpcmSpec.
From Verif Require Import Glue RgpcmModel RgpcmSpec RgpcmAbcd.
Import ListNotations.
Local Open Scope R_scope.

Lemma rect_unique f x0 x1 y0 y1 v v' :
  is_rect_integral f x0 x1 y0 y1 v -> is_rect_integral f x0 x1 y0 y1 v' -> v = v'.
Proof.
  intros [g [Hg H]] [g' [Hg' H']].
  rewrite <- (is_RInt_unique _ _ _ _ H), <- (is_RInt_unique _ _ _ _ H').
  apply RInt_ext. intros x _. rewrite <- (is_RInt_unique _ _ _ _ (Hg x)), <- (is_RInt_unique _ _ _ _ (Hg' x)). reflexivity.
Qed.

Lemma rect_ext f f' x0 x1 y0 y1 v :
  (forall x y, f x y = f' x y) -> is_rect_integral f x0 x1 y0 y1 v -> is_rect_integral f' x0 x1 y0 y1 v.
Proof.
  intros E [g [Hg H]]. exists g. split; auto. intros x. eapply is_RInt_ext; [|apply Hg]. intros; apply E.
Qed.

Lemma RInt_shift (f : R -> R) (a b s v : R) : is_RInt f (a - s) (b - s) v -> is_RInt (fun x => f (x - s)) a b v.
Proof.
  intros H. replace (a - s) with (1 * a + - s) in H by ring. replace (b - s) with (1 * b + - s) in H by ring.
  pose proof (is_RInt_comp_lin f 1 (- s) a b v H) as H'. eapply is_RInt_ext; [|exact H'].
  intros x _. unfold scal; simpl; unfold mult; simpl. rewrite Rmult_1_l. f_equal. ring.
Qed.

Lemma rect_shift f x0 x1 y0 y1 s r v :
  is_rect_integral f (x0 - s) (x1 - s) (y0 - r) (y1 - r) v ->
  is_rect_integral (fun x y => f (x - s) (y - r)) x0 x1 y0 y1 v.
Proof.
  intros [g [Hg H]]. exists (fun x => g (x - s)). split.
  - intros x. apply (RInt_shift (f (x - s))). apply Hg.
  - now apply RInt_shift.
Qed.

Lemma rect_scal f x0 x1 y0 y1 k v :
  is_rect_integral f x0 x1 y0 y1 v -> is_rect_integral (fun x y => k * f x y) x0 x1 y0 y1 (k * v).
Proof.
  intros [g [Hg H]]. exists (fun x => k * g x). split.
  - intros x. apply (is_RInt_scal (f x) y0 y1 k (g x)). apply Hg.
  - now apply (is_RInt_scal g x0 x1 k v).
Qed.

Lemma nondeg c d : c ^ 2 <> d ^ 2 -> c + d <> 0 /\ c - d <> 0.
Proof. intros H. split; intros E; apply H; nra. Qed.

Lemma abcd_total a b c d : c <> 0 -> c ^ 2 <> d ^ 2 -> integral_abcd a b c d = Ok (abcd c d a b).
Proof. intros Nc H. destruct (nondeg c d H). now apply integral_abcd_eq. Qed.

Lemma abcd_lu_total a0 a1 b0 b1 c d : c <> 0 -> c ^ 2 <> d ^ 2 ->
  integral_abcd_lu a0 a1 b0 b1 c d = Ok (abcd c d a1 b1 + abcd c d a0 b0 + - abcd c d a1 b0 + - abcd c d a0 b1).
Proof. intros Nc H. unfold integral_abcd_lu. rewrite !abcd_total by auto. reflexivity. Qed.

(** The closed form of one element of [compute_I_ux]. *)
Definition ux_value (m : rgpcm) (t1 t2 u1 u2 : R) : R :=
  let ga := r_gamma m - r_alpha m in
  r_alpha_t m ^ 2 * r_gamma_t m ^ 2 * exp (- r_gamma m * (u1 + u2) + ga * (t1 + t2))
  * (abcd ga (r_lam m) (u2 - t1) (u1 - t2) + abcd ga (r_lam m) (- t1) (- t2)
     + - abcd ga (r_lam m) (u2 - t1) (- t2) + - abcd ga (r_lam m) (- t1) (u1 - t2)).

(** The integrand in the words of the property. *)
Definition ux_integrand (m : rgpcm) (t1 t2 u1 u2 x y : R) : R :=
  r_alpha_t m ^ 2 * r_gamma_t m ^ 2
  * exp (- r_alpha m * (x + y) - r_gamma m * (u2 - x) - r_gamma m * (u1 - y))
  * exp (- r_lam m * Rabs ((t1 - x) - (t2 - y))).

Section Ux.
Context (m : rgpcm).
Hypothesis (Hga : r_gamma m <> r_alpha m) (Hl : (r_gamma m - r_alpha m) ^ 2 <> r_lam m ^ 2).

Lemma ux_elem t1 t2 u1 u2 : I_ux_elem m t1 t2 u1 u2 = Ok (ux_value m t1 t2 u1 u2).
Proof. unfold I_ux_elem. rewrite abcd_lu_total by (auto; lra). reflexivity. Qed.

Lemma ux_spec t1 t2 u1 u2 : is_rect_integral (ux_integrand m t1 t2 u1 u2) 0 u2 0 u1 (ux_value m t1 t2 u1 u2).
Proof.
  destruct (nondeg _ _ Hl) as [Np Nm].
  pose proof (abcd_lu_spec (r_gamma m - r_alpha m) (r_lam m) ltac:(lra) Np Nm (0 - t1) (u2 - t1) (0 - t2) (u1 - t2)) as H.
  apply rect_shift in H.
  apply (rect_scal _ _ _ _ _ (r_alpha_t m ^ 2 * r_gamma_t m ^ 2 * exp (- r_gamma m * (u1 + u2) + (r_gamma m - r_alpha m) * (t1 + t2)))) in H.
  rewrite !Rminus_0_l in H.
  eapply rect_ext; [|exact H]. intros x y. cbv beta. unfold ux_integrand, kxy.
  rewrite !Rmult_assoc. f_equal. f_equal. rewrite <- !exp_plus. f_equal.
  replace (t1 - x - (t2 - y)) with (- (x - t1 - (y - t2))) by ring. rewrite Rabs_Ropp. ring.
Qed.

Lemma ux_stationary t1 t2 s1 s2 u1 u2 : t1 - t2 = s1 - s2 -> ux_value m t1 t2 u1 u2 = ux_value m s1 s2 u1 u2.
Proof.
  intros E. eapply rect_unique; [apply ux_spec|]. eapply rect_ext; [|apply ux_spec].
  intros x y. unfold ux_integrand. f_equal. f_equal. f_equal. f_equal. lra.
Qed.

Lemma ux_swap t1 t2 u1 u2 : ux_value m t1 t2 u1 u2 = ux_value m t2 t1 u2 u1.
Proof.
  assert (Nc : r_gamma m - r_alpha m <> 0) by lra. destruct (nondeg _ _ Hl) as [Np Nm]. unfold ux_value.
  rewrite (abcd_sym _ _ Nc Np Nm (u1 - t2) (u2 - t1)), (abcd_sym _ _ Nc Np Nm (- t2) (- t1)), (abcd_sym _ _ Nc Np Nm (u1 - t2) (- t1)), (abcd_sym _ _ Nc Np Nm (- t2) (u2 - t1)).
  rewrite (Rplus_comm u2 u1), (Rplus_comm t2 t1). ring.
Qed.

End Ux.
