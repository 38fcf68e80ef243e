(** The integral [compute_I_uz] of rgpcm.py. *)
From Coq Require Import Reals ZArith List Bool Lia Lra Psatz Permutation Sorted.
From Coquelicot Require Import Coquelicot.
From Verif Require Import Py ListFacts ExpPolyModel ExpPolyIntModel ExpPolyIntProofs GpcmModel GpcmSpec Gauss Gauss2 GpcmPsd.
From Verif Require Import Glue RgpcmModel RgpcmSpec RgpcmPerm RgpcmHz.
Import ListNotations.
Local Open Scope R_scope.

Section Uz.
Context (m : rgpcm).
Hypothesis (Hag : r_gamma m <> r_alpha m) (Hab : r_a m < r_b m) (HM : (0 <= r_m_max m)%Z).
Let ag := r_alpha m - r_gamma m.
Let a := r_a m.
Let b := r_b m.
Let M := r_m_max m.

Definition wcos (w t u : R) : R :=
  (ag * cos (w * (t - a)) + w * sin (w * (t - a)) - exp (- ag * u) * (ag * cos (w * (t - u - a)) + w * sin (w * (t - u - a)))) / (ag ^ 2 + w ^ 2).
Definition wsin (w t u : R) : R :=
  (ag * sin (w * (t - a)) - w * cos (w * (t - a)) - exp (- ag * u) * (ag * sin (w * (t - u - a)) - w * cos (w * (t - u - a)))) / (ag ^ 2 + w ^ 2).

Lemma ag_pos w : 0 < ag ^ 2 + w ^ 2.
Proof.
  pose proof (pow2_ge_0 w). assert (0 < ag ^ 2); [|lra]. assert (ag <> 0) by (unfold ag; lra).
  replace (ag ^ 2) with (ag * ag) by ring. nra.
Qed.

Lemma wcos_int w t u : is_RInt (fun tau => exp (- ag * tau) * cos (w * (t - tau - a))) 0 u (wcos w t u).
Proof.
  pose proof (ag_pos w) as D.
  replace (wcos w t u)
    with (- exp (- ag * u) * (ag * cos (w * (t - u - a)) + w * sin (w * (t - u - a))) / (ag ^ 2 + w ^ 2)
          - (- exp (- ag * 0) * (ag * cos (w * (t - 0 - a)) + w * sin (w * (t - 0 - a))) / (ag ^ 2 + w ^ 2))).
  - apply (is_RInt_ftc (fun tau => - exp (- ag * tau) * (ag * cos (w * (t - tau - a)) + w * sin (w * (t - tau - a))) / (ag ^ 2 + w ^ 2))).
    + intros x. auto_derive; auto. unfold Rminus. field. lra.
    + intros x. apply (ex_derive_continuous (fun tau => exp (- ag * tau) * cos (w * (t - tau - a))) x). auto_derive; auto.
  - unfold wcos. rewrite Rminus_0_r, Rmult_0_r, exp_0. field. lra.
Qed.

Lemma wsin_int w t u : is_RInt (fun tau => exp (- ag * tau) * sin (w * (t - tau - a))) 0 u (wsin w t u).
Proof.
  pose proof (ag_pos w) as D.
  replace (wsin w t u)
    with (- exp (- ag * u) * (ag * sin (w * (t - u - a)) - w * cos (w * (t - u - a))) / (ag ^ 2 + w ^ 2)
          - (- exp (- ag * 0) * (ag * sin (w * (t - 0 - a)) - w * cos (w * (t - 0 - a))) / (ag ^ 2 + w ^ 2))).
  - apply (is_RInt_ftc (fun tau => - exp (- ag * tau) * (ag * sin (w * (t - tau - a)) - w * cos (w * (t - tau - a))) / (ag ^ 2 + w ^ 2))).
    + intros x. auto_derive; auto. unfold Rminus. field. lra.
    + intros x. apply (ex_derive_continuous (fun tau => exp (- ag * tau) * sin (w * (t - tau - a))) x). auto_derive; auto.
  - unfold wsin. rewrite Rminus_0_r, Rmult_0_r, exp_0. field. lra.
Qed.

Definition uz (t u : R) (k : Z) : R :=
  r_alpha_t m * r_gamma_t m * exp (- r_gamma m * u)
  * (if (k <=? M)%Z then wcos (om m k) t u else wsin (om m (k - M)) t u).

Lemma lu0_ok t u : integral_lu0 m (t - u) t = Ok (wcos (om m 0) t u).
Proof.
  unfold integral_lu0. fold ag. rewrite rdiv_ok by (unfold ag; lra). cbn [bind]. f_equal. unfold wcos, om.
  replace (2 * PI * 0 / (r_b m - r_a m)) with 0 by (field; lra). rewrite !Rmult_0_l, !cos_0.
  replace (ag * (t - u - t)) with (- ag * u) by ring. field. unfold ag. lra.
Qed.

Lemma leq_ok t u k : integral_luk_leq_M m (t - u) t k = Ok (wcos (om m k) t u).
Proof.
  unfold integral_luk_leq_M. fold ag. rewrite rdiv_ok by lra. cbn [bind]. fold (om m k).
  pose proof (ag_pos (om m k)). rewrite rdiv_ok by lra. cbn [bind]. f_equal. unfold wcos.
  replace (ag * (t - u - t)) with (- ag * u) by ring. fold a. field. lra.
Qed.

Lemma g_ok t u k : integral_luk_g_M m (t - u) t k = Ok (wsin (om m (k - M)) t u).
Proof.
  unfold integral_luk_g_M. fold ag. rewrite rdiv_ok by lra. cbn [bind]. fold M. fold (om m (k - M)).
  pose proof (ag_pos (om m (k - M))). rewrite rdiv_ok by lra. cbn [bind]. f_equal. unfold wsin.
  replace (ag * (t - u - t)) with (- ag * u) by ring. fold a. field. lra.
Qed.

Section Sorted.
Context (argsort : list Z -> list nat) (Ha : argsorts argsort).
Hypothesis (Hpos : List.Forall (fun k => (0 <= k)%Z) (r_ms m)).

Lemma uz_at_value t u : I_uz_at argsort m t u = Ok (map (uz t u) (r_ms m)).
Proof.
  unfold I_uz_at. destruct (invert_argsort argsort Ha (r_ms m)) as [inv Ei]. rewrite Ei. cbn [bind].
  rewrite (take_sorted argsort Ha). cbn [bind]. cbv zeta. fold M.
  pose proof (sorted_sorted argsort Ha (r_ms m)) as S. pose proof (sorted_perm argsort Ha (r_ms m)) as Pm.
  set (ms := sorted argsort (r_ms m)) in *.
  assert (P : forall k, In k ms -> (0 <= k)%Z).
  { intros k Hk. rewrite List.Forall_forall in Hpos. apply Hpos. eapply Permutation_in; eauto. }
  set (h := fun k => if (k <=? M)%Z then wcos (om m k) t u else wsin (om m (k - M)) t u).
  rewrite (mapM_ext_In _ h).
  2:{ intros k Hk. apply filter_In in Hk. destruct Hk as [_ Hk]. apply Z.eqb_eq in Hk. subst k. rewrite lu0_ok. cbn [bind].
      unfold h. assert ((0 <=? M)%Z = true) as -> by (apply Z.leb_le; auto). f_equal. ring. }
  cbn [bind]. rewrite (mapM_ext_In _ h).
  2:{ intros k Hk. apply filter_In in Hk. destruct Hk as [_ Hk]. apply andb_true_iff in Hk. destruct Hk as [_ Hk].
      rewrite leq_ok. unfold h. now rewrite Hk. }
  cbn [bind]. rewrite (mapM_ext_In _ h).
  2:{ intros k Hk. apply filter_In in Hk. destruct Hk as [_ Hk]. rewrite Z.gtb_ltb in Hk. apply Z.ltb_lt in Hk.
      rewrite g_ok. unfold h. now assert ((k <=? M)%Z = false) as -> by (apply Z.leb_gt; lia). }
  cbn [bind]. rewrite <- !map_app.
  assert (E : (filter (fun k => (k =? 0)%Z) ms ++ filter (fun k => ((0 <? k) && (k <=? M))%Z) ms ++ filter (fun k => (k >? M)%Z) ms)%list = ms).
  { assert (E1 : ms = (filter (fun k => (k =? 0)%Z) ms ++ filter (fun k => (0 <? k)%Z) ms)%list).
    { apply split_sorted; auto.
      - intros x Hx. specialize (P x Hx). destruct (Z.eqb_spec x 0), (Z.ltb_spec 0 x); simpl; auto; lia.
      - intros x y Hx Hy Hxy. specialize (P x Hx). rewrite !Z.eqb_eq. lia. }
    set (p := filter (fun k => (0 <? k)%Z) ms) in *.
    assert (Sp : StronglySorted Z.le p).
    { unfold p. clear -S. induction S as [|x l S IH F]; simpl; [constructor|]. destruct (0 <? x)%Z; auto. constructor; auto.
      rewrite List.Forall_forall in *. intros y Hy. apply filter_In in Hy. apply F, Hy. }
    assert (E2 : p = (filter (fun k => (k <=? M)%Z) p ++ filter (fun k => (k >? M)%Z) p)%list).
    { apply split_sorted; auto.
      - intros x _. rewrite Z.gtb_ltb, Z.leb_antisym. now rewrite negb_involutive.
      - intros x y _ _ Hxy. rewrite !Z.leb_le. lia. }
    assert (F : forall f g : Z -> bool, filter f (filter g ms) = filter (fun k => g k && f k) ms).
    { intros f g. clear. induction ms as [|x l IH]; simpl; auto. destruct (g x) eqn:E; simpl; [destruct (f x)|]; rewrite IH; auto. }
    rewrite E1 at 4. f_equal. rewrite E2. unfold p. rewrite !F. f_equal. apply filter_ext_in. intros k Hk. specialize (P k Hk).
    rewrite Z.gtb_ltb. destruct (Z.ltb_spec M k); simpl; [|now rewrite andb_false_r]. rewrite andb_true_r. symmetry. apply Z.ltb_lt. unfold M in *. lia. }
  rewrite E. unfold ms. rewrite (take_inverse argsort Ha h (r_ms m) inv Ei). cbn [bind]. rewrite map_map. reflexivity.
Qed.

End Sorted.

(** The integrand of I_uz. *)
Definition uz_integrand (t u : R) (k : Z) (tau : R) : R :=
  r_alpha_t m * r_gamma_t m * exp (- r_alpha m * tau - r_gamma m * (u - tau)) * beta m k (t - tau).

Lemma between a0 b0 x : Rmin a0 b0 < x < Rmax a0 b0 -> a0 < x < b0 \/ b0 < x < a0.
Proof. unfold Rmin, Rmax. destruct (Rle_dec a0 b0); lra. Qed.

Lemma uz_integral t u k : a <= t <= b -> a <= t - u <= b -> is_RInt (uz_integrand t u k) 0 u (uz t u k).
Proof.
  intros Ht Hu.
  assert (K : forall g v, is_RInt (fun tau => exp (- ag * tau) * g (t - tau)) 0 u v ->
              (forall x, a < x < b -> beta m k x = g x) ->
              is_RInt (uz_integrand t u k) 0 u (r_alpha_t m * r_gamma_t m * exp (- r_gamma m * u) * v)).
  { intros g v I E. eapply is_RInt_ext; [|apply (is_RInt_scal _ 0 u (r_alpha_t m * r_gamma_t m * exp (- r_gamma m * u)) v I)].
    intros x Hx. apply between in Hx. unfold scal; simpl; unfold mult; simpl. unfold uz_integrand.
    rewrite <- E by (unfold a, b in *; lra). rewrite !Rmult_assoc. f_equal. f_equal. rewrite <- !Rmult_assoc. f_equal.
    rewrite <- exp_plus. f_equal. unfold ag. ring. }
  unfold uz. destruct (k <=? M)%Z eqn:Ck;
    [apply (K (fun x => cos (om m k * (x - a))))|apply (K (fun x => sin (om m (k - M) * (x - a))))].
  - apply (wcos_int (om m k) t u).
  - intros x Hx. cbv beta. rewrite beta_inside by auto. unfold cosine. fold M. now rewrite Ck.
  - apply (wsin_int (om m (k - M)) t u).
  - intros x Hx. cbv beta. rewrite beta_inside by auto. unfold cosine. fold M. now rewrite Ck.
Qed.

(** Before the support: the first feature is smaller than one there. *)
Lemma uz_before t u : 0 < r_lam m -> 0 < r_alpha_t m * r_gamma_t m -> t - u < a -> a <= t <= b ->
  exists v, is_RInt (uz_integrand t u 0) 0 u v /\ v < uz t u 0.
Proof.
  intros Hl Hp Hu Ht. set (s := t - a). set (kk := r_alpha_t m * r_gamma_t m).
  assert (C0 : (0 <=? M)%Z = true) by (apply Z.leb_le; auto).
  set (h := fun tau => kk * exp (- r_alpha m * tau - r_gamma m * (u - tau))).
  set (g := fun tau => h tau * exp (- r_lam m * (a - (t - tau)))).
  assert (Ch : forall x : R, continuous h x).
  { intros x. apply (ex_derive_continuous h x). unfold h. auto_derive; auto. }
  assert (Cg : forall x : R, continuous g x).
  { intros x. apply (ex_derive_continuous g x). unfold g, h. auto_derive; auto. }
  assert (Eh : forall x y, ex_RInt h x y) by (intros; apply (@ex_RInt_continuous R_CompleteNormedModule); intros; auto).
  assert (Eg : forall x y, ex_RInt g x y) by (intros; apply (@ex_RInt_continuous R_CompleteNormedModule); intros; auto).
  assert (I1 : is_RInt (uz_integrand t u 0) 0 s (RInt h 0 s)).
  { eapply is_RInt_ext; [|apply (@RInt_correct R_CompleteNormedModule h 0 s), Eh].
    intros x Hx. rewrite Rmin_left, Rmax_right in Hx by (unfold s; lra). unfold uz_integrand, h.
    rewrite beta_inside by (unfold s, a, b in *; lra). unfold cosine. fold M. rewrite C0.
    unfold om. replace (2 * PI * 0 / (r_b m - r_a m)) with 0 by (field; lra). rewrite Rmult_0_l, cos_0. unfold kk. match goal with |- ?x = ?y => change (@eq R x y) end. ring. }
  assert (I2 : is_RInt (uz_integrand t u 0) s u (RInt g s u)).
  { eapply is_RInt_ext; [|apply (@RInt_correct R_CompleteNormedModule g s u), Eg].
    intros x Hx. rewrite Rmin_left, Rmax_right in Hx by (unfold s; lra). unfold uz_integrand, g, h.
    rewrite beta_below by (unfold s, a in *; lra). unfold cosine. fold M. rewrite C0. reflexivity. }
  exists (RInt h 0 s + RInt g s u). split; [apply (is_RInt_Chasles (uz_integrand t u 0) 0 s u _ _ I1 I2)|].
  assert (Iu : uz t u 0 = RInt h 0 u).
  { symmetry. apply is_RInt_unique. unfold uz. rewrite C0.
    eapply is_RInt_ext; [|apply (is_RInt_scal _ 0 u (r_alpha_t m * r_gamma_t m * exp (- r_gamma m * u)) _ (wcos_int (om m 0) t u))].
    intros x _. unfold scal; simpl; unfold mult; simpl. unfold om. replace (2 * PI * 0 / (r_b m - r_a m)) with 0 by (field; lra).
    rewrite Rmult_0_l, cos_0. unfold h, kk. rewrite !Rmult_assoc. f_equal. f_equal. rewrite Rmult_1_r, <- exp_plus. f_equal. unfold ag. ring. }
  rewrite Iu. rewrite <- (RInt_Chasles h 0 s u (Eh _ _) (Eh _ _)). unfold plus; simpl.
  assert (G : 0 < RInt (fun x => h x - g x) s u).
  { apply RInt_gt_0; [unfold s; lra| |].
    - intros x Hx. unfold g. assert (exp (- r_lam m * (a - (t - x))) < 1).
      { rewrite <- exp_0. apply exp_increasing. unfold s in *. nra. }
      assert (0 < h x) by (unfold h; apply Rmult_lt_0_compat; [auto|apply exp_pos]). nra.
    - intros x _. apply (continuous_minus h g); auto. }
  assert (D : RInt (fun x => h x - g x) s u = RInt h s u - RInt g s u).
  { apply (RInt_minus (V := R_CompleteNormedModule) h g s u); auto. }
  lra.
Qed.

End Uz.
