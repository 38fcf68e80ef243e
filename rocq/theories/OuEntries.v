(** The matrices of the RGPCM at one time of its support. *)
From Coq Require Import Reals ZArith List Bool Lia Lra Psatz.
From Coquelicot Require Import Coquelicot.
From Verif Require Import Py ListFacts ExpPolyModel ExpPolyIntModel ExpPolyIntProofs GpcmModel GpcmSpec Gauss Gauss2 GaussFeat GpcmEntries GpcmPsd GpcmInit.
From Verif Require Import Glue RgpcmModel RgpcmSpec RgpcmPerm RgpcmHz RgpcmUx RgpcmCov RgpcmInit RgpcmProps RgpcmProps2 RgpcmRkhs OuFeat OuWell.
Import ListNotations.
Local Open Scope R_scope.

Section Entries.
Context (argsort : list Z -> list nat) (Has : argsorts argsort) (m : rgpcm).
Hypothesis (Pa : 0 < r_alpha m) (Pg : 0 < r_gamma m) (Pl : 0 < r_lam m).
Hypothesis (Nga : r_gamma m <> r_alpha m) (Nl : (r_gamma m - r_alpha m) ^ 2 <> r_lam m ^ 2).
Hypothesis (Pu : forall u, In u (r_t_u m) -> 0 <= u).
Hypothesis (Hab : r_a m < r_b m) (HM : (0 <= r_m_max m)%Z) (ND : NoDup (r_ms m)) (Hp : List.Forall (fun k => (0 <= k)%Z) (r_ms m)).
Let nu := List.length (r_t_u m).
Let nz := List.length (r_ms m).
Let tu (i : nat) : R := nth i (r_t_u m) 0.
Let ks (i : nat) : Z := nth i (r_ms m) 0%Z.

Lemma tu_get i : (i < nu)%nat -> nth_error (r_t_u m) i = Some (tu i).
Proof. apply nth_error_nth'. Qed.
Lemma ks_get i : (i < nz)%nat -> nth_error (r_ms m) i = Some (ks i).
Proof. apply nth_error_nth'. Qed.
Lemma ks_pos i : (0 <= ks i)%Z.
Proof.
  unfold ks. destruct (le_lt_dec (List.length (r_ms m)) i) as [H|H]; [now rewrite nth_overflow|].
  rewrite List.Forall_forall in Hp. apply Hp. now apply nth_In.
Qed.

Definition psi2 (k : Z) (x : R) : R := - om m (harm m k) ^ 2 * psi m k x.
Lemma psi'_derive k x : is_derive (psi' m k) x (psi2 k x).
Proof.
  unfold psi', psi2, psi. destruct (k <=? r_m_max m)%Z; auto_derive; auto; unfold Rminus; ring.
Qed.
Lemma psi_cont k x : continuous (psi m k) x.
Proof. apply (@ex_derive_continuous R_AbsRing R_NormedModule). eexists. apply psi_derive. Qed.
Lemma psi'_cont k x : continuous (psi' m k) x.
Proof. apply (@ex_derive_continuous R_AbsRing R_NormedModule). eexists. apply psi'_derive. Qed.
Lemma psi2_cont k x : continuous (psi2 k) x.
Proof. unfold psi2. apply (scal_cont _ (psi m k)), psi_cont. Qed.

Lemma beta_out k x : (0 <= k)%Z -> x <= r_a m -> beta m k x = exp (- r_lam m * (r_a m - x)) * psi m k (r_a m).
Proof.
  intros Hk Hx. rewrite (proj1 (psi_ends m Hab k Hk)). unfold beta. destruct (Rle_dec x (r_a m)); [|lra].
  unfold K_z_beta, cast_bool. rewrite sqrt_1. destruct (k <=? r_m_max m)%Z; field.
Qed.

(** The Gram matrix by its one-sided form. *)
Lemma gram_entry K i j : rcompute_K_z m = Ok K -> (i < nz)%nat -> (j < nz)%nat ->
  gram (r_lam m) (r_a m) (r_b m) (fun i => psi m (ks i)) (fun i => psi' m (ks i)) i j = get2 K i j.
Proof.
  intros HK Hi Hj. pose proof (ks_pos i) as Pi. pose proof (ks_pos j) as Pj.
  assert (Ek := at2_get2 _ _ _ _ (K_z_entry m Pl Hab K i j _ _ HK (ks_get i Hi) (ks_get j Hj))). rewrite Ek.
  assert (E : energy m (ks i) (ks j) = if Nat.eqb i j then (r_b m - r_a m) / 2 * (r_lam m ^ 2 + om m (harm m (ks i)) ^ 2) * (if (ks i =? 0)%Z then 2 else 1) else 0).
  { unfold energy. destruct (Nat.eqb_spec i j) as [<-|Nij]; [now rewrite Z.eqb_refl|].
    destruct (Z.eqb_spec (ks i) (ks j)) as [Eq|_]; [|reflexivity]. exfalso. apply Nij.
    rewrite NoDup_nth_error in ND. apply ND; [exact Hi|]. rewrite ks_get, ks_get by auto. now f_equal. }
  unfold gram. rewrite (proj1 (psi_ends m Hab _ Pi)), (proj1 (psi_ends m Hab _ Pj)).
  assert (I : is_RInt (fun x => (psi' m (ks i) x + r_lam m * psi m (ks i) x) * (psi' m (ks j) x + r_lam m * psi m (ks j) x) / (2 * r_lam m)) (r_a m) (r_b m)
     (/ (2 * r_lam m) * energy m (ks i) (ks j) + / 2 * (psi m (ks i) (r_b m) * psi m (ks j) (r_b m) - psi m (ks i) (r_a m) * psi m (ks j) (r_a m)))).
  { apply (is_RInt_ext (fun x => / (2 * r_lam m) * (psi' m (ks i) x * psi' m (ks j) x + r_lam m ^ 2 * psi m (ks i) x * psi m (ks j) x)
        + / 2 * (psi' m (ks i) x * psi m (ks j) x + psi m (ks i) x * psi' m (ks j) x))).
    { intros x _. change (@eq R (/ (2 * r_lam m) * (psi' m (ks i) x * psi' m (ks j) x + r_lam m ^ 2 * psi m (ks i) x * psi m (ks j) x)
        + / 2 * (psi' m (ks i) x * psi m (ks j) x + psi m (ks i) x * psi' m (ks j) x)) ((psi' m (ks i) x + r_lam m * psi m (ks i) x) * (psi' m (ks j) x + r_lam m * psi m (ks j) x) / (2 * r_lam m))).
      field. lra. }
    apply lin2; [apply int_features; auto|].
    apply (@is_RInt_derive R_CompleteNormedModule (fun x => psi m (ks i) x * psi m (ks j) x)).
    - intros x _. pose proof (psi_derive m (ks i) x) as D1. pose proof (psi_derive m (ks j) x) as D2.
      pose proof (@is_derive_mult R_AbsRing (psi m (ks i)) (psi m (ks j)) x _ _ D1 D2 Rmult_comm) as D. exact D.
    - intros x _. apply plus_cont; apply mult_cont; first [apply psi_cont|apply psi'_cont]. }
  rewrite (is_RInt_unique _ _ _ _ I), E.
  rewrite (proj1 (psi_ends m Hab _ Pi)), (proj1 (psi_ends m Hab _ Pj)), (proj2 (psi_ends m Hab _ Pi)), (proj2 (psi_ends m Hab _ Pj)).
  destruct (Nat.eqb i j); field; lra.
Qed.

Lemma Kz_sym K i j : rcompute_K_z m = Ok K -> (i < nz)%nat -> (j < nz)%nat -> get2 K i j = get2 K j i.
Proof.
  intros HK Hi Hj. rewrite <- !(gram_entry K) by auto. unfold gram. f_equal; [|ring]. apply RInt_ext. intros x _.
  match goal with |- @eq _ ?x ?y => change (@eq R x y) end. f_equal. ring.
Qed.

Context (ts : list R) (Ku Kz ux : list (list R)) (hx : list R) (hz uz : list (list (list R))).
Hypothesis HKu : rcompute_K_u m = Ok Ku.
Hypothesis HKz : rcompute_K_z m = Ok Kz.
Hypothesis Hhx : mapM (fun s => rcompute_i_hx m (Some s) (Some s)) ts = Ok hx.
Hypothesis Hux : rcompute_I_ux m = Ok ux.
Hypothesis Hhz : rcompute_I_hz argsort m ts = Ok hz.
Hypothesis Huz : rcompute_I_uz argsort m ts = Ok uz.

Lemma Ku_KK i j : (i < nu)%nat -> (j < nu)%nat -> get2 Ku i j = KK (r_gamma m) (r_gamma_t m) tu i j.
Proof.
  intros Hi Hj. unfold rcompute_K_u in HKu. rewrite rdiv_ok in HKu by lra. cbn [bind] in HKu. injection HKu as E.
  apply at2_get2. rewrite <- E, table_at2g, (tu_get i Hi), (tu_get j Hj). unfold KK. reflexivity.
Qed.
Lemma hx_value n : (n < List.length ts)%nat -> nth n hx 0 = r_alpha_t m ^ 2 / 2 / r_alpha m.
Proof.
  intros Hn. rewrite (mapM_ext_In _ (fun _ => r_alpha_t m ^ 2 / 2 / r_alpha m)) in Hhx.
  - injection Hhx as <-. set (l := map _ ts). assert (H : In (nth n l 0) l) by (apply nth_In; unfold l; now rewrite map_length).
    apply in_map_iff in H. destruct H as [? [<- _]]. reflexivity.
  - intros s _. unfold rcompute_i_hx. rewrite rdiv_ok by lra. cbn [bind]. f_equal.
    replace (s - s) with 0 by ring. rewrite Rabs_R0, Rmult_0_r, exp_0. ring.
Qed.
Lemma ux_get i j : (i < nu)%nat -> (j < nu)%nat -> get2 ux i j = ux_value m 0 0 (tu i) (tu j).
Proof.
  intros Hi Hj. unfold rcompute_I_ux in Hux.
  assert (E : rcompute_I_ux4 m None None = Ok [[map (fun u1 => map (ux_value m 0 0 u1) (r_t_u m)) (r_t_u m)]]).
  { unfold rcompute_I_ux4. cbn [mapM]. rewrite (mapM_ext_In _ (fun u1 => map (ux_value m 0 0 u1) (r_t_u m))); [reflexivity|].
    intros u1 _. apply mapM_ext_In. intros u2 _. now apply ux_elem. }
  rewrite E in Hux. cbn [bind] in Hux. injection Hux as <-.
  apply at2_get2. now rewrite (table_at2g (ux_value m 0 0)), (tu_get i Hi), (tu_get j Hj).
Qed.
Lemma ux_sym i j : (i < nu)%nat -> (j < nu)%nat -> get2 ux i j = get2 ux j i.
Proof. intros Hi Hj. rewrite !ux_get by auto. now apply ux_swap. Qed.

Section At.
Context (n : nat) (Hn : (n < List.length ts)%nat).
Let t := nth n ts 0.
Hypothesis Ht : t <= r_b m.
Hypothesis Hsup : forall u, In u (r_t_u m) -> r_a m <= t - u.
Hypothesis Hta : r_a m <= t.

Lemma tu_range i : (i < nu)%nat -> 0 <= tu i <= t - r_a m.
Proof.
  intros Hi. assert (H : In (tu i) (r_t_u m)) by now apply nth_In. pose proof (Pu _ H). pose proof (Hsup _ H). lra.
Qed.
Lemma t_get : nth_error ts n = Some t.
Proof. now apply nth_error_nth'. Qed.

Lemma ux_rect i j : (i < nu)%nat -> (j < nu)%nat ->
  is_rect_integral (fun x y => qq (r_alpha m) (r_alpha_t m) (r_gamma m) (r_gamma_t m) tu i x * qq (r_alpha m) (r_alpha_t m) (r_gamma m) (r_gamma_t m) tu j y
     * exp (- r_lam m * Rabs ((t - x) - (t - y)))) 0 (tu i) 0 (tu j) (get2 ux i j).
Proof.
  intros Hi Hj. rewrite ux_get by auto. rewrite (ux_stationary m Nga Nl 0 0 t t) by ring. rewrite ux_swap by auto.
  eapply rect_ext; [|apply ux_spec; auto]. intros x y. cbv beta. unfold ux_integrand, qq. f_equal.
  replace (- r_alpha m * (x + y) - r_gamma m * (tu i - x) - r_gamma m * (tu j - y))
    with ((- r_alpha m * x - r_gamma m * (tu i - x)) + (- r_alpha m * y - r_gamma m * (tu j - y))) by ring.
  rewrite exp_plus. ring.
Qed.
Lemma uz_int i k : (i < nu)%nat -> (k < nz)%nat ->
  is_RInt (fun x => qq (r_alpha m) (r_alpha_t m) (r_gamma m) (r_gamma_t m) tu i x * beta m (ks k) (t - x)) 0 (tu i) (get3 uz n i k).
Proof.
  intros Hi Hk. destruct (C32_I_uz argsort m ts Has Nga Hab HM Hp) as [T [HT [_ I]]].
  rewrite Huz in HT. injection HT as <-. pose proof (tu_range i Hi).
  destruct (I n i k t (tu i) (ks k) t_get (tu_get i Hi) (ks_get k Hk)) as [v [Ev Iv]]; [lra|lra|].
  rewrite (at3_get3 _ _ _ _ _ Ev). exact Iv.
Qed.
Lemma hz_int k l : (k < nz)%nat -> (l < nz)%nat ->
  is_integral (fun x => r_alpha_t m ^ 2 * exp (-2 * r_alpha m * (t - x)) * beta m (ks k) x * beta m (ks l) x) m_infty t (get3 hz n k l).
Proof.
  intros Hk Hk'. destruct (C30_I_hz argsort m ts Has Pa Pl Hab HM Hp) as [T [HT [_ [_ I]]]].
  rewrite Hhz in HT. injection HT as <-.
  destruct (I n k l t (ks k) (ks l) t_get (ks_get k Hk) (ks_get l Hk')) as [v [Ev Iv]]; [lra|].
  rewrite (at3_get3 _ _ _ _ _ Ev). exact Iv.
Qed.
Lemma hz_sym k l : (k < nz)%nat -> (l < nz)%nat -> get3 hz n k l = get3 hz n l k.
Proof.
  intros Hk Hk'. eapply is_integral_unique; [now apply hz_int|]. apply (is_integral_ext (fun x => r_alpha_t m ^ 2 * exp (-2 * r_alpha m * (t - x)) * beta m (ks l) x * beta m (ks k) x)); [intros x; ring|now apply hz_int].
Qed.

Notation al := (r_alpha m). Notation alt := (r_alpha_t m). Notation ga := (r_gamma m). Notation gat := (r_gamma_t m).

Lemma be_in (k : nat) (x : R) : (k < nz)%nat -> r_a m <= x <= r_b m -> beta m (ks k) x = psi m (ks k) x.
Proof. intros _ Hx. apply beta_psi; auto. apply ks_pos. Qed.
Lemma be_out (k : nat) (x : R) : (k < nz)%nat -> x <= r_a m -> beta m (ks k) x = exp (- r_lam m * (r_a m - x)) * psi m (ks k) (r_a m).
Proof. intros _ Hx. apply beta_out; auto. apply ks_pos. Qed.

Lemma facts_joint2 (x w : nat -> R) :
  0 <= Sum nz (fun k => Sum nz (fun k' => w k * w k' * get3 hz n k k'))
       + 2 * Sum nu (fun i => x i * Sum nz (fun k => w k * get3 uz n i k))
       + Sum nu (fun i => Sum nu (fun j => x i * x j * get2 Ku i j)).
Proof.
  rewrite (Sum_ext nu (fun i => Sum nu (fun j => x i * x j * get2 Ku i j)) (fun i => Sum nu (fun j => x i * x j * KK ga gat tu i j)))
    by (intros; apply Sum_ext; intros; now rewrite Ku_KK).
  exact (hz_joint al alt ga gat (r_a m) (r_b m) t Pg (conj Hta Ht) nu nz tu tu_range (fun k => psi m (ks k)) (fun k => psi' m (ks k))
    (fun k => psi_derive m (ks k)) (fun k => beta m (ks k)) be_in (get3 uz n) (get3 hz n) uz_int hz_int x w).
Qed.

Context (Wz : nat -> nat -> R).
Hypothesis Wzs : forall i j, (i < nz)%nat -> (j < nz)%nat -> Wz i j = Wz j i.
Hypothesis HWz : forall i j, (i < nz)%nat -> (j < nz)%nat -> Sum nz (fun k => Sum nz (fun k' => Wz k i * get2 Kz k k' * Wz k' j)) = Wz i j.
Lemma Wz_gram i j : (i < nz)%nat -> (j < nz)%nat -> Sum nz (fun k => Sum nz (fun k' => Wz k i
   * gram (r_lam m) (r_a m) (r_b m) (fun k => psi m (ks k)) (fun k => psi' m (ks k)) k k' * Wz k' j)) = Wz i j.
Proof.
  intros Hi Hj. rewrite <- (HWz i j Hi Hj). apply Sum_ext. intros k Hk. apply Sum_ext. intros k' Hk'. now rewrite (gram_entry Kz).
Qed.

Lemma facts_schur (x : nat -> R) :
  0 <= Sum nu (fun i => Sum nu (fun j => x i * x j * (get2 ux i j - Sum nz (fun k => Sum nz (fun l => Wz k l * (get3 uz n i k * get3 uz n j l)))))).
Proof.
  exact (ux_schur al alt ga gat (r_lam m) (r_a m) (r_b m) t Pa Pg Pl Hab (conj Hta Ht) nu nz tu tu_range
    (fun k => psi m (ks k)) (fun k => psi' m (ks k)) (fun k => psi2 (ks k)) (fun k => psi_derive m (ks k)) (fun k => psi'_derive (ks k)) (fun k => psi2_cont (ks k))
    (fun k => beta m (ks k)) be_in (get2 ux) (get3 uz n) ux_rect uz_int Wz Wzs Wz_gram x).
Qed.

Lemma facts_residual (Wu : nat -> nat -> R) :
  (forall i j, (i < nu)%nat -> (j < nu)%nat -> Sum nu (fun k => Sum nu (fun k' => Wu k i * get2 Ku k k' * Wu k' j)) = Wu i j) ->
  0 <= nth n hx 0 - Sum nu (fun i => Sum nu (fun j => Wu i j * get2 ux i j))
       - Sum nz (fun k => Sum nz (fun k' => Wz k k' * get3 hz n k k'))
       + Sum nz (fun k => Sum nz (fun k' => Wz k k' *
           Sum nu (fun i => Sum nu (fun j => Wu i j * (get3 uz n i k * get3 uz n j k'))))).
Proof.
  intros HWu.
  assert (HWu' : forall i j, (i < nu)%nat -> (j < nu)%nat -> Sum nu (fun k => Sum nu (fun k' => Wu k i * KK ga gat tu k k' * Wu k' j)) = Wu i j).
  { intros i j Hi Hj. rewrite <- (HWu i j Hi Hj). apply Sum_ext. intros k Hk. apply Sum_ext. intros k' Hk'. now rewrite Ku_KK. }
  exact (rgpcm_residual al alt ga gat (r_lam m) (r_a m) (r_b m) t Pa Pg Pl Hab (conj Hta Ht) nu nz tu tu_range
    (fun k => psi m (ks k)) (fun k => psi' m (ks k)) (fun k => psi2 (ks k)) (fun k => psi_derive m (ks k)) (fun k => psi'_derive (ks k)) (fun k => psi2_cont (ks k))
    (fun k => beta m (ks k)) be_in be_out (nth n hx 0) (get2 ux) (get3 uz n) (get3 hz n) (hx_value n Hn) ux_rect uz_int hz_int Wz Wzs Wz_gram Wu HWu').
Qed.
End At.
End Entries.
