(** The integral [compute_I_hz] of rgpcm.py. *)
From Coq Require Import Reals ZArith List Bool Lia Lra Psatz Permutation Sorted.
From Coquelicot Require Import Coquelicot.
From Verif Require Import Py ListFacts ExpPolyModel ExpPolyIntModel ExpPolyIntProofs GpcmModel GpcmSpec Gauss Gauss2 GpcmPsd.
From Verif Require Import Glue RgpcmModel RgpcmSpec RgpcmPerm.
Import ListNotations.
Local Open Scope R_scope.

(** * Integration tools *)

Lemma is_integral_ext_below (f g : R -> R) (b v : R) :
  (forall x, x < b -> f x = g x) -> is_integral f m_infty b v -> is_integral g m_infty b v.
Proof.
  intros E. apply is_RInt_gen_ext.
  exists (fun x => x < b) (fun y => y = b).
  - exists b. auto.
  - reflexivity.
  - intros x y Hx ->. simpl. rewrite Rmin_left, Rmax_right by lra. intros z Hz. apply E. lra.
Qed.

Lemma exp_lim_m (k c : R) : 0 < k -> filterlim (fun x => exp (k * x + c)) (Rbar_locally m_infty) (locally 0).
Proof.
  intros Hk. apply (is_lim_comp_lin exp k c m_infty 0).
  - replace (Rbar_plus (Rbar_mult k m_infty) c) with m_infty; [apply is_lim_exp_m|].
    simpl. unfold Rbar_mult'. destruct (Rle_dec 0 k); [|lra]. destruct (Rle_lt_or_eq_dec 0 k r); [reflexivity|lra].
  - lra.
Qed.

(** [exp(k x + c)] below [b]. *)
Lemma exp_below (k c b : R) : 0 < k -> is_integral (fun x => exp (k * x + c)) m_infty b (exp (k * b + c) / k).
Proof.
  intros Hk. replace (exp (k * b + c) / k) with (exp (k * b + c) / k - 0) by ring.
  apply (is_integral_ftc (fun x => exp (k * x + c) / k)).
  - intros x. auto_derive; auto. field. lra.
  - intros x. apply (ex_derive_continuous (fun x => exp (k * x + c)) x). auto_derive; auto.
  - simpl lim_filter. replace 0 with (scal (/ k) 0) by (unfold scal; simpl; unfold mult; simpl; ring).
    apply (filterlim_ext (fun x => scal (/ k) (exp (k * x + c)))).
    + intros x. unfold scal; simpl; unfold mult; simpl. field. lra.
    + eapply filterlim_comp; [apply (exp_lim_m k c Hk)|]. apply (filterlim_scal_r (/ k) 0).
  - simpl lim_filter. apply (filterlim_at_point (fun x => exp (k * x + c) / k)).
Qed.

(** * Windowed trigonometric integrals *)

Section Trig.
Context (al : R) (Hal : 0 < al) (a : R).

Definition Icos (w t : R) : R :=
  (2 * al * (cos (w * (t - a)) - exp (-2 * al * (t - a))) + w * sin (w * (t - a))) / (4 * al ^ 2 + w ^ 2).
Definition Isin (w t : R) : R :=
  (w * (exp (-2 * al * (t - a)) - cos (w * (t - a))) + 2 * al * sin (w * (t - a))) / (4 * al ^ 2 + w ^ 2).

Lemma den_pos w : 0 < 4 * al ^ 2 + w ^ 2.
Proof. pose proof (pow2_ge_0 w). assert (0 < al ^ 2) by (apply pow_lt; auto). lra. Qed.

Lemma cos_int w t : is_RInt (fun tau => exp (-2 * al * (t - tau)) * cos (w * (tau - a))) a t (Icos w t).
Proof.
  pose proof (den_pos w) as D.
  replace (Icos w t) with (exp (-2 * al * (t - t)) * (2 * al * cos (w * (t - a)) + w * sin (w * (t - a))) / (4 * al ^ 2 + w ^ 2)
    - exp (-2 * al * (t - a)) * (2 * al * cos (w * (a - a)) + w * sin (w * (a - a))) / (4 * al ^ 2 + w ^ 2)).
  - apply (is_RInt_ftc (fun tau => exp (-2 * al * (t - tau)) * (2 * al * cos (w * (tau - a)) + w * sin (w * (tau - a))) / (4 * al ^ 2 + w ^ 2))).
    + intros x. auto_derive; auto. unfold Rminus. field. lra.
    + intros x. apply (ex_derive_continuous (fun tau => exp (-2 * al * (t - tau)) * cos (w * (tau - a))) x). auto_derive; auto.
  - unfold Icos. rewrite !Rminus_eq_0, !Rmult_0_r, exp_0, cos_0, sin_0. field. lra.
Qed.

Lemma sin_int w t : is_RInt (fun tau => exp (-2 * al * (t - tau)) * sin (w * (tau - a))) a t (Isin w t).
Proof.
  pose proof (den_pos w) as D.
  replace (Isin w t) with (exp (-2 * al * (t - t)) * (2 * al * sin (w * (t - a)) - w * cos (w * (t - a))) / (4 * al ^ 2 + w ^ 2)
    - exp (-2 * al * (t - a)) * (2 * al * sin (w * (a - a)) - w * cos (w * (a - a))) / (4 * al ^ 2 + w ^ 2)).
  - apply (is_RInt_ftc (fun tau => exp (-2 * al * (t - tau)) * (2 * al * sin (w * (tau - a)) - w * cos (w * (tau - a))) / (4 * al ^ 2 + w ^ 2))).
    + intros x. auto_derive; auto. unfold Rminus. field. lra.
    + intros x. apply (ex_derive_continuous (fun tau => exp (-2 * al * (t - tau)) * sin (w * (tau - a))) x). auto_derive; auto.
  - unfold Isin. rewrite !Rminus_eq_0, !Rmult_0_r, exp_0, cos_0, sin_0. field. lra.
Qed.

Lemma cc_int v w t :
  is_RInt (fun tau => exp (-2 * al * (t - tau)) * (cos (v * (tau - a)) * cos (w * (tau - a)))) a t
    (/ 2 * (Icos (- v + w) t + Icos (v + w) t)).
Proof.
  eapply is_RInt_ext; [|apply (is_RInt_scal _ a t (/ 2) _ (is_RInt_plus _ _ a t _ _ (cos_int (- v + w) t) (cos_int (v + w) t)))].
  intros x _. unfold scal, plus; simpl; unfold mult; simpl.
  replace ((- v + w) * (x - a)) with (w * (x - a) - v * (x - a)) by ring. replace ((v + w) * (x - a)) with (w * (x - a) + v * (x - a)) by ring.
  rewrite cos_minus, cos_plus. field.
Qed.

Lemma ss_int v w t :
  is_RInt (fun tau => exp (-2 * al * (t - tau)) * (sin (v * (tau - a)) * sin (w * (tau - a)))) a t
    (/ 2 * (Icos (- v + w) t - Icos (v + w) t)).
Proof.
  eapply is_RInt_ext; [|apply (is_RInt_scal _ a t (/ 2) _ (is_RInt_minus _ _ a t _ _ (cos_int (- v + w) t) (cos_int (v + w) t)))].
  intros x _. unfold scal, minus, plus, opp; simpl; unfold mult; simpl.
  replace ((- v + w) * (x - a)) with (w * (x - a) - v * (x - a)) by ring. replace ((v + w) * (x - a)) with (w * (x - a) + v * (x - a)) by ring.
  rewrite cos_minus, cos_plus. field.
Qed.

Lemma cs_int v w t :
  is_RInt (fun tau => exp (-2 * al * (t - tau)) * (cos (v * (tau - a)) * sin (w * (tau - a)))) a t
    (/ 2 * (Isin (v + w) t + Isin (- v + w) t)).
Proof.
  eapply is_RInt_ext; [|apply (is_RInt_scal _ a t (/ 2) _ (is_RInt_plus _ _ a t _ _ (sin_int (v + w) t) (sin_int (- v + w) t)))].
  intros x _. unfold scal, plus; simpl; unfold mult; simpl.
  replace ((- v + w) * (x - a)) with (w * (x - a) - v * (x - a)) by ring. replace ((v + w) * (x - a)) with (w * (x - a) + v * (x - a)) by ring.
  rewrite sin_minus, sin_plus. field.
Qed.

End Trig.

(** * The entries *)

Lemma mapM_map {A B C} (f : B -> res C) (g : A -> B) l : mapM f (map g l) = mapM (fun x => f (g x)) l.
Proof. induction l as [|x l IH]; simpl; auto. now rewrite IH. Qed.

Section Hz.
Context (m : rgpcm).
Hypothesis (Hal : 0 < r_alpha m) (Hl : 0 < r_lam m) (Hab : r_a m < r_b m) (HM : (0 <= r_m_max m)%Z).
Let al := r_alpha m.
Let a := r_a m.
Let b := r_b m.
Let lam := r_lam m.
Let M := r_m_max m.

Definition om (n : Z) : R := 2 * PI * IZR n / (r_b m - r_a m).

(** The integral of the continuation below [a]. *)
Definition tail (t : R) : R := exp (-2 * al * (t - a)) / (2 * (al + lam)).

Definition cosv (t : R) (n : Z) : R := r_alpha_t m ^ 2 * (Icos al a (om n) t + tail t).
Definition sinv (t : R) (n : Z) : R := r_alpha_t m ^ 2 * Isin al a (om (n - M)) t.

Ltac ul := unfold al, a, b, lam, M in *; repeat split; lra.

Lemma cos_ok n t : I_hx_0_cos m n t = Ok (cosv t n).
Proof.
  unfold I_hx_0_cos. rewrite rdiv_ok by ul. cbn [bind]. fold (om n).
  pose proof (den_pos al Hal (om n)) as D. fold al. rewrite rdiv_ok by ul. cbn [bind].
  rewrite rdiv_ok by ul. cbn [bind]. f_equal. unfold cosv, Icos, tail. fold a. unfold lam, al in *. field. ul.
Qed.

Lemma sin_ok n t : I_hx_0_sin m n t = Ok (sinv t n).
Proof.
  unfold I_hx_0_sin. rewrite rdiv_ok by ul. cbn [bind]. fold M. fold (om (n - M)).
  pose proof (den_pos al Hal (om (n - M))) as D. fold al. rewrite rdiv_ok by ul. cbn [bind].
  f_equal. unfold sinv, Isin. fold a. field. ul.
Qed.

Lemma om_plus i j : om (i + j) = om i + om j.
Proof. unfold om. rewrite plus_IZR. field. lra. Qed.
Lemma om_opp i : om (- i) = - om i.
Proof. unfold om. rewrite opp_IZR. field. lra. Qed.
Lemma om_minus i j : om (i - j) = om i - om j.
Proof. unfold om. rewrite minus_IZR. field. lra. Qed.

(** Blocks of the matrix. *)
Definition hz_cc (t : R) (i j : Z) : R := / 2 * (cosv t (- i + j) + cosv t (i + j)).
Definition hz_ss (t : R) (i j : Z) : R := / 2 * (cosv t (- (i - M) + (j - M)) - cosv t ((i - M) + (j - M))).
Definition hz_cs (t : R) (i j : Z) : R := / 2 * (sinv t (i + j) + sinv t (- i + j)).
Definition hz (t : R) (i j : Z) : R :=
  if (i <=? M)%Z then (if (j <=? M)%Z then hz_cc t i j else hz_cs t i j)
  else (if (j <=? M)%Z then hz_cs t j i else hz_ss t i j).

Lemma hz_cs_0 t j : sinv t (0 + j) = hz_cs t 0 j.
Proof. unfold hz_cs. replace (- 0 + j)%Z with (0 + j)%Z by lia. field. Qed.

Lemma table_ok {A} (f : A -> A -> res R) F rows cols :
  (forall i j, In i rows -> In j cols -> f i j = Ok (F i j)) -> table f rows cols = Ok (map (fun i => map (F i) cols) rows).
Proof.
  intros H. unfold table. apply mapM_ext_In. intros i Hi. apply mapM_ext_In. intros j Hj. auto.
Qed.

Lemma transpose_table (F : Z -> Z -> R) (rows cols : list Z) :
  transpose (List.length cols) (map (fun i => map (F i) cols) rows) = map (fun j => map (fun i => F i j) rows) cols.
Proof.
  unfold transpose. apply list_nth_ext. intros k. destruct (Nat.lt_ge_cases k (List.length cols)) as [L|L].
  - rewrite (map_nth_error _ _ _ (nth_error_seq _ _ _ L)). simpl.
    rewrite (map_nth_error _ _ _ (nth_error_nth' cols 0%Z L)). f_equal. rewrite map_map. apply map_ext. intros i.
    rewrite (nth_indep _ 0 (F i 0%Z)) by (rewrite map_length; auto). apply map_nth.
  - rewrite (proj2 (nth_error_None _ _)), (proj2 (nth_error_None _ _)); auto; rewrite map_length; rewrite ?seq_length; auto.
Qed.

Lemma hconcat_table (F G : Z -> list R) (l : list Z) :
  hconcat (map F l) (map G l) = Ok (map (fun i => F i ++ G i)%list l).
Proof.
  unfold hconcat. rewrite !map_length, Nat.eqb_refl. f_equal. induction l as [|x l IH]; simpl; auto. now f_equal.
Qed.

Section Sorted.
Context (argsort : list Z -> list nat) (Ha : argsorts argsort).
Hypothesis (Hpos : List.Forall (fun k => (0 <= k)%Z) (r_ms m)).

Lemma hz_at_value t : I_hz_at argsort m t = Ok (map (fun i => map (hz t i) (r_ms m)) (r_ms m)).
Proof.
  unfold I_hz_at. destruct (invert_argsort argsort Ha (r_ms m)) as [inv Ei]. rewrite Ei. cbn [bind].
  rewrite (take_sorted argsort Ha). cbn [bind]. cbv zeta. fold M.
  pose proof (sorted_sorted argsort Ha (r_ms m)) as S. pose proof (sorted_perm argsort Ha (r_ms m)) as Pm.
  set (ms := sorted argsort (r_ms m)) in *.
  assert (P : forall k, In k ms -> (0 <= k)%Z).
  { intros k Hk. rewrite List.Forall_forall in Hpos. apply Hpos. eapply Permutation_in; eauto. }
  set (le := filter (fun k => (k <=? M)%Z) ms).
  set (gt := filter (fun k => (k >? M)%Z) ms).
  assert (Ems : ms = (le ++ gt)%list).
  { apply split_sorted; auto.
    - intros x _. rewrite Z.gtb_ltb, Z.leb_antisym. now rewrite negb_involutive.
    - intros x y _ _ Hxy. rewrite !Z.leb_le. lia. }
  assert (Ele : le = (filter (fun k => (k =? 0)%Z) ms ++ filter (fun k => ((0 <? k) && (k <=? M))%Z) ms)%list).
  { assert (F1 : filter (fun k => (k =? 0)%Z) ms = filter (fun k => (k =? 0)%Z) le).
    { rewrite Ems at 1. rewrite filter_app. rewrite (filter_nil (fun k => (k =? 0)%Z) gt); [apply app_nil_r|].
      intros x Hx. apply filter_In in Hx. destruct Hx as [_ Hx]. apply Z.eqb_neq. intros ->. unfold M in *. lia. }
    assert (F2 : filter (fun k => ((0 <? k) && (k <=? M))%Z) ms = filter (fun k => (0 <? k)%Z) le).
    { rewrite Ems at 1. rewrite filter_app. rewrite (filter_nil (fun k => ((0 <? k) && (k <=? M))%Z) gt).
      - rewrite app_nil_r. unfold le. clear. induction ms as [|x l IH]; simpl; auto. destruct (x <=? M)%Z eqn:E; simpl; rewrite ?E, ?andb_true_r; [|auto].
        destruct (0 <? x)%Z; simpl; rewrite IH; auto.
      - intros k Hk. apply filter_In in Hk. destruct Hk as [_ Hk]. apply andb_false_iff. right. apply Z.leb_gt. lia. }
    rewrite F1, F2. apply split_sorted.
    - unfold le. clear -S. induction S as [|x l S IH F]; simpl; [constructor|]. destruct (x <=? M)%Z; auto. constructor; auto.
      rewrite List.Forall_forall in *. intros y Hy. apply filter_In in Hy. apply F, Hy.
    - intros x Hx. apply filter_In in Hx. destruct Hx as [Hx _]. specialize (P x Hx).
      destruct (Z.eqb_spec x 0), (Z.ltb_spec 0 x); simpl; auto; lia.
    - intros x y Hx Hy Hxy. apply filter_In in Hx. destruct Hx as [Hx _]. specialize (P x Hx). rewrite !Z.eqb_eq. lia. }
  rewrite (table_ok _ (hz_cc t)) by (intros; rewrite !cos_ok; reflexivity). cbn [bind].
  rewrite (table_ok _ (fun i j => / 2 * (cosv t (- i + j) - cosv t (i + j)))) by (intros; rewrite !cos_ok; reflexivity). cbn [bind].
  rewrite (table_ok _ (hz_cs t)) by (intros; rewrite !sin_ok; reflexivity). cbn [bind].
  rewrite (table_ok _ (hz_cs t)) .
  2:{ intros i j Hi _. rewrite sin_ok. f_equal. apply filter_In in Hi. destruct Hi as [_ Hi]. apply Z.eqb_eq in Hi. subst i. apply hz_cs_0. }
  cbn [bind]. rewrite <- map_app, <- Ele. rewrite transpose_table. rewrite hconcat_table. cbn [bind].
  rewrite (map_map (fun k => (k - M)%Z)).
  rewrite (map_ext (fun x => map (fun j => / 2 * (cosv t (- (x - M) + j) - cosv t (x - M + j))) (map (fun k => (k - M)%Z) gt))
             (fun x => map (hz_ss t x) gt)) by (intros x; rewrite map_map; reflexivity).
  rewrite hconcat_table. cbn [bind].
  assert (R : (map (fun i => map (hz_cc t i) le ++ map (hz_cs t i) gt) le
               ++ map (fun i => map (fun j => hz_cs t j i) le ++ map (hz_ss t i) gt) gt)%list
              = map (fun i => map (hz t i) ms) ms).
  { transitivity (map (fun i => map (hz t i) ms) (le ++ gt)%list); [|now rewrite <- Ems].
    rewrite map_app. f_equal; apply map_ext_in; intros i Hi; (transitivity (map (hz t i) (le ++ gt)%list); [|now rewrite <- Ems]); rewrite map_app;
      apply filter_In in Hi; destruct Hi as [_ Hi]; f_equal; apply map_ext_in; intros j Hj;
      apply filter_In in Hj; destruct Hj as [_ Hj]; unfold hz; rewrite ?Z.gtb_ltb in *;
      destruct (Z.leb_spec i M), (Z.leb_spec j M); auto; rewrite ?Z.ltb_lt, ?Z.leb_le in *; exfalso; lia. }
  rewrite R. unfold ms. rewrite (take_inverse argsort Ha (fun i => map (hz t i) (sorted argsort (r_ms m))) (r_ms m) inv Ei). cbn [bind].
  rewrite mapM_map. apply mapM_ext_In. intros i _. now apply (take_inverse argsort Ha (hz t i)).
Qed.

End Sorted.

(** * The entries are integrals *)

Definition cosine (k : Z) : bool := (k <=? M)%Z.

Lemma beta_below k tau : tau < r_a m -> beta m k tau = if cosine k then exp (- r_lam m * (r_a m - tau)) else 0.
Proof. intros H. unfold beta. destruct (Rle_dec tau (r_a m)); [reflexivity|lra]. Qed.

Lemma beta_inside k tau : r_a m < tau < r_b m ->
  beta m k tau = if cosine k then cos (om k * (tau - a)) else sin (om (k - M) * (tau - a)).
Proof.
  intros H. unfold beta. destruct (Rle_dec tau (r_a m)); [lra|]. destruct (Rlt_dec tau (r_b m)); [|lra].
  unfold om, cosine. fold M. rewrite minus_IZR. reflexivity.
Qed.

Lemma beta_above k tau : r_b m < tau -> beta m k tau = if cosine k then exp (- r_lam m * (tau - r_b m)) else 0.
Proof. intros H. unfold beta. destruct (Rle_dec tau (r_a m)); [lra|]. destruct (Rlt_dec tau (r_b m)); [lra|reflexivity]. Qed.

(** The integrand of I_hz. *)
Definition hz_integrand (t : R) (i j : Z) (tau : R) : R :=
  r_alpha_t m ^ 2 * exp (-2 * r_alpha m * (t - tau)) * beta m i tau * beta m j tau.

Definition both (i j : Z) : R := if cosine i then (if cosine j then 1 else 0) else 0.

Lemma hz_below t i j : is_integral (hz_integrand t i j) m_infty a (r_alpha_t m ^ 2 * (both i j * tail t)).
Proof.
  pose proof (exp_below (2 * (al + lam)) (-2 * al * t - 2 * lam * a) a ltac:(unfold al, lam; lra)) as E.
  apply (is_integral_scal (r_alpha_t m ^ 2 * both i j)) in E.
  replace (r_alpha_t m ^ 2 * (both i j * tail t))
    with (r_alpha_t m ^ 2 * both i j * (exp (2 * (al + lam) * a + (-2 * al * t - 2 * lam * a)) / (2 * (al + lam)))).
  - eapply is_integral_ext_below; [|exact E]. intros x Hx. cbv beta. unfold hz_integrand.
    rewrite !beta_below by auto. unfold both. destruct (cosine i), (cosine j); try ring.
    rewrite Rmult_1_r, !Rmult_assoc. f_equal. rewrite <- !exp_plus. f_equal. unfold al, lam, a. ring.
  - unfold tail. replace (2 * (al + lam) * a + (-2 * al * t - 2 * lam * a)) with (-2 * al * (t - a)) by ring.
    unfold Rdiv. ring.
Qed.

Definition hz_in (t : R) (i j : Z) : R :=
  if cosine i then (if cosine j then / 2 * (Icos al a (- om i + om j) t + Icos al a (om i + om j) t)
                    else / 2 * (Isin al a (om i + om (j - M)) t + Isin al a (- om i + om (j - M)) t))
  else (if cosine j then / 2 * (Isin al a (om j + om (i - M)) t + Isin al a (- om j + om (i - M)) t)
        else / 2 * (Icos al a (- om (i - M) + om (j - M)) t - Icos al a (om (i - M) + om (j - M)) t)).

Lemma hz_inside t i j : a <= t <= b -> is_RInt (hz_integrand t i j) a t (r_alpha_t m ^ 2 * hz_in t i j).
Proof.
  intros Ht.
  assert (K : forall g v, is_RInt (fun tau => exp (-2 * al * (t - tau)) * g tau) a t v ->
              (forall tau, a < tau < b -> beta m i tau * beta m j tau = g tau) ->
              is_RInt (hz_integrand t i j) a t (r_alpha_t m ^ 2 * v)).
  { intros g v I E. eapply is_RInt_ext; [|apply (is_RInt_scal _ a t (r_alpha_t m ^ 2) v I)].
    intros x Hx. rewrite Rmin_left, Rmax_right in Hx by apply Ht. unfold scal; simpl; unfold mult; simpl. unfold hz_integrand.
    rewrite <- E by lra. unfold al. ring. }
  unfold hz_in. destruct (cosine i) eqn:Ci, (cosine j) eqn:Cj; eapply K.
  - apply (cc_int al Hal a (om i) (om j) t).
  - intros x Hx. rewrite !beta_inside by auto. now rewrite Ci, Cj.
  - apply (cs_int al Hal a (om i) (om (j - M)) t).
  - intros x Hx. rewrite !beta_inside by auto. now rewrite Ci, Cj.
  - apply (cs_int al Hal a (om j) (om (i - M)) t).
  - intros x Hx. rewrite !beta_inside by auto. rewrite Ci, Cj. apply Rmult_comm.
  - apply (ss_int al Hal a (om (i - M)) (om (j - M)) t).
  - intros x Hx. rewrite !beta_inside by auto. now rewrite Ci, Cj.
Qed.

Lemma hz_split t i j : hz t i j = r_alpha_t m ^ 2 * (both i j * tail t) + r_alpha_t m ^ 2 * hz_in t i j.
Proof.
  unfold hz, both, hz_in, cosine, hz_cc, hz_cs, hz_ss, cosv, sinv.
  destruct (i <=? M)%Z, (j <=? M)%Z; rewrite ?om_plus, ?om_minus, ?om_plus, ?om_opp, ?om_minus.
  - field.
  - replace (om i + (om j - om M)) with (om i + om j - om M) by ring.
    replace (- om i + (om j - om M)) with (- om i + om j - om M) by ring. field.
  - replace (om j + (om i - om M)) with (om j + om i - om M) by ring.
    replace (- om j + (om i - om M)) with (- om j + om i - om M) by ring. field.
  - field.
Qed.

Lemma hz_integral t i j : a <= t <= b -> is_integral (hz_integrand t i j) m_infty t (hz t i j).
Proof.
  intros Ht. rewrite hz_split. eapply is_integral_Chasles; [apply hz_below|]. apply is_integral_finite. now apply hz_inside.
Qed.

(** * Beyond the support *)

Lemma om_0 : om 0 = 0. Proof. unfold om. field. lra. Qed.

Lemma hz_00 t : hz t 0 0 = r_alpha_t m ^ 2 * (tail t + (1 - exp (-2 * al * (t - a))) / (2 * al)).
Proof.
  rewrite hz_split. unfold both, hz_in, cosine. assert ((0 <=? M)%Z = true) as -> by (apply Z.leb_le; auto).
  rewrite om_0. replace (- 0 + 0) with 0 by ring. replace (0 + 0) with 0 by ring. unfold Icos.
  rewrite !Rmult_0_l, cos_0. field. unfold al, lam. lra.
Qed.

Lemma hz_beyond t : b < t -> r_alpha_t m <> 0 ->
  exists v, is_integral (hz_integrand t 0 0) m_infty t v /\ v < hz t 0 0.
Proof.
  intros Ht Hat. assert (C0 : cosine 0 = true) by (apply Z.leb_le; auto).
  assert (I1 : is_integral (hz_integrand t 0 0) m_infty b (exp (-2 * al * (t - b)) * hz b 0 0)).
  { eapply is_integral_ext; [|apply is_integral_scal; apply (hz_integral b 0 0); unfold a, b; lra].
    intros x. cbv beta. unfold hz_integrand.
    replace (exp (-2 * r_alpha m * (t - x))) with (exp (-2 * al * (t - b)) * exp (-2 * r_alpha m * (b - x))).
    - ring.
    - rewrite <- exp_plus. f_equal. unfold al. ring. }
  set (g := fun tau => r_alpha_t m ^ 2 * (exp (-2 * al * (t - tau)) * exp (-2 * lam * (tau - b)))).
  assert (Cg : forall x : R, continuous g x).
  { intros x. apply (ex_derive_continuous g x). unfold g. auto_derive; auto. }
  assert (I2 : is_RInt (hz_integrand t 0 0) b t (RInt g b t)).
  { eapply is_RInt_ext; [|apply (@RInt_correct R_CompleteNormedModule g b t), (@ex_RInt_continuous R_CompleteNormedModule); intros; apply Cg].
    intros x Hx. rewrite Rmin_left in Hx by lra. unfold hz_integrand, g. rewrite !beta_above by (apply Hx). rewrite C0.
    rewrite !Rmult_assoc. f_equal. rewrite <- !exp_plus. f_equal. unfold al, lam, b. ring. }
  exists (exp (-2 * al * (t - b)) * hz b 0 0 + RInt g b t). split.
  - eapply is_integral_Chasles; [exact I1|]. now apply is_integral_finite.
  - set (h := fun tau => r_alpha_t m ^ 2 * exp (-2 * al * (t - tau))).
    assert (Ch : forall x : R, continuous h x).
    { intros x. apply (ex_derive_continuous h x). unfold h. auto_derive; auto. }
    assert (Ih : is_RInt h b t (r_alpha_t m ^ 2 * ((1 - exp (-2 * al * (t - b))) / (2 * al)))).
    { replace (r_alpha_t m ^ 2 * ((1 - exp (-2 * al * (t - b))) / (2 * al)))
        with (r_alpha_t m ^ 2 * exp (-2 * al * (t - t)) / (2 * al) - r_alpha_t m ^ 2 * exp (-2 * al * (t - b)) / (2 * al)).
      - apply (is_RInt_ftc (fun tau => r_alpha_t m ^ 2 * exp (-2 * al * (t - tau)) / (2 * al)) h); auto.
        intros x. unfold h. auto_derive; auto. unfold al. unfold Rminus. field. lra.
      - rewrite Rminus_eq_0, Rmult_0_r, exp_0. unfold al. field. lra. }
    assert (G : 0 < RInt (fun x => h x - g x) b t).
    { apply RInt_gt_0; auto.
      - intros x Hx. unfold h, g. assert (0 < r_alpha_t m ^ 2) by (replace (r_alpha_t m ^ 2) with (r_alpha_t m * r_alpha_t m) by ring; nra).
        pose proof (exp_pos (-2 * al * (t - x))). assert (exp (-2 * lam * (x - b)) < 1).
        { rewrite <- exp_0. apply exp_increasing. unfold lam in *. nra. }
        assert (0 < exp (-2 * al * (t - x)) * (1 - exp (-2 * lam * (x - b)))) by (apply Rmult_lt_0_compat; lra). nra.
      - intros x Hx. apply (continuous_minus h g); auto. }
    assert (D : RInt (fun x => h x - g x) b t = RInt h b t - RInt g b t).
    { apply (RInt_minus (V := R_CompleteNormedModule) h g b t); apply (@ex_RInt_continuous R_CompleteNormedModule); intros; auto. }
    rewrite D, (is_RInt_unique _ _ _ _ Ih) in G.
    rewrite !hz_00. unfold tail.
    replace (exp (-2 * al * (t - a))) with (exp (-2 * al * (t - b)) * exp (-2 * al * (b - a))) by (rewrite <- exp_plus; f_equal; ring).
    set (X := exp (-2 * al * (t - b))) in *. set (Y := exp (-2 * al * (b - a))) in *.
    replace (r_alpha_t m ^ 2 * (X * Y / (2 * (al + lam)) + (1 - X * Y) / (2 * al)))
      with (X * (r_alpha_t m ^ 2 * (Y / (2 * (al + lam)) + (1 - Y) / (2 * al))) + r_alpha_t m ^ 2 * ((1 - X) / (2 * al))); [lra|].
    unfold al, lam. field. lra.
Qed.

End Hz.
