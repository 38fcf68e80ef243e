(** The matrices and integrals of a GPCM on another clock. *)
From Coq Require FinFun.
From Coq Require Import Reals ZArith List Bool String Lia Lra Psatz.
From Coquelicot Require Import Coquelicot.
From Verif Require Import Py ExpPolyModel ListFacts ExpPolySpec ExpPolyIntModel ExpPolyIntProofs.
From Verif Require Import Gauss Gauss2 Gauss3 Fubini ExpPolyIntProps GaussDom GaussFeat GaussFeat2.
From Verif Require Import GpcmModel GpcmSpec GpcmProofs GpcmProofs2 GpcmProofs3 GpcmTotal GpcmInit GpcmPsd GpcmPd GpcmProps GpcmProps2 GpcmProps3 GpcmFeat GpcmEntries GpcmGood.
From Verif Require Import UnitSpec UnitProofs GpcmUnitSpec GpcmUnitProofs.
Import ListNotations.
Local Open Scope string_scope.
Local Open Scope R_scope.

Section Clock.
Variables c d : R.
Hypothesis Hc : 0 < c.
Let c0 : c <> 0. Proof. lra. Qed.
Let s0 : 0 < sqrt c. Proof. now apply sqrt_lt_R0. Qed.
Let ss : sqrt c * sqrt c = c. Proof. apply sqrt_sqrt. lra. Qed.
Let cc0 : c ^ 2 <> 0. Proof. now apply pow_nonzero. Qed.
Notation duration := (duration c).
Notation time := (time c d).
Notation gclock := (gclock c d).

Lemma kh_clock m a b : kh (gclock m) (duration a) (duration b) = / c * kh m a b.
Proof.
  unfold kh. cbn [g_alpha_t g_alpha g_gamma GpcmUnitSpec.gclock]. rewrite (root_rate2 c Hc).
  unfold UnitSpec.duration, decay.
  replace (- (g_alpha m / c ^ 2) * ((c * a) ^ 2 + (c * b) ^ 2) - g_gamma m / c ^ 2 * (c * a - c * b) ^ 2)
    with (- g_alpha m * (a ^ 2 + b ^ 2) - g_gamma m * (a - b) ^ 2) by (field; auto).
  unfold Rdiv. ring.
Qed.
Lemma kxs_clock m a b : kxs (gclock m) (time a) (time b) = / sqrt c * kxs m a b.
Proof.
  unfold kxs. cbn [g_omega_t g_omega GpcmUnitSpec.gclock]. unfold UnitSpec.time, root_rate, decay.
  replace (- (g_omega m / c ^ 2) * (c * a + d - (c * b + d)) ^ 2) with (- g_omega m * (a - b) ^ 2) by (field; auto).
  unfold Rdiv. ring.
Qed.
Lemma lag a b : time a - time b = duration (a - b).
Proof. unfold UnitSpec.time, UnitSpec.duration. ring. Qed.

Lemma upto_clock m t : upto (gclock m) (time t) = lim_affine c d (upto m t).
Proof. unfold upto. cbn [g_causal GpcmUnitSpec.gclock]. destruct (g_causal m); reflexivity. Qed.

(** The integral over the old clock from the integral over the new one. *)
Lemma integral_clock f f' k lo hi v v' :
  (forall x, f' (time x) = k * f x) -> is_integral f' (lim_affine c d lo) (lim_affine c d hi) v' -> is_integral f lo hi v ->
  v' = c * k * v.
Proof.
  intros E I' I. apply (is_integral_affine f' c d lo hi v' Hc) in I'.
  eapply is_integral_unique; [exact I'|]. eapply is_integral_ext; [|apply (is_integral_scal (c * k)); exact I].
  intros x. cbv beta. change (c * x + d) with (time x). rewrite E. ring.
Qed.

Lemma integral2_clock f f' k lo1 hi1 lo2 hi2 v v' :
  (forall x y, f' (time x) (time y) = k * f x y) ->
  is_integral2 f' (lim_affine c d lo1) (lim_affine c d hi1) (lim_affine c d lo2) (lim_affine c d hi2) v' ->
  is_integral2 f lo1 hi1 lo2 hi2 v -> v' = c ^ 2 * k * v.
Proof.
  intros E [g' [I1' I2']] [g [I1 I2]].
  rewrite (integral_clock g g' (c * k) lo1 hi1 v v'); [ring| |exact I2'|exact I2].
  intros x. apply (integral_clock (f x) (f' (time x)) k lo2 hi2); auto.
Qed.

Context (N : numdom) (so so' : setorder) (ofR : R -> N) (Ho : forall r, val (ofR r) = r).
Context (m : gpcm) (M : moderate_model m) (M' : moderate_model (gclock m)).
Notation nu := (List.length (g_t_u m)).
Notation nz := (List.length (g_t_z m)).

Lemma nth_dur l i : (i < List.length l)%nat -> nth i (map duration l) 0 = duration (nth i l 0).
Proof. intros H. rewrite (nth_indep _ 0 (duration 0)) by (now rewrite map_length). apply map_nth. Qed.
Lemma nth_time l i : (i < List.length l)%nat -> nth i (map time l) 0 = time (nth i l 0).
Proof. intros H. rewrite (nth_indep _ 0 (time 0)) by (now rewrite map_length). apply map_nth. Qed.

Lemma Ku_clock K K' i j : compute_K_u N so ofR m = Ok K -> compute_K_u N so' ofR (gclock m) = Ok K' ->
  (i < nu)%nat -> (j < nu)%nat -> get2 K' i j = / c * get2 K i j.
Proof.
  intros H H' Hi Hj. rewrite (Ku_get N so ofR Ho m K i j H Hi Hj).
  rewrite (Ku_get N so' ofR Ho (gclock m) K' i j H'); try (simpl; now rewrite map_length).
  simpl g_t_u. rewrite !nth_dur by auto. apply kh_clock.
Qed.

Let iss : / sqrt c * / sqrt c = / c. Proof. rewrite <- Rinv_mult, ss. reflexivity. Qed.

Lemma Kz_clock K K' i j : compute_K_z N so ofR m = Ok K -> compute_K_z N so' ofR (gclock m) = Ok K' ->
  (i < nz)%nat -> (j < nz)%nat -> get2 K' i j = get2 K i j.
Proof.
  intros H H' Hi Hj. pose proof (Kz_get N so ofR Ho m M K i j H Hi Hj) as I.
  pose proof (Kz_get N so' ofR Ho (gclock m) M' K' i j H') as I'. change (g_t_z (gclock m)) with (map time (g_t_z m)) in I'. cbv beta in I, I'.
  rewrite map_length in I'. specialize (I' Hi Hj). rewrite !nth_time in I' by auto.
  assert (E : get2 K' i j = c * / c * get2 K i j); [|rewrite E; now field].
  refine (integral_clock _ _ _ m_infty p_infty _ _ _ I' I). intros x. cbv beta. rewrite !kxs_clock, <- iss. ring.
Qed.

Lemma hx_clock t1 t2 v v' : compute_i_hx N so ofR m (Some t1) (Some t2) = Ok v ->
  compute_i_hx N so' ofR (gclock m) (Some (time t1)) (Some (time t2)) = Ok v' -> v' = v.
Proof.
  intros H H'. pose proof (i_hx_spec N so ofR Ho m t1 t2 v (proj1 (proj1 M)) H) as I.
  pose proof (i_hx_spec N so' ofR Ho (gclock m) _ _ v' (proj1 (proj1 M')) H') as I'.
  rewrite (Rmin_aff c d Hc), upto_clock in I'.
  assert (E : v' = c * / c * v); [|rewrite E; now field].
  refine (integral_clock _ _ _ m_infty (upto m (Rmin t1 t2)) _ _ _ I' I). intros x. cbv beta. rewrite !lag. apply kh_clock.
Qed.

Lemma ux4_clock l1 l2 T T' a b i j v v' : compute_I_ux4 N so ofR m (Some l1) (Some l2) = Ok T ->
  compute_I_ux4 N so' ofR (gclock m) (Some (map time l1)) (Some (map time l2)) = Ok T' ->
  at4 T a b i j = Some v -> at4 T' a b i j = Some v' -> v' = / c * v.
Proof.
  intros H H' A A'. destruct (I_ux4_inv N so ofR m l1 l2 T Ho (proj1 M) H) as [_ E].
  destruct (I_ux4_inv N so' ofR (gclock m) _ _ T' Ho (proj1 M') H') as [_ E'].
  destruct (E _ _ _ _ _ A) as (t1 & t2 & u1 & u2 & B1 & B2 & B3 & B4 & I).
  destruct (E' _ _ _ _ _ A') as (t1' & t2' & u1' & u2' & B1' & B2' & B3' & B4' & I').
  simpl g_t_u in B3', B4'. rewrite nth_error_map, B1 in B1'. rewrite nth_error_map, B2 in B2'. rewrite nth_error_map, B3 in B3'. rewrite nth_error_map, B4 in B4'.
  injection B1' as <-. injection B2' as <-. injection B3' as <-. injection B4' as <-.
  rewrite (Rmin_aff c d Hc), upto_clock in I'.
  assert (Q : v' = c * (/ c * / c) * v); [|rewrite Q; now field].
  refine (integral_clock _ _ _ m_infty (upto m (Rmin t1 t2)) _ _ _ I' I). intros x. cbv beta. rewrite !lag, !kh_clock. ring.
Qed.

Lemma ux_clock T T' i j : compute_I_ux N so ofR m = Ok T -> compute_I_ux N so' ofR (gclock m) = Ok T' ->
  (i < nu)%nat -> (j < nu)%nat -> get2 T' i j = / c * get2 T i j.
Proof.
  intros H H' Hi Hj. pose proof (ux_get N so ofR Ho m M T 0 i j H Hi Hj) as I.
  pose proof (ux_get N so' ofR Ho (gclock m) M' T' (time 0) i j H') as I'. change (g_t_u (gclock m)) with (map duration (g_t_u m)) in I'. cbv beta in I, I'.
  rewrite map_length in I'. specialize (I' Hi Hj). rewrite !nth_dur in I' by auto. rewrite upto_clock in I'.
  assert (E : get2 T' i j = c * (/ c * / c) * get2 T i j); [|rewrite E; now field].
  refine (integral_clock _ _ _ m_infty (upto m 0) _ _ _ I' I). intros x. cbv beta. rewrite !lag, !kh_clock. ring.
Qed.

Lemma uz_clock l T T' a i k : compute_I_uz N so ofR m l = Ok T -> compute_I_uz N so' ofR (gclock m) (map time l) = Ok T' ->
  (a < List.length l)%nat -> (i < nu)%nat -> (k < nz)%nat -> get3 T' a i k = / sqrt c * get3 T a i k.
Proof.
  intros H H' Ha Hi Hk. pose proof (uz_get N so ofR Ho m M l T a i k H Ha Hi Hk) as I.
  pose proof (uz_get N so' ofR Ho (gclock m) M' (map time l) T' a i k H') as I'. change (g_t_u (gclock m)) with (map duration (g_t_u m)) in I'. change (g_t_z (gclock m)) with (map time (g_t_z m)) in I'. cbv beta in I, I'.
  rewrite !map_length in I'. specialize (I' Ha Hi Hk). rewrite !nth_dur, !nth_time in I' by auto. rewrite upto_clock in I'.
  assert (E : get3 T' a i k = c * (/ c * / sqrt c) * get3 T a i k); [|rewrite E; field; split; lra].
  refine (integral_clock _ _ _ m_infty (upto m (nth a l 0)) _ _ _ I' I). intros x. cbv beta. rewrite !lag, !kh_clock, !kxs_clock. ring.
Qed.

Lemma hz_clock l T T' a i k : compute_I_hz N so ofR m l = Ok T -> compute_I_hz N so' ofR (gclock m) (map time l) = Ok T' ->
  (a < List.length l)%nat -> (i < nz)%nat -> (k < nz)%nat -> get3 T' a i k = get3 T a i k.
Proof.
  intros H H' Ha Hi Hk. pose proof (hz_get N so ofR Ho m M l T a i k H Ha Hi Hk) as I.
  pose proof (hz_get N so' ofR Ho (gclock m) M' (map time l) T' a i k H') as I'. change (g_t_z (gclock m)) with (map time (g_t_z m)) in I'. cbv beta in I, I'.
  rewrite !map_length in I'. specialize (I' Ha Hi Hk). rewrite !nth_time in I' by auto. rewrite upto_clock in I'.
  assert (E : get3 T' a i k = c ^ 2 * (/ c * / c) * get3 T a i k); [|rewrite E; field; auto].
  refine (integral2_clock _ _ _ m_infty (upto m (nth a l 0)) m_infty (upto m (nth a l 0)) _ _ _ I' I). intros x y. cbv beta. rewrite !lag, !kh_clock, !kxs_clock.
  rewrite <- iss at 2. ring.
Qed.

Lemma hxs_clock l hx hx' a : mapM (fun s => compute_i_hx N so ofR m (Some s) (Some s)) l = Ok hx ->
  mapM (fun s => compute_i_hx N so' ofR (gclock m) (Some s) (Some s)) (map time l) = Ok hx' ->
  (a < List.length l)%nat -> nth a hx' 0 = nth a hx 0.
Proof.
  intros H H' Ha. rewrite UnitProofs.mapM_map in H'. revert hx hx' a H H' Ha.
  induction l as [|t l IH]; intros hx hx' a H H' Ha; [simpl in Ha; lia|].
  cbn [mapM] in H, H'.
  apply bind_Ok in H. destruct H as [x [X H]]. apply bind_Ok in H. destruct H as [r [Hr H]]. injection H as <-.
  apply bind_Ok in H'. destruct H' as [x' [X' H']]. apply bind_Ok in H'. destruct H' as [r' [Hr' H']]. injection H' as <-.
  destruct a as [|a]; [exact (hx_clock t t x x' X X')|]. cbn [nth]. apply IH; auto. simpl in Ha. lia.
Qed.

(** Whole tables. *)
Lemma table2_eq k (T T' : list (list R)) p q : shape2 T p q -> shape2 T' p q ->
  (forall i j, (i < p)%nat -> (j < q)%nat -> get2 T' i j = k * get2 T i j) -> T' = map (map (Rmult k)) T.
Proof.
  intros [L F] [L' F'] E. apply nth_ext with [] []; [rewrite map_length; congruence|]. intros i Hi.
  rewrite Forall_forall in F, F'. rewrite L' in Hi.
  change (@nil R) with (map (Rmult k) []) at 2. rewrite map_nth.
  assert (R1' : List.length (nth i T []) = q) by (apply F, nth_In; lia).
  assert (R2' : List.length (nth i T' []) = q) by (apply F', nth_In; lia).
  apply nth_ext with 0 (k * 0); [rewrite map_length; congruence|]. intros j Hj. rewrite R2' in Hj.
  rewrite map_nth. exact (E i j Hi Hj).
Qed.
Lemma table3_eq k (T T' : list (list (list R))) o p q : shape3 T o p q -> shape3 T' o p q ->
  (forall a i j, (a < o)%nat -> (i < p)%nat -> (j < q)%nat -> get3 T' a i j = k * get3 T a i j) -> T' = map (map (map (Rmult k))) T.
Proof.
  intros [L F] [L' F'] E. apply nth_ext with [] []; [rewrite map_length; congruence|]. intros a Ha.
  rewrite Forall_forall in F, F'. rewrite L' in Ha.
  change (@nil (list R)) with (map (map (Rmult k)) []) at 2. rewrite map_nth.
  apply (table2_eq k _ _ p q); [apply F, nth_In; lia|apply F', nth_In; lia|]. intros i j Hi Hj. exact (E a i j Ha Hi Hj).
Qed.
Lemma table4_eq k (T T' : list (list (list (list R)))) n' o p q : shape4 T n' o p q -> shape4 T' n' o p q ->
  (forall b a i j v v', at4 T b a i j = Some v -> at4 T' b a i j = Some v' -> v' = k * v) -> T' = map (map (map (map (Rmult k)))) T.
Proof.
  intros [L F] [L' F'] E. apply nth_ext with [] []; [rewrite map_length; congruence|]. intros b Hb.
  rewrite Forall_forall in F, F'. rewrite L' in Hb.
  change (@nil (list (list R))) with (map (map (map (Rmult k))) []) at 2. rewrite map_nth.
  assert (G : nth_error T b = Some (nth b T [])) by (apply nth_error_nth'; lia).
  assert (G' : nth_error T' b = Some (nth b T' [])) by (apply nth_error_nth'; lia).
  assert (S : shape3 (nth b T []) o p q) by (apply F, nth_In; lia).
  assert (S' : shape3 (nth b T' []) o p q) by (apply F', nth_In; lia).
  apply (table3_eq k _ _ o p q); auto. intros a i j Ha Hi Hj.
  destruct (shape3_at _ _ _ _ a i j S Ha Hi Hj) as [v Hv]. destruct (shape3_at _ _ _ _ a i j S' Ha Hi Hj) as [v' Hv'].
  rewrite (at3_get3 _ _ _ _ _ Hv), (at3_get3 _ _ _ _ _ Hv'). apply (E b a i j); unfold at4; [now rewrite G|now rewrite G'].
Qed.

Lemma map_one {A} (f : A -> A) (l : list A) : (forall x, f x = x) -> map f l = l.
Proof. intros H. induction l as [|x l IH]; simpl; [reflexivity|]. now rewrite H, IH. Qed.

Lemma Ku_table K K' : compute_K_u N so ofR m = Ok K -> compute_K_u N so' ofR (gclock m) = Ok K' -> K' = map (map (Rmult (/ c))) K.
Proof.
  intros H H'. apply (table2_eq _ _ _ nu nu).
  - exact (proj1 (proj2 (C21_K_u N so ofR m Ho) K H)).
  - pose proof (proj1 (proj2 (C21_K_u N so' ofR (gclock m) Ho) K' H')) as S. simpl g_t_u in S. now rewrite map_length in S.
  - intros i j Hi Hj. now apply Ku_clock.
Qed.
Lemma Kz_table K K' : compute_K_z N so ofR m = Ok K -> compute_K_z N so' ofR (gclock m) = Ok K' -> K' = K.
Proof.
  intros H H'. rewrite (table2_eq 1 K K' nz nz); [| | |].
  - apply map_one. intros l. apply map_one. intros; ring.
  - exact (proj1 (proj2 (C22_K_z N so ofR m Ho (proj2 M)) K H)).
  - pose proof (proj1 (proj2 (C22_K_z N so' ofR (gclock m) Ho (proj2 M')) K' H')) as S. simpl g_t_z in S. now rewrite map_length in S.
  - intros i j Hi Hj. rewrite Rmult_1_l. now apply Kz_clock.
Qed.
Lemma ux_table l1 l2 T T' : compute_I_ux4 N so ofR m (Some l1) (Some l2) = Ok T ->
  compute_I_ux4 N so' ofR (gclock m) (Some (map time l1)) (Some (map time l2)) = Ok T' ->
  T' = map (map (map (map (Rmult (/ c))))) T.
Proof.
  intros H H'. apply (table4_eq _ _ _ (List.length l1) (List.length l2) nu nu).
  - exact (proj1 (I_ux4_inv N so ofR m l1 l2 T Ho (proj1 M) H)).
  - pose proof (proj1 (I_ux4_inv N so' ofR (gclock m) _ _ T' Ho (proj1 M') H')) as S. simpl g_t_u in S. now rewrite !map_length in S.
  - intros. eapply ux4_clock; eauto.
Qed.
Lemma uz_table l T T' : compute_I_uz N so ofR m l = Ok T -> compute_I_uz N so' ofR (gclock m) (map time l) = Ok T' ->
  T' = map (map (map (Rmult (/ sqrt c)))) T.
Proof.
  intros H H'. apply (table3_eq _ _ _ (List.length l) nu nz).
  - exact (proj1 (proj2 (C26_I_uz N so ofR m l Ho M) T H)).
  - pose proof (proj1 (proj2 (C26_I_uz N so' ofR (gclock m) _ Ho M') T' H')) as S. simpl g_t_u in S. simpl g_t_z in S. now rewrite !map_length in S.
  - intros a i j Ha Hi Hj. now apply (uz_clock l).
Qed.
Lemma hz_table l T T' : compute_I_hz N so ofR m l = Ok T -> compute_I_hz N so' ofR (gclock m) (map time l) = Ok T' -> T' = T.
Proof.
  intros H H'. rewrite (table3_eq 1 T T' (List.length l) nz nz); [| | |].
  - apply map_one. intros x. apply map_one. intros y. apply map_one. intros; ring.
  - exact (proj1 (proj2 (C25_I_hz N so ofR m l Ho M) T H)).
  - pose proof (proj1 (proj2 (C25_I_hz N so' ofR (gclock m) _ Ho M') T' H')) as S. cbv zeta in S. simpl g_t_z in S. now rewrite !map_length in S.
  - intros a i j Ha Hi Hj. rewrite Rmult_1_l. now apply (hz_clock l).
Qed.
End Clock.

Lemma good_clock c d m : 0 < c -> good_gpcm m -> moderate_model (gclock c d m) -> good_gpcm (gclock c d m).
Proof.
  intros Hc [_ [Pg [Na [No [NDu [NDz Pn]]]]]] M'. assert (S : 0 < sqrt c) by now apply sqrt_lt_R0.
  assert (Is : / sqrt c <> 0) by (apply Rinv_neq_0_compat; lra).
  split; [exact M'|]. split; [|split; [|split; [|split; [|split; [|exact Pn]]]]].
  - simpl. unfold decay. apply Rdiv_lt_0_compat; [exact Pg|]. now apply pow_lt.
  - simpl. unfold root_rate, Rdiv. now apply Rmult_integral_contrapositive.
  - simpl. unfold root_rate, Rdiv. now apply Rmult_integral_contrapositive.
  - simpl. apply FinFun.Injective_map_NoDup; [|exact NDu]. intros x y E. unfold duration in E. now apply Rmult_eq_reg_l in E; [|lra].
  - simpl. apply FinFun.Injective_map_NoDup; [|exact NDz]. intros x y E. unfold time in E.
    assert (E' : c * x = c * y) by lra. now apply Rmult_eq_reg_l in E'; [|lra].
Qed.
