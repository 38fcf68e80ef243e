(** The matrices and integrals of a GPCM as functions of indices: what the approximations of
    approx.py need to know about them. *)
From Coq Require Import Reals ZArith List Bool String Lia Lra Psatz.
From Coquelicot Require Import Coquelicot.
From Verif Require Import Py ExpPolyModel ListFacts ExpPolySpec ExpPolyIntModel ExpPolyIntProofs.
From Verif Require Import Gauss Gauss2 Gauss3 Fubini ExpPolyIntProps GaussDom GaussFeat GaussFeat2.
From Verif Require Import GpcmModel GpcmSpec GpcmProofs GpcmProofs2 GpcmProofs3 GpcmTotal GpcmInit GpcmPsd GpcmPd GpcmProps GpcmProps2 GpcmProps3 GpcmFeat.
Import ListNotations.
Local Open Scope string_scope.
Local Open Scope R_scope.

(** Entries of nested lists, zero out of range. *)
Definition get2 (T : list (list R)) (i j : nat) : R := nth j (nth i T []) 0.
Definition get3 (T : list (list (list R))) (i j k : nat) : R := get2 (nth i T []) j k.

Lemma at2_get2 T i j v : at2 T i j = Some v -> get2 T i j = v.
Proof.
  unfold at2, get2. destruct (nth_error T i) as [r|] eqn:E; [|discriminate]. intros H.
  rewrite (nth_error_nth _ _ _ E). now apply nth_error_nth.
Qed.
Lemma at3_get3 T i j k v : at3 T i j k = Some v -> get3 T i j k = v.
Proof.
  unfold at3, get3. destruct (nth_error T i) as [r|] eqn:E; [|discriminate]. intros H.
  rewrite (nth_error_nth _ _ _ E). now apply at2_get2.
Qed.
Lemma nth_error_get (l : list R) i : (i < List.length l)%nat -> nth_error l i = Some (nth i l 0).
Proof. apply nth_error_nth'. Qed.

Lemma nth_seq_self (l : list R) : map (fun i => nth i l 0) (seq 0 (List.length l)) = l.
Proof.
  apply nth_ext with 0 0; [now rewrite map_length, seq_length|]. intros k Hk. rewrite map_length, seq_length in Hk.
  rewrite (nth_indep _ 0 (nth O l 0)) by (now rewrite map_length, seq_length).
  change (nth O l 0) with ((fun i => nth i l 0) O). rewrite map_nth, seq_nth by auto. reflexivity.
Qed.

(** * Quadratic forms *)

Lemma Sum_first n f : Sum (S n) f = f O + Sum n (fun i => f (S i)).
Proof.
  induction n as [|n IH]; [cbn; ring|]. change (Sum (S (S n)) f) with (Sum (S n) f + f (S n)). rewrite IH.
  cbn [Sum]. ring.
Qed.

Lemma sum_combine {A} (d : A) (f : A * R -> R) (K : list A) (c : list R) : List.length K = List.length c ->
  sum (map f (combine K c)) = Sum (List.length c) (fun i => f (nth i K d, nth i c 0)).
Proof.
  revert K. induction c as [|x c IH]; intros [|k K] H; try discriminate; [reflexivity|].
  cbn [combine map sum]. cbn [List.length]. rewrite Sum_first. cbn [nth]. f_equal. apply IH. now injection H.
Qed.

Lemma quad_form_Sum K n c : shape2 K n n -> List.length c = n ->
  quad_form K c = Sum n (fun i => Sum n (fun j => nth i c 0 * nth j c 0 * get2 K i j)).
Proof.
  intros [L F] Hc. unfold quad_form. rewrite (sum_combine [] _ K c) by congruence. rewrite Hc. apply Sum_ext. intros i Hi.
  cbn [fst snd]. rewrite (sum_combine 0 _ (nth i K []) c).
  - rewrite Hc. cbn [fst snd]. rewrite <- Sum_scal. apply Sum_ext. intros j Hj. unfold get2. ring.
  - rewrite Forall_forall in F. rewrite Hc. apply F. apply nth_In. lia.
Qed.

Lemma pd_Sum K n (c : nat -> R) : shape2 K n n -> positive_definite K -> (exists i, (i < n)%nat /\ c i <> 0) ->
  0 < Sum n (fun i => Sum n (fun j => c i * c j * get2 K i j)).
Proof.
  intros Sh P [i [Hi Ni]]. set (l := map c (seq 0 n)).
  assert (L : List.length l = n) by (unfold l; now rewrite map_length, seq_length).
  assert (E : forall k, (k < n)%nat -> nth k l 0 = c k).
  { intros k Hk. unfold l. rewrite (nth_indep _ 0 (c O)) by (fold l; lia). rewrite map_nth, seq_nth by lia. reflexivity. }
  assert (Q : 0 < quad_form K l).
  { apply P; [rewrite L; symmetry; apply Sh|]. exists (c i). split; auto. unfold l. apply in_map, in_seq. lia. }
  rewrite (quad_form_Sum K n l Sh L) in Q. erewrite Sum_ext; [exact Q|]. intros a Ha. apply Sum_ext. intros b Hb.
  cbv beta. now rewrite !E by auto.
Qed.

(** * The entries of what the model computes *)
Section Entries.
Context (N : numdom) (so : setorder) (ofR : R -> N) (Ho : forall r, val (ofR r) = r).
Context (m : gpcm) (M : moderate_model m).
Notation nu := (List.length (g_t_u m)).
Notation nz := (List.length (g_t_z m)).
Notation tu := (fun i => nth i (g_t_u m) 0).
Notation tz := (fun i => nth i (g_t_z m) 0).

Lemma Ku_get K i j : compute_K_u N so ofR m = Ok K -> (i < nu)%nat -> (j < nu)%nat -> get2 K i j = kh m (tu i) (tu j).
Proof.
  intros H Hi Hj. apply at2_get2.
  exact (proj1 (proj2 (proj2 (C21_K_u N so ofR m Ho) K H)) i j _ _ (nth_error_get _ _ Hi) (nth_error_get _ _ Hj)).
Qed.
Lemma Ku_pd K c : compute_K_u N so ofR m = Ok K -> 0 < g_gamma m -> g_alpha_t m <> 0 -> NoDup (g_t_u m) ->
  (exists i, (i < nu)%nat /\ c i <> 0) -> 0 < Sum nu (fun i => Sum nu (fun j => c i * c j * get2 K i j)).
Proof.
  intros H Pg Na ND. apply pd_Sum; [exact (proj1 (proj2 (C21_K_u N so ofR m Ho) K H))|].
  now apply (C84_K_u N so ofR m K Ho H Pg Na).
Qed.

Lemma Kz_get K i j : compute_K_z N so ofR m = Ok K -> (i < nz)%nat -> (j < nz)%nat ->
  is_integral (fun tau => kxs m (tz i) tau * kxs m tau (tz j)) m_infty p_infty (get2 K i j).
Proof.
  intros H Hi Hj.
  destruct (proj1 (proj2 (proj2 (C22_K_z N so ofR m Ho (proj2 M)) K H)) i j _ _ (nth_error_get _ _ Hi) (nth_error_get _ _ Hj)) as [v [E I]].
  now rewrite (at2_get2 _ _ _ _ E).
Qed.
Lemma Kz_pd K c : compute_K_z N so ofR m = Ok K -> g_omega_t m <> 0 -> NoDup (g_t_z m) ->
  (exists i, (i < nz)%nat /\ c i <> 0) -> 0 < Sum nz (fun i => Sum nz (fun j => c i * c j * get2 K i j)).
Proof.
  intros H No ND. apply pd_Sum; [exact (proj1 (proj2 (C22_K_z N so ofR m Ho (proj2 M)) K H))|].
  now apply (C84_K_z N so ofR m K Ho H (proj2 M) No).
Qed.
Lemma Ku_symm K i j : compute_K_u N so ofR m = Ok K -> (i < nu)%nat -> (j < nu)%nat -> get2 K i j = get2 K j i.
Proof. intros H Hi Hj. rewrite !(Ku_get K) by auto. unfold kh. do 2 f_equal. ring. Qed.
Lemma Kz_symm K i j : compute_K_z N so ofR m = Ok K -> (i < nz)%nat -> (j < nz)%nat -> get2 K i j = get2 K j i.
Proof.
  intros H Hi Hj. eapply is_integral_unique; [exact (Kz_get K i j H Hi Hj)|].
  eapply is_integral_ext; [|exact (Kz_get K j i H Hj Hi)]. intros x. cbv beta.
  rewrite (kxs_sym m (nth j (g_t_z m) 0)), (kxs_sym m x (nth i (g_t_z m) 0)). ring.
Qed.

Lemma hx_get t v : compute_i_hx N so ofR m (Some t) (Some t) = Ok v ->
  is_integral (fun tau => kh m (t - tau) (t - tau)) m_infty (upto m t) v.
Proof.
  intros H. pose proof (i_hx_spec N so ofR Ho m t t v (proj1 (proj1 M)) H) as I.
  rewrite Rmin_left in I by lra. exact I.
Qed.

(** The integrals at pairs of times. *)
Lemma ux4_get T t t' i j : compute_I_ux4 N so ofR m (Some [t]) (Some [t']) = Ok [[T]] -> (i < nu)%nat -> (j < nu)%nat ->
  is_integral (fun tau => kh m (t - tau) (tu i) * kh m (tu j) (t' - tau)) m_infty (upto m (Rmin t t')) (get2 T i j).
Proof.
  intros H Hi Hj. destruct (I_ux4_inv N so ofR m [t] [t'] [[T]] Ho (proj1 M) H) as [Sh E].
  destruct (shape4_at _ _ _ _ _ 0 0 i j Sh) as [v Hv]; auto.
  destruct (E _ _ _ _ _ Hv) as (t1 & t2 & u1 & u2 & A & B & C & D & I).
  injection A as <-. injection B as <-. rewrite nth_error_get in C, D by auto. injection C as <-. injection D as <-.
  replace (get2 T i j) with v by (symmetry; apply at2_get2; exact Hv). exact I.
Qed.
Lemma ux4_total t t' : tensors N -> exists T, compute_I_ux4 N so ofR m (Some [t]) (Some [t']) = Ok [[T]].
Proof.
  intros Te. destruct (I_ux_total N so ofR Ho Te m (Some [t]) (Some [t']) (proj1 M)) as [T4 H].
  destruct (I_ux4_inv N so ofR m [t] [t'] T4 Ho (proj1 M) H) as [[L F] _].
  destruct T4 as [|X [|]]; try discriminate L. apply Forall_inv in F. destruct F as [L' F].
  destruct X as [|Y [|]]; try discriminate L'. eauto.
Qed.

(** The integrals at time zero serve every time. *)
Lemma ux_get T t i j : compute_I_ux N so ofR m = Ok T -> (i < nu)%nat -> (j < nu)%nat ->
  is_integral (fun tau => kh m (t - tau) (tu i) * kh m (tu j) (t - tau)) m_infty (upto m t) (get2 T i j).
Proof.
  intros H Hi Hj. unfold compute_I_ux in H. apply bind_Ok in H. destruct H as [T4 [H4 H]].
  change (compute_I_ux4 N so ofR m None None) with (compute_I_ux4 N so ofR m (Some [0]) (Some [0])) in H4.
  destruct (I_ux4_inv N so ofR m [0] [0] T4 Ho (proj1 M) H4) as [Sh E].
  destruct T4 as [|[|X ?] ?]; try discriminate H. injection H as <-.
  destruct (shape4_at _ _ _ _ _ 0 0 i j Sh) as [v Hv]; auto.
  destruct (E _ _ _ _ _ Hv) as (t1 & t2 & u1 & u2 & A & B & C & D & I).
  injection A as <-. injection B as <-. rewrite nth_error_get in C, D by auto. injection C as <-. injection D as <-.
  replace (get2 X i j) with v by (symmetry; apply at2_get2; exact Hv).
  rewrite Rmin_left in I by lra.
  eapply is_integral_ext; [|apply (is_integral_shift (fun tau => kh m (0 - tau) (tu i) * kh m (tu j) (0 - tau)) (- t) m_infty (upto m t) v)].
  - intros x. cbv beta. f_equal; f_equal; ring.
  - unfold upto in *. destruct (g_causal m); simpl lim_affine; auto. replace (1 * t + - t) with 0 by ring. exact I.
Qed.

Lemma uz_get l T a i k : compute_I_uz N so ofR m l = Ok T -> (a < List.length l)%nat -> (i < nu)%nat -> (k < nz)%nat ->
  is_integral (fun tau => kh m (nth a l 0 - tau) (tu i) * kxs m tau (tz k)) m_infty (upto m (nth a l 0)) (get3 T a i k).
Proof.
  intros H Ha Hi Hk. destruct (proj2 (C26_I_uz N so ofR m l Ho M) T H) as [Sh E].
  destruct (E a i k _ _ _ (nth_error_get _ _ Ha) (nth_error_get _ _ Hi) (nth_error_get _ _ Hk)) as [v [Hv I]].
  rewrite (at3_get3 _ _ _ _ _ Hv). exact I.
Qed.
Lemma hz_get l T a k k' : compute_I_hz N so ofR m l = Ok T -> (a < List.length l)%nat -> (k < nz)%nat -> (k' < nz)%nat ->
  is_integral2 (fun tau1 tau2 => kh m (nth a l 0 - tau1) (nth a l 0 - tau2) * kxs m tau1 (tz k) * kxs m (tz k') tau2)
    m_infty (upto m (nth a l 0)) m_infty (upto m (nth a l 0)) (get3 T a k k').
Proof.
  intros H Ha Hi Hk. destruct (proj2 (C25_I_hz N so ofR m l Ho M) T H) as [Sh [E _]].
  destruct (E a k k' _ _ _ (nth_error_get _ _ Ha) (nth_error_get _ _ Hi) (nth_error_get _ _ Hk)) as [v [Hv I]].
  rewrite (at3_get3 _ _ _ _ _ Hv). exact I.
Qed.

Lemma hxs_get l hx a : mapM (fun s => compute_i_hx N so ofR m (Some s) (Some s)) l = Ok hx -> (a < List.length l)%nat ->
  is_integral (fun tau => kh m (nth a l 0 - tau) (nth a l 0 - tau)) m_infty (upto m (nth a l 0)) (nth a hx 0).
Proof.
  intros H. apply mapM_Ok in H. revert a. induction H as [|x y l hx E F IH]; intros a Ha; [cbn in Ha; lia|].
  destruct a as [|a]; [now apply hx_get|]. cbn [nth]. apply IH. cbn in Ha. lia.
Qed.

(** Everything that the approximations need, in sums over indices. *)
Context (Pg : 0 < g_gamma m) (l : list R) (Ku Kz : list (list R)) (hx : list R) (ux : list (list R)) (hz uz : list (list (list R))).
Hypothesis HKu : compute_K_u N so ofR m = Ok Ku.
Hypothesis HKz : compute_K_z N so ofR m = Ok Kz.
Hypothesis Hhx : mapM (fun s => compute_i_hx N so ofR m (Some s) (Some s)) l = Ok hx.
Hypothesis Hux : compute_I_ux N so ofR m = Ok ux.
Hypothesis Hhz : compute_I_hz N so ofR m l = Ok hz.
Hypothesis Huz : compute_I_uz N so ofR m l = Ok uz.

Let Pa : 0 < g_alpha m := moderate_pos _ (proj1 (proj1 M)).
Let Po : 0 < g_omega m := moderate_pos _ (proj2 M).

Lemma ux_symm i j : (i < nu)%nat -> (j < nu)%nat -> get2 ux i j = get2 ux j i.
Proof. exact (ux_sym m Pg 0 nu tu (get2 ux) (fun a b => ux_get ux 0 a b Hux) i j). Qed.
Lemma hz_symm a i j : (a < List.length l)%nat -> (i < nz)%nat -> (j < nz)%nat -> get3 hz a i j = get3 hz a j i.
Proof. intros Ha. exact (hz_sym m Pa Pg Po (nth a l 0) nz tz (get3 hz a) (fun k k' => hz_get l hz a k k' Hhz Ha) i j). Qed.

Lemma facts_joint1 a (x w : nat -> R) : (a < List.length l)%nat ->
  0 <= Sum nu (fun i => Sum nu (fun j => x i * x j * get2 ux i j))
       + 2 * Sum nu (fun i => x i * Sum nz (fun k => w k * get3 uz a i k))
       + Sum nz (fun k => Sum nz (fun k' => w k * w k' * get2 Kz k k')).
Proof.
  intros Ha. exact (gpcm_joint1 m Pa Pg Po (nth a l 0) nu nz tu tz (get2 ux) (get3 uz a) (get2 Kz)
    (fun i j => ux_get ux (nth a l 0) i j Hux) (fun i k => uz_get l uz a i k Huz Ha) (fun k k' => Kz_get Kz k k' HKz) x w).
Qed.
Lemma facts_joint2 a (x w : nat -> R) : (a < List.length l)%nat ->
  0 <= Sum nz (fun k => Sum nz (fun k' => w k * w k' * get3 hz a k k'))
       + 2 * Sum nu (fun i => x i * Sum nz (fun k => w k * get3 uz a i k))
       + Sum nu (fun i => Sum nu (fun j => x i * x j * get2 Ku i j)).
Proof.
  intros Ha. pose proof (gpcm_joint2 m Pa Pg Po (nth a l 0) nu nz tu tz (get3 uz a) (get3 hz a)
    (fun i k => uz_get l uz a i k Huz Ha) (fun k k' => hz_get l hz a k k' Hhz Ha) x w) as J.
  eapply Rle_trans; [exact J|]. right. f_equal. apply Sum_ext. intros i Hi. apply Sum_ext. intros j Hj. f_equal.
  symmetry. now apply Ku_get.
Qed.
Lemma facts_residual a (Wu Wz : nat -> nat -> R) : (a < List.length l)%nat ->
  (forall i j, (i < nu)%nat -> (j < nu)%nat -> Wu i j = Wu j i) ->
  (forall i j, (i < nu)%nat -> (j < nu)%nat -> Sum nu (fun k => Sum nu (fun k' => Wu k i * get2 Ku k k' * Wu k' j)) = Wu i j) ->
  (forall i j, (i < nz)%nat -> (j < nz)%nat -> Sum nz (fun k => Sum nz (fun k' => Wz k i * get2 Kz k k' * Wz k' j)) = Wz i j) ->
  0 <= nth a hx 0 - Sum nu (fun i => Sum nu (fun j => Wu i j * get2 ux i j))
       - Sum nz (fun k => Sum nz (fun k' => Wz k k' * get3 hz a k k'))
       + Sum nz (fun k => Sum nz (fun k' => Wz k k' *
           Sum nu (fun i => Sum nu (fun j => Wu i j * (get3 uz a i k * get3 uz a j k'))))).
Proof.
  intros Ha Ws Iu Iz. apply (gpcm_residual m Pa Pg Po (nth a l 0) nu nz tu tz (nth a hx 0) (get2 ux) (get3 uz a) (get3 hz a) (get2 Kz)); auto.
  - now apply hxs_get.
  - intros i j. now apply ux_get.
  - intros i k. now apply uz_get.
  - intros k k'. now apply hz_get.
  - intros k k'. now apply Kz_get.
  - intros i j Hi Hj. rewrite <- (Iu i j Hi Hj). apply Sum_ext. intros k Hk. apply Sum_ext. intros k' Hk'.
    now rewrite (Ku_get Ku).
Qed.
End Entries.
