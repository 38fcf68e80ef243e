(** The entries of the matrices and integrals of a non-causal GPCM do not depend on the direction
    of time. *)
From Coq Require Import Reals ZArith List Bool String Lia Lra.
From Coq Require FinFun.
From Coquelicot Require Import Coquelicot.
From Verif Require Import Py ExpPolyModel ListFacts ExpPolySpec ExpPolyIntModel ExpPolyIntProofs.
From Verif Require Import Gauss Gauss2 Gauss3 Fubini ExpPolyIntProps GaussDom GaussFeat GaussFeat2.
From Verif Require Import GpcmModel GpcmSpec GpcmProofs GpcmProofs2 GpcmProofs3 GpcmTotal GpcmInit GpcmPsd GpcmPd GpcmProps GpcmProps2 GpcmProps3 GpcmFeat GpcmEntries GpcmGood GpcmUnitEntries.
From Verif Require Import ReorderSpec ReorderEntries ReverseSpec.
Import ListNotations.
Local Open Scope R_scope.

(** The integral over the whole line of a reflected function. *)
Lemma line_back d f v : is_integral f m_infty p_infty v -> is_integral (fun x => f (d - x)) m_infty p_infty v.
Proof.
  intros H P HP. destruct (H P HP) as [Q1 Q2 [M1 HM1] [M2 HM2] H12].
  apply (Filter_prod _ _ _ (fun a => Q2 (d - a)) (fun b => Q1 (d - b))).
  - exists (d - M2). intros x Hx. apply HM2. lra.
  - exists (d - M1). intros x Hx. apply HM1. lra.
  - intros a b Ha Hb. destruct (H12 _ _ Hb Ha) as [y [Iy Py]]. exists y. split; [|exact Py]. cbn [fst snd] in *.
    apply is_RInt_swap in Iy.
    assert (L : is_RInt f (-1 * a + d) (-1 * b + d) (opp y)).
    { replace (-1 * a + d) with (d - a) by ring. replace (-1 * b + d) with (d - b) by ring. exact Iy. }
    apply is_RInt_comp_lin in L. apply is_RInt_opp in L. rewrite opp_opp in L.
    eapply is_RInt_ext; [|exact L]. intros x _. cbv beta. unfold opp, scal; simpl. unfold mult; simpl.
    replace (-1 * x + d) with (d - x) by ring. ring.
Qed.

Lemma kh_back m x y : kh m (- x) (- y) = kh m x y.
Proof. unfold kh. do 2 f_equal. ring. Qed.
Lemma kxs_back m d x y : kxs m (d - x) (d - y) = kxs m x y.
Proof. unfold kxs. do 2 f_equal. ring. Qed.
Lemma lag_back d t x : d - t - x = - (t - (d - x)). Proof. ring. Qed.

Section Back.
Context (d : R) (N : numdom) (so so' : setorder) (ofR : R -> N) (Ho : forall r, val (ofR r) = r).
Context (m : gpcm) (M : moderate_model m) (Nc : g_causal m = false).
Notation m' := (reflected d m).
Let M' : moderate_model m'. Proof. exact M. Qed.
Notation u i := (nth i (g_t_u m) 0).
Notation z i := (nth i (g_t_z m) 0).
Notation nu := (List.length (g_t_u m)).
Notation nz := (List.length (g_t_z m)).

Lemma nth_back e l i : (i < List.length l)%nat -> nth i (map (back e) l) 0 = e - nth i l 0.
Proof. intros H. rewrite (nth_indep _ 0 (back e 0)) by now rewrite map_length. now rewrite map_nth. Qed.
Lemma upto_nc n t : g_causal n = false -> upto n t = p_infty. Proof. unfold upto. now intros ->. Qed.

Lemma Ku_back K K' i j : compute_K_u N so ofR m = Ok K -> compute_K_u N so' ofR m' = Ok K' ->
  (i < nu)%nat -> (j < nu)%nat -> get2 K' i j = get2 K i j.
Proof.
  intros H H' Hi Hj. rewrite (Ku_get N so ofR Ho m K i j H Hi Hj).
  rewrite (Ku_get N so' ofR Ho m' K' i j H') by (cbn [g_t_u reflected with_points]; now rewrite map_length).
  cbn [g_t_u reflected with_points]. rewrite !nth_back by auto. rewrite !Rminus_0_l. exact (kh_back m _ _).
Qed.
Lemma Kz_back K K' i j : compute_K_z N so ofR m = Ok K -> compute_K_z N so' ofR m' = Ok K' ->
  (i < nz)%nat -> (j < nz)%nat -> get2 K' i j = get2 K i j.
Proof.
  intros H H' Hi Hj. pose proof (Kz_get N so ofR Ho m M K i j H Hi Hj) as I.
  pose proof (Kz_get N so' ofR Ho m' M' K' i j H') as I'. cbn [g_t_z reflected with_points] in I'. rewrite map_length in I'. specialize (I' Hi Hj).
  cbv beta in I, I'. rewrite !nth_back in I' by auto. apply (line_back d) in I. refine (is_integral_unique _ _ _ _ _ I' _).
  eapply is_integral_ext; [|exact I]. intros x. cbv beta. rewrite <- (kxs_back m d (z i)), <- (kxs_back m d (d - x)).
  now replace (d - (d - x)) with x by ring.
Qed.
Lemma hx_back e t1 t2 v v' : compute_i_hx N so ofR m (Some t1) (Some t2) = Ok v ->
  compute_i_hx N so' ofR m' (Some (back e t1)) (Some (back e t2)) = Ok v' -> v' = v.
Proof.
  intros H H'. pose proof (i_hx_spec N so ofR Ho m t1 t2 v (proj1 (proj1 M)) H) as I.
  pose proof (i_hx_spec N so' ofR Ho m' _ _ v' (proj1 (proj1 M')) H') as I'.
  rewrite upto_nc in I, I' by auto. apply (line_back e) in I. refine (is_integral_unique _ _ _ _ _ I' _).
  eapply is_integral_ext; [|exact I]. intros x. cbv beta. unfold back. rewrite !lag_back. symmetry. exact (kh_back m _ _).
Qed.
Lemma hxs_back l hx hx' a : mapM (fun s => compute_i_hx N so ofR m (Some s) (Some s)) l = Ok hx ->
  mapM (fun s => compute_i_hx N so' ofR m' (Some s) (Some s)) (map (back d) l) = Ok hx' -> (a < List.length l)%nat -> nth a hx' 0 = nth a hx 0.
Proof.
  intros H H' Ha. pose proof (hxs_get N so ofR Ho m M l hx a H Ha) as I.
  pose proof (hxs_get N so' ofR Ho m' M' (map (back d) l) hx' a H') as I'. rewrite map_length in I'. specialize (I' Ha).
  rewrite nth_back, upto_nc in I' by auto. rewrite upto_nc in I by auto. apply (line_back d) in I. refine (is_integral_unique _ _ _ _ _ I' _).
  eapply is_integral_ext; [|exact I]. intros x. cbv beta. rewrite !lag_back. symmetry. exact (kh_back m _ _).
Qed.
Lemma ux4_back e l1 l2 T T' a b i j v v' : compute_I_ux4 N so ofR m (Some l1) (Some l2) = Ok T ->
  compute_I_ux4 N so' ofR m' (Some (map (back e) l1)) (Some (map (back e) l2)) = Ok T' ->
  at4 T a b i j = Some v -> at4 T' a b i j = Some v' -> v' = v.
Proof.
  intros H H' A A'. destruct (I_ux4_inv N so ofR m l1 l2 T Ho (proj1 M) H) as [_ E].
  destruct (I_ux4_inv N so' ofR m' _ _ T' Ho (proj1 M') H') as [_ E'].
  destruct (E _ _ _ _ _ A) as (t1 & t2 & u1 & u2 & B1 & B2 & B3 & B4 & I).
  destruct (E' _ _ _ _ _ A') as (t1' & t2' & u1' & u2' & B1' & B2' & B3' & B4' & I').
  cbn [g_t_u reflected with_points] in B3', B4'. rewrite nth_error_map, B1 in B1'. rewrite nth_error_map, B2 in B2'. rewrite nth_error_map, B3 in B3'. rewrite nth_error_map, B4 in B4'.
  injection B1' as <-. injection B2' as <-. injection B3' as <-. injection B4' as <-.
  rewrite upto_nc in I, I' by auto. apply (line_back e) in I. refine (is_integral_unique _ _ _ _ _ I' _).
  eapply is_integral_ext; [|exact I]. intros x. cbv beta. unfold back. rewrite !Rminus_0_l, !lag_back.
  rewrite <- (kh_back m), <- (kh_back m u2). reflexivity.
Qed.
Lemma ux_back T T' i j : compute_I_ux N so ofR m = Ok T -> compute_I_ux N so' ofR m' = Ok T' ->
  (i < nu)%nat -> (j < nu)%nat -> get2 T' i j = get2 T i j.
Proof.
  intros H H' Hi Hj. pose proof (ux_get N so ofR Ho m M T d i j H Hi Hj) as I.
  pose proof (ux_get N so' ofR Ho m' M' T' 0 i j H') as I'. cbn [g_t_u reflected with_points] in I'. rewrite map_length in I'. specialize (I' Hi Hj).
  cbv beta in I, I'. rewrite !nth_back, upto_nc in I' by auto. rewrite upto_nc in I by auto. apply (line_back d) in I. refine (is_integral_unique _ _ _ _ _ I' _).
  eapply is_integral_ext; [|exact I]. intros x. cbv beta. rewrite !Rminus_0_l. replace (d - (d - x)) with (- (- x)) by ring.
  rewrite <- (kh_back m (- - x)), <- (kh_back m (u j)), !Ropp_involutive. reflexivity.
Qed.
Lemma uz_back l T T' a i k : compute_I_uz N so ofR m l = Ok T -> compute_I_uz N so' ofR m' (map (back d) l) = Ok T' -> (a < List.length l)%nat ->
  (i < nu)%nat -> (k < nz)%nat -> get3 T' a i k = get3 T a i k.
Proof.
  intros H H' Ha Hi Hk. pose proof (uz_get N so ofR Ho m M l T a i k H Ha Hi Hk) as I.
  pose proof (uz_get N so' ofR Ho m' M' (map (back d) l) T' a i k H') as I'. cbn [g_t_u g_t_z reflected with_points] in I'. rewrite !map_length in I'. specialize (I' Ha Hi Hk).
  cbv beta in I, I'. rewrite !nth_back, upto_nc in I' by auto. rewrite upto_nc in I by auto. apply (line_back d) in I. refine (is_integral_unique _ _ _ _ _ I' _).
  eapply is_integral_ext; [|exact I]. intros x. cbv beta. change (kh (reflected d m)) with (kh m). change (kxs (reflected d m)) with (kxs m). rewrite !Rminus_0_l, !lag_back.
  rewrite <- (kh_back m (- (nth a l 0 - (d - x)))), <- (kxs_back m d (d - x)), !Ropp_involutive. now replace (d - (d - x)) with x by ring.
Qed.
Lemma hz_back l T T' a i k : compute_I_hz N so ofR m l = Ok T -> compute_I_hz N so' ofR m' (map (back d) l) = Ok T' -> (a < List.length l)%nat ->
  (i < nz)%nat -> (k < nz)%nat -> get3 T' a i k = get3 T a i k.
Proof.
  intros H H' Ha Hi Hk. pose proof (hz_get N so ofR Ho m M l T a i k H Ha Hi Hk) as I.
  pose proof (hz_get N so' ofR Ho m' M' (map (back d) l) T' a i k H') as I'. cbn [g_t_z reflected with_points] in I'. rewrite !map_length in I'. specialize (I' Ha Hi Hk).
  cbv beta in I, I'. rewrite !nth_back, upto_nc in I' by auto. rewrite upto_nc in I by auto.
  refine (integral2_unique _ _ _ _ _ _ _ I' _). destruct I as [g [I1 I2]]. exists (fun x => g (d - x)). split; [|now apply line_back].
  intros x. specialize (I1 (d - x)). apply (line_back d) in I1. eapply is_integral_ext; [|exact I1]. intros y. cbv beta. change (kh (reflected d m)) with (kh m). change (kxs (reflected d m)) with (kxs m). rewrite !lag_back.
  rewrite <- (kh_back m (- (nth a l 0 - (d - x)))), <- (kxs_back m d (d - x)), <- (kxs_back m d (z k)), !Ropp_involutive.
  now replace (d - (d - x)) with x by ring; replace (d - (d - y)) with y by ring.
Qed.
End Back.

Lemma back_NoDup e l : NoDup l -> NoDup (map (back e) l).
Proof. apply FinFun.Injective_map_NoDup. intros x y. unfold back. lra. Qed.
Lemma good_back d m : good_gpcm m -> good_gpcm (reflected d m).
Proof. intros G. apply good_points; auto; apply back_NoDup; apply G. Qed.
Lemma good_mirror d m : good_gpcm m -> good_gpcm (mirrored d m).
Proof. intros G. apply good_points; auto; apply NoDup_rev, back_NoDup; apply G. Qed.
