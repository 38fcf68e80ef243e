(** The entries of the matrices and integrals of a GPCM and an RGPCM with the signal in another
    unit. *)
From Coq Require Import Reals ZArith List Bool String Lia Lra.
From Coquelicot Require Import Coquelicot.
From Verif Require Import Py ExpPolyModel ListFacts ExpPolySpec ExpPolyIntModel ExpPolyIntProofs.
From Verif Require Import Gauss Gauss2 Gauss3 Fubini ExpPolyIntProps GaussDom GaussFeat GaussFeat2.
From Verif Require Import GpcmModel GpcmSpec GpcmProofs GpcmProofs2 GpcmProofs3 GpcmTotal GpcmInit GpcmPsd GpcmPd GpcmProps GpcmProps2 GpcmProps3 GpcmFeat GpcmEntries GpcmGood.
From Verif Require Import RgpcmModel RgpcmSpec RgpcmPerm RgpcmUx RgpcmHz RgpcmUz UnitProofs RgpcmReorder.
From Verif Require Import ReorderSpec ReorderEntries LoudSpec.
Import ListNotations.
Local Open Scope R_scope.

Section Loud.
Context (c : R) (c0 : c <> 0).

Section Gpcm.
Context (N : numdom) (so so' : setorder) (ofR : R -> N) (Ho : forall r, val (ofR r) = r).
Context (m : gpcm) (M : moderate_model m).
Notation m' := (loud_gpcm c m).
Let M' : moderate_model m'. Proof. exact M. Qed.
Notation nu := (List.length (g_t_u m)).
Notation nz := (List.length (g_t_z m)).

Lemma kh_loud x y : kh m' x y = c * c * kh m x y.
Proof. unfold kh. cbn [g_alpha_t g_alpha g_gamma loud_gpcm]. ring. Qed.
Lemma good_loud : good_gpcm m -> good_gpcm m'.
Proof.
  intros (A & B & C & D & E & F & G). repeat split; try apply A; auto; cbn [loud_gpcm g_alpha_t g_noise].
  - now apply Rmult_integral_contrapositive_currified.
  - apply Rmult_lt_0_compat; auto. now apply Rlt_0_sqr.
Qed.

Lemma Ku_loud K K' i j : compute_K_u N so ofR m = Ok K -> compute_K_u N so' ofR m' = Ok K' ->
  (i < nu)%nat -> (j < nu)%nat -> get2 K' i j = c * c * get2 K i j.
Proof.
  intros H H' Hi Hj. rewrite (Ku_get N so ofR Ho m K i j H Hi Hj), (Ku_get N so' ofR Ho m' K' i j H' Hi Hj). apply kh_loud.
Qed.
Lemma Kz_loud K K' i j : compute_K_z N so ofR m = Ok K -> compute_K_z N so' ofR m' = Ok K' ->
  (i < nz)%nat -> (j < nz)%nat -> get2 K' i j = get2 K i j.
Proof.
  intros H H' Hi Hj. exact (is_integral_unique _ _ _ _ _ (Kz_get N so' ofR Ho m' M' K' i j H' Hi Hj) (Kz_get N so ofR Ho m M K i j H Hi Hj)).
Qed.
Lemma hx_loud t1 t2 v v' : compute_i_hx N so ofR m (Some t1) (Some t2) = Ok v ->
  compute_i_hx N so' ofR m' (Some t1) (Some t2) = Ok v' -> v' = c * c * v.
Proof.
  intros H H'. pose proof (i_hx_spec N so ofR Ho m t1 t2 v (proj1 (proj1 M)) H) as I.
  pose proof (i_hx_spec N so' ofR Ho m' _ _ v' (proj1 (proj1 M')) H') as I'.
  refine (is_integral_unique _ _ _ _ _ I' _). apply (is_integral_scal (c * c)) in I.
  eapply is_integral_ext; [|exact I]. intros x. cbv beta. symmetry. apply kh_loud.
Qed.
Lemma hxs_loud l hx hx' a : mapM (fun s => compute_i_hx N so ofR m (Some s) (Some s)) l = Ok hx ->
  mapM (fun s => compute_i_hx N so' ofR m' (Some s) (Some s)) l = Ok hx' -> (a < List.length l)%nat -> nth a hx' 0 = c * c * nth a hx 0.
Proof.
  intros H H' Ha. exact (hx_loud _ _ _ _ (mapM_nth _ _ _ a 0 0 H Ha) (mapM_nth _ _ _ a 0 0 H' Ha)).
Qed.
Lemma ux_loud T T' i j : compute_I_ux N so ofR m = Ok T -> compute_I_ux N so' ofR m' = Ok T' ->
  (i < nu)%nat -> (j < nu)%nat -> get2 T' i j = c * c * (c * c) * get2 T i j.
Proof.
  intros H H' Hi Hj. pose proof (ux_get N so ofR Ho m M T 0 i j H Hi Hj) as I.
  pose proof (ux_get N so' ofR Ho m' M' T' 0 i j H' Hi Hj) as I'.
  refine (is_integral_unique _ _ _ _ _ I' _). apply (is_integral_scal (c * c * (c * c))) in I.
  eapply is_integral_ext; [|exact I]. intros x. cbv beta. rewrite !kh_loud. cbn [g_t_u loud_gpcm]. ring.
Qed.
Lemma ux4_loud t1 t2 T T' i j : compute_I_ux4 N so ofR m (Some [t1]) (Some [t2]) = Ok [[T]] -> compute_I_ux4 N so' ofR m' (Some [t1]) (Some [t2]) = Ok [[T']] ->
  (i < nu)%nat -> (j < nu)%nat -> get2 T' i j = c * c * (c * c) * get2 T i j.
Proof.
  intros H H' Hi Hj. pose proof (ux4_get N so ofR Ho m M T t1 t2 i j H Hi Hj) as I.
  pose proof (ux4_get N so' ofR Ho m' M' T' t1 t2 i j H' Hi Hj) as I'.
  refine (is_integral_unique _ _ _ _ _ I' _). apply (is_integral_scal (c * c * (c * c))) in I.
  eapply is_integral_ext; [|exact I]. intros x. cbv beta. rewrite !kh_loud. cbn [g_t_u loud_gpcm]. ring.
Qed.
Lemma uz_loud l T T' a i k : compute_I_uz N so ofR m l = Ok T -> compute_I_uz N so' ofR m' l = Ok T' -> (a < List.length l)%nat ->
  (i < nu)%nat -> (k < nz)%nat -> get3 T' a i k = c * c * get3 T a i k.
Proof.
  intros H H' La Hi Hk. pose proof (uz_get N so ofR Ho m M l T a i k H La Hi Hk) as I.
  pose proof (uz_get N so' ofR Ho m' M' l T' a i k H' La Hi Hk) as I'.
  refine (is_integral_unique _ _ _ _ _ I' _). apply (is_integral_scal (c * c)) in I.
  eapply is_integral_ext; [|exact I]. intros x. cbv beta. rewrite !kh_loud. cbn [g_t_u g_t_z loud_gpcm].
  change (kxs m') with (kxs m). ring.
Qed.
Lemma integral2_scal a f lo1 hi1 lo2 hi2 v : is_integral2 f lo1 hi1 lo2 hi2 v -> is_integral2 (fun x y => a * f x y) lo1 hi1 lo2 hi2 (a * v).
Proof.
  intros [g [A B]]. exists (fun x => a * g x). split; [intros x; apply (is_integral_scal a), A|exact (is_integral_scal a _ _ _ _ B)].
Qed.
Lemma hz_loud l T T' a i k : compute_I_hz N so ofR m l = Ok T -> compute_I_hz N so' ofR m' l = Ok T' -> (a < List.length l)%nat ->
  (i < nz)%nat -> (k < nz)%nat -> get3 T' a i k = c * c * get3 T a i k.
Proof.
  intros H H' La Hi Hk. pose proof (hz_get N so ofR Ho m M l T a i k H La Hi Hk) as I.
  pose proof (hz_get N so' ofR Ho m' M' l T' a i k H' La Hi Hk) as I'.
  apply (integral2_scal (c * c)) in I.
  eapply integral2_unique; [exact I'|]. destruct I as [g [A B]]. exists g. split; [|exact B].
  intros x. eapply is_integral_ext; [|apply A]. intros y. cbv beta. rewrite !kh_loud. cbn [g_t_z loud_gpcm]. change (kxs m') with (kxs m). ring.
Qed.
End Gpcm.

Section Rgpcm.
Context (argsort argsort' : list Z -> list nat) (Ha : argsorts argsort) (Ha' : argsorts argsort').
Context (m : rgpcm).
Notation m' := (loud_rgpcm c m).
Notation nu := (List.length (r_t_u m)).
Notation nz := (List.length (r_ms m)).
Hypothesis (Hal : 0 < r_alpha m) (Hl : 0 < r_lam m) (Hab : r_a m < r_b m) (HM : (0 <= r_m_max m)%Z).
Hypothesis (Hga : r_gamma m <> r_alpha m) (Hl2 : (r_gamma m - r_alpha m) ^ 2 <> r_lam m ^ 2).
Hypothesis (Hp : List.Forall (fun k => (0 <= k)%Z) (r_ms m)).

Lemma rKu_loud : rcompute_K_u m' = rcompute_K_u m. Proof. reflexivity. Qed.
Lemma rKz_loud : rcompute_K_z m' = rcompute_K_z m. Proof. reflexivity. Qed.
Lemma rhx_loud t1 t2 v v' : rcompute_i_hx m t1 t2 = Ok v -> rcompute_i_hx m' t1 t2 = Ok v' -> v' = c * c * v.
Proof.
  unfold rcompute_i_hx. cbn [r_alpha_t r_alpha r_lam loud_rgpcm]. rewrite !rdiv_ok by lra.
  cbn [bind]. intros H H'. injection H as <-. injection H' as <-. field. lra.
Qed.
Lemma rhxs_loud l hx hx' a : mapM (fun s => rcompute_i_hx m (Some s) (Some s)) l = Ok hx ->
  mapM (fun s => rcompute_i_hx m' (Some s) (Some s)) l = Ok hx' -> (a < List.length l)%nat -> nth a hx' 0 = c * c * nth a hx 0.
Proof.
  intros H H' La. exact (rhx_loud _ _ _ _ (mapM_nth _ _ _ a 0 0 H La) (mapM_nth _ _ _ a 0 0 H' La)).
Qed.
Lemma rux_loud T T' i j : rcompute_I_ux m = Ok T -> rcompute_I_ux m' = Ok T' ->
  (i < nu)%nat -> (j < nu)%nat -> get2 T' i j = c * c * get2 T i j.
Proof.
  intros H H' Hi Hj. rewrite (rux_value m T Hga Hl2 H), (rux_value m' T' Hga Hl2 H'). cbn [r_t_u loud_rgpcm].
  rewrite (table_get (fun u1 u2 => ux_value m 0 0 u1 u2) _ _ 0 0) by auto.
  rewrite (table_get (fun u1 u2 => ux_value m' 0 0 u1 u2) _ _ 0 0) by auto.
  unfold ux_value. cbv zeta. cbn [r_alpha_t r_alpha r_lam r_gamma r_gamma_t loud_rgpcm]. ring.
Qed.
Lemma rhz_loud l T T' a i k : rcompute_I_hz argsort m l = Ok T -> rcompute_I_hz argsort' m' l = Ok T' -> (a < List.length l)%nat ->
  (i < nz)%nat -> (k < nz)%nat -> get3 T' a i k = c * c * get3 T a i k.
Proof.
  intros H H' La Hi Hk.
  assert (V : rcompute_I_hz argsort m l = Ok (map (fun t => map (fun i => map (hz m t i) (r_ms m)) (r_ms m)) l)).
  { unfold rcompute_I_hz. apply mapM_ext_In. intros t _. now apply (hz_at_value m). }
  assert (V' : rcompute_I_hz argsort' m' l = Ok (map (fun t => map (fun i => map (hz m' t i) (r_ms m)) (r_ms m)) l)).
  { unfold rcompute_I_hz. apply mapM_ext_In. intros t _. now apply (hz_at_value m'). }
  rewrite V in H. rewrite V' in H'. injection H as <-. injection H' as <-.
  unfold get3. rewrite !(nth_map_lt _ l a 0) by auto.
  rewrite (table_get (hz m (nth a l 0)) _ _ 0%Z 0%Z) by auto. rewrite (table_get (hz m' (nth a l 0)) _ _ 0%Z 0%Z) by auto.
  assert (C : forall t n, cosv m' t n = c * c * cosv m t n) by (intros; unfold cosv; cbn [r_alpha_t r_alpha r_lam r_a loud_rgpcm]; change (om m') with (om m); change (RgpcmHz.tail m') with (RgpcmHz.tail m); ring).
  assert (S : forall t n, sinv m' t n = c * c * sinv m t n) by (intros; unfold sinv; cbn [r_alpha_t r_alpha r_lam r_a r_m_max loud_rgpcm]; change (om m') with (om m); ring).
  unfold hz, hz_cc, hz_cs, hz_ss. change (r_m_max m') with (r_m_max m). rewrite !C, !S.
  destruct (_ <=? _)%Z, (_ <=? _)%Z; ring.
Qed.
Lemma ruz_loud l T T' a i k : rcompute_I_uz argsort m l = Ok T -> rcompute_I_uz argsort' m' l = Ok T' -> (a < List.length l)%nat ->
  (i < nu)%nat -> (k < nz)%nat -> get3 T' a i k = c * get3 T a i k.
Proof.
  intros H H' La Hi Hk.
  assert (V : rcompute_I_uz argsort m l = Ok (map (fun t => map (fun i => map (uz m t i) (r_ms m)) (r_t_u m)) l)).
  { unfold rcompute_I_uz. apply mapM_ext_In. intros t _. apply mapM_ext_In. intros v _. now apply (uz_at_value m). }
  assert (V' : rcompute_I_uz argsort' m' l = Ok (map (fun t => map (fun i => map (uz m' t i) (r_ms m)) (r_t_u m)) l)).
  { unfold rcompute_I_uz. apply mapM_ext_In. intros t _. apply mapM_ext_In. intros v _. now apply (uz_at_value m'). }
  rewrite V in H. rewrite V' in H'. injection H as <-. injection H' as <-.
  unfold get3. rewrite !(nth_map_lt _ l a 0) by auto.
  rewrite (table_get (uz m (nth a l 0)) _ _ 0 0%Z) by auto. rewrite (table_get (uz m' (nth a l 0)) _ _ 0 0%Z) by auto.
  unfold uz. cbn [r_alpha_t r_gamma_t r_gamma r_m_max loud_rgpcm]. change (om m') with (om m). change (wcos m') with (wcos m). change (wsin m') with (wsin m). ring.
Qed.
End Rgpcm.
End Loud.
