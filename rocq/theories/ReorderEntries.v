(** Every entry of the matrices and integrals of a GPCM depends only on the inducing points of
    its row and column. *)
From Coq Require Import Reals ZArith List Bool String Lia Lra.
From Coquelicot Require Import Coquelicot.
From Verif Require Import Py ExpPolyModel ListFacts ExpPolySpec ExpPolyIntModel ExpPolyIntProofs.
From Verif Require Import Gauss Gauss2 Gauss3 Fubini ExpPolyIntProps GaussDom GaussFeat GaussFeat2.
From Verif Require Import GpcmModel GpcmSpec GpcmProofs GpcmProofs2 GpcmProofs3 GpcmTotal GpcmInit GpcmPsd GpcmPd GpcmProps GpcmProps2 GpcmProps3 GpcmFeat GpcmEntries GpcmGood.
From Verif Require Import ReorderSpec.
Import ListNotations.
Local Open Scope R_scope.

Section Points.
Context (N : numdom) (so so' : setorder) (ofR : R -> N) (Ho : forall r, val (ofR r) = r).
Context (m : gpcm) (M : moderate_model m) (tu tz : list R).
Notation m' := (with_points m tu tz).
Let M' : moderate_model m'. Proof. exact M. Qed.
Notation u i := (nth i (g_t_u m) 0).
Notation z i := (nth i (g_t_z m) 0).
Notation nu := (List.length (g_t_u m)).
Notation nz := (List.length (g_t_z m)).
Notation nu' := (List.length tu).
Notation nz' := (List.length tz).

Lemma integral2_unique f lo1 hi1 lo2 hi2 v v' : is_integral2 f lo1 hi1 lo2 hi2 v -> is_integral2 f lo1 hi1 lo2 hi2 v' -> v = v'.
Proof.
  intros [g [I1 I2]] [g' [I1' I2']]. eapply is_integral_unique; [exact I2|].
  eapply is_integral_ext; [|exact I2']. intros x. eapply is_integral_unique; [apply I1'|apply I1].
Qed.

Lemma Ku_at K K' i j i' j' : compute_K_u N so ofR m = Ok K -> compute_K_u N so' ofR m' = Ok K' ->
  (i < nu)%nat -> (j < nu)%nat -> (i' < nu')%nat -> (j' < nu')%nat -> nth i' tu 0 = u i -> nth j' tu 0 = u j -> get2 K' i' j' = get2 K i j.
Proof.
  intros H H' Hi Hj Hi' Hj' E1 E2. rewrite (Ku_get N so ofR Ho m K i j H Hi Hj), (Ku_get N so' ofR Ho m' K' i' j' H' Hi' Hj').
  cbn [g_t_u with_points]. rewrite E1, E2. reflexivity.
Qed.
Lemma Kz_at K K' i j i' j' : compute_K_z N so ofR m = Ok K -> compute_K_z N so' ofR m' = Ok K' ->
  (i < nz)%nat -> (j < nz)%nat -> (i' < nz')%nat -> (j' < nz')%nat -> nth i' tz 0 = z i -> nth j' tz 0 = z j -> get2 K' i' j' = get2 K i j.
Proof.
  intros H H' Hi Hj Hi' Hj' E1 E2. pose proof (Kz_get N so ofR Ho m M K i j H Hi Hj) as I. pose proof (Kz_get N so' ofR Ho m' M' K' i' j' H' Hi' Hj') as I'.
  cbn [g_t_z with_points] in I'. cbv beta in I, I'. rewrite E1, E2 in I'. exact (is_integral_unique _ _ _ _ _ I' I).
Qed.
Lemma hx_at l hx hx' a : mapM (fun s => compute_i_hx N so ofR m (Some s) (Some s)) l = Ok hx ->
  mapM (fun s => compute_i_hx N so' ofR m' (Some s) (Some s)) l = Ok hx' -> (a < List.length l)%nat -> nth a hx' 0 = nth a hx 0.
Proof.
  intros H H' Ha. pose proof (hxs_get N so ofR Ho m M l hx a H Ha) as I. pose proof (hxs_get N so' ofR Ho m' M' l hx' a H' Ha) as I'.
  exact (is_integral_unique _ _ _ _ _ I' I).
Qed.
Lemma ux_at T T' i j i' j' : compute_I_ux N so ofR m = Ok T -> compute_I_ux N so' ofR m' = Ok T' ->
  (i < nu)%nat -> (j < nu)%nat -> (i' < nu')%nat -> (j' < nu')%nat -> nth i' tu 0 = u i -> nth j' tu 0 = u j -> get2 T' i' j' = get2 T i j.
Proof.
  intros H H' Hi Hj Hi' Hj' E1 E2. pose proof (ux_get N so ofR Ho m M T 0 i j H Hi Hj) as I. pose proof (ux_get N so' ofR Ho m' M' T' 0 i' j' H' Hi' Hj') as I'.
  cbn [g_t_u with_points] in I'. cbv beta in I, I'. rewrite E1, E2 in I'. exact (is_integral_unique _ _ _ _ _ I' I).
Qed.
Lemma uz_at l T T' a i k i' k' : compute_I_uz N so ofR m l = Ok T -> compute_I_uz N so' ofR m' l = Ok T' -> (a < List.length l)%nat ->
  (i < nu)%nat -> (k < nz)%nat -> (i' < nu')%nat -> (k' < nz')%nat -> nth i' tu 0 = u i -> nth k' tz 0 = z k -> get3 T' a i' k' = get3 T a i k.
Proof.
  intros H H' Ha Hi Hk Hi' Hk' E1 E2. pose proof (uz_get N so ofR Ho m M l T a i k H Ha Hi Hk) as I. pose proof (uz_get N so' ofR Ho m' M' l T' a i' k' H' Ha Hi' Hk') as I'.
  cbn [g_t_u g_t_z with_points] in I'. cbv beta in I, I'. rewrite E1, E2 in I'. exact (is_integral_unique _ _ _ _ _ I' I).
Qed.
Lemma hz_at l T T' a i k i' k' : compute_I_hz N so ofR m l = Ok T -> compute_I_hz N so' ofR m' l = Ok T' -> (a < List.length l)%nat ->
  (i < nz)%nat -> (k < nz)%nat -> (i' < nz')%nat -> (k' < nz')%nat -> nth i' tz 0 = z i -> nth k' tz 0 = z k -> get3 T' a i' k' = get3 T a i k.
Proof.
  intros H H' Ha Hi Hk Hi' Hk' E1 E2. pose proof (hz_get N so ofR Ho m M l T a i k H Ha Hi Hk) as I. pose proof (hz_get N so' ofR Ho m' M' l T' a i' k' H' Ha Hi' Hk') as I'.
  cbn [g_t_u g_t_z with_points] in I'. cbv beta in I, I'. rewrite E1, E2 in I'. exact (integral2_unique _ _ _ _ _ _ _ I' I).
Qed.
End Points.

Lemma good_points m tu tz : good_gpcm m -> NoDup tu -> NoDup tz -> good_gpcm (with_points m tu tz).
Proof. intros (A & B & C & D & E & F & G) H1 H2. repeat (split; [assumption|]). exact G. Qed.
