(** Every entry of the matrices and integrals of an RGPCM depends only on the inducing points and
    frequencies of its row and column. *)
From Coq Require Import Reals ZArith List Bool Lia Lra.
From Verif Require Import Py ExpPolyModel ExpPolyIntModel ListFacts RgpcmModel RgpcmSpec RgpcmPerm RgpcmUx RgpcmHz RgpcmUz GpcmEntries UnitProofs ReorderSpec.
Import ListNotations.
Local Open Scope R_scope.

Lemma nth_map_lt {A B} (f : A -> B) l i d e : (i < List.length l)%nat -> nth i (map f l) e = f (nth i l d).
Proof. intros H. rewrite (nth_indep _ e (f d)) by now rewrite map_length. apply map_nth. Qed.
Lemma table_get {A B} (f : A -> B -> R) l1 l2 d1 d2 i j : (i < List.length l1)%nat -> (j < List.length l2)%nat ->
  get2 (map (fun x => map (f x) l2) l1) i j = f (nth i l1 d1) (nth j l2 d2).
Proof. intros Hi Hj. unfold get2. rewrite (nth_map_lt _ l1 i d1) by auto. now rewrite (nth_map_lt _ l2 j d2). Qed.
Lemma mapM_nth {A B} (f : A -> res B) l ys i d e : mapM f l = Ok ys -> (i < List.length l)%nat -> f (nth i l d) = Ok (nth i ys e).
Proof.
  intros H. apply mapM_Ok in H. revert i. induction H as [|x y l ys E F IH]; intros [|i]; simpl; try lia; auto. intros Hi. apply IH. lia.
Qed.

Section Points.
Context (argsort argsort' : list Z -> list nat) (Ha : argsorts argsort) (Ha' : argsorts argsort').
Context (m : rgpcm) (tu : list R) (ms : list Z).
Notation m' := (with_features m tu ms).
Notation u i := (nth i (r_t_u m) 0).
Notation z i := (nth i (r_ms m) 0%Z).
Notation nu := (List.length (r_t_u m)).
Notation nz := (List.length (r_ms m)).
Notation nu' := (List.length tu).
Notation nz' := (List.length ms).
Hypothesis (Hal : 0 < r_alpha m) (Hl : 0 < r_lam m) (Hab : r_a m < r_b m) (HM : (0 <= r_m_max m)%Z).
Hypothesis (Hga : r_gamma m <> r_alpha m) (Hl2 : (r_gamma m - r_alpha m) ^ 2 <> r_lam m ^ 2).
Hypothesis (Hp : List.Forall (fun k => (0 <= k)%Z) (r_ms m)) (Hp' : List.Forall (fun k => (0 <= k)%Z) ms).

Lemma rKu_at K K' i j i' j' : rcompute_K_u m = Ok K -> rcompute_K_u m' = Ok K' ->
  (i < nu)%nat -> (j < nu)%nat -> (i' < nu')%nat -> (j' < nu')%nat -> nth i' tu 0 = u i -> nth j' tu 0 = u j -> get2 K' i' j' = get2 K i j.
Proof.
  unfold rcompute_K_u. cbn [r_gamma r_gamma_t r_t_u with_features]. intros H H' Hi Hj Hi' Hj' E1 E2.
  destruct (rdiv (r_gamma_t m ^ 2) (2 * r_gamma m)) as [c|]; [|discriminate]. cbn [bind] in H, H'. injection H as <-. injection H' as <-.
  rewrite (table_get (fun t1 t2 => c * exp (- r_gamma m * Rabs (t1 - t2))) _ _ 0 0) by auto.
  rewrite (table_get (fun t1 t2 => c * exp (- r_gamma m * Rabs (t1 - t2))) _ _ 0 0) by auto.
  now rewrite E1, E2.
Qed.

Definition rkz (als : list R) (ms : list Z) i j := (if Nat.eqb i j then nth i als 0 else 0) + K_z_beta m (nth i ms 0%Z) * K_z_beta m (nth j ms 0%Z).
Lemma rKz_get (n : rgpcm) l K : r_a n = r_a m -> r_b n = r_b m -> r_m_max n = r_m_max m -> r_lam n = r_lam m -> r_ms n = l -> rcompute_K_z n = Ok K ->
  exists als, mapM (K_z_alpha m) l = Ok als /\ forall i j, (i < List.length l)%nat -> (j < List.length l)%nat -> get2 K i j = rkz als l i j.
Proof.
  intros E1 E2 E3 E4 E5 H. unfold rcompute_K_z in H.
  assert (Ea : mapM (K_z_alpha n) (r_ms n) = mapM (K_z_alpha m) l).
  { rewrite E5. apply mapM_ext. intros k. unfold K_z_alpha. now rewrite E1, E2, E3, E4. }
  rewrite Ea, E5 in H. destruct (mapM (K_z_alpha m) l) as [als|] eqn:Em; [|discriminate]. exists als. split; auto.
  cbn [bind] in H. injection H as <-. intros i j Hi Hj.
  assert (L : List.length als = List.length l) by (apply mapM_Ok in Em; clear -Em; induction Em; simpl; auto).
  rewrite (table_get (fun p q => (if Nat.eqb (fst p) (fst q) then snd (snd p) else 0) + K_z_beta n (fst (snd p)) * K_z_beta n (fst (snd q))) _ _ (0%nat, (0%Z, 0)) (0%nat, (0%Z, 0)))
    by (rewrite !combine_length, seq_length; lia).
  rewrite !combine_nth by (rewrite ?combine_length, ?seq_length; lia). cbn [fst snd].
  rewrite !seq_nth by lia. cbn [Nat.add]. unfold rkz. unfold K_z_beta. now rewrite E3.
Qed.

Lemma rKz_at K K' i j i' j' : rcompute_K_z m = Ok K -> rcompute_K_z m' = Ok K' ->
  (i < nz)%nat -> (j < nz)%nat -> (i' < nz')%nat -> (j' < nz')%nat -> nth i' ms 0%Z = z i -> nth j' ms 0%Z = z j -> (i' = j' <-> i = j) ->
  get2 K' i' j' = get2 K i j.
Proof.
  intros H H' Hi Hj Hi' Hj' E1 E2 E3.
  destruct (rKz_get m (r_ms m) K) as [als [Em G]]; auto. destruct (rKz_get m' ms K') as [als' [Em' G']]; auto.
  rewrite G, G' by auto. unfold rkz. rewrite E1, E2. f_equal.
  assert (Eb : Nat.eqb i' j' = Nat.eqb i j) by (apply eq_true_iff_eq; rewrite !Nat.eqb_eq; auto). rewrite Eb.
  destruct (Nat.eqb i j); auto.
  pose proof (mapM_nth _ _ _ i 0%Z 0 Em Hi) as X. pose proof (mapM_nth _ _ _ i' 0%Z 0 Em' Hi') as X'. rewrite E1 in X'. congruence.
Qed.

Lemma rhx_same l : mapM (fun s => rcompute_i_hx m' (Some s) (Some s)) l = mapM (fun s => rcompute_i_hx m (Some s) (Some s)) l.
Proof. reflexivity. Qed.

Lemma rux_value (n : rgpcm) T : r_gamma n <> r_alpha n -> (r_gamma n - r_alpha n) ^ 2 <> r_lam n ^ 2 -> rcompute_I_ux n = Ok T ->
  T = map (fun u1 => map (fun u2 => ux_value n 0 0 u1 u2) (r_t_u n)) (r_t_u n).
Proof.
  intros H1 H2. unfold rcompute_I_ux, rcompute_I_ux4.
  rewrite (mapM_ext_In _ (fun t1 => map (fun t2 => map (fun u1 => map (ux_value n t1 t2 u1) (r_t_u n)) (r_t_u n)) [0])).
  - cbn. intros E. now injection E as <-.
  - intros t1 _. apply mapM_ext_In. intros t2 _. apply mapM_ext_In. intros u1 _. apply mapM_ext_In. intros u2 _. now apply ux_elem.
Qed.
Lemma rux_at T T' i j i' j' : rcompute_I_ux m = Ok T -> rcompute_I_ux m' = Ok T' ->
  (i < nu)%nat -> (j < nu)%nat -> (i' < nu')%nat -> (j' < nu')%nat -> nth i' tu 0 = u i -> nth j' tu 0 = u j -> get2 T' i' j' = get2 T i j.
Proof.
  intros H H' Hi Hj Hi' Hj' E1 E2. rewrite (rux_value m T Hga Hl2 H), (rux_value m' T' Hga Hl2 H'). cbn [r_t_u with_features].
  rewrite (table_get (fun u1 u2 => ux_value m 0 0 u1 u2) _ _ 0 0) by auto.
  rewrite (table_get (fun u1 u2 => ux_value m' 0 0 u1 u2) _ _ 0 0) by auto. now rewrite E1, E2.
Qed.

Lemma rhz_at l T T' a i k i' k' : rcompute_I_hz argsort m l = Ok T -> rcompute_I_hz argsort' m' l = Ok T' -> (a < List.length l)%nat ->
  (i < nz)%nat -> (k < nz)%nat -> (i' < nz')%nat -> (k' < nz')%nat -> nth i' ms 0%Z = z i -> nth k' ms 0%Z = z k -> get3 T' a i' k' = get3 T a i k.
Proof.
  intros H H' La Hi Hk Hi' Hk' E1 E2.
  assert (V : rcompute_I_hz argsort m l = Ok (map (fun t => map (fun i => map (hz m t i) (r_ms m)) (r_ms m)) l)).
  { unfold rcompute_I_hz. apply mapM_ext_In. intros t _. now apply (hz_at_value m). }
  assert (V' : rcompute_I_hz argsort' m' l = Ok (map (fun t => map (fun i => map (hz m' t i) ms) ms) l)).
  { unfold rcompute_I_hz. apply mapM_ext_In. intros t _. now apply (hz_at_value m'). }
  rewrite V in H. rewrite V' in H'. injection H as <-. injection H' as <-.
  unfold get3. rewrite !(nth_map_lt _ l a 0) by auto.
  rewrite (table_get (hz m (nth a l 0)) _ _ 0%Z 0%Z) by auto. rewrite (table_get (hz m' (nth a l 0)) _ _ 0%Z 0%Z) by auto. now rewrite E1, E2.
Qed.
Lemma ruz_at l T T' a i k i' k' : rcompute_I_uz argsort m l = Ok T -> rcompute_I_uz argsort' m' l = Ok T' -> (a < List.length l)%nat ->
  (i < nu)%nat -> (k < nz)%nat -> (i' < nu')%nat -> (k' < nz')%nat -> nth i' tu 0 = u i -> nth k' ms 0%Z = z k -> get3 T' a i' k' = get3 T a i k.
Proof.
  intros H H' La Hi Hk Hi' Hk' E1 E2.
  assert (V : rcompute_I_uz argsort m l = Ok (map (fun t => map (fun i => map (uz m t i) (r_ms m)) (r_t_u m)) l)).
  { unfold rcompute_I_uz. apply mapM_ext_In. intros t _. apply mapM_ext_In. intros v _. now apply (uz_at_value m). }
  assert (V' : rcompute_I_uz argsort' m' l = Ok (map (fun t => map (fun i => map (uz m' t i) ms) tu) l)).
  { unfold rcompute_I_uz. apply mapM_ext_In. intros t _. apply mapM_ext_In. intros v _. now apply (uz_at_value m'). }
  rewrite V in H. rewrite V' in H'. injection H as <-. injection H' as <-.
  unfold get3. rewrite !(nth_map_lt _ l a 0) by auto.
  rewrite (table_get (uz m (nth a l 0)) _ _ 0 0%Z) by auto. rewrite (table_get (uz m' (nth a l 0)) _ _ 0 0%Z) by auto. now rewrite E1, E2.
Qed.
End Points.
