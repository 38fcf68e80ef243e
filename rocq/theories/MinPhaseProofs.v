(** Proofs about [min_phase]: discrete Fourier transforms. *)
From Coq Require Import Reals List Arith Lra Lia Psatz FunctionalExtensionality.
From Verif Require Import Py UtilSpec UtilProofs.
From Coquelicot Require Import Complex.
From Verif Require Import MinPhaseModel MinPhaseSpec.
Import ListNotations.
Local Open Scope R_scope.

Lemma csumn_total n f : csumn n f = (total n (fun i => fst (f i)), total n (fun i => snd (f i))).
Proof.
  unfold csumn. assert (G : forall k s, fold_right Cplus 0%C (map f (seq s k))
    = (total k (fun i => fst (f (s + i)%nat)), total k (fun i => snd (f (s + i)%nat)))).
  { induction k as [|k IH]; intros s; [reflexivity|]. rewrite !total_head. cbn [seq map fold_right]. rewrite IH.
    unfold Cplus. cbn [fst snd]. rewrite Nat.add_0_r. f_equal; f_equal; apply total_ext; intros i _; now rewrite Nat.add_succ_comm. }
  rewrite (G n O). reflexivity.
Qed.

Lemma total_swap n k (f : nat -> nat -> R) : total n (fun i => total k (f i)) = total k (fun j => total n (fun i => f i j)).
Proof.
  induction n as [|n IH]; cbn [total].
  - symmetry. now apply total_0.
  - rewrite IH. now rewrite total_plus.
Qed.
Lemma total_minus n f g : total n (fun i => f i - g i) = total n f - total n g.
Proof. induction n as [|n IH]; cbn [total]; [ring|rewrite IH; ring]. Qed.
Lemma total_const n c : total n (fun _ => c) = INR n * c.
Proof. induction n as [|n IH]; cbn [total]; [cbn; ring|]. rewrite IH, S_INR. ring. Qed.
Lemma total_prod n k f g : total n f * total k g = total n (fun i => total k (fun j => f i * g j)).
Proof.
  induction n as [|n IH]; cbn [total]; [ring|]. rewrite Rmult_plus_distr_r, IH, total_scal. reflexivity.
Qed.
Lemma total_pick n k f : (k < n)%nat -> total n (fun m => if Nat.eqb m k then f m else 0) = f k.
Proof.
  induction n as [|n IH]; [lia|]. intros H. cbn [total]. destruct (Nat.eq_dec k n) as [->|N].
  - rewrite Nat.eqb_refl, total_0; [ring|]. intros i Hi. destruct (Nat.eqb_spec i n); [lia|reflexivity].
  - destruct (Nat.eqb_spec n k); [lia|]. rewrite IH by lia. ring.
Qed.

(** * Sums over the frequencies *)

(** A sum of an odd sequence. *)
Lemma total_odd n f : f O = 0 -> (forall k, (0 < k < n)%nat -> f (n - k)%nat = - f k) -> total n f = 0.
Proof.
  destruct n as [|n]; [reflexivity|]. intros H0 H. rewrite total_head, H0.
  assert (E : total n (fun i => f (S i)) = - total n (fun i => f (S i))).
  { rewrite total_rev at 1. rewrite <- (Ropp_involutive (total n (fun i => f (S (n - 1 - i))))), <- Ropp_involutive. f_equal.
    replace (- total n (fun i => f (S (n - 1 - i)))) with (total n (fun i => -1 * f (S (n - 1 - i)))) by (rewrite total_scal; ring).
    rewrite Ropp_involutive. apply total_ext. intros i Hi. replace (S (n - 1 - i)) with (S n - S i)%nat by lia.
    rewrite H by lia. ring. }
  lra.
Qed.

Lemma two_pi_shift (d : nat) x : sin (2 * PI * INR d - x) = - sin x /\ cos (2 * PI * INR d - x) = cos x.
Proof.
  replace (2 * PI * INR d - x) with (- x + 2 * INR d * PI) by ring. rewrite sin_period, cos_period, sin_neg, cos_neg. auto.
Qed.

Section Freq.
Context (n : nat) (Hn : (0 < n)%nat).
Let N0 : INR n <> 0. Proof. apply not_0_INR. lia. Qed.

Lemma angle_sym j k : angle n j k = angle n k j.
Proof. unfold angle. field. exact N0. Qed.
Lemma angle_refl j k : (k <= n)%nat -> angle n j (n - k) = 2 * PI * INR j - angle n j k.
Proof. intros H. unfold angle. rewrite minus_INR by lia. field. exact N0. Qed.
Lemma angle_0 j : angle n j 0 = 0.
Proof. unfold angle. cbn [INR]. field. exact N0. Qed.
Lemma angle_sin j k : (k <= n)%nat -> sin (angle n j (n - k)) = - sin (angle n j k).
Proof. intros H. rewrite angle_refl by auto. apply two_pi_shift. Qed.
Lemma angle_cos j k : (k <= n)%nat -> cos (angle n j (n - k)) = cos (angle n j k).
Proof. intros H. rewrite angle_refl by auto. apply two_pi_shift. Qed.

Lemma roots_of_unity d : (0 < d < n)%nat ->
  total n (fun j => cos (INR j * (2 * PI * INR d / INR n))) = 0 /\ total n (fun j => sin (INR j * (2 * PI * INR d / INR n))) = 0.
Proof.
  intros Hd. set (th := 2 * PI * INR d / INR n).
  assert (Pn : 0 < INR n) by (apply lt_0_INR; lia). assert (Pd : 0 < INR d) by (apply lt_0_INR; lia).
  assert (Ld : INR d < INR n) by (apply lt_INR; lia). pose proof PI_RGT_0 as Pi.
  assert (S2 : 0 < sin (th / 2)).
  { apply sin_gt_0.
    - unfold th. apply Rmult_lt_0_compat; [|lra]. apply Rdiv_lt_0_compat; [|lra]. apply Rmult_lt_0_compat; lra.
    - replace (th / 2) with (PI * (INR d / INR n)) by (unfold th; field; lra).
      rewrite <- (Rmult_1_r PI) at 2. apply Rmult_lt_compat_l; [lra|]. apply (Rmult_lt_reg_r (INR n)); [lra|]. field_simplify; lra. }
  assert (C : forall k, 2 * sin (th / 2) * total k (fun j => cos (INR j * th)) = sin (INR k * th - th / 2) + sin (th / 2)).
  { induction k as [|k IH]; [cbn [total INR]; rewrite Rmult_0_l; replace (0 - th / 2) with (- (th / 2)) by ring; rewrite sin_neg; ring|].
    cbn [total]. rewrite Rmult_plus_distr_l, IH. replace (INR (S k) * th - th / 2) with (INR k * th + th / 2) by (rewrite S_INR; field).
    rewrite sin_plus, sin_minus. ring. }
  assert (D : forall k, 2 * sin (th / 2) * total k (fun j => sin (INR j * th)) = cos (th / 2) - cos (INR k * th - th / 2)).
  { induction k as [|k IH]; [cbn [total INR]; rewrite Rmult_0_l; replace (0 - th / 2) with (- (th / 2)) by ring; rewrite cos_neg; ring|].
    cbn [total]. rewrite Rmult_plus_distr_l, IH. replace (INR (S k) * th - th / 2) with (INR k * th + th / 2) by (rewrite S_INR; field).
    rewrite cos_plus, cos_minus. ring. }
  assert (E : INR n * th = 2 * PI * INR d) by (unfold th; field; lra).
  specialize (C n). specialize (D n). rewrite E in C, D. destruct (two_pi_shift d (th / 2)) as [E1 E2]. rewrite E1 in C. rewrite E2 in D.
  split; nra.
Qed.

Lemma orth m k : (m < n)%nat -> (k < n)%nat ->
  total n (fun j => cos (angle n j m - angle n j k)) = (if Nat.eqb m k then INR n else 0)
  /\ total n (fun j => sin (angle n j m - angle n j k)) = 0.
Proof.
  intros Hm Hk. destruct (Nat.eqb_spec m k) as [->|N].
  - split.
    + rewrite (total_ext _ _ (fun _ => 1)); [rewrite total_const; ring|]. intros i _. now rewrite Rminus_diag_eq, cos_0.
    + apply total_0. intros i _. now rewrite Rminus_diag_eq, sin_0.
  - destruct (lt_dec k m) as [L|L].
    + destruct (roots_of_unity (m - k)) as [C D]; [lia|]. rewrite minus_INR in C, D by lia.
      assert (E : forall j, angle n j m - angle n j k = INR j * (2 * PI * (INR m - INR k) / INR n)) by (intros j; unfold angle; field; exact N0).
      split; [rewrite <- C|rewrite <- D]; apply total_ext; intros i _; now rewrite E.
    + destruct (roots_of_unity (k - m)) as [C D]; [lia|]. rewrite minus_INR in C, D by lia.
      assert (E : forall j, angle n j m - angle n j k = - (INR j * (2 * PI * (INR k - INR m) / INR n))) by (intros j; unfold angle; field; exact N0).
      split.
      * rewrite <- C. apply total_ext. intros i _. now rewrite E, cos_neg.
      * transitivity (-1 * total n (fun j => sin (INR j * (2 * PI * (INR k - INR m) / INR n)))); [|rewrite D; ring].
        rewrite <- total_scal. apply total_ext. intros i _. rewrite E, sin_neg. ring.
Qed.

(** The transform and its inverse, in components. *)
Definition dft_re (x y : nat -> R) (k : nat) : R := total n (fun j => x j * cos (angle n j k) + y j * sin (angle n j k)).
Definition dft_im (x y : nat -> R) (k : nat) : R := total n (fun j => y j * cos (angle n j k) - x j * sin (angle n j k)).
Definition idft_re (x y : nat -> R) (j : nat) : R := / INR n * total n (fun k => x k * cos (angle n j k) - y k * sin (angle n j k)).
Definition idft_im (x y : nat -> R) (j : nat) : R := / INR n * total n (fun k => x k * sin (angle n j k) + y k * cos (angle n j k)).

Lemma idft_inv x y k : (k < n)%nat ->
  dft_re (idft_re x y) (idft_im x y) k = x k /\ dft_im (idft_re x y) (idft_im x y) k = y k.
Proof.
  intros Hk. split.
  - unfold dft_re, idft_re, idft_im.
    transitivity (total n (fun m => / INR n * (x m * total n (fun j => cos (angle n j m - angle n j k)) - y m * total n (fun j => sin (angle n j m - angle n j k))))).
    + transitivity (total n (fun m => total n (fun j => / INR n * (x m * cos (angle n j m - angle n j k) - y m * sin (angle n j m - angle n j k))))).
      * rewrite total_swap. apply total_ext. intros j _. rewrite !(Rmult_assoc (/ INR n)), <- Rmult_plus_distr_l, total_scal. f_equal.
        rewrite (Rmult_comm (total n _) (cos _)), (Rmult_comm (total n _) (sin _)), <- !total_scal, <- total_plus.
        apply total_ext. intros m _. rewrite cos_minus, sin_minus. ring.
      * apply total_ext. intros m _. rewrite total_scal. f_equal. rewrite total_minus, !total_scal. reflexivity.
    + rewrite <- (total_pick n k x Hk). apply total_ext. intros m Hm. destruct (orth m k Hm Hk) as [-> ->].
      destruct (Nat.eqb m k); field; exact N0.
  - unfold dft_im, idft_re, idft_im.
    transitivity (total n (fun m => / INR n * (y m * total n (fun j => cos (angle n j m - angle n j k)) + x m * total n (fun j => sin (angle n j m - angle n j k))))).
    + transitivity (total n (fun m => total n (fun j => / INR n * (y m * cos (angle n j m - angle n j k) + x m * sin (angle n j m - angle n j k))))).
      * rewrite total_swap. apply total_ext. intros j _. rewrite !(Rmult_assoc (/ INR n)). rewrite <- Rmult_minus_distr_l, total_scal. f_equal.
        rewrite (Rmult_comm (total n _) (cos _)), (Rmult_comm (total n _) (sin _)), <- !total_scal, <- total_minus.
        apply total_ext. intros m _. rewrite cos_minus, sin_minus. ring.
      * apply total_ext. intros m _. rewrite total_scal. f_equal. rewrite total_plus, !total_scal. reflexivity.
    + rewrite <- (total_pick n k y Hk). apply total_ext. intros m Hm. destruct (orth m k Hm Hk) as [-> ->].
      destruct (Nat.eqb m k); field; exact N0.
Qed.

(** Parseval's identity for real sequences. *)
Lemma parseval x : total n (fun k => total n (fun j => x j * cos (angle n j k)) ^ 2 + total n (fun j => x j * sin (angle n j k)) ^ 2)
  = INR n * total n (fun j => x j ^ 2).
Proof.
  transitivity (total n (fun i => total n (fun j => x i * x j * total n (fun k => cos (angle n k i - angle n k j))))).
  - transitivity (total n (fun i => total n (fun k => total n (fun j => x i * x j * cos (angle n k i - angle n k j))))).
    + rewrite total_swap. apply total_ext. intros k _. rewrite <- !Rsqr_pow2. unfold Rsqr. rewrite !total_prod, <- total_plus.
      apply total_ext. intros i _. rewrite <- total_plus. apply total_ext. intros j _. rewrite cos_minus, !(angle_sym k). ring.
    + apply total_ext. intros i _. rewrite total_swap. apply total_ext. intros j _. now rewrite total_scal.
  - rewrite <- total_scal. apply total_ext. intros i Hi.
    rewrite <- (total_pick n i (fun j => INR n * x j ^ 2) Hi). apply total_ext. intros j Hj.
    destruct (orth i j Hi Hj) as [-> _]. rewrite (Nat.eqb_sym i j). destruct (Nat.eqb_spec j i) as [->|]; ring.
Qed.
End Freq.

Lemma total_opp n f : total n (fun i => - f i) = - total n f.
Proof. induction n as [|n IH]; cbn [total]; [ring|rewrite IH; ring]. Qed.

(** * The filters *)

Lemma nth_map_seq {A} (f : nat -> A) n k d : (k < n)%nat -> nth k (map f (seq 0 n)) d = f k.
Proof.
  intros H. rewrite (nth_indep _ d (f O)) by (now rewrite map_length, seq_length). rewrite map_nth, seq_nth by auto. reflexivity.
Qed.
Lemma nth_RtoC h j : nth j (map RtoC h) 0%C = RtoC (nth j h 0).
Proof. now rewrite <- (map_nth RtoC). Qed.

Lemma fft_length x : length (fft x) = length x.
Proof. unfold fft. now rewrite map_length, seq_length. Qed.
Lemma ifft_length x : length (ifft x) = length x.
Proof. unfold ifft. now rewrite map_length, seq_length. Qed.
Lemma fft_nth x k : (k < length x)%nat ->
  nth k (fft x) 0%C = (dft_re (length x) (fun j => fst (nth j x 0%C)) (fun j => snd (nth j x 0%C)) k,
                      dft_im (length x) (fun j => fst (nth j x 0%C)) (fun j => snd (nth j x 0%C)) k).
Proof.
  intros H. unfold fft. rewrite nth_map_seq by auto. rewrite csumn_total. unfold dft_re, dft_im.
  f_equal; apply total_ext; intros j _; unfold Cmult, cis; cbn [fst snd]; rewrite cos_neg, sin_neg; ring.
Qed.
Lemma ifft_nth x k : (k < length x)%nat ->
  nth k (ifft x) 0%C = (idft_re (length x) (fun j => fst (nth j x 0%C)) (fun j => snd (nth j x 0%C)) k,
                       idft_im (length x) (fun j => fst (nth j x 0%C)) (fun j => snd (nth j x 0%C)) k).
Proof.
  intros H. unfold ifft. rewrite nth_map_seq by auto. rewrite csumn_total. unfold idft_re, idft_im.
  assert (N : INR (length x) <> 0) by (apply not_0_INR; lia).
  unfold Cmult, cis, Cinv, RtoC. cbn [fst snd]. f_equal.
  - rewrite (total_ext _ (fun i => fst (nth i x 0%C) * sin _ + snd (nth i x 0%C) * cos _) _ (fun i _ => eq_refl)). field. exact N.
  - field. exact N.
Qed.

Lemma response_dft h k : (k < length h)%nat -> nth k (fft (map RtoC h)) 0%C = (response_re h k, response_im h k).
Proof.
  intros H. rewrite fft_nth by (now rewrite map_length). rewrite map_length. unfold response_re, response_im, dft_re, dft_im, angle. f_equal.
  - apply total_ext. intros j _. rewrite nth_RtoC. cbn [RtoC fst snd]. ring.
  - rewrite <- total_opp.
    apply total_ext. intros j _. rewrite nth_RtoC. cbn [RtoC fst snd]. ring.
Qed.

Lemma mag_nth h k : (k < length h)%nat -> nth k (map Cmod (fft (map RtoC h))) 0 = sqrt (gain2 h k).
Proof.
  intros H. rewrite <- Cmod_0, (map_nth Cmod), response_dft by auto. reflexivity.
Qed.
Lemma mag_length h : length (map Cmod (fft (map RtoC h))) = length h.
Proof. now rewrite map_length, fft_length, map_length. Qed.

Lemma gain2_pos h k : 0 <= gain2 h k.
Proof. unfold gain2. pose proof (pow2_ge_0 (response_re h k)). pose proof (pow2_ge_0 (response_im h k)). lra. Qed.

Lemma response_even h k : (0 < k < length h)%nat ->
  response_re h (length h - k) = response_re h k /\ response_im h (length h - k) = - response_im h k.
Proof.
  intros H. unfold response_re, response_im. split.
  - apply total_ext. intros j _. f_equal. apply (angle_cos (length h)); lia.
  - f_equal. rewrite <- total_opp.
    apply total_ext. intros j _. fold (angle (length h) j (length h - k)) (angle (length h) j k). rewrite angle_sin by lia. ring.
Qed.
Lemma gain2_even h k : (0 < k < length h)%nat -> gain2 h (length h - k) = gain2 h k.
Proof. intros H. unfold gain2. destruct (response_even h k H) as [-> ->]. ring. Qed.

(** A filter is determined by its responses. *)
Lemma total_sq_zero n f : total n (fun j => f j ^ 2) = 0 -> forall j, (j < n)%nat -> f j = 0.
Proof.
  assert (P : forall n, 0 <= total n (fun j => f j ^ 2)).
  { intros k. induction k as [|k IH]; cbn [total]; [lra|]. pose proof (pow2_ge_0 (f k)). lra. }
  induction n as [|n IH]; [lia|]. cbn [total]. intros H j Hj. pose proof (P n). pose proof (pow2_ge_0 (f n)).
  destruct (Nat.eq_dec j n) as [->|N]; [nra|]. apply IH; [lra|lia].
Qed.

Lemma response_inj g h : length g = length h ->
  (forall k, (k < length h)%nat -> response_re g k = response_re h k /\ response_im g k = response_im h k) -> g = h.
Proof.
  intros L E. destruct (Nat.eq_dec (length h) 0) as [Z|Z].
  { destruct g, h; cbn in *; try lia; reflexivity. }
  assert (Q : total (length h) (fun j => (nth j g 0 - nth j h 0) ^ 2) = 0).
  { assert (N : INR (length h) <> 0) by (apply not_0_INR; lia).
    apply (Rmult_eq_reg_l (INR (length h))); [|exact N]. rewrite <- (parseval (length h)) by lia. rewrite Rmult_0_r.
    apply total_0. intros k Hk. destruct (E k Hk) as [E1 E2]. unfold response_re, response_im in E1, E2. rewrite L in E1, E2.
    fold (angle (length h)) in E1, E2.
    assert (A : total (length h) (fun j => (nth j g 0 - nth j h 0) * cos (angle (length h) j k)) = 0).
    { rewrite (total_ext _ _ (fun j => nth j g 0 * cos (angle (length h) j k) - nth j h 0 * cos (angle (length h) j k))) by (intros; ring).
      rewrite total_minus. unfold angle. lra. }
    assert (B : total (length h) (fun j => (nth j g 0 - nth j h 0) * sin (angle (length h) j k)) = 0).
    { rewrite (total_ext _ _ (fun j => nth j g 0 * sin (angle (length h) j k) - nth j h 0 * sin (angle (length h) j k))) by (intros; ring).
      rewrite total_minus. unfold angle. lra. }
    rewrite A, B. ring. }
  apply (nth_ext _ _ 0 0); [exact L|]. intros j Hj. rewrite L in Hj. pose proof (total_sq_zero _ _ Q j Hj) as D. cbn in D. lra.
Qed.

(** Pairing of the frequencies [k] and [n - k]. *)
Lemma weight_refl n k : (0 < k < n)%nat -> hilbert_weight n (n - k) - 1 = - (hilbert_weight n k - 1).
Proof.
  intros H. unfold hilbert_weight. destruct (Nat.eqb_spec (n - k) 0); [lia|]. destruct (Nat.eqb_spec k 0); [lia|].
  rewrite !Nat.div2_div. destruct (Nat.even n) eqn:Ev.
  - apply Nat.even_spec in Ev. destruct Ev as [m ->]. replace (2 * m / 2)%nat with m by (symmetry; rewrite Nat.mul_comm; apply Nat.div_mul; lia).
    replace ((2 * m + 1) / 2)%nat with m by (apply (Nat.div_unique _ _ _ 1); lia).
    cbn [andb]. destruct (Nat.eqb_spec (2 * m - k) m), (Nat.eqb_spec k m); try lia; try lra.
    destruct (Nat.ltb_spec (2 * m - k) m), (Nat.ltb_spec k m); try lia; lra.
  - assert (Od : Nat.odd n = true) by (unfold Nat.odd; now rewrite Ev). apply Nat.odd_spec in Od. destruct Od as [m ->].
    replace ((2 * m + 1 + 1) / 2)%nat with (m + 1)%nat by (apply (Nat.div_unique _ _ _ 0); lia).
    cbn [andb]. destruct (Nat.ltb_spec (2 * m + 1 - k) (m + 1)), (Nat.ltb_spec k (m + 1)); try lia; lra.
Qed.
Lemma weight_causal n j : (j < n)%nat -> (n < 2 * j)%nat -> hilbert_weight n j = 0.
Proof.
  intros H1 H2. unfold hilbert_weight. destruct (Nat.eqb_spec j 0); [lia|]. rewrite !Nat.div2_div.
  pose proof (Nat.div_mod n 2). pose proof (Nat.mod_upper_bound n 2). pose proof (Nat.div_mod (n + 1) 2). pose proof (Nat.mod_upper_bound (n + 1) 2).
  destruct (Nat.even n && Nat.eqb j (n / 2))%bool eqn:E.
  - apply andb_prop in E. destruct E as [_ E]. apply Nat.eqb_eq in E. lia.
  - destruct (Nat.ltb_spec j ((n + 1) / 2)); [lia|reflexivity].
Qed.

Lemma total_weight n f : (forall k, (0 < k < n)%nat -> f (n - k)%nat = f k) -> total n (fun k => hilbert_weight n k * f k) = total n f.
Proof.
  intros H. apply Rminus_diag_uniq. rewrite <- total_minus.
  rewrite (total_ext _ _ (fun k => (hilbert_weight n k - 1) * f k)) by (intros; ring).
  apply total_odd.
  - unfold hilbert_weight. rewrite Nat.eqb_refl. ring.
  - intros k Hk. rewrite weight_refl, H by auto. ring.
Qed.

(** * Hermitian spectra *)
Lemma hermitian n x y : (0 < n)%nat -> y O = 0 -> (forall k, (0 < k < n)%nat -> x (n - k)%nat = x k /\ y (n - k)%nat = - y k) ->
  let g := map (idft_re n x y) (seq 0 n) in
  forall k, (k < n)%nat -> response_re g k = x k /\ response_im g k = y k.
Proof.
  intros Hn Y0 He g k Hk.
  assert (Lg : length g = n) by (unfold g; now rewrite map_length, seq_length).
  assert (Im : forall j, idft_im n x y j = 0).
  { intros j. unfold idft_im. rewrite total_odd; [ring| |].
    - rewrite Y0, angle_0, sin_0 by auto. ring.
    - intros i Hi. destruct (He i Hi) as [-> ->]. rewrite angle_sin, angle_cos by lia. ring. }
  destruct (idft_inv n Hn x y k Hk) as [<- <-]. unfold response_re, response_im, dft_re, dft_im. rewrite Lg. split.
  - apply total_ext. intros j Hj. unfold g. rewrite nth_map_seq by auto. rewrite Im. fold (angle n j k). ring.
  - rewrite <- total_opp. apply total_ext. intros j Hj. unfold g. rewrite nth_map_seq by auto. rewrite Im. fold (angle n j k). ring.
Qed.

Lemma response_im_even l : (forall k, (0 < k < length l)%nat -> nth (length l - k) l 0 = nth k l 0) -> forall k, response_im l k = 0.
Proof.
  intros H k. destruct (Nat.eq_dec (length l) 0) as [Z|Z].
  { unfold response_im. rewrite Z. cbn. ring. }
  unfold response_im. rewrite total_odd; [ring| |].
  - fold (angle (length l) 0 k). rewrite angle_sym, angle_0, sin_0 by lia. ring.
  - intros i Hi. rewrite H by auto. fold (angle (length l) (length l - i) k) (angle (length l) i k).
    rewrite angle_sym, angle_sin, (angle_sym (length l) ltac:(lia) k i) by lia. ring.
Qed.

(** The causal sequence whose response has the given real part. *)
Definition cepstrum (l : list R) : list R :=
  map (fun j => / INR (length l) * (hilbert_weight (length l) j * response_re l j)) (seq 0 (length l)).
Lemma cepstrum_length l : length (cepstrum l) = length l.
Proof. unfold cepstrum. now rewrite map_length, seq_length. Qed.
Lemma cepstrum_causal l : causal (cepstrum l).
Proof.
  intros j Hj H. rewrite cepstrum_length in Hj, H. unfold cepstrum. rewrite nth_map_seq by auto. rewrite weight_causal by auto. ring.
Qed.

Lemma cepstrum_re l : (forall k, (0 < k < length l)%nat -> nth (length l - k) l 0 = nth k l 0) ->
  forall k, (k < length l)%nat -> response_re (cepstrum l) k = nth k l 0.
Proof.
  intros H k Hk. set (n := length l) in *. assert (Hn : (0 < n)%nat) by lia.
  pose proof (hermitian n (response_re l) (fun _ => 0) Hn eq_refl) as Q.
  cbn zeta in Q. set (m := map (idft_re n (response_re l) (fun _ => 0)) (seq 0 n)) in *.
  assert (Lm : length m = n) by (unfold m; now rewrite map_length, seq_length).
  assert (E : m = l).
  { apply response_inj; [exact Lm|]. intros i Hi. rewrite (response_im_even l H). apply Q; [|exact Hi].
    intros j Hj. split; [|ring]. now apply response_even. }
  transitivity (nth k m 0); [|now rewrite E]. unfold m. rewrite nth_map_seq by auto. unfold response_re at 1. rewrite cepstrum_length. fold n.
  unfold idft_re. rewrite <- total_scal.
  transitivity (total n (fun j => hilbert_weight n j * (/ INR n * (response_re l j * cos (angle n j k))))).
  - apply total_ext. intros j Hj. unfold cepstrum. fold n. rewrite nth_map_seq by auto. fold (angle n j k). ring.
  - rewrite total_weight.
    + apply total_ext. intros j Hj. rewrite (angle_sym n) by auto. ring.
    + intros j Hj. unfold n at 2. rewrite (proj1 (response_even l j Hj)), angle_sym, angle_cos, (angle_sym n Hn k j) by lia. reflexivity.
Qed.

(** The analytic signal of an even sequence. *)
Lemma hilbert_length l : length (hilbert l) = length l.
Proof. unfold hilbert. now rewrite ifft_length, map_length, seq_length. Qed.
Lemma hilbert_im l : (forall k, (0 < k < length l)%nat -> nth (length l - k) l 0 = nth k l 0) ->
  forall k, (k < length l)%nat -> snd (Copp (nth k (hilbert l) 0%C)) = response_im (cepstrum l) k.
Proof.
  intros H k Hk. set (n := length l) in *. assert (Hn : (0 < n)%nat) by lia. unfold hilbert. fold n.
  rewrite ifft_nth by (now rewrite map_length, seq_length). rewrite map_length, seq_length. cbn [Copp snd].
  unfold response_im. rewrite cepstrum_length. fold n. f_equal. unfold idft_im. rewrite <- total_scal. apply total_ext. intros j Hj.
  rewrite nth_map_seq by auto. rewrite response_dft by auto. rewrite (response_im_even l H).
  unfold cepstrum. fold n. rewrite nth_map_seq by auto. unfold Cmult, RtoC. cbn [fst snd]. rewrite (angle_sym n Hn k j). fold (angle n j k). ring.
Qed.

(** * Minimum phase *)
Lemma causal_inj c d : length c = length d -> causal c -> causal d ->
  (forall k, (k < length c)%nat -> response_re c k = response_re d k) -> c = d.
Proof.
  intros L Cc Cd E. destruct (Nat.eq_dec (length c) 0) as [Z|Z].
  { destruct c, d; cbn in *; try lia; reflexivity. }
  set (n := length c) in *. assert (Hn : (0 < n)%nat) by lia.
  set (x := fun j => nth j c 0 - nth j d 0).
  set (e := fun j => if Nat.eqb j 0 then 2 * x O else x j + x (n - j)%nat).
  assert (Xc : forall k, (k < n)%nat -> total n (fun j => x j * cos (angle n j k)) = 0).
  { intros k Hk. specialize (E k Hk). unfold response_re in E. rewrite <- L in E. fold n in E.
    rewrite (total_ext _ _ (fun j => nth j c 0 * cos (angle n j k) - nth j d 0 * cos (angle n j k))) by (intros; unfold x; ring).
    rewrite total_minus. unfold angle. lra. }
  assert (Rv : forall f, (0 < n)%nat -> total n (fun j => f (if Nat.eqb j 0 then O else (n - j)%nat)) = total n f).
  { intros f _. destruct n as [|m]; [reflexivity|]. rewrite !total_head. cbn [Nat.eqb]. f_equal.
    rewrite (total_rev m (fun i => f (S i))). apply total_ext. intros i Hi. f_equal. lia. }
  assert (Ec : forall k, (k < n)%nat -> total n (fun j => e j * cos (angle n j k)) = 0).
  { intros k Hk. transitivity (total n (fun j => x j * cos (angle n j k)) + total n (fun j => (fun i => x i * cos (angle n i k)) (if Nat.eqb j 0 then O else (n - j)%nat))).
    - rewrite <- total_plus. apply total_ext. intros j Hj. unfold e. destruct (Nat.eqb_spec j 0) as [->|N].
      + ring.
      + rewrite (angle_sym n Hn (n - j) k), angle_cos, (angle_sym n Hn k j) by lia. ring.
    - rewrite (Rv (fun i => x i * cos (angle n i k)) Hn), Xc by auto. ring. }
  assert (Es : forall k, total n (fun j => e j * sin (angle n j k)) = 0).
  { intros k. apply total_odd.
    - rewrite (angle_sym n Hn), angle_0, sin_0 by auto. ring.
    - intros j Hj. rewrite (angle_sym n Hn (n - j) k), angle_sin, (angle_sym n Hn k j) by lia.
      unfold e. destruct (Nat.eqb_spec (n - j) 0); [lia|]. destruct (Nat.eqb_spec j 0); [lia|].
      replace (n - (n - j))%nat with j by lia. ring. }
  assert (Z0 : total n (fun j => e j ^ 2) = 0).
  { apply (Rmult_eq_reg_l (INR n)); [|apply not_0_INR; lia]. rewrite <- (parseval n Hn), Rmult_0_r.
    apply total_0. intros k Hk. rewrite Ec, Es by auto. ring. }
  pose proof (total_sq_zero _ _ Z0) as E0.
  assert (X0 : forall j, (j < n)%nat -> (n < 2 * j)%nat -> x j = 0).
  { intros j Hj H. unfold x. rewrite (Cc j), (Cd j); try (rewrite <- L); try (fold n; lia). ring. }
  apply (nth_ext _ _ 0 0); [exact L|]. fold n. intros j Hj. apply Rminus_diag_uniq. fold (x j).
  specialize (E0 j Hj). unfold e in E0. destruct (Nat.eqb_spec j 0) as [Ej|N]; [rewrite Ej; lra|].
  destruct (lt_eq_lt_dec n (2 * j)) as [[G|G]|G].
  - now apply X0.
  - replace (n - j)%nat with j in E0 by lia. lra.
  - rewrite (X0 (n - j)%nat) in E0 by lia. lra.
Qed.

Lemma polar_gain r t : (exp r * cos t) ^ 2 + (exp r * sin t) ^ 2 = exp r ^ 2.
Proof. pose proof (sin2_cos2 t) as H. unfold Rsqr in H. replace (exp r ^ 2) with (exp r ^ 2 * (sin t * sin t + cos t * cos t)) by (rewrite H; ring). ring. Qed.

Lemma minimum_phase_unique g g' : same_gains g g' -> minimum_phase g -> minimum_phase g' -> g = g'.
Proof.
  intros [L G] [c [Lc [Cc Ec]]] [d [Ld [Cd Ed]]].
  assert (cd : c = d).
  { apply causal_inj; [congruence|auto|auto|]. intros k Hk. rewrite Lc in Hk. specialize (Ec k Hk).
    assert (Hk' : (k < length g')%nat) by (now rewrite <- L). specialize (Ed k Hk'). specialize (G k Hk').
    unfold gain2 in G. destruct Ec as [E1 E2], Ed as [E3 E4]. rewrite E1, E2, E3, E4, !polar_gain in G.
    apply exp_inv. pose proof (exp_pos (response_re c k)). pose proof (exp_pos (response_re d k)). nra. }
  subst d. apply response_inj; [exact L|]. intros k Hk. destruct (Ed k Hk) as [-> ->]. apply Ec. now rewrite L.
Qed.

Lemma min_phase_eq h : h <> [] -> min_phase h =
  let mag := map Cmod (fft (map RtoC h)) in
  if existsb (fun a => if Req_EM_T a 0 then true else false) mag then Ok None
  else Ok (Some (map fst (ifft (map (fun ap => (RtoC (fst ap) * cis (snd ap))%C) (combine mag (map (fun z => snd (Copp z)) (hilbert (map ln mag)))))))).
Proof. destruct h; [easy|reflexivity]. Qed.

Lemma min_phase_ok h : h <> [] -> (forall k, (k < length h)%nat -> gain2 h k <> 0) ->
  exists g, min_phase h = Ok (Some g) /\ same_gains g h /\ minimum_phase g.
Proof.
  intros Ne Nz. set (n := length h). assert (Hn : (0 < n)%nat) by (destruct h; [easy|cbn in n; unfold n; lia]).
  rewrite min_phase_eq by auto. cbn zeta.
  set (mag := map Cmod (fft (map RtoC h))).
  assert (Lm : length mag = n) by apply mag_length.
  assert (Am : forall k, (k < n)%nat -> nth k mag 0 = sqrt (gain2 h k)) by (intros; now apply mag_nth).
  assert (Pm : forall k, (k < n)%nat -> 0 < nth k mag 0).
  { intros k Hk. rewrite Am by auto. apply sqrt_lt_R0. pose proof (gain2_pos h k). specialize (Nz k Hk). lra. }
  assert (Ex : existsb (fun a => if Req_EM_T a 0 then true else false) mag = false).
  { apply Bool.not_true_is_false. intros T. apply existsb_exists in T. destruct T as [a [Ha T]].
    destruct (Req_EM_T a 0) as [->|]; [|easy]. apply (In_nth _ _ 0) in Ha. destruct Ha as [k [Hk E]]. specialize (Pm k). rewrite E in Pm. lapply Pm; [lra|now rewrite <- Lm]. }
  rewrite Ex. set (lg := map ln mag). set (phase := map (fun z => snd (Copp z)) (hilbert lg)).
  assert (Ll : length lg = n) by (unfold lg; now rewrite map_length).
  assert (Al : forall k, (k < n)%nat -> nth k lg 0 = ln (nth k mag 0)).
  { intros k Hk. unfold lg. rewrite (nth_indep _ 0 (ln 0)) by (now rewrite map_length, Lm). apply map_nth. }
  assert (Ev : forall k, (0 < k < length lg)%nat -> nth (length lg - k) lg 0 = nth k lg 0).
  { rewrite Ll. intros k Hk. rewrite !Al, !Am by lia. now rewrite (gain2_even h). }
  assert (Lp : length phase = n) by (unfold phase; now rewrite map_length, hilbert_length).
  assert (Ap : forall k, (k < n)%nat -> nth k phase 0 = response_im (cepstrum lg) k).
  { intros k Hk. unfold phase. rewrite (nth_indep _ 0 (snd (Copp 0%C))) by (now rewrite map_length, hilbert_length, Ll).
    rewrite (map_nth (fun z => snd (Copp z))). apply hilbert_im; [exact Ev|now rewrite Ll]. }
  assert (Lc : length (cepstrum lg) = n) by (now rewrite cepstrum_length).
  set (x := fun k => nth k mag 0 * cos (nth k phase 0)). set (y := fun k => nth k mag 0 * sin (nth k phase 0)).
  set (Y := map (fun ap => (RtoC (fst ap) * cis (snd ap))%C) (combine mag phase)).
  assert (LY : length Y = n) by (unfold Y; rewrite map_length, combine_length, Lm, Lp; apply Nat.min_id).
  assert (AY : forall k, (k < n)%nat -> nth k Y 0%C = (x k, y k)).
  { intros k Hk. transitivity ((fun ap : R * R => (RtoC (fst ap) * cis (snd ap))%C) (nth k (combine mag phase) (0, 0))).
    - etransitivity; [|exact (map_nth (fun ap : R * R => (RtoC (fst ap) * cis (snd ap))%C) (combine mag phase) (0, 0) k)]. apply nth_indep. fold Y. now rewrite LY.
    - rewrite combine_nth by congruence. unfold x, y, Cmult, cis, RtoC. cbn [fst snd]. f_equal; ring. }
  assert (Eg : map fst (ifft Y) = map (idft_re n x y) (seq 0 n)).
  { apply (nth_ext _ _ 0 0).
    - now rewrite !map_length, ifft_length, seq_length.
    - rewrite map_length, ifft_length, LY. intros j Hj. rewrite nth_map_seq by auto.
      transitivity (fst (nth j (ifft Y) 0%C)); [exact (map_nth fst (ifft Y) (RtoC 0) j)|]. rewrite ifft_nth by (now rewrite LY). cbn [fst].
      unfold idft_re. rewrite LY. f_equal. apply total_ext. intros k Hk. now rewrite AY. }
  rewrite Eg. set (g := map (idft_re n x y) (seq 0 n)).
  assert (Lg : length g = n) by (unfold g; now rewrite map_length, seq_length).
  assert (P0 : nth O phase 0 = 0).
  { rewrite Ap by auto. unfold response_im. rewrite Lc, total_0; [ring|]. intros j _. fold (angle n j 0). rewrite angle_0, sin_0 by auto. ring. }
  assert (Rg : forall k, (k < n)%nat -> response_re g k = x k /\ response_im g k = y k).
  { apply hermitian; [auto|unfold y; rewrite P0, sin_0; ring|]. intros k Hk. unfold x, y.
    rewrite !Ap by lia. pose proof (proj2 (response_even (cepstrum lg) k ltac:(rewrite Lc; lia))) as Pe. rewrite Lc in Pe. rewrite Pe.
    rewrite cos_neg, sin_neg. rewrite !Am by lia. unfold n. rewrite (gain2_even h) by exact Hk. split; ring. }
  exists g. split; [reflexivity|]. split.
  - split; [exact Lg|]. fold n. intros k Hk. unfold gain2 at 1. destruct (Rg k Hk) as [-> ->]. unfold x, y.
    rewrite Am by auto. pose proof (sin2_cos2 (nth k phase 0)) as Q. unfold Rsqr in Q. pose proof (sqrt_sqrt _ (gain2_pos h k)) as Q2.
    transitivity (sqrt (gain2 h k) * sqrt (gain2 h k) * (sin (nth k phase 0) * sin (nth k phase 0) + cos (nth k phase 0) * cos (nth k phase 0))); [ring|].
    rewrite Q, Q2. ring.
  - exists (cepstrum lg). split; [congruence|]. split; [apply cepstrum_causal|]. rewrite Lg. intros k Hk.
    rewrite cepstrum_re, <- Ap, Al, exp_ln; auto; [|now rewrite Ll]. apply Rg; auto.
Qed.

Lemma min_phase_nan h : h <> [] -> (exists k, (k < length h)%nat /\ gain2 h k = 0) -> min_phase h = Ok None.
Proof.
  intros Ne [k [Hk Z]]. rewrite min_phase_eq by auto. cbn zeta.
  assert (Ex : existsb (fun a => if Req_EM_T a 0 then true else false) (map Cmod (fft (map RtoC h))) = true).
  { apply existsb_exists. exists 0. split; [|now destruct (Req_EM_T 0 0)].
    rewrite <- sqrt_0, <- Z, <- mag_nth by auto. apply nth_In. now rewrite mag_length. }
  now rewrite Ex.
Qed.

Lemma same_gains_energy g h : same_gains g h -> energy g = energy h.
Proof.
  intros [L G]. destruct (Nat.eq_dec (length h) 0) as [Z|Z]; [unfold energy; now rewrite L, Z|].
  assert (P : forall l, length l = length h -> INR (length h) * energy l = total (length h) (gain2 l)).
  { intros l Hl. unfold energy. rewrite Hl, <- (parseval (length h)) by lia. apply total_ext. intros k Hk.
    unfold gain2, response_re, response_im. rewrite Hl. unfold angle. ring. }
  apply (Rmult_eq_reg_l (INR (length h))); [|apply not_0_INR; lia]. rewrite !P by auto. now apply total_ext.
Qed.

(** * Circular autocorrelation *)
Definition rotated (h : list R) (d : nat) : list R := map (fun j => nth ((j + d) mod length h) h 0) (seq 0 (length h)).

Lemma rotated_sum n d (x F : nat -> R) : (d < n)%nat ->
  (forall j, F (n + j)%nat = F j) ->
  total n (fun j => x ((j + d) mod n)%nat * F (j + d)%nat) = total n (fun i => x i * F i).
Proof.
  intros Hd P. transitivity (total (n - d) (fun j => x (d + j)%nat * F (d + j)%nat) + total d (fun i => x i * F i)).
  - replace n with ((n - d) + d)%nat at 1 by lia. rewrite total_app. f_equal.
    + apply total_ext. intros j Hj. rewrite Nat.mod_small by lia. now rewrite (Nat.add_comm j d).
    + apply total_ext. intros j Hj. replace (n - d + j + d)%nat with (n + j)%nat by lia. rewrite P.
      replace (n + j)%nat with (j + 1 * n)%nat by lia. rewrite Nat.mod_add, Nat.mod_small by lia. reflexivity.
  - replace n with (d + (n - d))%nat at 2 by lia. rewrite total_app. ring.
Qed.

Lemma rotated_response n d k (x : nat -> R) : (d < n)%nat ->
  let c := total n (fun j => x j * cos (angle n j k)) in
  let s := total n (fun j => x j * sin (angle n j k)) in
  let t := angle n d k in
  total n (fun j => x ((j + d) mod n)%nat * cos (angle n j k)) = cos t * c + sin t * s /\
  total n (fun j => x ((j + d) mod n)%nat * sin (angle n j k)) = cos t * s - sin t * c.
Proof.
  intros Hd c s t. assert (N : INR n <> 0) by (apply not_0_INR; lia).
  assert (A : forall j, angle n j k = angle n (j + d) k - t) by (intros j; unfold t, angle; rewrite plus_INR; field; exact N).
  assert (P : forall j, angle n (n + j) k = angle n j k + 2 * INR k * PI) by (intros j; unfold angle; rewrite plus_INR; field; exact N).
  split.
  - rewrite (total_ext _ _ (fun j => x ((j + d) mod n)%nat * cos (angle n (j + d) k - t))) by (intros j _; now rewrite <- A).
    rewrite (rotated_sum n d x (fun i => cos (angle n i k - t))) by (auto; intros j; rewrite P, !cos_minus, cos_period, sin_period; reflexivity).
    unfold c, s. rewrite <- !total_scal, <- total_plus. apply total_ext. intros i _. rewrite cos_minus. ring.
  - rewrite (total_ext _ _ (fun j => x ((j + d) mod n)%nat * sin (angle n (j + d) k - t))) by (intros j _; now rewrite <- A).
    rewrite (rotated_sum n d x (fun i => sin (angle n i k - t))) by (auto; intros j; rewrite P, !sin_minus, cos_period, sin_period; reflexivity).
    unfold c, s. rewrite <- !total_scal, <- total_minus. apply total_ext. intros i _. rewrite sin_minus. ring.
Qed.

Lemma rotated_gain n d k (x : nat -> R) : (d < n)%nat ->
  let c := total n (fun j => x j * cos (angle n j k)) in
  let s := total n (fun j => x j * sin (angle n j k)) in
  total n (fun j => (x j + x ((j + d) mod n)%nat) * cos (angle n j k)) ^ 2 + total n (fun j => (x j + x ((j + d) mod n)%nat) * sin (angle n j k)) ^ 2
  = (c ^ 2 + s ^ 2) * ((1 + cos (angle n d k)) ^ 2 + sin (angle n d k) ^ 2).
Proof.
  intros Hd c s. destruct (rotated_response n d k x Hd) as [Ec Es].
  rewrite (total_ext _ (fun j => (x j + x ((j + d) mod n)%nat) * cos (angle n j k)) (fun j => x j * cos (angle n j k) + x ((j + d) mod n)%nat * cos (angle n j k))) by (intros; ring).
  rewrite (total_ext _ (fun j => (x j + x ((j + d) mod n)%nat) * sin (angle n j k)) (fun j => x j * sin (angle n j k) + x ((j + d) mod n)%nat * sin (angle n j k))) by (intros; ring).
  rewrite !total_plus, Ec, Es. fold c s. ring.
Qed.

Lemma rotated_same h d : (d < length h)%nat -> same_gains (rotated h d) h.
Proof.
  intros Hd. assert (L : length (rotated h d) = length h) by (unfold rotated; now rewrite map_length, seq_length).
  split; [exact L|]. intros k Hk. destruct (rotated_response (length h) d k (fun j => nth j h 0) Hd) as [Ec Es].
  unfold gain2, response_re, response_im. rewrite L. set (n := length h) in *.
  rewrite (total_ext n (fun j => nth j (rotated h d) 0 * cos _) (fun j => nth ((j + d) mod n) h 0 * cos (angle n j k)))
    by (intros j Hj; unfold rotated; fold n; now rewrite nth_map_seq).
  rewrite (total_ext n (fun j => nth j (rotated h d) 0 * sin _) (fun j => nth ((j + d) mod n) h 0 * sin (angle n j k)))
    by (intros j Hj; unfold rotated; fold n; now rewrite nth_map_seq).
  rewrite Ec, Es. fold (angle n d k). pose proof (sin2_cos2 (angle n d k)) as Q. unfold Rsqr in Q.
  set (c := total n (fun j => nth j h 0 * cos (angle n j k))). set (s := total n (fun j => nth j h 0 * sin (angle n j k))).
  change (total n (fun j => nth j h 0 * cos (2 * PI * INR j * INR k / INR n))) with c.
  change (total n (fun j => nth j h 0 * sin (2 * PI * INR j * INR k / INR n))) with s.
  set (a := sin (angle n d k)) in *. set (b := cos (angle n d k)) in *.
  transitivity ((c ^ 2 + s ^ 2) * (a * a + b * b)); [ring|rewrite Q; ring].
Qed.

Lemma circular_gains h d : (d < length h)%nat ->
  INR (length h) * (2 * energy h + 2 * circular_autocorrelation h d)
  = total (length h) (fun k => gain2 h k * ((1 + cos (angle (length h) d k)) ^ 2 + sin (angle (length h) d k) ^ 2)).
Proof.
  intros Hd. set (n := length h). set (x := fun j => nth j h 0).
  transitivity (INR n * total n (fun j => (x j + x ((j + d) mod n)%nat) ^ 2)).
  - f_equal. transitivity (total n (fun j => x j ^ 2) + total n (fun j => x ((j + d) mod n)%nat ^ 2) + 2 * total n (fun j => x j * x ((j + d) mod n)%nat)).
    + rewrite (total_ext n (fun j => x ((j + d) mod n)%nat ^ 2) (fun j => x ((j + d) mod n)%nat ^ 2 * 1)) by (intros; ring).
      rewrite (rotated_sum n d (fun i => x i ^ 2) (fun _ => 1)) by auto.
      rewrite (total_ext n (fun i => x i ^ 2 * 1) (fun j => x j ^ 2)) by (intros; ring).
      unfold energy, circular_autocorrelation, x, n. ring.
    + rewrite <- total_scal, <- !total_plus. apply total_ext. intros; ring.
  - rewrite <- (parseval n) by (unfold n; lia). apply total_ext. intros k _. rewrite rotated_gain by auto. f_equal.
    unfold gain2, response_re, response_im, x, angle. fold n. ring.
Qed.

Lemma same_gains_circular g h d : same_gains g h -> (d < length h)%nat -> circular_autocorrelation g d = circular_autocorrelation h d.
Proof.
  intros H Hd. pose proof (same_gains_energy g h H) as En. destruct H as [L G].
  pose proof (circular_gains h d Hd) as Eh. pose proof (circular_gains g d ltac:(now rewrite L)) as Eg. rewrite L in Eg.
  assert (N : INR (length h) <> 0) by (apply not_0_INR; lia).
  assert (Q : INR (length h) * (2 * energy g + 2 * circular_autocorrelation g d) = INR (length h) * (2 * energy h + 2 * circular_autocorrelation h d)).
  { rewrite Eg, Eh. apply total_ext. intros k Hk. now rewrite G. }
  apply Rmult_eq_reg_l in Q; [|exact N]. rewrite En in Q. lra.
Qed.
