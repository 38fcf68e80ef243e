(** The property C130: the unit of time in the plots of spectra. *)
From Coq Require Import Reals ZArith List Bool Lra Lia.
From Verif Require Import Py UtilModel UtilSpec UtilProofs2 UtilProps PanelModel.
Import ListNotations.
Local Open Scope R_scope.

(** When the unit of time changes, so that a time [t] reads [c t], lags are multiplied by [c],
    frequencies are divided by [c], and a kernel [k] becomes [k (s / c) (s' / c)]. *)
Definition times_in (c : R) (t : list R) : list R := map (fun s => c * s) t.
Definition freqs_in (c : R) (f : list R) : list R := map (fun x => x / c) f.
Definition kernel_in (c : R) (k : R -> R -> R) : R -> R -> R := fun s s' => k (s / c) (s' / c).
(** A density per frequency is multiplied by [c]: in decibels, it is shifted. *)
Definition decibels (v : R) : R := 10 * (ln v / ln 10).

Lemma total_scale n c f : total n (fun i => c * f i) = c * total n f.
Proof. induction n as [|n IH]; simpl; [ring|]. rewrite IH. ring. Qed.
Lemma total_ext n f g : (forall i, f i = g i) -> total n f = total n g.
Proof. intros E. induction n as [|n IH]; simpl; [ring|]. now rewrite IH, E. Qed.

Lemma trapezoid_scale c d n f : trapezoid (d / c) n f = trapezoid d n f / c.
Proof.
  unfold trapezoid, Rdiv at 3. rewrite Rmult_comm, <- total_scale. apply total_ext. intros i. unfold Rdiv. ring.
Qed.

(** The estimate of a spectrum changes as it should with the unit of time. *)
Theorem C130_spectrum :
  forall c dt t k n_zero, 0 < c -> 0 < dt -> (2 <= length k + n_zero)%nat ->
    exists freqs psd,
      estimate_psd (0 :: dt :: t) k n_zero false = Ok (freqs, psd)
      /\ estimate_psd (0 :: dt :: t) k n_zero true = Ok (freqs, map decibels psd)
      /\ estimate_psd (times_in c (0 :: dt :: t)) k n_zero false = Ok (freqs_in c freqs, map (fun v => c * v) psd)
      /\ estimate_psd (times_in c (0 :: dt :: t)) k n_zero true = Ok (freqs_in c freqs, map (fun v => decibels (c * v)) psd)
      (* which is a shift *)
      /\ forall v, 0 < v -> decibels (c * v) = decibels v + decibels c.
Proof.
  intros c dt t k n Hc Hd Hl.
  assert (H1 : 0 < dt - 0) by lra.
  assert (Hcd : 0 < c * dt) by now apply Rmult_lt_0_compat.
  assert (H2 : 0 < c * dt - c * 0) by lra.
  assert (Z : c * 0 = 0) by ring.
  set (kp := k ++ repeat 0 n). set (L := length kp). set (N := (2 * L - 2)%nat).
  set (T := 2 * trapezoid (/ (INR N * (dt - 0))) (L - 1) (cosine_transform kp N) - / (INR N * (dt - 0)) * spurious kp).
  set (T' := 2 * trapezoid (/ (INR N * (c * dt - c * 0))) (L - 1) (cosine_transform kp N) - / (INR N * (c * dt - c * 0)) * spurious kp).
  assert (S : / (INR N * (c * dt - c * 0)) = / (INR N * (dt - 0)) / c).
  { replace (INR N * (c * dt - c * 0)) with (INR N * (dt - 0) * c) by ring. rewrite Rinv_mult. reflexivity. }
  assert (ET : T' = T / c). { unfold T', T. rewrite S, trapezoid_scale. unfold Rdiv. ring. }
  assert (EV : forall j, cosine_transform kp N j / (T' / nth 0 kp 0) = c * (cosine_transform kp N j / (T / nth 0 kp 0))).
  { intros j. rewrite ET. unfold Rdiv. rewrite !Rinv_mult, !Rinv_inv. ring. }
  assert (EF : map (fun j => INR j / (INR N * (c * dt - c * 0))) (seq 0 (L - 1)) = freqs_in c (map (fun j => INR j / (INR N * (dt - 0))) (seq 0 (L - 1)))).
  { unfold freqs_in. rewrite map_map. apply map_ext. intros j. unfold Rdiv at 1. rewrite S. unfold Rdiv. ring. }
  exists (map (fun j => INR j / (INR N * (dt - 0))) (seq 0 (L - 1))), (map (fun j => cosine_transform kp N j / (T / nth 0 kp 0)) (seq 0 (L - 1))).
  split; [|split; [|split; [|split]]].
  - exact (estimate_psd_ok 0 dt t k n eq_refl H1 Hl false).
  - rewrite (estimate_psd_ok 0 dt t k n eq_refl H1 Hl true). now rewrite map_map.
  - unfold times_in. cbn [map].
    rewrite (estimate_psd_ok (c * 0) (c * dt) (map (fun s => c * s) t) k n Z H2 Hl false). fold kp. fold L. fold N. fold T'. rewrite EF. do 2 f_equal.
    rewrite map_map. apply map_ext. intros j. apply EV.
  - unfold times_in. cbn [map].
    rewrite (estimate_psd_ok (c * 0) (c * dt) (map (fun s => c * s) t) k n Z H2 Hl true). fold kp. fold L. fold N. fold T'. rewrite EF. do 2 f_equal.
    rewrite map_map. apply map_ext. intros j. cbv zeta. rewrite EV. reflexivity.
  - intros v Hv. unfold decibels. rewrite ln_mult by auto. field. assert (ln 10 > ln 1) by (apply ln_increasing; lra). rewrite ln_1 in H. lra.
Qed.
Print Assumptions C130_spectrum.

(** The claim about a curve that is plotted: with another unit of time, it is the same curve in that
    unit. [pred_x] are the frequencies of the prediction. *)
Definition C130_true_claim : Prop :=
  forall (k : R -> R -> R) df rest c freqs psd, 0 < c -> 0 < df ->
    true_psd_panel (0 :: df :: rest) k = Ok (freqs, psd) ->
    exists psd', true_psd_panel (freqs_in c (0 :: df :: rest)) (kernel_in c k) = Ok (freqs_in c freqs, psd').

Lemma panel_freqs k df rest : 0 < df ->
  let N := (2 * (S (S (length rest)) + 2000) - 2)%nat in
  exists psd, true_psd_panel (0 :: df :: rest) k = Ok (map (fun j => INR j / (INR N * df)) (seq 0 (Nat.div N 2)), psd).
Proof.
  intros Hd N. unfold true_psd_panel.
  assert (H1 : 0 < df - 0) by lra.
  assert (Hl : (2 <= length (map (k 0%R) (0%R :: df :: rest)) + 2000)%nat) by (cbn [map length]; lia).
  pose proof (estimate_psd_ok 0 df rest _ 2000 eq_refl H1 Hl true) as E. cbv zeta in E. rewrite E. clear E.
  assert (L : length (map (k 0%R) (0%R :: df :: rest) ++ repeat 0 2000) = (S (S (length rest)) + 2000)%nat)
    by (rewrite app_length, repeat_length, map_length; reflexivity).
  rewrite L. fold N. eexists. f_equal. f_equal.
  replace (S (S (length rest)) + 2000 - 1)%nat with (Nat.div N 2).
  2:{ unfold N. replace (2 * (S (S (length rest)) + 2000) - 2)%nat with ((S (S (length rest)) + 2000 - 1) * 2)%nat by lia. apply Nat.div_mul. lia. }
  apply map_ext. intros j. now rewrite Rminus_0_r.
Qed.

Lemma first_two (f : nat -> R) n l : map f (seq 0 n) = l -> (2 <= n)%nat -> nth 1 l 0 = f 1%nat.
Proof. intros <- H. destruct n as [|[|n]]; try lia. reflexivity. Qed.

Lemma N_pos n : let N := (2 * (S (S n) + 2000) - 2)%nat in 0 < INR N /\ (2 <= Nat.div N 2)%nat.
Proof.
  intros N. split; [apply lt_0_INR; unfold N; lia|].
  replace N with ((S (S n) + 2000 - 1) * 2)%nat by (unfold N; lia). rewrite Nat.div_mul by lia. lia.
Qed.

Theorem C130_true_refuted : ~ C130_true_claim.
Proof.
  intros H. destruct (panel_freqs (fun _ _ => 1) 1 [] Rlt_0_1) as [p E].
  destruct (H _ _ _ 2 _ _ Rlt_0_2 Rlt_0_1 E) as [p' E'].
  unfold freqs_in in E' at 1. cbn [map] in E'. replace (0 / 2) with 0 in E' by field.
  destruct (panel_freqs (kernel_in 2 (fun _ _ => 1)) (1 / 2) [] ltac:(lra)) as [q Q]. rewrite Q in E'.
  destruct (N_pos 0%nat) as [PN P2]. cbv zeta in *. cbn [length] in *.
  set (N := (2 * (2 + 2000) - 2)%nat) in *. clearbody N.
  assert (F : map (fun j => INR j / (INR N * (1 / 2))) (seq 0 (Nat.div N 2)) = freqs_in 2 (map (fun j => INR j / (INR N * 1)) (seq 0 (Nat.div N 2)))) by congruence.
  apply first_two in F; auto. unfold freqs_in in F. rewrite map_map in F. rewrite (first_two _ _ _ eq_refl P2) in F.
  simpl INR in F. assert (X : 1 / (INR N * 1) / 2 * (2 * INR N) = 1 / (INR N * (1 / 2)) * (2 * INR N)) by now rewrite F.
  assert (X1 : 1 / (INR N * 1) / 2 * (2 * INR N) = 1) by (field; lra).
  assert (X2 : 1 / (INR N * (1 / 2)) * (2 * INR N) = 4) by (field; lra).
  lra.
Qed.
Print Assumptions C130_true_refuted.

(** What holds: the curve of the data and the true kernel are the same in every unit of time, for every
    origin of time.  The frequencies of the true spectrum are multiplied where they should be divided. *)
Theorem C130_panels_partial :
  forall c, 0 < c ->
    (forall t0 t1 t y origin, t0 < t1 -> y <> [] ->
       exists freqs psd, data_psd_panel (t0 :: t1 :: t) y = Ok (freqs, map decibels psd)
         /\ data_psd_panel (map (fun s => c * s + origin) (t0 :: t1 :: t)) y = Ok (freqs_in c freqs, map (fun v => decibels (c * v)) psd)
         (* and comes from the unbiased autocovariances of the data *)
         /\ exists k, length k = length y /\ (forall i, (i < length y)%nat -> nth i k 0 = lagged y i / INR (length y - i))
              /\ estimate_psd (map (fun s => s - t0) (t0 :: t1 :: t)) k 2000 false = Ok (freqs, psd))
    /\ (forall x k l, true_kernel_panel x k = Ok l ->
          true_kernel_panel (times_in c x) (kernel_in c k) = Ok (map (fun p => (c * fst p, snd p)) l)
          (* and is the covariance with time zero, if that is the first *)
          /\ (nth 0 x 1 = 0 -> l = map (fun s => (s, k 0 s)) x))
    /\ (forall k df rest freqs psd, 0 < df -> true_psd_panel (0 :: df :: rest) k = Ok (freqs, psd) ->
          (exists psd', true_psd_panel (freqs_in c (0 :: df :: rest)) (kernel_in c k) = Ok (times_in c freqs, psd'))
          /\ (c <> 1 -> times_in c freqs <> freqs_in c freqs)).
Proof.
  intros c Hc. split; [|split].
  - intros t0 t1 t y o Ht Ny. unfold data_psd_panel. cbn [map].
    destruct (C61_autocorr y None true false Ny I) as (k & -> & Lk & Nk & _). cbn [bind].
    replace (t0 - t0) with 0 by ring. assert (Hd : 0 < t1 - t0) by lra.
    destruct (C130_spectrum c (t1 - t0) (map (fun s => s - t0) t) k 2000 Hc Hd ltac:(lia)) as (f & p & E0 & E & _ & E' & _).
    exists f, p. split; [exact E|]. split.
    + rewrite <- E'. f_equal. unfold times_in. cbn [map].
      rewrite !map_map. f_equal; [ring|]. f_equal; [ring|]. apply map_ext. intros s. ring.
    + exists k. split; [exact Lk|]. split; [|exact E0]. intros i Hi. rewrite Nk by (rewrite Lk; exact Hi). cbv iota. field. apply not_0_INR. lia.
  - intros [|x0 x] k l E; [discriminate|]. assert (E1 : combine (x0 :: x) (map (k x0) (x0 :: x)) = l) by (unfold true_kernel_panel in E; congruence). subst l. split.
    2:{ intros Z. cbn [nth] in Z. subst x0. clear E. generalize (0 :: x). intros l. induction l as [|s l IH]; [reflexivity|]. cbn [map combine]. now rewrite IH. }
    unfold true_kernel_panel, times_in, kernel_in. cbn [map]. f_equal. cbn [combine map fst snd].
    assert (I : forall s, c * s / c = s) by (intros s; field; lra). rewrite !I. f_equal.
    clear E. induction x as [|s x IH]; [reflexivity|]. cbn [map combine fst snd]. rewrite I. f_equal. exact IH.
  - intros k df rest freqs psd Hd E. destruct (panel_freqs k df rest Hd) as [p P]. rewrite P in E.
    destruct (N_pos (length rest)) as [PN P2]. cbv zeta in *. set (N := (2 * (S (S (length rest)) + 2000) - 2)%nat) in *.
    assert (Ef : freqs = map (fun j => INR j / (INR N * df)) (seq 0 (Nat.div N 2))) by congruence. clear E P psd p. subst freqs. split.
    + unfold freqs_in. cbn [map]. replace (0 / c) with 0 by (field; lra).
      destruct (panel_freqs (kernel_in c k) (df / c) (map (fun x => x / c) rest) ltac:(now apply Rdiv_lt_0_compat)) as [q Q]. cbv zeta in Q.
      rewrite map_length in Q. fold N in Q. exists q. rewrite Q. f_equal. f_equal. unfold times_in. rewrite map_map. apply map_ext. intros j. field. lra.
    + intros Nc F. unfold times_in, freqs_in in F. rewrite !map_map in F. apply first_two in F; auto. rewrite (first_two _ _ _ eq_refl P2) in F.
      simpl (INR 1) in F. assert (Pd : 0 < INR N * df) by now apply Rmult_lt_0_compat. set (w := INR N * df) in *. clearbody w.
      assert (X : 1 / w / c * (c * w) = c * (1 / w) * (c * w)) by now rewrite F.
      assert (X1 : 1 / w / c * (c * w) = 1) by (field; lra). assert (X2 : c * (1 / w) * (c * w) = c * c) by (field; lra).
      rewrite X1, X2 in X. apply Nc. assert (Y : (c - 1) * (c + 1) = 0) by lra. apply Rmult_integral in Y. destruct Y; lra.
Qed.
Print Assumptions C130_panels_partial.

(** Not vacuous: two times and two values; two frequencies. *)
Example C130_witness :
  (exists freqs psd, data_psd_panel [3; 4] [1; -1] = Ok (freqs, psd))
  /\ exists freqs psd, true_psd_panel [0; 1 / 2] (fun s s' => exp (- (s - s') ^ 2)) = Ok (freqs, psd).
Proof.
  split.
  - destruct (proj1 (C130_panels_partial 1 Rlt_0_1) 3 4 [] [1; -1] 0 ltac:(lra) ltac:(discriminate)) as (f & p & E & _). eauto.
  - destruct (panel_freqs (fun s s' => exp (- (s - s') ^ 2)) (1 / 2) [] ltac:(lra)) as [p E]. eauto.
Qed.
