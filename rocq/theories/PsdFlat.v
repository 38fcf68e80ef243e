(** The normalisation of [estimate_psd] for kernels that vanish between the time points. *)
From Coq Require Import Reals ZArith List Bool Lia Lra Permutation.
From Verif Require Import Py UtilModel UtilSpec UtilProofs UtilProofs2.
Import ListNotations.
Local Open Scope R_scope.

Lemma total_abs n f e : (forall i, (i < n)%nat -> Rabs (f i) <= e) -> Rabs (total n f) <= INR n * e.
Proof.
  intros H. induction n as [|n IH]; cbn [total]; [cbn; rewrite Rabs_R0; lra|].
  rewrite S_INR. eapply Rle_trans; [apply Rabs_triang|]. specialize (IH (fun i Hi => H i (Nat.lt_lt_succ_r _ _ Hi))).
  specialize (H n (Nat.lt_succ_diag_r n)). lra.
Qed.

Lemma total_le n f e : (forall i, (i < n)%nat -> f i <= e) -> total n f <= INR n * e.
Proof.
  intros H. induction n as [|n IH]; cbn [total]; [cbn; lra|].
  rewrite S_INR. specialize (IH (fun i Hi => H i (Nat.lt_lt_succ_r _ _ Hi))).
  specialize (H n (Nat.lt_succ_diag_r n)). lra.
Qed.

Lemma flat_negative (k : list R) (dt e : R) (n_zero : nat) (t : list R) :
  0 < dt -> (1 <= length k)%nat -> (1 <= n_zero)%nat ->
  (forall i, (1 <= i < length k)%nat -> Rabs (nth i k 0) <= e) -> 0 <= e ->
  let N := (2 * (length k + n_zero) - 2)%nat in
  2 * INR N ^ 2 * e < nth 0 k 0 ->
  exists freqs psd, estimate_psd (0 :: dt :: t) k n_zero false = Ok (freqs, psd) /\
    (1 <= length psd)%nat /\ forall v, In v psd -> v < 0.
Proof.
  intros Hd Hk Hz He P0 N0 Hs.
  assert (Hd' : 0 < dt - 0) by lra.
  rewrite (estimate_psd_ok 0 dt t k n_zero eq_refl Hd' ltac:(lia) false).
  eexists; eexists; split; [reflexivity|].
  set (kp := k ++ repeat 0 n_zero).
  assert (LL : length kp = (length k + n_zero)%nat) by (unfold kp; rewrite app_length, repeat_length; reflexivity).
  rewrite map_length, seq_length. split; [lia|].
  set (N := (2 * length kp - 2)%nat). assert (EN : N0 = N) by (unfold N, N0; lia). rewrite EN in Hs. clear N0 EN.
  assert (N2 : 2 <= INR N) by (apply (le_INR 2); unfold N; lia).
  assert (K0 : nth 0 kp 0 = nth 0 k 0) by (unfold kp; rewrite app_nth1 by lia; reflexivity).
  assert (Ke : forall i, (1 <= i)%nat -> Rabs (nth i kp 0) <= e).
  { intros i Hi. unfold kp. destruct (Nat.lt_ge_cases i (length k)) as [L|L].
    - rewrite app_nth1 by exact L. apply He. lia.
    - rewrite app_nth2 by exact L. replace (nth (i - length k) (repeat 0 n_zero) 0) with 0; [rewrite Rabs_R0; exact P0|].
      generalize (i - length k)%nat. clear. induction n_zero; intros [|q]; cbn; auto. }
  set (k0 := nth 0 k 0) in *.
  assert (E1 : INR N * e <= INR N ^ 2 * e) by (apply Rmult_le_compat_r; [exact P0|nra]).
  assert (E0 : 0 <= INR N * e) by (apply Rmult_le_pos; lra).
  assert (P : forall j, k0 - INR N * e <= cosine_transform kp N j <= k0 + INR N * e).
  { intros j. unfold cosine_transform. set (f := fun i => even_extension kp N i * cos (2 * PI * INR i * INR j / INR N)).
    assert (EN : total N f = f 0%nat + total (N - 1) (fun i => f (S i))).
    { replace N with (S (N - 1)) at 1 by (unfold N; lia). apply total_head. }
    rewrite EN. unfold f. cbv beta.
    assert (A : Rabs (total (N - 1) (fun i => even_extension kp N (S i) * cos (2 * PI * INR (S i) * INR j / INR N))) <= INR N * e).
    { apply Rle_trans with (INR (N - 1) * e); [|apply Rmult_le_compat_r; [exact P0|apply le_INR; lia]].
      apply total_abs. intros i Hi. rewrite Rabs_mult. rewrite <- (Rmult_1_r e). apply Rmult_le_compat; try apply Rabs_pos.
      - unfold even_extension. apply Ke. lia.
      - apply Rabs_le. apply COS_bound. }
    set (r := total (N - 1) _) in *. clearbody r. unfold even_extension. cbn [Nat.min INR].
    replace (2 * PI * 0 * INR j / INR N) with 0 by (unfold Rdiv; ring).
    rewrite cos_0, Rmult_1_r, K0. assert (A1 := Rle_trans _ _ _ (Rle_abs r) A). assert (A2 := Rle_abs (- r)). rewrite Rabs_Ropp in A2. rewrite (Rabs_pos_eq (k0 + r)) by lra. lra. }
  set (d := / (INR N * (dt - 0))).
  assert (Dp : 0 < d) by (apply Rinv_0_lt_compat, Rmult_lt_0_compat; lra).
  set (C := cosine_transform kp N) in *.
  assert (T : 2 * trapezoid d (length kp - 1) C - d * spurious kp < 0).
  { unfold trapezoid, spurious. fold N C.
    assert (A : total (length kp - 1 - 1) (fun i => d * (C i + C (S i)) / 2) <= INR (length kp - 2) * (d * (k0 + INR N * e))).
    { replace (length kp - 1 - 1)%nat with (length kp - 2)%nat by lia. apply total_le. intros i _.
      pose proof (P i) as [_ P1]. pose proof (P (S i)) as [_ P2].
      replace (d * (C i + C (S i)) / 2) with (d * ((C i + C (S i)) / 2)) by field. apply Rmult_le_compat_l; lra. }
    assert (B : k0 - INR N * e + INR (N - 2) * (k0 - INR N * e) <= (C 0%nat + C 1%nat) / 2 + INR (N - 2) * (C (length kp - 2)%nat + C (length kp - 1)%nat) / 2).
    { pose proof (P 0%nat) as [P1 _]. pose proof (P 1%nat) as [P2 _]. pose proof (P (length kp - 2)%nat) as [P3 _]. pose proof (P (length kp - 1)%nat) as [P4 _].
      assert (INR (N - 2) * (k0 - INR N * e) <= INR (N - 2) * ((C (length kp - 2)%nat + C (length kp - 1)%nat) / 2)) by (apply Rmult_le_compat_l; [apply pos_INR|lra]).
      lra. }
    apply (Rmult_le_compat_l d) in B; [|lra].
    assert (EN : INR (N - 2) = 2 * INR (length kp - 2)).
    { replace (N - 2)%nat with (2 * (length kp - 2))%nat by (unfold N; lia). rewrite mult_INR. reflexivity. }
    assert (EN' : INR (N - 2) = INR N - 2) by (rewrite minus_INR by (unfold N; lia); reflexivity).
    rewrite EN' in *. assert (EL : INR (length kp - 2) = (INR N - 2) / 2) by lra. rewrite EL in A.
    assert (F : d * (k0 - INR N * e + (INR N - 2) * (k0 - INR N * e)) - 2 * ((INR N - 2) / 2 * (d * (k0 + INR N * e)))
       = d * (k0 - (INR N - 1) * (INR N * e) - (INR N - 2) * (INR N * e))) by field.
    assert (G : 0 < d * (k0 - (INR N - 1) * (INR N * e) - (INR N - 2) * (INR N * e))).
    { apply Rmult_lt_0_compat; [exact Dp|]. 
      replace (k0 - (INR N - 1) * (INR N * e) - (INR N - 2) * (INR N * e)) with (k0 - 2 * INR N ^ 2 * e + 3 * (INR N * e)) by ring. lra. }
    lra. }
  intros v Hv. apply in_map_iff in Hv. destruct Hv as (j & <- & _). cbv zeta. fold kp N d C. rewrite K0.
  set (T0 := 2 * trapezoid _ _ _ - _) in *.
  pose proof (P j) as [P1 _].
  assert (k0p : 0 < k0) by lra.
  replace (C j / (T0 / k0)) with (- (C j * k0 * / - T0)) by (field; split; lra).
  assert (0 < C j * k0 * / - T0); [|lra]. apply Rmult_lt_0_compat; [apply Rmult_lt_0_compat; lra|]. apply Rinv_0_lt_compat. lra.
Qed.

Lemma quantile_le l q m : l <> [] -> 0 <= q <= 1 -> (forall v, In v l -> v <= m) -> np_quantile l q <= m.
Proof.
  intros Hl Hq Hm. apply Rle_trans with (np_quantile l 1); [apply quantile_mono; auto; lra|].
  unfold np_quantile. rewrite Rmult_1_l.
  assert (E : Z.to_nat (Int_part (INR (length l - 1))) = (length l - 1)%nat).
  { destruct (floor_nat (INR (length l - 1))) as [A B]; [apply pos_INR|].
    set (i := Z.to_nat _) in *. apply INR_le in A. rewrite <- S_INR in B. apply INR_lt in B. lia. }
  rewrite E. rewrite Rminus_eq_0, Rmult_0_l, Rplus_0_r.
  apply Hm. apply (Permutation_in _ (Permutation_sym (np_sort_perm l))). apply nth_In.
  rewrite np_sort_length. destruct l; [congruence|cbn; lia].
Qed.
