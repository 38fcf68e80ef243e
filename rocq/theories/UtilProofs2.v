(** Proofs about [estimate_psd] and [np_quantile]. *)
From Coq Require Import Reals ZArith List Bool Lra Lia Arith Permutation Sorted.
From Verif Require Import Py UtilModel UtilSpec UtilProofs.
Import ListNotations.
Local Open Scope R_scope.

(** * The symmetrised kernel *)
Lemma removelast_nth {A} (l : list A) i d : (S i < length l)%nat -> nth i (removelast l) d = nth i l d.
Proof.
  revert i; induction l as [|v l IH]; intros i H; [cbn in H; lia|].
  destruct l as [|w l]; [cbn in H; lia|]. destruct i as [|i]; [reflexivity|].
  cbn [removelast]. cbn [nth]. apply IH. cbn in *; lia.
Qed.

Lemma removelast_len {A} (l : list A) : length (removelast l) = (length l - 1)%nat.
Proof.
  induction l as [|v l IH]; [reflexivity|]. destruct l as [|w l]; [reflexivity|].
  cbn [removelast length] in *. rewrite IH. lia.
Qed.

Lemma inner_length {A} (l : list A) : length (inner l) = (length l - 2)%nat.
Proof. unfold inner. rewrite removelast_len. destruct l; cbn; lia. Qed.

Lemma inner_nth {A} (l : list A) i d : (i < length l - 2)%nat -> nth i (inner l) d = nth (S i) l d.
Proof.
  intros H. unfold inner. destruct l as [|v l]; [cbn in H; lia|].
  cbn [tl nth]. apply removelast_nth. cbn in H; lia.
Qed.

Section Psd.
Variable kp : list R.
Hypothesis Hk : (2 <= length kp)%nat.
Let L := length kp.
Let N := (2 * L - 2)%nat.
Let ks := kp ++ rev (inner kp).

Lemma ks_length : length ks = N.
Proof. unfold ks, N, L. rewrite app_length, rev_length, inner_length. lia. Qed.

Lemma ks_nth i : (i < N)%nat -> nth i ks 0 = even_extension kp N i.
Proof.
  intros Hi. unfold even_extension, ks, N, L in *.
  destruct (Nat.lt_ge_cases i (length kp)) as [H|H].
  - rewrite app_nth1 by exact H. f_equal. lia.
  - rewrite app_nth2 by exact H. rewrite rev_nth by (rewrite inner_length; lia).
    rewrite inner_length, inner_nth by lia. f_equal. lia.
Qed.

Lemma fft_cos m : Rabs (fft_re ks m) = cosine_transform kp N m.
Proof.
  unfold fft_re, cosine_transform. rewrite sumn_total, ks_length. f_equal.
  apply total_ext; intros i Hi. rewrite ks_nth by exact Hi. reflexivity.
Qed.

Lemma N_pos : 0 < INR N.
Proof. apply lt_0_INR. unfold N, L. lia. Qed.

Lemma cosine_sym m : (m <= N)%nat -> cosine_transform kp N (N - m) = cosine_transform kp N m.
Proof.
  intros Hm. unfold cosine_transform. f_equal. apply total_ext. intros i _. f_equal.
  rewrite minus_INR by exact Hm. generalize N_pos; intros P.
  replace (2 * PI * INR i * (INR N - INR m) / INR N)
    with (- (2 * PI * INR i * INR m / INR N) + 2 * INR i * PI) by (field; lra).
  rewrite cos_period, cos_neg. reflexivity.
Qed.

Lemma half_N : (N / 2 = L - 1)%nat.
Proof. unfold N. symmetry; apply (Nat.div_unique _ _ _ 0); lia. Qed.

Lemma half_N1 : ((N - 1) / 2 + 1 = L - 1)%nat.
Proof.
  unfold N, L in *. assert ((2 * length kp - 2 - 1) / 2 = length kp - 2)%nat; [|lia].
  symmetry; apply (Nat.div_unique _ _ _ 1); lia.
Qed.

(** The frequencies, in the order of the array. *)
Lemma freqs_nth dt i : (i < N)%nat ->
  nth i (map (fun f => f / dt) (fftfreq N)) 0 =
    (if (i <? L - 1)%nat then INR i else - INR (N - i)) / INR N / dt.
Proof.
  intros Hi. unfold fftfreq. rewrite half_N, half_N1.
  assert (LL : length (map (fun i : nat => INR i / INR N) (seq 0 (L - 1))
     ++ map (fun i : nat => - INR (L - 1 - i) / INR N) (seq 0 (L - 1))) = N).
  { rewrite app_length, !map_length, !seq_length. unfold N, L; lia. }
  rewrite (nth_map_lt _ _ _ 0) by (rewrite LL; exact Hi). f_equal.
  destruct (Nat.ltb_spec i (L - 1)) as [H|H].
  - rewrite app_nth1 by (rewrite map_length, seq_length; exact H).
    rewrite nth_map_seq by exact H. reflexivity.
  - rewrite app_nth2 by (rewrite map_length, seq_length; exact H).
    rewrite map_length, seq_length, nth_map_seq by (unfold N, L in *; lia).
    do 3 f_equal. unfold N, L in *; lia.
Qed.

Variable dt : R.
Hypothesis Hdt : 0 < dt.
Let P := cosine_transform kp N.
Let d := / (INR N * dt).

Lemma d_pos : 0 < d.
Proof. apply Rinv_0_lt_compat. apply Rmult_lt_0_compat; [apply N_pos|exact Hdt]. Qed.

(** What is missing from, or wrongly counted in, the sum over the unordered frequencies. *)
Definition spurious : R :=
  (P 0 + P 1%nat) / 2 + INR (N - 2) * (P (L - 2)%nat + P (L - 1)%nat) / 2.

Let freqs := map (fun f => f / dt) (fftfreq N).
Let psd := map (fun m => Rabs (fft_re ks m)) (seq 0 N).

Lemma psd_nth i : (i < N)%nat -> nth i psd 0 = P i.
Proof. intros Hi. unfold psd. rewrite nth_map_seq by exact Hi. apply fft_cos. Qed.

Lemma total_power : trapz psd freqs = 2 * trapezoid d (L - 1) P - d * spurious.
Proof.
  unfold trapz. rewrite sumn_total. unfold psd at 1. rewrite map_length, seq_length.
  generalize N_pos; intros Np.
  set (g := fun i => (P i + P (S i)) / 2).
  assert (E : forall i, (i < N - 1)%nat ->
    (nth (S i) freqs 0 - nth i freqs 0) * (nth (S i) psd 0 + nth i psd 0) / 2 =
    d * ((if (i =? L - 2)%nat then - INR (N - 1) else 1) * g i)).
  { intros i Hi. unfold freqs. rewrite !freqs_nth, !psd_nth by lia. unfold g, d.
    assert (Z : (if (S i <? L - 1)%nat then INR (S i) else - INR (N - S i)) -
                (if (i <? L - 1)%nat then INR i else - INR (N - i)) =
                if (i =? L - 2)%nat then - INR (N - 1) else 1).
    { unfold N, L in *.
      destruct (Nat.ltb_spec (S i) (length kp - 1)); destruct (Nat.ltb_spec i (length kp - 1));
        destruct (Nat.eqb_spec i (length kp - 2)); try lia.
      - rewrite S_INR; lra.
      - subst i. rewrite !minus_INR by lia. rewrite ?S_INR, ?minus_INR by lia. rewrite ?mult_INR. simpl. lra.
      - rewrite !minus_INR by lia. rewrite !S_INR. lra. }
    rewrite <- Z. field. split; lra. }
  rewrite (total_ext _ _ _ E).
  replace (N - 1)%nat with ((L - 2) + (1 + (L - 2)))%nat by (unfold N, L in *; lia).
  rewrite total_app, (total_app 1 (L - 2)). cbn [total].
  rewrite Rplus_0_l, Nat.add_0_r, Nat.eqb_refl.
  rewrite (total_ext (L - 2) (fun i => d * ((if (i =? L - 2)%nat then - INR (L - 2 + (1 + (L - 2))) else 1) * g i)) (fun i => d * g i)).
  2:{ intros i Hi. destruct (Nat.eqb_spec i (L - 2)); [lia|]. lra. }
  rewrite (total_ext (L - 2) (fun i => d * ((if (L - 2 + (1 + i) =? L - 2)%nat then - INR (L - 2 + (1 + (L - 2))) else 1) * g (L - 2 + (1 + i))%nat)) (fun i => d * g (L - 2 - i)%nat)).
  2:{ intros i Hi. destruct (Nat.eqb_spec (L - 2 + (1 + i)) (L - 2)); [lia|]. rewrite Rmult_1_l.
      f_equal. unfold g, P.
      rewrite <- (cosine_sym (L - 2 + (1 + i))), <- (cosine_sym (S (L - 2 + (1 + i)))) by (unfold N, L in *; lia).
      replace (N - (L - 2 + (1 + i)))%nat with (S (L - 2 - i)) by (unfold N, L in *; lia).
      replace (N - S (L - 2 + (1 + i)))%nat with (L - 2 - i)%nat by (unfold N, L in *; lia). lra. }
  rewrite !total_scal.
  rewrite (total_rev (L - 2) (fun i => g (L - 2 - i)%nat)).
  rewrite (total_ext (L - 2) (fun i => g (L - 2 - (L - 2 - 1 - i))%nat) (fun i => g (S i))).
  2:{ intros i Hi. f_equal. lia. }
  rewrite total_shift. unfold trapezoid, spurious.
  replace (L - 1 - 1)%nat with (L - 2)%nat by lia.
  rewrite (total_ext (L - 2) (fun i => d * (P i + P (S i)) / 2) (fun i => d * g i)) by (intros; unfold g; lra).
  rewrite total_scal.
  replace (INR (L - 2 + (1 + (L - 2)))) with (INR (N - 2) + 1).
  2:{ rewrite <- S_INR. f_equal. unfold N, L in *; lia. }
  replace (g (L - 2)%nat) with ((P (L - 2)%nat + P (L - 1)%nat) / 2).
  2:{ unfold g. do 3 f_equal. unfold L in *; lia. }
  unfold g. field.
Qed.

(** The selected entries. *)
Lemma filter_all {A} (f : A -> bool) l : (forall v, In v l -> f v = true) -> filter f l = l.
Proof.
  induction l as [|v l IH]; intros H; [reflexivity|]. cbn. rewrite (H v) by (left; reflexivity).
  rewrite IH; [reflexivity|]. intros; apply H; right; assumption.
Qed.
Lemma filter_none {A} (f : A -> bool) l : (forall v, In v l -> f v = false) -> filter f l = [].
Proof.
  induction l as [|v l IH]; intros H; [reflexivity|]. cbn. rewrite (H v) by (left; reflexivity).
  apply IH. intros; apply H; right; assumption.
Qed.
Lemma combine_app {A B} (a1 a2 : list A) (b1 b2 : list B) : length a1 = length b1 ->
  combine (a1 ++ a2) (b1 ++ b2) = combine a1 b1 ++ combine a2 b2.
Proof.
  revert b1; induction a1 as [|v a1 IH]; intros [|w b1] H; try discriminate; [reflexivity|].
  cbn. rewrite IH; [reflexivity|]. cbn in H; lia.
Qed.
Lemma combine_map_seq {A B} (f : nat -> A) (g : nat -> B) a n :
  combine (map f (seq a n)) (map g (seq a n)) = map (fun i => (f i, g i)) (seq a n).
Proof. revert a; induction n as [|n IH]; intros a; [reflexivity|]. cbn. rewrite IH; reflexivity. Qed.

Lemma selected (h : nat -> R) :
  filter (fun p => if Rle_dec 0 (fst p) then true else false) (combine freqs (map h (seq 0 N))) =
  map (fun j => (INR j / (INR N * dt), h j)) (seq 0 (L - 1)).
Proof.
  generalize N_pos; intros Np.
  unfold freqs, fftfreq. rewrite half_N, half_N1, map_app, !map_map.
  assert (EN : N = ((L - 1) + (L - 1))%nat) by (unfold N, L in *; lia).
  replace (seq 0 N) with (seq 0 (L - 1) ++ seq (0 + (L - 1)) (L - 1))
    by (rewrite <- seq_app; f_equal; unfold N, L in *; lia).
  rewrite map_app, combine_app by (rewrite !map_length; reflexivity).
  rewrite filter_app, combine_map_seq.
  rewrite filter_all.
  2:{ intros v Hv. apply in_map_iff in Hv. destruct Hv as (i & <- & _). cbn [fst].
      destruct (Rle_dec 0 (INR i / INR N / dt)) as [_|Z]; [reflexivity|]. exfalso; apply Z.
      apply Rmult_le_pos; [apply Rmult_le_pos; [apply pos_INR|]|]; left; apply Rinv_0_lt_compat; assumption. }
  rewrite filter_none.
  2:{ intros [a b] Hv. apply in_combine_l in Hv. apply in_map_iff in Hv. destruct Hv as (i & <- & Hi).
      apply in_seq in Hi. cbn [fst].
      destruct (Rle_dec 0 (- INR (L - 1 - i) / INR N / dt)) as [Z|_]; [|reflexivity]. exfalso.
      assert (Q : 0 < INR (L - 1 - i) / INR N / dt).
      { apply Rdiv_lt_0_compat; [apply Rdiv_lt_0_compat|]; try assumption. apply lt_0_INR; lia. }
      replace (- INR (L - 1 - i) / INR N / dt) with (- (INR (L - 1 - i) / INR N / dt)) in Z by (field; lra). lra. }
  rewrite app_nil_r. apply map_ext. intros i. f_equal. field. lra.
Qed.
End Psd.

Lemma estimate_psd_ok (t0 t1 : R) t (k : list R) n_zero : t0 = 0 -> 0 < t1 - t0 ->
  (2 <= length k + n_zero)%nat ->
  let kp := k ++ repeat 0 n_zero in
  let L := length kp in let N := (2 * L - 2)%nat in
  let T := 2 * trapezoid (/ (INR N * (t1 - t0))) (L - 1) (cosine_transform kp N)
           - / (INR N * (t1 - t0)) * spurious kp in
  forall db, estimate_psd (t0 :: t1 :: t) k n_zero db =
  Ok (map (fun j => INR j / (INR N * (t1 - t0))) (seq 0 (L - 1)),
      map (fun j => let v := cosine_transform kp N j / (T / nth 0 kp 0) in if db then 10 * log10 v else v)
          (seq 0 (L - 1))).
Proof.
  intros H0 Hd Hl kp L N T db.
  assert (Hk : (2 <= length kp)%nat) by (unfold kp; rewrite app_length, repeat_length; exact Hl).
  unfold estimate_psd. destruct (Req_EM_T t0 0) as [_|Z]; [|congruence].
  cbv zeta. subst T N L. fold kp. clearbody kp. clear Hl.
  rewrite (ks_length kp Hk).
  assert (TP := total_power kp Hk (t1 - t0) Hd). cbv zeta in TP.
  rewrite (ks_length kp Hk) in TP || idtac.
  destruct kp as [|k0 kp'] eqn:Ek; [cbn in Hk; lia|]. rewrite <- Ek in *.
  rewrite TP. cbn [nth].
  set (T := 2 * trapezoid _ _ _ - _).
  replace (nth 0 kp 0) with k0 by (rewrite Ek; reflexivity).
  assert (Z : forall h : R -> R, map h (map (fun m => Rabs (fft_re (kp ++ rev (inner kp)) m)) (seq 0 (2 * length kp - 2))) =
     map (fun m => h (cosine_transform kp (2 * length kp - 2) m)) (seq 0 (2 * length kp - 2))).
  { intros h. rewrite map_map. apply map_ext. intros m. f_equal. exact (fft_cos kp Hk m). }
  destruct db.
  - rewrite map_map, Z, (selected kp Hk (t1 - t0) Hd), !map_map. reflexivity.
  - rewrite Z, (selected kp Hk (t1 - t0) Hd), !map_map. reflexivity.
Qed.

(** * Quantiles *)
Lemma insert_perm v l : Permutation (v :: l) (insert v l).
Proof.
  induction l as [|w l IH]; cbn; [auto|]. destruct (Rle_dec v w); [auto|].
  eapply Permutation_trans; [apply perm_swap|]. constructor; exact IH.
Qed.
Lemma np_sort_perm l : Permutation l (np_sort l).
Proof.
  induction l as [|v l IH]; [constructor|]. cbn.
  eapply Permutation_trans; [constructor; exact IH|]. apply insert_perm.
Qed.
Lemma insert_sorted v l : StronglySorted Rle l -> StronglySorted Rle (insert v l).
Proof.
  induction l as [|w l IH]; intros H; cbn; [repeat constructor|].
  inversion H; subst. destruct (Rle_dec v w) as [Q|Q].
  - constructor; [assumption|]. constructor; [assumption|].
    eapply Forall_impl; [|eassumption]. cbn; intros; lra.
  - constructor; [auto|]. rewrite Forall_forall in *. intros z Hz.
    apply (Permutation_in z (Permutation_sym (insert_perm v l))) in Hz.
    destruct Hz as [<-|Hz]; [lra|auto].
Qed.
Lemma np_sort_sorted l : StronglySorted Rle (np_sort l).
Proof. induction l; cbn; [constructor|apply insert_sorted; assumption]. Qed.
Lemma np_sort_length l : length (np_sort l) = length l.
Proof. symmetry; apply Permutation_length, np_sort_perm. Qed.

Lemma sorted_nth l i j : StronglySorted Rle l -> (i <= j < length l)%nat -> nth i l 0 <= nth j l 0.
Proof.
  revert i j; induction l as [|v l IH]; intros i j S H; [cbn in H; lia|].
  inversion S; subst. destruct j as [|j]; [replace i with O by lia; lra|].
  destruct i as [|i]; [|cbn [nth]; apply IH; auto; cbn in H; lia].
  cbn [nth]. rewrite Forall_forall in *. apply H3. apply nth_In. cbn in H; lia.
Qed.

Definition interp (a : list R) (r : R) : R :=
  let i := Z.to_nat (Int_part r) in
  nth i a 0 + (r - INR i) * (nth (Nat.min (S i) (length a - 1)) a 0 - nth i a 0).

Lemma floor_nat r : 0 <= r -> INR (Z.to_nat (Int_part r)) <= r < INR (Z.to_nat (Int_part r)) + 1.
Proof.
  intros H. destruct (base_Int_part r) as [A B].
  assert (0 <= Int_part r)%Z.
  { apply Znot_gt_le. intros Q. assert (Int_part r <= -1)%Z by lia. apply IZR_le in H0. simpl in H0. lra. }
  rewrite INR_IZR_INZ, Z2Nat.id by assumption. lra.
Qed.

Lemma interp_mono a r s : StronglySorted Rle a -> (0 < length a)%nat ->
  0 <= r <= s -> s <= INR (length a - 1) -> interp a r <= interp a s.
Proof.
  intros Hs Hl Hr Hsl. unfold interp.
  destruct (floor_nat r) as [A1 A2]; [lra|]. destruct (floor_nat s) as [B1 B2]; [lra|].
  set (i := Z.to_nat (Int_part r)) in *. set (j := Z.to_nat (Int_part s)) in *.
  assert (Hj : (j <= length a - 1)%nat).
  { apply INR_le. lra. }
  assert (Hij : (i <= j)%nat).
  { assert (i < S j)%nat; [|lia]. apply INR_lt. rewrite S_INR. lra. }
  assert (Ij : nth j a 0 <= nth (Nat.min (S j) (length a - 1)) a 0) by (apply sorted_nth; auto; lia).
  assert (Ii : nth i a 0 <= nth (Nat.min (S i) (length a - 1)) a 0) by (apply sorted_nth; auto; lia).
  destruct (Nat.eq_dec i j) as [E|E].
  - rewrite <- E in *. 
    assert ((r - INR i) * (nth (Nat.min (S i) (length a - 1)) a 0 - nth i a 0) <=
            (s - INR i) * (nth (Nat.min (S i) (length a - 1)) a 0 - nth i a 0));
      [apply Rmult_le_compat_r; lra|lra].
  - assert (M : nth (Nat.min (S i) (length a - 1)) a 0 <= nth j a 0) by (apply sorted_nth; auto; lia).
    assert ((r - INR i) * (nth (Nat.min (S i) (length a - 1)) a 0 - nth i a 0) <=
            1 * (nth (Nat.min (S i) (length a - 1)) a 0 - nth i a 0)) by (apply Rmult_le_compat_r; lra).
    assert (0 <= (s - INR j) * (nth (Nat.min (S j) (length a - 1)) a 0 - nth j a 0)) by (apply Rmult_le_pos; lra).
    lra.
Qed.

Lemma quantile_interp l q : np_quantile l q = interp (np_sort l) (q * INR (length l - 1)).
Proof. unfold np_quantile, interp. rewrite np_sort_length. reflexivity. Qed.

Lemma quantile_mono l p q : l <> [] -> 0 <= p <= q -> q <= 1 -> np_quantile l p <= np_quantile l q.
Proof.
  intros Hl Hp Hq. rewrite !quantile_interp.
  assert (0 <= INR (length l - 1)) by apply pos_INR.
  apply interp_mono; rewrite ?np_sort_length; [apply np_sort_sorted| | |].
  - destruct l; [congruence|cbn; lia].
  - split; [apply Rmult_le_pos; lra|apply Rmult_le_compat_r; lra].
  - rewrite <- (Rmult_1_l (INR (length l - 1))) at 2. apply Rmult_le_compat_r; lra.
Qed.

Lemma quantile_ge l q m : l <> [] -> 0 <= q <= 1 -> (forall v, In v l -> m <= v) -> m <= np_quantile l q.
Proof.
  intros Hl Hq Hm. apply Rle_trans with (np_quantile l 0); [|apply quantile_mono; auto; lra].
  unfold np_quantile. rewrite Rmult_0_l.
  assert (E : Z.to_nat (Int_part 0) = O).
  { destruct (floor_nat 0) as [A _]; [lra|]. assert (Z.to_nat (Int_part 0) <= 0)%nat; [|lia]. apply INR_le. exact A. }
  rewrite E. simpl INR. replace (0 - 0) with 0 by lra. rewrite Rmult_0_l, Rplus_0_r.
  apply Hm. apply (Permutation_in _ (Permutation_sym (np_sort_perm l))). apply nth_In.
  rewrite np_sort_length. destruct l; [congruence|cbn; lia].
Qed.

(** Counting: how many samples lie between two quantiles. *)
Lemma strict_sorted l : NoDup l -> StronglySorted Rle l -> StronglySorted Rlt l.
Proof.
  induction l as [|v l IH]; intros N S; [constructor|]. inversion N; inversion S; subst.
  constructor; [auto|]. rewrite Forall_forall in *. intros z Hz.
  destruct (H6 z Hz) as [Q|Q]; [exact Q|]. subst; contradiction.
Qed.
Lemma strict_nth l i j : StronglySorted Rlt l -> (i < j < length l)%nat -> nth i l 0 < nth j l 0.
Proof.
  revert i j; induction l as [|v l IH]; intros i j S H; [cbn in H; lia|].
  inversion S; subst. destruct j as [|j]; [lia|].
  destruct i as [|i]; [|cbn [nth]; apply IH; auto; cbn in H; lia].
  cbn [nth]. rewrite Forall_forall in *. apply H3. apply nth_In. cbn in H; lia.
Qed.

Lemma interp_between a r : StronglySorted Rlt a -> 0 <= r <= INR (length a - 1) ->
  forall i, (i < length a)%nat -> (nth i a 0 <= interp a r <-> INR i <= r) /\ (interp a r <= nth i a 0 <-> r <= INR i).
Proof.
  intros Ss Hr i Hi. destruct (floor_nat r) as [A1 A2]; [lra|]. unfold interp.
  set (f := Z.to_nat (Int_part r)) in *.
  assert (Hf : (f <= length a - 1)%nat) by (apply INR_le; lra).
  assert (Sw : forall p q, (p <= q < length a)%nat -> nth p a 0 <= nth q a 0).
  { intros p q H. destruct (Nat.eq_dec p q) as [->|]; [lra|]. left; apply strict_nth; auto; lia. }
  set (nx := nth (Nat.min (S f) (length a - 1)) a 0).
  assert (Nx : nth f a 0 <= nx) by (apply Sw; lia).
  assert (U : 0 <= (r - INR f) * (nx - nth f a 0)) by (apply Rmult_le_pos; lra).
  destruct (Nat.lt_trichotomy i f) as [Q|[Q|Q]].
  - assert (nth i a 0 < nth f a 0) by (apply strict_nth; auto; lia).
    apply lt_INR in Q. split; split; intros; lra.
  - subst i. split; split; intros; try lra.
    2:{ replace r with (INR f) by lra. lra. }
    destruct (Req_dec r (INR f)) as [E|E]; [lra|]. exfalso.
    assert (f < length a - 1)%nat.
    { apply INR_lt. lra. }
    assert (nth f a 0 < nx) by (apply strict_nth; auto; lia).
    assert (0 < (r - INR f) * (nx - nth f a 0)) by (apply Rmult_lt_0_compat; lra). lra.
  - assert (Fn : (Nat.min (S f) (length a - 1) = S f)%nat) by lia.
    assert (nth f a 0 < nx) by (apply strict_nth; auto; lia).
    assert (nx <= nth i a 0) by (unfold nx; rewrite Fn; apply Sw; lia).
    assert ((r - INR f) * (nx - nth f a 0) < 1 * (nx - nth f a 0)) by (apply Rmult_lt_compat_r; lra).
    assert (INR f + 1 <= INR i) by (rewrite <- S_INR; apply le_INR; lia).
    split; split; intros; lra.
Qed.

Definition inside (a b v : R) : bool :=
  if Rle_dec a v then if Rle_dec v b then true else false else false.

Lemma inside_iff a b v : inside a b v = true <-> a <= v <= b.
Proof. unfold inside. destruct (Rle_dec a v), (Rle_dec v b); split; intros; try lra; try discriminate; reflexivity. Qed.

Lemma within_perm a b l l' : Permutation l l' -> within a b l = within a b l'.
Proof.
  unfold within. induction 1; cbn; try lia.
  - destruct (Rle_dec a x); [destruct (Rle_dec x b)|]; cbn; lia.
  - destruct (Rle_dec a x); [destruct (Rle_dec x b)|]; destruct (Rle_dec a y); [destruct (Rle_dec y b)| |destruct (Rle_dec y b)| |destruct (Rle_dec y b)|]; cbn; lia.
Qed.

Lemma within_nth a b l : within a b l = length (filter (fun i => inside a b (nth i l 0)) (seq 0 (length l))).
Proof.
  unfold within. fold (inside a b).
  induction l as [|v l IH] using rev_ind; [reflexivity|].
  rewrite app_length, Nat.add_1_r, seq_S, !filter_app, !app_length.
  cbn [filter plus]. rewrite app_nth2 by lia. rewrite Nat.sub_diag. cbn [nth].
  fold (inside a b v). 
  change (fun v0 : R => if Rle_dec a v0 then if Rle_dec v0 b then true else false else false) with (inside a b) in *.
  rewrite IH. f_equal. 
  - f_equal. apply filter_ext_in. intros i Hi. apply in_seq in Hi. rewrite app_nth1 by lia. reflexivity.
  - destruct (inside a b v); reflexivity.
Qed.

Definition count (n : nat) (a b : R) : nat := length (filter (fun i => inside a b (INR i)) (seq 0 n)).

Lemma count_S n a b : count (S n) a b = (count n a b + if inside a b (INR n) then 1 else 0)%nat.
Proof.
  unfold count. rewrite seq_S, filter_app, app_length. cbn [filter plus].
  destruct (inside a b (INR n)); reflexivity.
Qed.

Lemma count_upper n a b : INR (count n a b) <= Rmax 0 (Rmin b (INR n - 1) - a + 1).
Proof.
  induction n as [|n IH].
  { cbn. apply Rmax_l. }
  rewrite count_S, plus_INR, S_INR.
  destruct (inside a b (INR n)) eqn:E.
  - apply inside_iff in E. simpl (INR 1).
    rewrite (Rmin_right b (INR n + 1 - 1)) by lra.
    rewrite (Rmin_right b (INR n - 1)) in IH by lra.
    rewrite (Rmax_right 0 (INR n + 1 - 1 - a + 1)) by lra.
    rewrite (Rmax_right 0 (INR n - 1 - a + 1)) in IH by lra. lra.
  - simpl (INR 0). rewrite Rplus_0_r. eapply Rle_trans; [exact IH|].
    apply Rmax_case; [apply Rmax_l|]. eapply Rle_trans; [|apply Rmax_r].
    assert (Rmin b (INR n - 1) <= Rmin b (INR n + 1 - 1)); [|lra].
    apply Rle_min_compat_l; lra.
Qed.

Lemma count_lower n a b : 0 <= a ->
  (INR n - 1 <= b -> INR n - 1 - a <= INR (count n a b)) /\ Rmin b (INR n - 1) - a - 1 <= INR (count n a b).
Proof.
  intros Ha. induction n as [|n [IH1 IH2]].
  { cbn. split; [lra|]. generalize (Rmin_r b (0 - 1)); lra. }
  rewrite count_S, plus_INR, S_INR.
  assert (C : 0 <= INR (count n a b)) by apply pos_INR.
  assert (B1 : INR n + 1 - 1 <= b -> INR n + 1 - 1 - a <= INR (count n a b) + INR (if inside a b (INR n) then 1 else 0)).
  { intros Hb. specialize (IH1 ltac:(lra)). destruct (inside a b (INR n)) eqn:E.
    - simpl (INR 1); lra.
    - simpl (INR 0). assert (~ (a <= INR n <= b)) by (rewrite <- inside_iff, E; discriminate).
      lra. }
  split; [exact B1|].
  assert (I0 : 0 <= INR (if inside a b (INR n) then 1 else 0)) by apply pos_INR.
  destruct (Rle_dec (INR n + 1 - 1) b) as [Q|Q].
  - specialize (B1 Q). generalize (Rmin_r b (INR n + 1 - 1)); lra.
  - rewrite Rmin_left by lra.
    destruct (Rle_dec (INR n - 1) b) as [Q'|Q'].
    + specialize (IH1 Q'). lra.
    + rewrite Rmin_left in IH2 by lra. lra.
Qed.

(** The number of distinct samples between the quantiles [p] and [q]. *)
Lemma within_count l p q : l <> [] -> NoDup l -> 0 <= p <= q -> q <= 1 ->
  within (np_quantile l p) (np_quantile l q) l =
  count (length l) (p * INR (length l - 1)) (q * INR (length l - 1)).
Proof.
  intros Hl Hd Hp Hq. set (a := np_sort l).
  assert (Sa : StronglySorted Rlt a).
  { apply strict_sorted; [|apply np_sort_sorted]. eapply Permutation_NoDup; [apply np_sort_perm|exact Hd]. }
  assert (La : length a = length l) by apply np_sort_length.
  rewrite (within_perm _ _ _ a) by apply np_sort_perm.
  rewrite !quantile_interp. fold a. rewrite within_nth, La. unfold count.
  f_equal. apply filter_ext_in. intros i Hi. apply in_seq in Hi.
  assert (0 <= INR (length l - 1)) by apply pos_INR.
  assert (R1 : 0 <= p * INR (length l - 1) <= INR (length a - 1)).
  { rewrite La. split; [apply Rmult_le_pos; lra|]. rewrite <- (Rmult_1_l (INR (length l - 1))) at 2.
    apply Rmult_le_compat_r; lra. }
  assert (R2 : 0 <= q * INR (length l - 1) <= INR (length a - 1)).
  { rewrite La. split; [apply Rmult_le_pos; lra|]. rewrite <- (Rmult_1_l (INR (length l - 1))) at 2.
    apply Rmult_le_compat_r; lra. }
  destruct (interp_between a _ Sa R1 i ltac:(lia)) as [_ I1].
  destruct (interp_between a _ Sa R2 i ltac:(lia)) as [I2 _].
  apply eq_true_iff_eq. rewrite !inside_iff. tauto.
Qed.
