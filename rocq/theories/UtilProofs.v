(** Proofs about the helpers of gpcm/util.py. *)
From Coq Require Import Reals ZArith List Bool Lra Lia Arith Permutation.
From Verif Require Import Py UtilModel UtilSpec.
Import ListNotations.
Local Open Scope R_scope.

(** * Finite sums *)
Lemma np_sum_app l1 l2 : np_sum (l1 ++ l2) = np_sum l1 + np_sum l2.
Proof. unfold np_sum. induction l1 as [|v l1 IH]; cbn; [lra|]. rewrite IH; lra. Qed.

Lemma sumn_S n f : sumn (S n) f = sumn n f + f n.
Proof.
  unfold sumn. rewrite seq_S, map_app, np_sum_app. cbn. lra.
Qed.

Lemma sumn_total n f : sumn n f = total n f.
Proof. induction n as [|n IH]; [reflexivity|]. rewrite sumn_S, IH. reflexivity. Qed.

Lemma total_ext n f g : (forall i, (i < n)%nat -> f i = g i) -> total n f = total n g.
Proof.
  induction n as [|n IH]; intros H; cbn; [reflexivity|]. rewrite IH, (H n); auto.
Qed.

Lemma total_le n f g : (forall i, (i < n)%nat -> f i <= g i) -> total n f <= total n g.
Proof.
  induction n as [|n IH]; intros H; cbn; [lra|].
  assert (total n f <= total n g) by (apply IH; auto). specialize (H n (le_n _)). lra.
Qed.

Lemma total_0 n f : (forall i, (i < n)%nat -> f i = 0) -> total n f = 0.
Proof. intros H. rewrite (total_ext n f (fun _ => 0) H). induction n; cbn; [|rewrite IHn]; auto; lra. Qed.

Lemma total_plus n f g : total n (fun i => f i + g i) = total n f + total n g.
Proof. induction n as [|n IH]; cbn; [|rewrite IH]; lra. Qed.

Lemma total_scal n c f : total n (fun i => c * f i) = c * total n f.
Proof. induction n as [|n IH]; cbn; [|rewrite IH]; lra. Qed.

Lemma total_app a b f : total (a + b) f = total a f + total b (fun i => f (a + i)%nat).
Proof.
  induction b as [|b IH]; cbn; [rewrite Nat.add_0_r; lra|].
  rewrite Nat.add_succ_r; cbn; rewrite IH; lra.
Qed.

Lemma total_shift n f : total n (fun i => f (S i)) = total n f - f O + f n.
Proof. induction n as [|n IH]; cbn; [|rewrite IH]; lra. Qed.

Lemma total_head n f : total (S n) f = f O + total n (fun i => f (S i)).
Proof. rewrite total_shift. cbn. lra. Qed.

Lemma total_rev n f : total n f = total n (fun i => f (n - 1 - i)%nat).
Proof.
  induction n as [|n IH]; [reflexivity|].
  rewrite (total_head n (fun i => f (S n - 1 - i)%nat)). cbn [total].
  replace (S n - 1 - 0)%nat with n by lia. rewrite IH, Rplus_comm. f_equal.
  apply total_ext; intros i Hi; f_equal; lia.
Qed.

Lemma total_abs n f : Rabs (total n f) <= total n (fun i => Rabs (f i)).
Proof.
  induction n as [|n IH]; cbn; [rewrite Rabs_R0; lra|].
  eapply Rle_trans; [apply Rabs_triang|]. lra.
Qed.

Lemma total_nonneg n f : (forall i, (i < n)%nat -> 0 <= f i) -> 0 <= total n f.
Proof.
  intros H. rewrite <- (total_0 n (fun _ => 0)) by reflexivity. apply total_le; exact H.
Qed.

Lemma total_pos n f i : (forall i, (i < n)%nat -> 0 <= f i) -> (i < n)%nat -> 0 < f i -> 0 < total n f.
Proof.
  induction n as [|n IH]; intros H Hi P; [lia|]. cbn.
  assert (0 <= total n f) by (apply total_nonneg; auto).
  destruct (Nat.eq_dec i n) as [->|N]; [lra|].
  assert (0 < total n f) by (apply IH; auto; lia). specialize (H n (le_n _)). lra.
Qed.

Lemma np_sum_nth l : np_sum l = total (length l) (fun i => nth i l 0).
Proof.
  induction l as [|v l IH]; [reflexivity|].
  cbn [length]. rewrite total_head. cbn [nth]. rewrite <- IH. reflexivity.
Qed.

Lemma nth_map_lt {A} (f : A -> R) l i d : (i < length l)%nat -> nth i (map f l) 0 = f (nth i l d).
Proof.
  intros H. rewrite (nth_indep _ 0 (f d)) by (rewrite map_length; exact H). apply map_nth.
Qed.

Lemma nth_map_seq (f : nat -> R) a n i : (i < n)%nat -> nth i (map f (seq a n)) 0 = f (a + i)%nat.
Proof.
  intros H. rewrite (nth_map_lt _ _ _ O) by (rewrite seq_length; exact H). rewrite seq_nth; auto.
Qed.

(** * Autocorrelation *)
Section Autocorr.
Variable x : list R.
Hypothesis Hx : x <> [].
Let n := length x.

Lemma n_pos : (0 < n)%nat.
Proof. unfold n. destruct x; [congruence|cbn; lia]. Qed.

Lemma np_mean_of : np_mean x = mean_of x.
Proof. unfold np_mean, mean_of. rewrite np_sum_nth. reflexivity. Qed.

Let c := map (fun v => v - np_mean x) x.
Let full := np_correlate_full c c.

Lemma c_length : length c = n.
Proof. apply map_length. Qed.

Lemma c_nth i : (i < n)%nat -> nth i c 0 = nth i x 0 - mean_of x.
Proof. intros H. unfold c. rewrite (nth_map_lt _ _ _ 0) by exact H. rewrite np_mean_of. reflexivity. Qed.

Lemma full_length : length full = (2 * n - 1)%nat.
Proof. unfold full, np_correlate_full. rewrite map_length, seq_length, c_length. lia. Qed.

Lemma half : (length full / 2 = n - 1)%nat.
Proof.
  rewrite full_length. generalize n_pos; intros. 
  symmetry; apply (Nat.div_unique _ _ _ 1); lia.
Qed.

Let k := skipn (length full / 2) full.

Lemma k_length : length k = n.
Proof. unfold k. rewrite skipn_length, half, full_length. generalize n_pos; lia. Qed.

Lemma skipn_nth {A} (l : list A) a i d : nth i (skipn a l) d = nth (a + i) l d.
Proof.
  revert l; induction a as [|a IH]; intros l; [reflexivity|].
  destruct l as [|v l]; [destruct i; reflexivity|]. apply IH.
Qed.

Lemma k_nth i : (i < n)%nat -> nth i k 0 = lagged x i.
Proof.
  intros Hi. generalize n_pos; intros Hn. unfold k. rewrite skipn_nth, half.
  unfold full, np_correlate_full. rewrite nth_map_seq by (rewrite c_length; lia).
  rewrite sumn_total, c_length. unfold lagged. fold n.
  replace n with ((n - i) + i)%nat at 1 by lia. rewrite total_app.
  rewrite (total_0 i).
  2:{ intros j Hj. unfold zget. destruct (Z.ltb_spec (Z.of_nat (n - i + j) + Z.of_nat (0 + (n - 1 + i)) - (Z.of_nat n - 1)) 0); [lra|].
      rewrite nth_overflow; [lra|]. rewrite c_length. lia. }
  rewrite Rplus_0_r. apply total_ext. intros j Hj. unfold zget.
  destruct (Z.ltb_spec (Z.of_nat j + Z.of_nat (0 + (n - 1 + i)) - (Z.of_nat n - 1)) 0); [lia|].
  replace (Z.to_nat _) with (j + i)%nat by lia.
  rewrite !c_nth by lia. lra.
Qed.

Definition divisor (window : bool) (i : nat) : R := if window then INR n else INR (n - i).

Let scaled (window : bool) :=
  if window then map (fun v => v / INR (length c)) k
  else map (fun p => fst p / snd p) (combine k (map (fun i => INR (length c - i)) (seq 0 (length c)))).

Lemma scaled_length window : length (scaled window) = n.
Proof.
  unfold scaled; destruct window; rewrite map_length; [apply k_length|].
  rewrite combine_length, map_length, seq_length, k_length, c_length. lia.
Qed.

Lemma scaled_nth window i : (i < n)%nat -> nth i (scaled window) 0 = lagged x i / divisor window i.
Proof.
  intros Hi. unfold scaled; destruct window.
  - rewrite (nth_map_lt _ _ _ 0) by (rewrite k_length; exact Hi). rewrite k_nth by exact Hi.
    rewrite c_length. reflexivity.
  - rewrite (nth_map_lt _ _ _ (0, 0)) by
      (rewrite combine_length, map_length, seq_length, k_length, c_length; lia).
    rewrite combine_nth by (rewrite map_length, seq_length, k_length, c_length; reflexivity).
    cbn [fst snd]. rewrite k_nth by exact Hi. rewrite nth_map_seq by (rewrite c_length; exact Hi).
    rewrite c_length. reflexivity.
Qed.

Definition kept (lags : option Z) : nat :=
  match lags with None => n | Some l => Nat.min (S (Z.to_nat l)) n end.

Lemma autocorr_eq lags cov window : (match lags with Some l => (0 <= l)%Z | None => True end) ->
  exists r, autocorr x lags cov window = Ok r /\ length r = kept lags /\
    forall i, (i < kept lags)%nat ->
      nth i r 0 = lagged x i / divisor window i / (if cov then 1 else variance x).
Proof.
  intros L. generalize n_pos; intros Hn.
  set (k' := match lags with Some l => slice_to (scaled window) (l + 1) | None => scaled window end).
  assert (E : autocorr x lags cov window =
    if cov then Ok k' else match k' with [] => Err IndexError | k0 :: _ => Ok (map (fun v => v / k0) k') end).
  { unfold autocorr, k', scaled, k, full, c, n. destruct x; [congruence|]. destruct window; reflexivity. }
  assert (K : length k' = kept lags /\ forall i, (i < kept lags)%nat -> nth i k' 0 = lagged x i / divisor window i).
  { unfold k', kept. destruct lags as [l|].
    - unfold slice_to. destruct (Z.leb_spec 0 (l + 1)); [|lia]. rewrite firstn_length, scaled_length.
      split; [lia|]. intros i Hi. rewrite <- (scaled_nth window i) by lia.
      rewrite <- (firstn_skipn (Z.to_nat (l + 1)) (scaled window)) at 2.
      rewrite app_nth1; [reflexivity|]. rewrite firstn_length, scaled_length. lia.
    - split; [apply scaled_length|]. intros; apply scaled_nth; assumption. }
  destruct K as [K1 K2].
  assert (P : (0 < kept lags)%nat) by (unfold kept; destruct lags; lia).
  destruct cov.
  - exists k'; split; [exact E|]. split; [exact K1|]. intros i Hi. rewrite K2 by exact Hi. field.
    unfold divisor; destruct window; apply not_0_INR; unfold kept in Hi; destruct lags; lia.
  - rewrite E. destruct k' as [|k0 k''] eqn:Ek; [cbn [length] in K1; lia|].
    assert (k0 = variance x).
    { specialize (K2 O P). cbn [nth] in K2. rewrite K2. unfold variance, divisor. rewrite Nat.sub_0_r.
      destruct window; reflexivity. }
    rewrite <- Ek in *.
    exists (map (fun v => v / k0) k'); split; [reflexivity|]. split; [rewrite map_length; exact K1|].
    intros i Hi. rewrite (nth_map_lt _ _ _ 0) by (rewrite K1; exact Hi). rewrite K2 by exact Hi.
    rewrite H. reflexivity.
Qed.

Lemma lagged_bound i : (i < n)%nat -> Rabs (lagged x i) <= lagged x 0.
Proof.
  intros Hi. unfold lagged at 1. fold n. set (m := mean_of x).
  set (d := fun j => (nth j x 0 - m) * (nth j x 0 - m)).
  assert (D : forall j, 0 <= d j) by (intros; unfold d; apply Rle_0_sqr).
  assert (L0 : lagged x 0 = total n d).
  { unfold lagged. rewrite Nat.sub_0_r. fold n m. apply total_ext; intros; unfold d.
    rewrite Nat.add_0_r; reflexivity. }
  rewrite L0.
  eapply Rle_trans; [apply total_abs|].
  apply Rle_trans with (total (n - i) (fun j => / 2 * (d j + d (j + i)%nat))).
  { apply total_le; intros j _. unfold d. set (a := nth j x 0 - m). set (b := nth (j + i) x 0 - m).
    assert (Rabs (a * b) <= (a * a + b * b) / 2); [|lra].
    generalize (Rle_0_sqr (a - b)) (Rle_0_sqr (a + b)); unfold Rsqr; intros.
    apply Rabs_le; split; lra. }
  rewrite total_scal, total_plus.
  assert (A : total (n - i) d <= total n d).
  { replace n with ((n - i) + i)%nat at 2 by lia. rewrite total_app.
    assert (0 <= total i (fun j => d (n - i + j)%nat)) by (apply total_nonneg; intros; apply D). lra. }
  assert (B : total (n - i) (fun j => d (j + i)%nat) <= total n d).
  { replace n with (i + (n - i))%nat at 2 by lia. rewrite total_app.
    assert (0 <= total i d) by (apply total_nonneg; intros; apply D).
    rewrite (total_ext (n - i) (fun j => d (i + j)%nat) (fun j => d (j + i)%nat))
      by (intros; f_equal; lia). lra. }
  lra.
Qed.

Lemma variance_pos : nonconstant x -> 0 < variance x.
Proof.
  intros (i & j & Hi & Hj & N). generalize n_pos; intros Hn.
  unfold variance. apply Rdiv_lt_0_compat; [|apply lt_0_INR; exact Hn].
  unfold lagged. rewrite Nat.sub_0_r. fold n.
  assert (S : forall l, 0 <= (nth l x 0 - mean_of x) * (nth (l + 0) x 0 - mean_of x)).
  { intros l; rewrite Nat.add_0_r; apply Rle_0_sqr. }
  destruct (Req_dec (nth i x 0) (mean_of x)) as [E|E].
  - apply (total_pos n _ j); [intros; apply S|exact Hj|]. rewrite Nat.add_0_r.
    apply Rsqr_pos_lt. lra.
  - apply (total_pos n _ i); [intros; apply S|exact Hi|]. rewrite Nat.add_0_r.
    apply Rsqr_pos_lt. lra.
Qed.
End Autocorr.
