(** C78 and C79: what is true of the two refuted claims. *)
From Coq Require Import Reals ZArith List Bool Lra Lia Arith.
From Verif Require Import Py UtilModel UtilSpec UtilProofs UtilProofs2 UtilProps.
Import ListNotations.
Local Open Scope R_scope.

(** C78, what is true instead: no value is reported for at most 20 states.  For every longer chain
    whose states after the burn-in are not all equal, the reported value is the effective sample
    size formula with lag 0 in the sum as well: [n / (3 + 2 s)] where [s] is the sum of the
    autocorrelations at lags 1 to 5.  If that sum is not negative, the value is positive and at
    most a third of the number of states; and whenever it is defined and positive, it is smaller
    than [n] if and only if [s > -1]. *)
Theorem C78_partial : forall chain : list R,
  let tail := skipn 20 chain in
  let rho k := lagged tail k / lagged tail 0 in
  let n := INR (length chain) in
  let s := total (Nat.min 5 (length tail - 1)) (fun k => rho (S k)) in
  ((length chain <= 20)%nat -> effective_sample_size chain = Ok None) /\
  (nonconstant tail ->
   exists r, effective_sample_size chain = Ok (Some r) /\
     r = n / (3 + 2 * s) /\
     (0 <= s -> 0 < r <= n / 3) /\
     (0 < 3 + 2 * s -> (r < n <-> -1 < s))).
Proof.
  intros chain tail rho n s. split.
  { intros H. unfold effective_sample_size. destruct (Nat.ltb_spec 20 (length chain)); [lia|reflexivity]. }
  intros C.
  assert (Lt : length tail = (length chain - 20)%nat) by (unfold tail; apply skipn_length).
  assert (Lp : (0 < length tail)%nat) by (destruct C as (i & _ & H & _); lia).
  assert (Hx : tail <> []) by (intros E; rewrite E in Lp; cbn in Lp; lia).
  destruct (C61_autocorr tail (Some 5%Z) false true Hx ltac:(cbn; lia)) as (r & E & L & N & _).
  assert (L6 : length r = S (Nat.min 5 (length tail - 1))) by (rewrite L; change (Z.to_nat 5) with 5%nat; lia).
  exists (n / (1 + 2 * np_sum r)).
  assert (Sr : np_sum r = 1 + s).
  { rewrite np_sum_nth, L6. rewrite total_head.
    assert (V := variance_pos tail Hx C). assert (P := n_pos tail Hx).
    assert (Np : 0 < INR (length tail)) by (apply lt_0_INR; exact P).
    assert (L0 : lagged tail 0 = variance tail * INR (length tail)) by (unfold variance; field; lra).
    assert (Z : forall i, (i < length r)%nat -> nth i r 0 = rho i).
    { intros i Hi. rewrite N by exact Hi. unfold rho. rewrite L0. field. split; lra. }
    rewrite (Z O) by lia. replace (rho O) with 1.
    2:{ unfold rho. field. rewrite L0. apply Rgt_not_eq, Rmult_lt_0_compat; assumption. }
    f_equal. apply total_ext. intros i Hi. apply Z. lia. }
  assert (Np : 0 < n) by (apply lt_0_INR; lia).
  split.
  { unfold effective_sample_size. destruct (Nat.ltb_spec 20 (length chain)); [|lia].
    fold tail. rewrite E. reflexivity. }
  rewrite Sr. replace (1 + 2 * (1 + s)) with (3 + 2 * s) by ring. split; [reflexivity|]. split.
  - intros Hs. split.
    + apply Rmult_lt_0_compat; [exact Np|]. apply Rinv_0_lt_compat. lra.
    + apply Rmult_le_compat_l; [lra|]. apply Rinv_le_contravar; lra.
  - intros Hd. split; intros H.
    + apply Rnot_le_lt. intros H'. apply (Rlt_irrefl n).
      apply Rle_lt_trans with (n / (3 + 2 * s)); [|exact H].
      apply Rmult_le_reg_r with (3 + 2 * s); [exact Hd|].
      replace (n / (3 + 2 * s) * (3 + 2 * s)) with (n * 1) by (field; lra).
      apply Rmult_le_compat_l; lra.
    + apply Rmult_lt_reg_r with (3 + 2 * s); [exact Hd|].
      replace (n / (3 + 2 * s) * (3 + 2 * s)) with (n * 1) by (field; lra).
      apply Rmult_lt_compat_l; lra.
Qed.
Print Assumptions C78_partial.

(** C79, what is true instead.  In linear mode the mean and the variance are those of the samples.
    In decibel mode the samples are returned in decibels; the reported mean is the mean power in
    decibels, which is not below the mean of the samples in decibels and equals it if the samples
    are equal; and the reported variance is a square. *)
Theorem C79_partial : forall samples : list R, samples <> [] ->
  let lin := summarise_samples samples false in
  let dec := summarise_samples samples true in
  let decibel v := 10 * (ln v / ln 10) in
  sm_mean lin = mean_of samples /\ sm_var lin = variance samples /\ sm_all_samples lin = samples /\
  sm_mean dec = decibel (mean_of samples) /\ 0 <= sm_var dec /\ sm_all_samples dec = map decibel samples /\
  ((forall v, In v samples -> 0 < v) -> mean_of (sm_all_samples dec) <= sm_mean dec) /\
  (forall a, (forall v, In v samples -> v = a) -> mean_of (sm_all_samples dec) = sm_mean dec).
Proof.
  intros l Hl lin dec decibel.
  assert (P := n_pos l Hl). assert (Np : 0 < INR (length l)) by (apply lt_0_INR; exact P).
  assert (M := np_mean_of l). 
  assert (L10 : 0 < ln 10) by (rewrite <- ln_1; apply ln_increasing; lra).
  split; [exact M|]. split.
  { unfold lin, summarise_samples. cbn [sm_var]. unfold np_std.
    assert (V : np_mean (map (fun x => (x - np_mean l) * (x - np_mean l)) l) = variance l).
    { unfold np_mean at 1, variance, lagged. rewrite map_length, np_sum_nth, map_length. f_equal.
      rewrite Nat.sub_0_r. apply total_ext. intros i Hi.
      rewrite (nth_map_lt _ l i 0) by exact Hi. rewrite Nat.add_0_r, M. reflexivity. }
    rewrite V. apply sqrt_sqrt. unfold variance, lagged. apply Rmult_le_pos; [|left; apply Rinv_0_lt_compat; exact Np].
    apply total_nonneg. intros i _. rewrite Nat.add_0_r. apply Rle_0_sqr. }
  split. { unfold lin, summarise_samples. cbn [sm_all_samples]. apply map_id. }
  split. { unfold dec, summarise_samples. cbn [sm_mean]. rewrite M. reflexivity. }
  split. { unfold dec, summarise_samples. cbn [sm_var]. apply Rle_0_sqr. }
  split; [reflexivity|].
  assert (Mdb : mean_of (sm_all_samples dec) = total (length l) (fun i => decibel (nth i l 0)) / INR (length l)).
  { unfold dec, summarise_samples, mean_of. cbn [sm_all_samples]. rewrite map_length. f_equal.
    apply total_ext. intros i Hi. rewrite (nth_map_lt _ l i 0) by exact Hi. reflexivity. }
  assert (Mn : total (length l) (fun i => nth i l 0) = mean_of l * INR (length l)) by (unfold mean_of; field; lra).
  assert (Cst : forall n c, total n (fun _ => c) = INR n * c).
  { intros n c. induction n as [|n IH]; [cbn; ring|]. cbn [total]. rewrite IH, S_INR. ring. }
  split.
  - intros Pos.
    assert (Mp : 0 < mean_of l).
    { unfold mean_of. apply Rmult_lt_0_compat; [|apply Rinv_0_lt_compat; exact Np].
      apply (total_pos _ _ O); [|exact P|]; intros; [left|]; apply Pos, nth_In; assumption. }
    rewrite Mdb. change (sm_mean dec) with (decibel (np_mean l)). rewrite M. set (m := mean_of l) in *.
    apply Rmult_le_reg_r with (INR (length l)); [exact Np|].
    replace (total (length l) (fun i => decibel (nth i l 0)) / INR (length l) * INR (length l))
      with (total (length l) (fun i => decibel (nth i l 0))) by (field; lra).
    apply Rle_trans with (total (length l) (fun i => decibel m + (10 / ln 10 / m) * (nth i l 0 + - m))).
    + apply total_le. intros i Hi. assert (Hv : 0 < nth i l 0) by (apply Pos, nth_In; exact Hi).
      assert (J : ln (nth i l 0) <= ln m + (nth i l 0 - m) / m).
      { replace (nth i l 0) with (m * (nth i l 0 / m)) at 1 by (field; lra).
        assert (Q : 0 < nth i l 0 / m) by (apply Rmult_lt_0_compat; [exact Hv|apply Rinv_0_lt_compat; exact Mp]).
        rewrite ln_mult by assumption. apply Rplus_le_compat_l.
        replace ((nth i l 0 - m) / m) with (nth i l 0 / m - 1) by (field; lra).
        set (w := nth i l 0 / m) in *.
        generalize (exp_ineq1_le (ln w)). rewrite exp_ln by exact Q. lra. }
      unfold decibel.
      replace (10 * (ln m / ln 10) + 10 / ln 10 / m * (nth i l 0 + - m))
        with (10 / ln 10 * (ln m + (nth i l 0 - m) / m)) by (field; lra).
      replace (10 * (ln (nth i l 0) / ln 10)) with (10 / ln 10 * ln (nth i l 0)) by (field; lra).
      apply Rmult_le_compat_l; [|exact J]. apply Rmult_le_pos; [lra|left; apply Rinv_0_lt_compat; exact L10].
    + rewrite total_plus, total_scal, total_plus, !Cst, Mn. right. field. lra.
  - intros a Ha. rewrite Mdb. change (sm_mean dec) with (decibel (np_mean l)). rewrite M.
    assert (E : forall i, (i < length l)%nat -> nth i l 0 = a) by (intros; apply Ha, nth_In; assumption).
    rewrite (total_ext _ _ (fun _ => decibel a)) by (intros i Hi; rewrite E by exact Hi; reflexivity).
    unfold mean_of. rewrite (total_ext _ (fun i => nth i l 0) (fun _ => a)) by exact E.
    rewrite !Cst. replace (INR (length l) * a / INR (length l)) with a by (field; lra). field. lra.
Qed.
Print Assumptions C79_partial.
