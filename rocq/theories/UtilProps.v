(** C61-C66, C70, C78, C79: the numerical helpers. *)
From Coq Require Import Reals ZArith List Bool Lra Lia Arith.
From Coquelicot Require Import Coquelicot.
From Verif Require Import Py UtilModel UtilSpec UtilProofs UtilProofs2.
Import ListNotations.
Local Open Scope R_scope.

(** C61: for every non-empty series and every number of lags from 0, [autocorr] returns one value
    for each lag below the length; each is the lagged product sum over its divisor, over the
    variance unless covariances are asked for.  For a non-constant series the correlations start
    with 1, with a window they lie in [-1, 1]; the covariances start with the variance. *)
Theorem C61_autocorr : forall (x : list R) (lags : option Z) (cov window : bool),
  x <> [] -> (match lags with Some l => (0 <= l)%Z | None => True end) ->
  exists r, autocorr x lags cov window = Ok r /\
    length r = match lags with Some l => Nat.min (Z.to_nat l + 1) (length x) | None => length x end /\
    (forall i, (i < length r)%nat ->
       nth i r 0 = lagged x i / (if window then INR (length x) else INR (length x - i))
                   / (if cov then 1 else variance x)) /\
    (cov = true -> nth 0 r 0 = variance x) /\
    (cov = false -> nonconstant x -> nth 0 r 0 = 1) /\
    (cov = false -> window = true -> nonconstant x ->
       forall i, (i < length r)%nat -> -1 <= nth i r 0 <= 1).
Proof.
  intros x lags cov window Hx L.
  destruct (autocorr_eq x Hx lags cov window L) as (r & E & Lr & N).
  assert (P := n_pos x Hx).
  exists r. split; [exact E|].
  split. { rewrite Lr. unfold kept. destruct lags; [f_equal; lia|reflexivity]. }
  assert (K : forall i, (i < length r)%nat -> (i < length x)%nat).
  { rewrite Lr. unfold kept. destruct lags; intros; lia. }
  assert (K0 : (0 < length r)%nat) by (rewrite Lr; unfold kept; destruct lags; lia).
  split. { intros i Hi. rewrite N by (rewrite <- Lr; exact Hi). reflexivity. }
  assert (N0 : nth 0 r 0 = variance x / (if cov then 1 else variance x)).
  { rewrite N by (rewrite <- Lr; exact K0). unfold divisor, variance. rewrite Nat.sub_0_r.
    destruct window; reflexivity. }
  split. { intros ->. rewrite N0. field. }
  split. { intros -> C. rewrite N0. field. generalize (variance_pos x Hx C); lra. }
  intros -> -> C i Hi.
  rewrite N by (rewrite <- Lr; exact Hi). unfold divisor.
  generalize (variance_pos x Hx C); intros V. generalize (lagged_bound x i (K i Hi)); intros B.
  assert (Np : 0 < INR (length x)) by (apply lt_0_INR; exact P).
  assert (L0 : lagged x 0 = variance x * INR (length x)) by (unfold variance; field; lra).
  assert (0 < lagged x 0) by (rewrite L0; apply Rmult_lt_0_compat; assumption).
  replace (lagged x i / INR (length x) / variance x) with (lagged x i / lagged x 0).
  2:{ rewrite L0. field. split; lra. }
  apply Rabs_le_between in B.
  split; [apply Rle_div_r|apply Rle_div_l]; lra.
Qed.
Print Assumptions C61_autocorr.

Example C61_witness : nonconstant [1; 0; -1] /\ [1; 0; -1] <> ([] : list R).
Proof. split; [|discriminate]. exists 0%nat, 1%nat. cbn. repeat split; try lia; lra. Qed.

(** The empty series is refused. *)
Theorem C61_empty : forall lags cov window, autocorr [] lags cov window = Err ValueError.
Proof. reflexivity. Qed.
Print Assumptions C61_empty.

(** C62, refuted: a series whose last autocorrelation is -3/2. *)
Theorem C62_refuted : exists r, autocorr [1; 0; -1] None false false = Ok r /\ nonconstant [1; 0; -1] /\
  nth 2 r 0 = - (3 / 2).
Proof.
  destruct (C61_autocorr [1; 0; -1] None false false ltac:(discriminate) I) as (r & E & L & N & _).
  exists r. split; [exact E|]. split; [apply C61_witness|].
  rewrite N by (rewrite L; cbn; lia). unfold variance, lagged, mean_of. cbn. field.
Qed.
Print Assumptions C62_refuted.

(** What is true instead: the unwindowed autocorrelation at lag [i] is at most [n / (n - i)] in
    absolute value. *)
Theorem C62_partial : forall (x : list R), nonconstant x ->
  exists r, autocorr x None false false = Ok r /\
    forall i, (i < length r)%nat -> Rabs (nth i r 0) <= INR (length x) / INR (length x - i).
Proof.
  intros x C. assert (Hx : x <> []).
  { intros ->. destruct C as (i & _ & H & _). cbn in H; lia. }
  destruct (C61_autocorr x None false false Hx I) as (r & E & L & N & _).
  exists r. split; [exact E|]. intros i Hi. rewrite N by exact Hi. rewrite L in Hi.
  generalize (variance_pos x Hx C); intros V. generalize (lagged_bound x i Hi); intros B.
  assert (P := n_pos x Hx).
  assert (Np : 0 < INR (length x)) by (apply lt_0_INR; exact P).
  assert (Ni : 0 < INR (length x - i)) by (apply lt_0_INR; lia).
  assert (L0 : lagged x 0 = variance x * INR (length x)) by (unfold variance; field; lra).
  rewrite L0 in B.
  unfold Rdiv. rewrite !Rabs_mult, !Rabs_inv.
  rewrite (Rabs_pos_eq (INR (length x - i))) by lra. rewrite (Rabs_pos_eq (variance x)) by lra.
  apply Rle_trans with (variance x * INR (length x) * / INR (length x - i) * / variance x).
  - apply Rmult_le_compat_r; [left; apply Rinv_0_lt_compat; exact V|].
    apply Rmult_le_compat_r; [left; apply Rinv_0_lt_compat; exact Ni|]. exact B.
  - right. field. split; lra.
Qed.
Print Assumptions C62_partial.

(** C78, refuted: with [n] the length of the chain and [rho k] the autocorrelation at lag [k] of
    the part after 20 burn-in states, the effective sample size is [n / (1 + 2 sum of rho k over
    k >= 1)].  The reported one counts lag 0 as well: it is [n / (3 + 2 sum)], one third of the
    chain for uncorrelated states, and always smaller when the former is positive. *)
Theorem C78_effective_sample_size_refuted : forall chain : list R,
  let tail := skipn 20 chain in
  let rho k := lagged tail k / lagged tail 0 in
  let s := total 5 (fun k => rho (S k)) in
  (26 <= length chain)%nat -> nonconstant tail -> 0 < 1 + 2 * s ->
  exists r, effective_sample_size chain = Ok (Some r) /\
    r = INR (length chain) / (3 + 2 * s) /\ r < INR (length chain) / (1 + 2 * s).
Proof.
  intros chain tail rho s Hl C Hs.
  assert (Lt : length tail = (length chain - 20)%nat) by (unfold tail; apply skipn_length).
  assert (Hx : tail <> []) by (intros E; rewrite E in Lt; cbn in Lt; lia).
  destruct (C61_autocorr tail (Some 5%Z) false true Hx ltac:(cbn; lia)) as (r & E & L & N & _).
  assert (L6 : length r = 6%nat) by (rewrite L, Lt; change (Z.to_nat 5) with 5%nat; lia).
  exists (INR (length chain) / (1 + 2 * np_sum r)).
  assert (Sr : np_sum r = 1 + s).
  { rewrite np_sum_nth, L6. rewrite total_head.
    assert (V := variance_pos tail Hx C). assert (P := n_pos tail Hx).
    assert (Np : 0 < INR (length tail)) by (apply lt_0_INR; exact P).
    assert (L0 : lagged tail 0 = variance tail * INR (length tail)) by (unfold variance; field; lra).
    assert (Z : forall i, (i < 6)%nat -> nth i r 0 = rho i).
    { intros i Hi. rewrite N by (rewrite L6; exact Hi). unfold rho. rewrite L0. field. split; lra. }
    rewrite (Z O) by lia. replace (rho O) with 1.
    2:{ unfold rho. field. rewrite L0. apply Rgt_not_eq, Rmult_lt_0_compat; assumption. }
    f_equal. apply total_ext. intros i Hi. apply Z. lia. }
  split.
  { unfold effective_sample_size. destruct (Nat.ltb_spec 20 (length chain)); [|lia].
    fold tail. rewrite E. reflexivity. }
  assert (0 < INR (length chain)) by (apply lt_0_INR; lia).
  rewrite Sr. split.
  - f_equal. lra.
  - apply Rmult_lt_compat_l; [assumption|]. apply Rinv_lt_contravar; [|lra].
    apply Rmult_lt_0_compat; lra.
Qed.
Print Assumptions C78_effective_sample_size_refuted.

(** An uncorrelated chain: one up, one down seven states later. *)
Example C78_witness : exists chain, (26 <= length chain)%nat /\ nonconstant (skipn 20 chain) /\
  (forall k, (1 <= k <= 5)%nat -> lagged (skipn 20 chain) k = 0).
Proof.
  exists (repeat 0 20 ++ [1; 0; 0; 0; 0; 0; 0; -1]). split; [cbn; lia|].
  change (skipn 20 (repeat 0 20 ++ [1; 0; 0; 0; 0; 0; 0; -1])) with [1; 0; 0; 0; 0; 0; 0; -1].
  split; [exists 0%nat, 1%nat; cbn; repeat split; try lia; lra|].
  intros k Hk. unfold lagged, mean_of.
  destruct k as [|[|[|[|[|[|k]]]]]]; try lia; cbn; field.
Qed.

(** C63, refuted: for a kernel that is a spike at zero, every value of the PSD is negative. *)
Theorem C63_refuted : forall (k0 dt : R) (n_zero : nat) (t : list R),
  0 < k0 -> 0 < dt -> (1 <= n_zero)%nat ->
  exists freqs psd, estimate_psd (0 :: dt :: t) [k0] n_zero false = Ok (freqs, psd) /\
    (1 <= length psd)%nat /\ forall v, In v psd -> v < 0.
Proof.
  intros k0 dt n_zero t Hk Hd Hn.
  assert (Hd' : 0 < dt - 0) by lra.
  rewrite (estimate_psd_ok 0 dt t [k0] n_zero eq_refl Hd' ltac:(cbn; lia) false).
  eexists; eexists; split; [reflexivity|].
  set (kp := [k0] ++ repeat 0 n_zero).
  assert (LL : length kp = S n_zero) by (unfold kp; cbn; rewrite repeat_length; reflexivity).
  rewrite map_length, seq_length. split; [lia|].
  set (N := (2 * length kp - 2)%nat).
  assert (P : forall j, cosine_transform kp N j = k0).
  { intros j. unfold cosine_transform.
    replace N with (S (N - 1)) at 1 by (unfold N; lia). rewrite total_head.
    rewrite total_0.
    - unfold even_extension. cbn [nth Nat.min kp app INR].
      replace (2 * PI * 0 * INR j / INR N) with 0 by (unfold Rdiv; ring).
      rewrite cos_0, Rplus_0_r, Rmult_1_r. apply Rabs_pos_eq; lra.
    - intros i Hi. unfold even_extension.
      replace (nth (Nat.min (S i) (N - S i)) kp 0) with 0; [ring|].
      destruct (Nat.min (S i) (N - S i)) as [|q] eqn:Eq; [lia|]. unfold kp. cbn [app nth].
      clear. revert q; induction n_zero; intros [|q]; cbn; auto. }
  set (d := / (INR N * (dt - 0))).
  assert (Np : 0 < INR N) by (apply lt_0_INR; unfold N; lia).
  assert (Dp : 0 < d) by (apply Rinv_0_lt_compat, Rmult_lt_0_compat; lra).
  assert (T : 2 * trapezoid d (length kp - 1) (cosine_transform kp N) - d * spurious kp = - d * k0).
  { unfold trapezoid, spurious. fold N. rewrite !P.
    rewrite (total_ext _ _ (fun _ => d * k0)) by (intros; rewrite !P; field).
    assert (Tc : forall n, total n (fun _ => d * k0) = INR n * (d * k0)).
    { induction n; cbn [total]; [cbn; lra|]. rewrite IHn, S_INR. lra. }
    rewrite Tc. replace (N - 2)%nat with (2 * (length kp - 1 - 1))%nat by (unfold N; lia).
    rewrite mult_INR. replace (INR 2) with 2 by reflexivity. field. }
  intros v Hv. apply in_map_iff in Hv. destruct Hv as (j & <- & _). cbv zeta.
  fold kp N d. rewrite T, P. cbn [nth kp app].
  replace (k0 / (- d * k0 / k0)) with (- (k0 * / d)) by (field; split; lra).
  assert (0 < k0 * / d); [|lra]. apply Rmult_lt_0_compat; [lra|]. apply Rinv_0_lt_compat; exact Dp.
Qed.
Print Assumptions C63_refuted.

(** What is true instead: let [P j] be the magnitude of the cosine transform of the padded kernel
    and [power] its two-sided integral over the returned frequencies.  The code divides by
    [power] less a spurious amount that comes from the unordered frequencies.  If what is left is
    positive, the returned PSD is non-negative, on increasing non-negative frequencies, and its
    two-sided integral is at least [k[0]]; exactly, it is [k[0] power / (power - spurious)]. *)
Theorem C63_partial : forall (k : list R) (dt : R) (n_zero : nat) (t : list R),
  0 < dt -> (2 <= length k + n_zero)%nat -> 0 < nth 0 (k ++ repeat 0 n_zero) 0 ->
  let padded := k ++ repeat 0 n_zero in
  let L := length padded in
  let N := (2 * L - 2)%nat in
  let spacing := / (INR N * dt) in
  let P := cosine_transform padded N in
  let power := 2 * trapezoid spacing (L - 1) P in
  let wrong := spacing * ((P 0%nat + P 1%nat) / 2 + INR (N - 2) * (P (L - 2)%nat + P (L - 1)%nat) / 2) in
  wrong < power ->
  exists freqs psd, estimate_psd (0 :: dt :: t) k n_zero false = Ok (freqs, psd) /\
    length freqs = length psd /\
    (forall j, (j < length freqs)%nat -> 0 <= nth j freqs 0 /\ 0 <= nth j psd 0) /\
    (forall j, (S j < length freqs)%nat -> nth (S j) freqs 0 = nth j freqs 0 + spacing) /\
    (let two_sided := 2 * trapezoid spacing (length psd) (fun j => nth j psd 0) in
     two_sided = nth 0 k 0 * (power / (power - wrong)) /\ nth 0 k 0 <= two_sided).
Proof.
  intros k dt n_zero t Hd Hl Hk padded L N spacing P power wrong Hw.
  assert (Hd' : 0 < dt - 0) by lra.
  rewrite (estimate_psd_ok 0 dt t k n_zero eq_refl Hd' Hl false).
  rewrite Rminus_0_r. fold padded. fold L. fold N. fold spacing. fold P.
  eexists; eexists; split; [reflexivity|].
  assert (L2 : (2 <= L)%nat) by (unfold L, padded; rewrite app_length, repeat_length; exact Hl).
  assert (Np : 0 < INR N) by (apply lt_0_INR; unfold N; lia).
  assert (Sp : 0 < spacing) by (apply Rinv_0_lt_compat, Rmult_lt_0_compat; assumption).
  assert (Pp : forall j, 0 <= P j) by (intros; apply Rabs_pos).
  assert (K0 : nth 0 padded 0 = nth 0 k 0).
  { destruct k as [|v k]; [|reflexivity]. exfalso. unfold padded in Hk. cbn [app] in Hk.
    destruct n_zero; cbn in Hk; lra. }
  assert (Hk' : 0 < nth 0 k 0) by (rewrite <- K0; exact Hk). rewrite K0.
  replace (spacing * spurious padded) with wrong by (unfold wrong, spurious; fold L N P; reflexivity).
  replace (2 * trapezoid spacing (L - 1) P - wrong) with (power - wrong) by reflexivity.
  assert (W0 : 0 <= wrong).
  { unfold wrong. apply Rmult_le_pos; [lra|]. generalize (Pp 0%nat) (Pp 1%nat) (Pp (L - 2)%nat) (Pp (L - 1)%nat); intros.
    assert (0 <= INR (N - 2) * (P (L - 2)%nat + P (L - 1)%nat)) by (apply Rmult_le_pos; [apply pos_INR|lra]). lra. }
  rewrite !map_length, !seq_length.
  split; [reflexivity|]. split.
  { intros j Hj. rewrite !nth_map_seq by exact Hj. cbn [plus]. split.
    - apply Rmult_le_pos; [apply pos_INR|left; exact Sp].
    - apply Rmult_le_pos; [apply Pp|]. left. apply Rinv_0_lt_compat. apply Rdiv_lt_0_compat; lra. }
  split.
  { intros j Hj. rewrite !nth_map_seq by lia. rewrite !Nat.add_0_l, S_INR. unfold spacing. field. split; lra. }
  cbv zeta.
  assert (E : 2 * trapezoid spacing (L - 1)
    (fun j => nth j (map (fun j0 => P j0 / ((power - wrong) / nth 0 k 0)) (seq 0 (L - 1))) 0) =
    nth 0 k 0 * (power / (power - wrong))).
  { set (c := power - wrong). assert (Hc : 0 < c) by (unfold c; lra). clearbody c. unfold power, trapezoid.
    rewrite (total_ext (L - 1 - 1) _ (fun i => / (c / nth 0 k 0) * (spacing * (P i + P (S i)) / 2))).
    2:{ intros i Hi. rewrite !nth_map_seq by lia. rewrite !Nat.add_0_l. field. split; lra. }
    rewrite total_scal. field. split; lra. }
  split; [exact E|]. rewrite E. 
  rewrite <- (Rmult_1_r (nth 0 k 0)) at 1. apply Rmult_le_compat_l; [lra|].
  apply Rle_div_r; lra.
Qed.
Print Assumptions C63_partial.

Example C63_witness :
  let P := cosine_transform [4; 3; 2] 4 in
  P 0%nat = 12 /\ P 1%nat = 2 /\ P 2%nat = 0 /\
  / (4 * 1) * ((P 0%nat + P 1%nat) / 2 + INR (4 - 2) * (P 1%nat + P 2%nat) / 2) < 2 * trapezoid (/ (4 * 1)) 2 P.
Proof.
  assert (c0 : forall x, cos (x * 0) = 1) by (intros; rewrite Rmult_0_r; apply cos_0).
  set (P := cosine_transform [4; 3; 2] 4).
  assert (H3 : cos (3 * (PI / 2)) = 0) by (replace (3 * (PI / 2)) with (PI / 2 + PI) by field; rewrite neg_cos, cos_PI2; ring).
  assert (H2 : cos (2 * PI) = 1) by apply cos_2PI.
  assert (H3' : cos (3 * PI) = -1) by (replace (3 * PI) with (PI + 2 * PI) by ring; rewrite cos_plus, cos_2PI, sin_2PI, cos_PI; ring).
  assert (P0 : P 0%nat = 12).
  { unfold P, cosine_transform, even_extension. cbn [total Nat.min Nat.sub nth INR].
    unfold Rdiv. rewrite !Rmult_0_r, !Rmult_0_l, !cos_0.
    replace (0 + 4 * 1 + 3 * 1 + 2 * 1 + 3 * 1) with 12 by ring. apply Rabs_pos_eq; lra. }
  assert (P1 : P 1%nat = 2).
  { unfold P, cosine_transform, even_extension. cbn [total Nat.min Nat.sub nth INR].
    replace (2 * PI * 0 * 1 / (1 + 1 + 1 + 1)) with 0 by field.
    replace (2 * PI * 1 * 1 / (1 + 1 + 1 + 1)) with (PI / 2) by field.
    replace (2 * PI * (1 + 1) * 1 / (1 + 1 + 1 + 1)) with PI by field.
    replace (2 * PI * (1 + 1 + 1) * 1 / (1 + 1 + 1 + 1)) with (3 * (PI / 2)) by field.
    rewrite cos_0, cos_PI2, cos_PI, H3.
    replace (0 + 4 * 1 + 3 * 0 + 2 * -1 + 3 * 0) with 2 by ring. apply Rabs_pos_eq; lra. }
  assert (P2 : P 2%nat = 0).
  { unfold P, cosine_transform, even_extension. cbn [total Nat.min Nat.sub nth INR].
    replace (2 * PI * 0 * (1 + 1) / (1 + 1 + 1 + 1)) with 0 by field.
    replace (2 * PI * 1 * (1 + 1) / (1 + 1 + 1 + 1)) with PI by field.
    replace (2 * PI * (1 + 1) * (1 + 1) / (1 + 1 + 1 + 1)) with (2 * PI) by field.
    replace (2 * PI * (1 + 1 + 1) * (1 + 1) / (1 + 1 + 1 + 1)) with (3 * PI) by field.
    rewrite cos_0, cos_PI, H2, H3'.
    replace (0 + 4 * 1 + 3 * -1 + 2 * 1 + 3 * -1) with 0 by ring. apply Rabs_R0. }
  cbv zeta. repeat split; auto. unfold trapezoid. cbn [total Nat.sub INR]. rewrite P0, P1, P2. lra.
Qed.

(** C64: for times that start at zero with a positive spacing [dt], [estimate_psd] returns [N / 2]
    frequencies [j / (N dt)] where [N] is the length of the symmetrised padded kernel, and one
    PSD value for each: the cosine transform there times a factor common to all frequencies.  In
    decibel mode the values are ten times the logarithm of those. *)
Theorem C64_psd_grid : forall (k : list R) (dt : R) (n_zero : nat) (t : list R) (db : bool),
  0 < dt -> (2 <= length k + n_zero)%nat ->
  let padded := k ++ repeat 0 n_zero in
  let N := (2 * (length k + n_zero) - 2)%nat in
  exists freqs psd c, estimate_psd (0 :: dt :: t) k n_zero db = Ok (freqs, psd) /\
    length freqs = Nat.div N 2 /\ length psd = Nat.div N 2 /\
    forall j, (j < Nat.div N 2)%nat ->
      nth j freqs 0 = INR j / (INR N * dt) /\
      nth j psd 0 = (if db then fun v => 10 * (ln v / ln 10) else fun v => v)
                      (c * Rabs (total N (fun i => even_extension padded N i * cos (2 * PI * INR i * INR j / INR N)))).
Proof.
  intros k dt n_zero t db Hd Hl padded N.
  assert (Hd' : 0 < dt - 0) by lra.
  rewrite (estimate_psd_ok 0 dt t k n_zero eq_refl Hd' Hl db).
  assert (L : length (k ++ repeat 0 n_zero) = (length k + n_zero)%nat)
    by (rewrite app_length, repeat_length; reflexivity).
  rewrite L. fold N. fold padded.
  assert (Hh : (Nat.div N 2 = length k + n_zero - 1)%nat).
  { unfold N. symmetry; apply (Nat.div_unique _ _ _ 0); lia. }
  set (T := 2 * trapezoid _ _ _ - _).
  eexists; eexists; exists (/ (T / nth 0 padded 0)); split; [reflexivity|].
  rewrite !map_length, !seq_length. split; [lia|]. split; [lia|].
  intros j Hj. rewrite !nth_map_seq by lia. cbn [plus]. rewrite Rminus_0_r. split; [reflexivity|].
  unfold cosine_transform, log10. destruct db; unfold Rdiv; rewrite (Rmult_comm (/ (T * / nth 0 padded 0))); reflexivity.
Qed.
Print Assumptions C64_psd_grid.

(** C64: times that do not start at zero are refused, whatever else is passed. *)
Theorem C64_refuses : forall t0 t k n_zero db, t0 <> 0 -> estimate_psd (t0 :: t) k n_zero db = Err ValueError.
Proof. intros. cbn. destruct (Req_EM_T t0 0); [contradiction|reflexivity]. Qed.
Print Assumptions C64_refuses.

(** C65: nested error bands, in linear mode for all samples and in decibel mode for positive ones. *)
Lemma log10_mono x y : 0 < x -> x <= y -> log10 x <= log10 y.
Proof.
  intros Hx H. unfold log10.
  assert (0 < ln 10) by (rewrite <- ln_1; apply ln_increasing; lra).
  apply Rmult_le_compat_r; [left; apply Rinv_0_lt_compat; assumption|].
  destruct H as [H| ->]; [left; apply ln_increasing; assumption|lra].
Qed.

Theorem C65_nested_bands : forall (samples : list R) (db : bool),
  samples <> [] -> (db = true -> forall v, In v samples -> 0 < v) ->
  let s := summarise_samples samples db in
  err_99_lower s <= err_95_lower s <= err_68_lower s /\
  err_68_lower s <= err_68_upper s /\
  err_68_upper s <= err_95_upper s <= err_99_upper s.
Proof.
  intros l db Hl Hp. cbn -[np_quantile log10].
  assert (Q : forall p q, 0 <= p <= q -> q <= 1 ->
    (if db then 10 * log10 (np_quantile l p) else np_quantile l p) <=
    (if db then 10 * log10 (np_quantile l q) else np_quantile l q)).
  { intros p q H1 H2. generalize (quantile_mono l p q Hl H1 H2); intros M.
    destruct db; [|exact M]. specialize (Hp eq_refl).
    assert (exists m, 0 < m /\ forall v, In v l -> m <= v) as (m & Hm & Hm').
    { clear - Hl Hp. induction l as [|v l IH]; [congruence|].
      destruct l as [|w l].
      - exists v; split; [apply Hp; left; reflexivity|]. intros u [<-|[]]; lra.
      - destruct IH as (m & Hm & H); [discriminate|intros; apply Hp; right; assumption|].
        assert (Hv : 0 < v) by (apply Hp; left; reflexivity).
        exists (Rmin v m). split; [apply Rmin_glb_lt; assumption|].
        intros u [<-|Hu]; [apply Rmin_l|]. eapply Rle_trans; [apply Rmin_r|]. auto. }
    apply Rmult_le_compat_l; [lra|]. apply log10_mono; [|exact M].
    apply Rlt_le_trans with m; [exact Hm|]. apply quantile_ge; auto; lra. }
  repeat split; apply Q; lra.
Qed.
Print Assumptions C65_nested_bands.

Example C65_witness : [1; 3; 2] <> ([] : list R) /\ forall v, In v [1; 3; 2] -> 0 < v.
Proof. split; [discriminate|]. intros v [<-|[<-|[<-|[]]]]; lra. Qed.

(** C66, refuted: for every set of at least two distinct samples, fewer than 68% of them lie in
    the 68% band. *)
Theorem C66_refuted : forall samples : list R, NoDup samples -> (2 <= length samples)%nat ->
  let s := summarise_samples samples false in
  INR (within (err_68_lower s) (err_68_upper s) samples) < 68 / 100 * INR (length samples).
Proof.
  intros l Hd Hn. cbn -[np_quantile].
  assert (Hl : l <> []) by (intros ->; cbn in Hn; lia).
  rewrite within_count by (auto; lra).
  set (n := length l) in *.
  generalize (count_upper n (32 / 100 * INR (n - 1)) ((1 - 32 / 100) * INR (n - 1))).
  rewrite minus_INR by lia. simpl (INR 1).
  assert (2 <= INR n) by (apply (le_INR 2); exact Hn).
  rewrite Rmin_left by lra. rewrite Rmax_right by lra. intros U.
  destruct (Nat.eq_dec n 2) as [->|N].
  - rewrite S_INR in U. simpl INR in U.
    assert (count 2 (32 / 100 * (INR 2 - 1)) ((1 - 32 / 100) * (INR 2 - 1)) <= 1)%nat.
    { apply Nat.lt_succ_r, INR_lt. rewrite S_INR. simpl INR. simpl INR in U. lra. }
    apply le_INR in H0. simpl (INR 1) in H0. simpl INR. simpl INR in H0. lra.
  - assert (INR 3 <= INR n) by (apply le_INR; lia). simpl (INR 3) in H0. lra.
Qed.
Print Assumptions C66_refuted.

(** What is true instead: the band holds the central 36%: the number of samples in it differs from
    36% of one less than their number by at most one; the other two bands hold the central 95% and
    99.7% in the same sense. *)
Theorem C66_partial : forall samples : list R, NoDup samples -> samples <> [] ->
  let s := summarise_samples samples false in
  let close p lower upper :=
    p * INR (length samples - 1) - 1 <= INR (within lower upper samples) <= p * INR (length samples - 1) + 1 in
  close (36 / 100) (err_68_lower s) (err_68_upper s) /\
  close (95 / 100) (err_95_lower s) (err_95_upper s) /\
  close (997 / 1000) (err_99_lower s) (err_99_upper s).
Proof.
  intros l Hd Hl. cbn -[np_quantile].
  assert (Hn : (1 <= length l)%nat) by (destruct l; [congruence|cbn; lia]).
  assert (G : forall p, 0 <= p <= 1 / 2 ->
    (1 - 2 * p) * INR (length l - 1) - 1 <= INR (within (np_quantile l p) (np_quantile l (1 - p)) l)
      <= (1 - 2 * p) * INR (length l - 1) + 1).
  { intros p Hp. rewrite within_count by (auto; lra).
    assert (Z : 0 <= INR (length l - 1)) by apply pos_INR.
    assert (E : INR (length l) - 1 = INR (length l - 1)) by (rewrite minus_INR by exact Hn; reflexivity).
    assert (P0 : 0 <= p * INR (length l - 1)) by (apply Rmult_le_pos; lra).
    assert (P1 : (1 - p) * INR (length l - 1) <= INR (length l - 1)) by lra.
    generalize (count_upper (length l) (p * INR (length l - 1)) ((1 - p) * INR (length l - 1))).
    generalize (proj2 (count_lower (length l) (p * INR (length l - 1)) ((1 - p) * INR (length l - 1)) P0)).
    rewrite E, Rmin_left by lra.
    assert (0 <= (1 - 2 * p) * INR (length l - 1)) by (apply Rmult_le_pos; lra).
    rewrite Rmax_right by lra. lra. }
  split; [|split].
  - generalize (G (32 / 100) ltac:(lra)). replace (1 - 2 * (32 / 100)) with (36 / 100) by lra. auto.
  - generalize (G (25 / 1000) ltac:(lra)). replace (1 - 2 * (25 / 1000)) with (95 / 100) by lra. auto.
  - generalize (G (15 / 10000) ltac:(lra)). replace (1 - 2 * (15 / 10000)) with (997 / 1000) by lra. auto.
Qed.
Print Assumptions C66_partial.

(** C79, refuted: in decibel mode the reported variance is not the variance of the samples in
    decibels; it is zero for any two samples at distance two. *)
Theorem C79_decibel_variance_refuted : forall a : R, 0 < a ->
  let s := summarise_samples [a; a + 2] true in
  sm_var s = 0 /\ 0 < variance (sm_all_samples s).
Proof.
  intros a Ha. cbn [sm_var sm_all_samples summarise_samples].
  assert (Std : np_std [a; a + 2] = 1).
  { unfold np_std, np_mean, np_sum. cbn [fold_right map length INR].
    replace (_ / _) with 1 by field. apply sqrt_1. }
  rewrite Std. split; [unfold log10; rewrite ln_1; unfold Rdiv; ring|].
  apply variance_pos; [discriminate|]. exists 0%nat, 1%nat. cbn [length map nth]. repeat split; try lia.
  intros E. unfold log10 in E.
  assert (0 < ln 10) by (rewrite <- ln_1; apply ln_increasing; lra).
  assert (ln a < ln (a + 2)) by (apply ln_increasing; lra).
  assert (10 * (ln a / ln 10) < 10 * (ln (a + 2) / ln 10)); [|lra].
  apply Rmult_lt_compat_l; [lra|]. apply Rmult_lt_compat_r; [apply Rinv_0_lt_compat|]; assumption.
Qed.
Print Assumptions C79_decibel_variance_refuted.

(** C70: [hessian] accepts a tensor exactly if it is a column vector; what it returns is symmetric
    and is the Hessian whenever that is symmetric. *)
Definition update (x : nat -> R) (i : nat) (s : R) : nat -> R := fun j => if (j =? i)%nat then s else x j.
Definition partial_derivative (f : (nat -> R) -> R) (i : nat) (x : nat -> R) : R :=
  Derive (fun s => f (update x i s)) (x i).

Theorem C70_hessian : forall (f : (nat -> R) -> R) (x : nat -> R) (jac : nat -> nat -> R) (shape : list nat),
  (forall i j, jac i j = partial_derivative (partial_derivative f i) j x) ->
  ((forall n, shape <> [n; 1%nat]) -> hessian shape jac = Err ValueError) /\
  (forall n, shape = [n; 1%nat] -> exists h, hessian shape jac = Ok h /\ symmetric h /\
     (symmetric (fun i j => partial_derivative (partial_derivative f i) j x) ->
        forall i j, h i j = partial_derivative (partial_derivative f i) j x)).
Proof.
  intros f x jac shape J. split.
  - intros N. destruct shape as [|a [|[|[|b]] [|c l]]]; try reflexivity. exfalso; exact (N a eq_refl).
  - intros n ->. eexists; split; [reflexivity|]. split.
    + intros i j. field.
    + intros S i j. rewrite (J i j), (J j i), (S j i). field.
Qed.
Print Assumptions C70_hessian.

(** A function with a symmetric Hessian: the product of the first two entries. *)
Example C70_witness : symmetric (fun i j => partial_derivative (partial_derivative (fun x => x 0%nat * x 1%nat) i) j (fun _ => 0)).
Proof.
  assert (P : forall i x, partial_derivative (fun x => x 0%nat * x 1%nat) i x =
    match i with 0%nat => x 1%nat | 1%nat => x 0%nat | _ => 0 end).
  { intros i x. unfold partial_derivative, update. destruct i as [|[|i]]; cbn [Nat.eqb].
    - apply is_derive_unique. auto_derive; [trivial|ring].
    - apply is_derive_unique. auto_derive; [trivial|ring].
    - apply Derive_const. }
  intros i j. unfold partial_derivative at 1 3.
  rewrite !(Derive_ext _ _ _ (fun s => P _ _)).
  unfold update. destruct i as [|[|i]], j as [|[|j]]; cbn [Nat.eqb]; rewrite ?Derive_id, ?Derive_const; reflexivity.
Qed.
