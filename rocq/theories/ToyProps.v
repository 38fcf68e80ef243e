(** The property C127: the data and the plots of the toy experiments. *)
From Coq Require Import Reals ZArith List Bool Lra Lia Sorting.Sorted.
From Verif Require Import Py UtilModel GpcmModel PaperModel PaperProofs ToyModel.
Import ListNotations.
Local Open Scope R_scope.

(** A plot shows predictions in the region from which data were removed. *)
Definition shows_region (plot : res (list R)) : Prop :=
  exists l t, plot = Ok l /\ In t l /\ -88 / 10 <= t <= 88 / 10.
(** A plot has its times in order. *)
Definition in_order (plot : res (list R)) : Prop := exists l, plot = Ok l /\ StronglySorted Rlt l.

Lemma ok_inj {A} (x y : A) : Ok x = Ok y -> x = y. Proof. congruence. Qed.

Lemma toy_times_eq : toy_times = Ok (map (fun i => -44 + INR i / 10) (seq 0 881)).
Proof.
  unfold toy_times, linspace. change (881 <? 0)%Z with false. cbv iota. f_equal. change (Z.to_nat 881) with 881%nat.
  apply map_ext. intros i. destruct (Nat.eqb_spec i 0) as [->|_]; simpl (INR 0); field.
Qed.

Lemma kept i : negb ((if Rle_dec (-88 / 10) (-44 + INR i / 10) then true else false) && (if Rle_dec (-44 + INR i / 10) (88 / 10) then true else false))
  = ((i <? 352) || (528 <? i))%nat.
Proof.
  assert (E : forall n, INR n = IZR (Z.of_nat n)) by apply INR_IZR_INZ.
  destruct (Nat.ltb_spec i 352) as [A|A]; cbn [orb].
  - assert (INR i <= 351). { rewrite E. apply IZR_le. lia. } destruct (Rle_dec (-88 / 10) (-44 + INR i / 10)); [lra|]. reflexivity.
  - assert (352 <= INR i). { rewrite E. apply IZR_le. lia. } destruct (Rle_dec (-88 / 10) (-44 + INR i / 10)); [|lra]. cbn [andb].
    destruct (Nat.ltb_spec 528 i) as [B|B].
    + assert (529 <= INR i). { rewrite E. apply IZR_le. lia. } destruct (Rle_dec (-44 + INR i / 10) (88 / 10)); [lra|]. reflexivity.
    + assert (INR i <= 528). { rewrite E. apply IZR_le. lia. } destruct (Rle_dec (-44 + INR i / 10) (88 / 10)); [|lra]. reflexivity.
Qed.

Lemma filter_combine {A B} (f : A -> bool) (g : nat -> A) : forall (k : nat) s (ys : list B), length ys = k ->
  map fst (filter (fun p => f (fst p)) (combine (map g (seq s k)) ys)) = map g (filter (fun i => f (g i)) (seq s k)).
Proof.
  induction k as [|k IH]; intros s [|y ys] L; simpl in *; try discriminate; auto. injection L as L.
  destruct (f (g s)); simpl; rewrite IH; auto.
Qed.

Theorem C127_data :
  forall t, toy_times = Ok t ->
    length t = 881%nat /\ StronglySorted Rlt t
    /\ forall y : list R, length y = 881%nat -> let kept := remove_region (combine t y) in
        (* what is left is what lies outside of the region, with its values *)
        (forall p, In p kept <-> In p (combine t y) /\ (fst p < -88 / 10 \/ 88 / 10 < fst p))
        (* and has the same number of points on either side *)
        /\ length kept = 704%nat
        /\ map fst kept = map (fun i => -44 + INR i / 10) (seq 0 352 ++ seq 529 352).
Proof.
  intros t E. rewrite toy_times_eq in E. apply ok_inj in E. subst t. split; [now rewrite map_length, seq_length|]. split.
  - assert (G : forall n s, StronglySorted Rlt (map (fun i => -44 + INR i / 10) (seq s n))); [|apply G].
    induction n as [|n IH]; intros s; cbn [seq map]; constructor; auto.
    apply Forall_forall. intros x Hx. apply in_map_iff in Hx. destruct Hx as [i [<- Hi]]. apply in_seq in Hi.
    assert (INR s < INR i) by (apply lt_INR; lia). lra.
  - intros y L kept'.
    assert (M : map fst kept' = map (fun i => -44 + INR i / 10) (seq 0 352 ++ seq 529 352)).
    { unfold kept', remove_region.
      rewrite (filter_combine (fun x => negb ((if Rle_dec (-88 / 10) x then true else false) && (if Rle_dec x (88 / 10) then true else false)))) by exact L.
      f_equal. rewrite (filter_ext _ (fun i => ((i <? 352) || (528 <? i))%nat)) by (intros i; apply kept). reflexivity. }
    split; [|split; auto].
    + intros p. unfold kept', remove_region. rewrite filter_In, negb_true_iff, andb_false_iff.
      destruct (Rle_dec (-88 / 10) (fst p)), (Rle_dec (fst p) (88 / 10)); split; intros [A B]; split; auto; try (destruct B; discriminate); try lra; tauto.
    + rewrite <- (map_length fst), M, map_length, app_length, !seq_length. reflexivity.
Qed.
Print Assumptions C127_data.

Definition C127_shown_claim : Prop :=
  forall plot, plot = eq_t_plot \/ plot = smk_t_plot -> shows_region plot /\ in_order plot.

Lemma eq_plot_eq : eq_t_plot = Ok (repeat 44 500).
Proof.
  unfold eq_t_plot, linspace. change (500 <? 0)%Z with false. cbv iota. f_equal. change (Z.to_nat 500) with 500%nat.
  assert (G : forall n s, map (fun i => if Nat.eqb i 0 then 44 else 44 + INR i * ((44 - 44) / (500 - 1))) (seq s n) = repeat 44 n); [|apply G].
  induction n as [|n IH]; intros s; cbn [seq map repeat]; auto. rewrite IH. f_equal.
  destruct (Nat.eqb s 0); auto. replace ((44 - 44) / (500 - 1)) with 0 by field. ring.
Qed.

Theorem C127_shown_refuted : ~ C127_shown_claim.
Proof.
  intros H. destruct (H eq_t_plot (or_introl eq_refl)) as [[l [t [E [Ht B]]]] _]. rewrite eq_plot_eq in E. apply ok_inj in E. subst l.
  apply repeat_spec in Ht. subst t. lra.
Qed.
Print Assumptions C127_shown_refuted.

(** The plot of smk.py is as it should be; that of eq.py shows five hundred times the last time of the
    data. *)
Theorem C127_shown_partial :
  shows_region smk_t_plot /\ in_order smk_t_plot
  /\ (forall l, eq_t_plot = Ok l -> length l = 500%nat /\ (forall t, In t l -> t = 44) /\ ~ StronglySorted Rlt l
        /\ exists t, toy_times = Ok t /\ last t 0 = 44).
Proof.
  assert (E : smk_t_plot = Ok (map (fun i => INR i * (10 / 499)) (seq 0 500))).
  { unfold smk_t_plot, linspace. change (500 <? 0)%Z with false. cbv iota. f_equal. change (Z.to_nat 500) with 500%nat.
    apply map_ext. intros i. destruct (Nat.eqb_spec i 0) as [->|_]; [simpl; ring|]. field. }
  split; [|split].
  - eexists _, 0. split; [exact E|]. split; [|lra]. apply in_map_iff. exists 0%nat. split; [simpl; ring|]. apply in_seq. lia.
  - eexists. split; [exact E|]. assert (G : forall n s, StronglySorted Rlt (map (fun i => INR i * (10 / 499)) (seq s n))); [|apply G].
    induction n as [|n IH]; intros s; cbn [seq map]; constructor; auto.
    apply Forall_forall. intros x Hx. apply in_map_iff in Hx. destruct Hx as [i [<- Hi]]. apply in_seq in Hi.
    assert (INR s < INR i) by (apply lt_INR; lia). apply Rmult_lt_compat_r; lra.
  - intros l E'. rewrite eq_plot_eq in E'. apply ok_inj in E'. subst l. split; [apply repeat_length|]. split; [intros t; apply repeat_spec|]. split.
    + intros St. change (repeat 44 500) with (44 :: 44 :: repeat 44 498) in St. inversion St as [|? ? _ F]; subst. apply Forall_inv in F. lra.
    + eexists. split; [apply toy_times_eq|]. replace 881%nat with (880 + 1)%nat by reflexivity. rewrite seq_app, map_app. change (seq (0 + 880) 1) with [880%nat].
      cbn [map]. rewrite last_last, INR_IZR_INZ. change (Z.of_nat 880) with 880%Z. field.
Qed.
Print Assumptions C127_shown_partial.

Theorem C127_kernel :
  forall x y, smk_toy_kernel x y = cos (2 * PI * (x - y)) * exp (- (x - y) ^ 2 / 2)
    /\ smk_toy_kernel x y = smk_toy_kernel (x - y) 0 /\ smk_toy_kernel x x = 1.
Proof.
  assert (E : forall x y, smk_toy_kernel x y = cos (2 * PI * (x - y)) * exp (- (x - y) ^ 2 / 2)).
  { intros x y. unfold smk_toy_kernel, fun_mul, EQ. replace (2 * PI * (x - y)) with (2 * PI * x - 2 * PI * y) by ring. rewrite cos_minus.
    replace (x / 1 - y / 1) with (x - y) by field. ring. }
  intros x y. split; auto. split; [rewrite !E; now rewrite Rminus_0_r|].
  rewrite E. replace (2 * PI * (x - x)) with 0 by ring. replace (- (x - x) ^ 2 / 2) with 0 by field. rewrite cos_0, exp_0. ring.
Qed.
Print Assumptions C127_kernel.

Lemma sum_shift m l : np_sum (map (fun x => x - m) l) = np_sum l - INR (length l) * m.
Proof. induction l as [|x l IH]; [simpl; ring|]. cbn [map length]. rewrite S_INR. unfold np_sum in *. cbn [fold_right]. rewrite IH. ring. Qed.

Lemma combine_affine (f g : R -> R) l : forall l',
  combine (map f l) (map g l') = map (fun p => (f (fst p), g (snd p))) (combine l l').
Proof. induction l as [|x l IH]; intros [|y l']; simpl; auto. now rewrite IH. Qed.

Theorem C127_mauna_loa :
  forall n index values, (0 < n)%nat -> length index = length values -> index <> [] ->
    0 < np_std (last_n n values) ->
    exists t y, mauna_loa n index values = Ok (t, y)
      (* the last observations, paired as they were, with times from zero *)
      /\ length t = Nat.min n (length index) /\ length y = length t /\ hd_error t = Some 0
      /\ (exists t0 m s, 0 < s /\ combine t y = map (fun p => (fst p - t0, (snd p - m) / s)) (last_n n (combine index values)))
      (* with zero mean and unit variance *)
      /\ np_mean y = 0 /\ np_std y = 1.
Proof.
  intros n index values Hn L Ni Hs. unfold mauna_loa.
  set (t := last_n n index). set (v := last_n n values) in *. set (m := np_mean v). set (w := map (fun x => x - m) v). set (s := np_std w).
  assert (Lt : length t = Nat.min n (length index)) by (unfold t, last_n; rewrite skipn_length; lia).
  assert (Lv : length v = length t) by (unfold v, last_n; rewrite skipn_length; lia).
  assert (Pt : (0 < length t)%nat) by (rewrite Lt; destruct index; [easy|simpl; lia]).
  assert (Pn : 0 < INR (length v)) by (rewrite Lv; now apply lt_0_INR).
  assert (Mw : np_mean w = 0). { unfold np_mean, w. rewrite sum_shift, map_length. unfold m, np_mean. field. lra. }
  assert (Sw : s = np_std v).
  { unfold s, np_std. rewrite Mw. unfold w. rewrite map_map. fold m. do 2 f_equal. apply map_ext. intros x. ring. }
  destruct t as [|t0 t'] eqn:Et; [simpl in Pt; lia|]. cbn [bind].
  eexists _, _. split; [reflexivity|]. fold w. fold s.
  assert (Y : map (fun x => x / s) w = map (fun x => / s * x) w) by (apply map_ext; intros x; unfold Rdiv; ring).
  assert (Ps : 0 < s) by now rewrite Sw.
  split; [rewrite map_length; exact Lt|]. split; [rewrite !map_length; unfold w; rewrite map_length; exact Lv|].
  split; [simpl; f_equal; ring|]. split; [|split].
  - exists t0, m, s. split; auto. rewrite <- Et. unfold w. rewrite map_map.
    assert (C : last_n n (combine index values) = combine (last_n n index) v).
    { unfold v, last_n. rewrite combine_length, <- L, Nat.min_id. clear - L. revert values L. generalize (length index - n)%nat as k.
      intros k. revert index. induction k as [|k IH]; intros [|a l] [|b l'] L; simpl in *; auto; try discriminate. }
    rewrite C. fold t. exact (combine_affine (fun x => x - t0) (fun x => (x - m) / s) t v).
  - rewrite Y, mean_sc, Mw. ring.
  - rewrite Y, std_sc by (left; now apply Rinv_0_lt_compat). fold s. field. lra.
Qed.
Print Assumptions C127_mauna_loa.

Example C127_witness :
  (0 < 2)%nat /\ length [5; 6; 7] = length [9; 1; 3] /\ np_std (last_n 2 [9; 1; 3]) = 1 /\ last_n 2 [9; 1; 3] = [1; 3].
Proof.
  split; [lia|]. split; auto. split; auto. unfold last_n. cbn [length Nat.sub skipn]. unfold np_std.
  assert (np_mean [1; 3] = 2) as -> by (unfold np_mean; simpl; field). cbn [map].
  assert (np_mean [(1 - 2) * (1 - 2); (3 - 2) * (3 - 2)] = 1) as -> by (unfold np_mean; simpl; field). apply sqrt_1.
Qed.
