(** C109-C111: the options of an experiment, the test of the spacing of the data, and the plots of Fourier features. *)
From Coq Require Import Reals ZArith List Bool Lra Lia Permutation.
From Verif Require Import Py RgpcmModel RgpcmSpec ExperimentModel.
Import ListNotations.
Local Open Scope R_scope.

(** * C109: the options given on the command line are those that training uses *)

(** The number of iterations that was asked for, unless it is zero, and the hyperparameters are optimised unless they
    were asked to be fixed. *)
Theorem C109_options_partial :
  forall (default_iters : Z) (iters : option Z) (fix_hypers : bool),
    iters <> Some 0%Z ->
    fit_args default_iters (train_config (Options iters fix_hypers))
    = (match iters with Some n => n | None => default_iters end, negb fix_hypers).
Proof.
  intros d [n|] f H; unfold fit_args, train_config; simpl; [|now destruct f].
  destruct (Z.eqb_spec n 0) as [->|]; [now elim H|]. now destruct f.
Qed.
Print Assumptions C109_options_partial.

(** Full claim: also for [--iters 0]. It fails: the option is dropped, and training runs the default number of
    iterations, for every default. *)
Theorem C109_options_refuted :
  ~ (forall (iters : option Z) (fix_hypers : bool),
       fit_args 5000 (train_config (Options iters fix_hypers))
       = (match iters with Some n => n | None => 5000%Z end, negb fix_hypers))
  /\ forall d f, fst (fit_args d (train_config (Options (Some 0%Z) f))) = d.
Proof.
  split; [|reflexivity]. intros H. specialize (H (Some 0%Z) false). unfold fit_args, train_config in H. simpl in H. discriminate.
Qed.
Print Assumptions C109_options_refuted.

Example C109_witness : fit_args 5000 (train_config (Options (Some 100%Z) true)) = (100%Z, false).
Proof. apply C109_options_partial. discriminate. Qed.

(** * C110: the test of the spacing of the data *)

(** The second difference of the times at position [i]. *)
Definition second_difference (t : list R) (i : nat) : R := nth (i + 2) t 0 - 2 * nth (i + 1) t 0 + nth i t 0.

(** Times at equal distances. *)
Definition evenly_spaced (t : list R) : Prop :=
  exists d, forall i, (i + 1 < List.length t)%nat -> nth (i + 1) t 0 - nth i t 0 = d.

(** ** Helpers *)
Lemma diff_length t : List.length (diff t) = (List.length t - 1)%nat.
Proof.
  induction t as [|x t IH]; [reflexivity|]. destruct t as [|y t]; [reflexivity|].
  change (diff (x :: y :: t)) with ((y - x) :: diff (y :: t)). simpl List.length in *. rewrite IH. lia.
Qed.

Lemma diff_nth t i : (i + 1 < List.length t)%nat -> nth i (diff t) 0 = nth (i + 1) t 0 - nth i t 0.
Proof.
  revert i. induction t as [|x t IH]; intros i H; [simpl in H; lia|]. destruct t as [|y t]; [simpl in H; lia|].
  change (diff (x :: y :: t)) with ((y - x) :: diff (y :: t)). destruct i as [|i]; [reflexivity|].
  change (nth (S i) ((y - x) :: diff (y :: t)) 0) with (nth i (diff (y :: t)) 0). rewrite IH; [reflexivity|simpl in *; lia].
Qed.

Lemma diff2_nth t i : (i + 2 < List.length t)%nat -> nth i (diff (diff t)) 0 = second_difference t i.
Proof.
  intros H. unfold second_difference. rewrite diff_nth by (rewrite diff_length; lia). rewrite !diff_nth by lia.
  replace (i + 1 + 1)%nat with (i + 2)%nat by lia. ring.
Qed.

Lemma fold_max_spec l x : (forall y, In y (x :: l) -> y <= fold_left Rmax l x) /\ In (fold_left Rmax l x) (x :: l).
Proof.
  revert x. induction l as [|z l IH]; intros x; simpl.
  - split; [intros y [->|[]]; lra|now left].
  - destruct (IH (Rmax x z)) as [A B]. split.
    + intros y [->|[->|I]].
      * eapply Rle_trans; [apply Rmax_l|]. apply A. now left.
      * eapply Rle_trans; [apply Rmax_r|]. apply A. now left.
      * apply A. now right.
    + destruct B as [B|B]; [|auto]. rewrite <- B at 1 2. unfold Rmax. destruct (Rle_dec x z); auto.
Qed.

Lemma py_max_spec l v : py_max l = Ok v -> (forall y, In y l -> y <= v) /\ In v l.
Proof. destruct l as [|x l]; [discriminate|]. intros E. injection E as <-. apply fold_max_spec. Qed.

Lemma py_max_some l : l <> [] -> exists v, py_max l = Ok v.
Proof. destruct l; [congruence|]. simpl. eauto. Qed.

Lemma in_diff2 t x : In x (diff (diff t)) <-> exists i, (i + 2 < List.length t)%nat /\ x = second_difference t i.
Proof.
  split.
  - intros I. apply (In_nth _ _ 0) in I. destruct I as [i [L E]]. rewrite !diff_length in L. exists i. split; [lia|].
    rewrite <- diff2_nth by lia. now symmetry.
  - intros [i [L ->]]. rewrite <- diff2_nth by assumption. apply nth_In. rewrite !diff_length. lia.
Qed.

(** The test, in terms of the times. *)
Lemma equally_spaced_spec t : (3 <= List.length t)%nat ->
  exists b, equally_spaced t = Ok b
  /\ (b = true <-> exists j, (j < List.length t)%nat /\
        forall i, (i + 2 < List.length t)%nat -> Rabs (second_difference t i) < 5 / 100 * Rabs (nth j t 0)).
Proof.
  intros L. unfold equally_spaced.
  destruct (py_max_some (map Rabs (diff (diff t)))) as [num En].
  { intros E. apply (f_equal (@List.length R)) in E. rewrite map_length, !diff_length in E. simpl in E. lia. }
  destruct (py_max_some (map Rabs t)) as [den Ed]. { destruct t; [simpl in L; lia|discriminate]. }
  rewrite En, Ed. cbn [bind]. apply py_max_spec in En, Ed. destruct En as [N1 N2], Ed as [D1 D2].
  assert (D0 : 0 <= den). { apply in_map_iff in D2. destruct D2 as [x [<- _]]. apply Rabs_pos. }
  assert (Hj : exists j, (j < List.length t)%nat /\ den = Rabs (nth j t 0)).
  { apply in_map_iff in D2. destruct D2 as [x [<- I]]. apply (In_nth _ _ 0) in I. destruct I as [j [J E]]. exists j. now rewrite E. }
  assert (Hi : exists i, (i + 2 < List.length t)%nat /\ num = Rabs (second_difference t i)).
  { apply in_map_iff in N2. destruct N2 as [x [<- I]]. apply in_diff2 in I. destruct I as [i [I ->]]. eauto. }
  destruct Hi as [i0 [I0 En]], Hj as [j0 [J0 Ed]].
  assert (K : (exists j, (j < List.length t)%nat /\
        forall i, (i + 2 < List.length t)%nat -> Rabs (second_difference t i) < 5 / 100 * Rabs (nth j t 0))
        <-> num < 5 / 100 * den).
  { split.
    - intros [j [J H]]. specialize (H i0 I0). rewrite <- En in H. assert (Rabs (nth j t 0) <= den).
      { apply D1, in_map, nth_In. exact J. } lra.
    - intros H. exists j0. split; [exact J0|]. intros i I. rewrite <- Ed. eapply Rle_lt_trans; [|exact H].
      apply N1, in_map, in_diff2. eauto. }
  destruct (Req_EM_T den 0) as [Z|Z].
  - exists false. split; [reflexivity|]. rewrite K. split; [discriminate|]. intros H. assert (0 <= num) by (rewrite En; apply Rabs_pos). lra.
  - eexists. split; [reflexivity|]. rewrite K. assert (P : 0 < den) by lra.
    destruct (Rlt_dec (num / den) (5 / 100)) as [H|H].
    + split; [|reflexivity]. intros _. apply (Rmult_lt_compat_r den) in H; [|exact P]. unfold Rdiv at 1 in H.
      rewrite Rmult_assoc, Rinv_l in H by exact Z. lra.
    + split; [discriminate|]. intros H'. exfalso. apply H. apply (Rmult_lt_reg_r den); [exact P|]. unfold Rdiv at 1.
      rewrite Rmult_assoc, Rinv_l by exact Z. lra.
Qed.

(** Fewer than three times raise. Times at equal distances that are not all zero pass. The test compares the changes of
    the spacing with a twentieth of the largest absolute time, so that the unit of time does not matter. *)
Theorem C110_spacing_partial :
  (forall t, (List.length t < 3)%nat -> equally_spaced t = Err ValueError)
  /\ (forall t, (3 <= List.length t)%nat -> evenly_spaced t -> (exists x, In x t /\ x <> 0) -> equally_spaced t = Ok true)
  /\ (forall t, (3 <= List.length t)%nat -> exists b, equally_spaced t = Ok b
       /\ (b = true <-> exists j, (j < List.length t)%nat /\
             forall i, (i + 2 < List.length t)%nat -> Rabs (second_difference t i) < 5 / 100 * Rabs (nth j t 0)))
  /\ (forall t c, c <> 0 -> equally_spaced (map (Rmult c) t) = equally_spaced t).
Proof.
  assert (short : forall t, (List.length t < 3)%nat -> equally_spaced t = Err ValueError).
  { intros [|x [|y [|z t]]] L; try reflexivity. simpl in L. lia. }
  split; [exact short|]. split; [|split; [exact equally_spaced_spec|]].
  - intros t L [d E] [x [I X]]. destruct (equally_spaced_spec t L) as [b [-> Hb]]. f_equal. apply Hb.
    apply (In_nth _ _ 0) in I. destruct I as [j [J Ej]]. exists j. split; [exact J|]. intros i Hi.
    replace (second_difference t i) with 0.
    + rewrite Rabs_R0. assert (0 < Rabs (nth j t 0)) by (rewrite Ej; now apply Rabs_pos_lt). lra.
    + unfold second_difference. pose proof (E i ltac:(lia)) as E1. pose proof (E (i + 1)%nat ltac:(lia)) as E2.
      replace (i + 1 + 1)%nat with (i + 2)%nat in E2 by lia. lra.
  - intros t c C. destruct (Nat.lt_ge_cases (List.length t) 3) as [L|L].
    { rewrite (short t L). apply short. now rewrite map_length. }
    destruct (equally_spaced_spec t L) as [b [-> Hb]].
    destruct (equally_spaced_spec (map (Rmult c) t)) as [b' [-> Hb']]; [now rewrite map_length|]. f_equal.
    apply eq_true_iff_eq. rewrite Hb, Hb', map_length.
    assert (M : forall i, nth i (map (Rmult c) t) 0 = c * nth i t 0).
    { intros i. rewrite <- (Rmult_0_r c) at 1. now rewrite map_nth. }
    assert (S : forall i, second_difference (map (Rmult c) t) i = c * second_difference t i).
    { intros i. unfold second_difference. rewrite !M. ring. }
    assert (P : 0 < Rabs c) by now apply Rabs_pos_lt.
    split; intros [j [J H]]; exists j; (split; [exact J|]); intros i I; specialize (H i I).
    + rewrite S, M, !Rabs_mult in H. apply (Rmult_lt_reg_l (Rabs c)); [exact P|]. lra.
    + rewrite S, M, !Rabs_mult. apply (Rmult_lt_compat_l (Rabs c)) in H; [|exact P]. lra.
Qed.
Print Assumptions C110_spacing_partial.

(** Full claim: neither does the origin of time. It fails: whatever the times are, they pass if the origin is far away,
    although the same times near the origin do not. *)
Theorem C110_origin_refuted :
  (forall t, (3 <= List.length t)%nat -> exists d0, forall d, d0 < d -> equally_spaced (map (Rplus d) t) = Ok true)
  /\ equally_spaced [0; 1; 3] = Ok false /\ equally_spaced (map (Rplus 1000) [0; 1; 3]) = Ok true.
Proof.
  assert (M : forall d t i, (i < List.length t)%nat -> nth i (map (Rplus d) t) 0 = d + nth i t 0).
  { intros d t i I. rewrite (nth_indep _ 0 (d + 0)) by now rewrite map_length. now rewrite map_nth. }
  assert (S : forall d t i, (i + 2 < List.length t)%nat -> second_difference (map (Rplus d) t) i = second_difference t i).
  { intros d t i I. unfold second_difference. rewrite !M by lia. ring. }
  split; [|split].
  - intros t L. destruct (py_max_some (map Rabs (diff (diff t)))) as [num En].
    { intros E. apply (f_equal (@List.length R)) in E. rewrite map_length, !diff_length in E. simpl in E. lia. }
    apply py_max_spec in En. destruct En as [N1 N2].
    assert (N0 : 0 <= num). { apply in_map_iff in N2. destruct N2 as [x [<- _]]. apply Rabs_pos. }
    exists (Rabs (nth 0 t 0) + 20 * num). intros d D.
    destruct (equally_spaced_spec (map (Rplus d) t)) as [b [-> Hb]]; [now rewrite map_length|]. f_equal. apply Hb.
    rewrite map_length. exists 0%nat. split; [lia|]. intros i I. rewrite S by exact I. rewrite M by lia.
    assert (H : Rabs (second_difference t i) <= num). { apply N1, in_map, in_diff2. eauto. }
    assert (A : - Rabs (nth 0 t 0) <= nth 0 t 0). { pose proof (Rle_abs (- nth 0 t 0)) as A. rewrite Rabs_Ropp in A. lra. }
    rewrite (Rabs_right (d + nth 0 t 0)) by lra. lra.
  - destruct (equally_spaced_spec [0; 1; 3]) as [[|] [-> H]]; [simpl; lia| |reflexivity]. exfalso.
    destruct (proj1 H eq_refl) as [j [J E]]. specialize (E 0%nat ltac:(simpl; lia)). unfold second_difference in E. simpl in E, J.
    replace (3 - 2 * 1 + 0) with 1 in E by ring. rewrite (Rabs_right 1) in E by lra.
    destruct j as [|[|[|j]]]; try lia; rewrite Rabs_right in E; lra.
  - destruct (equally_spaced_spec (map (Rplus 1000) [0; 1; 3])) as [b [-> H]]; [simpl; lia|]. f_equal. apply H.
    exists 0%nat. split; [simpl; lia|]. intros i I. simpl in I. assert (i = 0%nat) by lia. subst i.
    unfold second_difference. simpl. rewrite (Rabs_right (1000 + 0)) by lra. rewrite Rabs_right; lra.
Qed.
Print Assumptions C110_origin_refuted.

Example C110_witness : evenly_spaced [2; 5; 8; 11] /\ equally_spaced [2; 5; 8; 11] = Ok true.
Proof.
  assert (E : evenly_spaced [2; 5; 8; 11]).
  { exists 3. intros i I. simpl in I. destruct i as [|[|[|i]]]; simpl; try lra. lia. }
  split; [exact E|]. apply C110_spacing_partial; [simpl; lia|exact E|]. exists 2. split; [now left|lra].
Qed.

(** * C111: the plots of the Fourier features *)
Lemma in_where test l i : In i (where_ test l) <-> (i < List.length l)%nat /\ test (nth i l 0%Z) = true.
Proof. unfold where_. rewrite filter_In, in_seq. split; intros [A B]; split; auto; lia. Qed.

(** On the support of the features, every point of the first panel is at the frequency of a cosine, and every point of
    the second panel that is not the constant is at the frequency of a sine. The first panel has all the cosines, the
    second has all the sines and the constant. *)
Theorem C111_panels_partial :
  forall m : rgpcm, r_a m < r_b m -> (0 <= r_m_max m)%Z ->
    (forall f i tau, In (f, i) (cosine_panel m) -> r_a m < tau < r_b m ->
       beta m (nth i (r_ms m) 0%Z) tau = cos (2 * PI * f * (tau - r_a m)))
    /\ (forall f i tau, In (f, i) (sine_panel m) -> r_a m < tau < r_b m -> nth i (r_ms m) 0%Z <> 0%Z ->
       beta m (nth i (r_ms m) 0%Z) tau = sin (2 * PI * f * (tau - r_a m)))
    /\ (forall i, In i (map snd (cosine_panel m)) <-> (i < List.length (r_ms m))%nat /\ (nth i (r_ms m) 0 <= r_m_max m)%Z)
    /\ (forall i, In i (map snd (sine_panel m)) <->
         (i < List.length (r_ms m))%nat /\ (nth i (r_ms m) 0 = 0 \/ r_m_max m < nth i (r_ms m) 0)%Z).
Proof.
  intros m AB M0. assert (X : r_b m - r_a m <> 0) by lra. split; [|split; [|split]].
  - intros f i tau I T. unfold cosine_panel in I. apply in_map_iff in I. destruct I as [k [E I]]. injection E as <- ->.
    assert (C : (nth i (r_ms m) 0 <=? r_m_max m)%Z = true).
    { apply in_app_or in I. destruct I as [I|I]; apply in_where in I; destruct I as [_ I]; [|exact I].
      apply Z.eqb_eq in I. rewrite I. now apply Z.leb_le. }
    unfold beta. rewrite C. destruct (Rle_dec tau (r_a m)); [lra|]. destruct (Rlt_dec tau (r_b m)); [|lra].
    f_equal. field. exact X.
  - intros f i tau I T N0. unfold sine_panel in I. apply in_map_iff in I. destruct I as [k [E I]]. injection E as <- ->.
    assert (C : (r_m_max m < nth i (r_ms m) 0)%Z).
    { apply in_app_or in I. destruct I as [I|I]; apply in_where in I; destruct I as [_ I]; [|now apply Z.ltb_lt in I].
      apply Z.eqb_eq in I. now elim N0. }
    unfold beta. replace (nth i (r_ms m) 0 <=? r_m_max m)%Z with false by (symmetry; apply Z.leb_gt; exact C).
    destruct (Rle_dec tau (r_a m)); [lra|]. destruct (Rlt_dec tau (r_b m)); [|lra].
    rewrite Z.max_l by lia. rewrite minus_IZR. f_equal. field. exact X.
  - intros i. unfold cosine_panel. rewrite map_map, map_id, in_app_iff, !in_where, Z.eqb_eq, Z.leb_le. split; [|tauto].
    intros [[A B]|H]; [|exact H]. rewrite B. auto.
  - intros i. unfold sine_panel. rewrite map_map, map_id, in_app_iff, !in_where, Z.eqb_eq, Z.ltb_lt. tauto.
Qed.
Print Assumptions C111_panels_partial.

(** Full claim: every point of the second panel is the estimate of a sine at its frequency. It fails: the panel also shows
    the constant feature, at the frequency zero, at which the sine vanishes. *)
Theorem C111_panels_refuted :
  forall m : rgpcm, r_a m < r_b m -> (0 <= r_m_max m)%Z -> In 0%Z (r_ms m) ->
    exists i, In (0, i) (sine_panel m)
      /\ forall tau, r_a m < tau < r_b m ->
           beta m (nth i (r_ms m) 0%Z) tau = 1 /\ sin (2 * PI * 0 * (tau - r_a m)) = 0.
Proof.
  intros m AB M0 I. apply (In_nth _ _ 0%Z) in I. destruct I as [i [L E]]. exists i. split.
  - unfold sine_panel. apply in_map_iff. exists i. split.
    + rewrite E. rewrite Z.max_r by lia. f_equal. field. lra.
    + apply in_or_app. left. apply in_where. split; [exact L|]. rewrite E. reflexivity.
  - intros tau T. rewrite E. unfold beta. replace (0 <=? r_m_max m)%Z with true by (symmetry; now apply Z.leb_le).
    destruct (Rle_dec tau (r_a m)); [lra|]. destruct (Rlt_dec tau (r_b m)); [|lra].
    split.
    + replace (2 * PI * 0 / (r_b m - r_a m) * (tau - r_a m)) with 0 by (field; lra). apply cos_0.
    + replace (2 * PI * 0 * (tau - r_a m)) with 0 by ring. apply sin_0.
Qed.
Print Assumptions C111_panels_refuted.

(** Witness: a model on (-1, 5) with one cosine, one sine and the constant. *)
Definition panel_model : rgpcm := RGPCM 0 1 1 1 4 (-1) 5 1 [0; 1; 2]%Z 3 1 [0] 2 1.
Example C111_witness :
  r_a panel_model < r_b panel_model /\ cosine_panel panel_model = [(0 / (5 - -1), 0%nat); (0 / (5 - -1), 0%nat); (1 / (5 - -1), 1%nat)]
  /\ sine_panel panel_model = [(0 / (5 - -1), 0%nat); (1 / (5 - -1), 2%nat)].
Proof. split; [simpl; lra|]. split; reflexivity. Qed.
