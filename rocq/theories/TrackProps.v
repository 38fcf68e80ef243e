(** The properties C125 and C126: measuring run times, and comparing models. *)
From Coq Require Import Reals ZArith List Bool Lra Lia Permutation Sorting.Sorted.
From Verif Require Import Py UtilModel TrackModel TrackSpec.
Import ListNotations.
Local Open Scope R_scope.

Lemma run_app s a b : run s (a ++ b) = run (run s a) b.
Proof. apply fold_left_app. Qed.

Lemma run_calls h : forall r ref gone ts vs, r = ref + gone ->
  run (Tracker r ts vs []) (calls h) = Tracker (ref + (gone + paused h)) (ts ++ working_times ref gone h) (vs ++ measured h) [].
Proof.
  induction h as [|[now v|a b] h IH]; intros r ref gone ts vs ->.
  - simpl. rewrite !app_nil_r. f_equal. ring.
  - cbn [calls flat_map]. rewrite run_app. cbn [run fold_left step tr_ref tr_times tr_values tr_open].
    rewrite (IH _ ref gone) by reflexivity. cbn [paused fold_right working_times measured flat_map]. rewrite <- !app_assoc. cbn [app].
    f_equal. f_equal. f_equal. ring.
  - cbn [calls flat_map]. rewrite run_app. cbn [run fold_left step tr_ref tr_times tr_values tr_open].
    rewrite (IH _ ref (gone + (b - a))) by ring. cbn [paused fold_right working_times measured flat_map app]. f_equal.
    change (fold_right _ 0 h) with (paused h). ring.
Qed.

Lemma working_at h1 now v h2 ref : forall gone,
  nth_error (working_times ref gone (h1 ++ Measure now v :: h2)) (length (measured h1)) = Some (now - ref - (gone + paused h1)).
Proof.
  induction h1 as [|[n w|a b] h1 IH]; intros gone.
  - cbn. f_equal. ring.
  - cbn [app working_times measured flat_map length nth_error paused fold_right]. apply IH.
  - cbn [app working_times measured flat_map length nth_error paused fold_right]. rewrite IH. f_equal. change (fold_right _ 0 h1) with (paused h1). ring.
Qed.

Lemma working_length h ref : forall gone, length (working_times ref gone h) = length (measured h).
Proof. induction h as [|[n w|a b] h IH]; intros gone; simpl; auto. Qed.

Lemma sorted_head_le (a : R) l : StronglySorted Rle (a :: l) -> forall x, In x l -> a <= x.
Proof. intros S x Hx. inversion S as [|? ? _ F]; subst. rewrite Forall_forall in F. auto. Qed.

Lemma working_sorted h : forall last ref gone, StronglySorted Rle (last :: readings h) ->
  StronglySorted Rle (working_times ref gone h) /\ forall x, In x (working_times ref gone h) -> last - ref - gone <= x.
Proof.
  induction h as [|[now v|a b] h IH]; intros last ref gone S.
  - split; [constructor|intros x []].
  - cbn [readings flat_map app] in S. inversion S as [|? ? S' F]; subst. destruct (IH now ref gone S') as [A B].
    pose proof (Forall_inv F) as L. cbn [working_times]. split.
    + constructor; auto. apply Forall_forall. auto.
    + intros x [<-|Hx]; [lra|]. specialize (B x Hx). lra.
  - cbn [readings flat_map app] in S. inversion S as [|? ? S' F]; subst. inversion S' as [|? ? S'' F']; subst.
    destruct (IH b ref (gone + (b - a)) S'') as [A B]. cbn [working_times]. split; auto.
    intros x Hx. specialize (B x Hx). pose proof (Forall_inv F). lra.
Qed.

Lemma skipn_sorted (l : list R) : forall n, StronglySorted Rle l -> StronglySorted Rle (skipn n l).
Proof. induction l as [|x l IH]; intros [|n] S; auto. simpl. apply IH. now inversion S. Qed.
Lemma skipn_nth (l : list R) : forall n r, nth_error l n = Some r -> exists rest, skipn n l = r :: rest.
Proof. induction l as [|x l IH]; intros [|n] r H; simpl in *; try discriminate; [injection H as ->; eauto|auto]. Qed.

Theorem C125_tracker :
  forall ref h, StronglySorted Rle (ref :: readings h) ->
    let s := run (new_tracker ref) (calls h) in
    (* values are kept in order, one time each *)
    tr_values s = measured h /\ length (tr_times s) = length (tr_values s)
    (* the time of a measurement is that since the start without the pauses before it *)
    /\ (forall h1 now v h2, h = h1 ++ Measure now v :: h2 ->
          nth_error (tr_times s) (length (measured h1)) = Some (now - ref - paused h1)
          /\ nth_error (tr_values s) (length (measured h1)) = Some v)
    /\ StronglySorted Rle (tr_times s) /\ (forall x, In x (tr_times s) -> 0 <= x)
    (* what is plotted starts at zero and is in order; too few measurements raise *)
    /\ forall start, match get_xy s start with
        | Ok (xs, ys) => (start < length (measured h))%nat /\ ys = skipn start (measured h) /\ length xs = length ys
            /\ hd_error xs = Some 0 /\ StronglySorted Rle xs
        | Err e => e = IndexError /\ (length (measured h) <= start)%nat
        end.
Proof.
  intros ref h S s.
  assert (E : s = Tracker (ref + paused h) (working_times ref 0 h) (measured h) []).
  { unfold s, new_tracker. rewrite (run_calls h ref ref 0) by ring. simpl. f_equal. ring. }
  rewrite E. cbn [tr_times tr_values]. destruct (working_sorted h ref ref 0 S) as [A B].
  split; auto. split; [apply working_length|]. split; [|split; [exact A|split]].
  - intros h1 now v h2 ->. rewrite working_at. split; [f_equal; ring|].
    unfold measured. rewrite flat_map_app. cbn [flat_map app]. rewrite nth_error_app2 by lia. now rewrite Nat.sub_diag.
  - intros x Hx. specialize (B x Hx). lra.
  - intros start. unfold get_xy. cbn [tr_times tr_values]. destruct (nth_error (working_times ref 0 h) start) as [r|] eqn:N.
    + destruct (skipn_nth _ _ _ N) as [rest Er].
      assert (L : (start < length (working_times ref 0 h))%nat) by (apply nth_error_Some; congruence). rewrite working_length in L.
      split; auto. split; auto. split; [rewrite map_length, !skipn_length, working_length; reflexivity|].
      split; [rewrite Er; simpl; f_equal; ring|].
      pose proof (skipn_sorted _ start A) as Sk. clear - Sk. induction Sk as [|x l S IH F]; simpl; constructor; auto.
      apply Forall_forall. intros y Hy. apply in_map_iff in Hy. destruct Hy as [z [<- Hz]]. rewrite Forall_forall in F. specialize (F z Hz). lra.
    + split; auto. apply nth_error_None in N. now rewrite working_length in N.
Qed.
Print Assumptions C125_tracker.

(** The callbacks track the first eighteen calls and every fifth of the later ones. *)
Lemma tracked_filter {A} (vs : list A) : forall c,
  tracked c vs = map snd (filter (fun p => ((c + Z.of_nat (fst p) <? 20) || ((c + Z.of_nat (fst p)) mod 5 =? 0))%Z)
    (combine (seq 1 (length vs)) vs)).
Proof.
  assert (G : forall (vs : list A) (k : nat) (c : Z), tracked (c + Z.of_nat k)%Z vs =
    map snd (filter (fun p : nat * A => ((c + Z.of_nat (fst p) <? 20) || ((c + Z.of_nat (fst p)) mod 5 =? 0))%Z) (combine (seq (S k) (length vs)) vs))).
  { clear vs. induction vs as [|v vs' IH]; intros k c; auto. cbn [tracked length seq combine filter fst].
    replace (c + Z.of_nat k + 1)%Z with (c + Z.of_nat (S k))%Z by lia.
    rewrite IH. destruct (_ || _)%bool; reflexivity. }
  intros c. specialize (G vs 0%nat c). now rewrite Z.add_0_r in G.
Qed.

Inductive sublist {A} : list A -> list A -> Prop :=
| sub_nil : sublist [] []
| sub_skip x a b : sublist a b -> sublist a (x :: b)
| sub_keep x a b : sublist a b -> sublist (x :: a) (x :: b).

Lemma tracked_sub {A} (vs : list A) : forall c, sublist (tracked c vs) vs.
Proof. induction vs as [|v vs IH]; intros c; simpl; [constructor|]. destruct (_ || _)%bool; constructor; apply IH. Qed.
Lemma sub_in {A} (a b : list A) : sublist a b -> forall x, In x a -> In x b.
Proof. induction 1; intros y Hy; simpl in *; auto. destruct Hy as [->|Hy]; auto. Qed.
Lemma sub_sorted a b : sublist a b -> StronglySorted Rle b -> StronglySorted Rle a.
Proof.
  induction 1; intros S; auto; inversion S; subst; auto. constructor; auto.
  apply Forall_forall. intros y Hy. rewrite Forall_forall in H3. apply H3. eapply sub_in; eauto.
Qed.

Theorem C125_callbacks :
  forall (vs : list R),
    tracked 1 vs = map snd (filter (fun p => ((fst p <=? 18)%nat || (Z.of_nat (fst p) mod 5 =? 4)%Z)) (combine (seq 1 (length vs)) vs))
    /\ firstn 18 (tracked 1 vs) = firstn 18 vs
    (* a curve that ascends is shown as one that ascends *)
    /\ (StronglySorted Rle vs -> StronglySorted Rle (tracked 1 vs))
    /\ (forall v, In v (tracked 1 vs) -> In v vs).
Proof.
  intros vs. split; [|split; [|split]].
  - rewrite tracked_filter. f_equal. apply filter_ext. intros [i v]. cbn [fst].
    destruct (Z.ltb_spec (1 + Z.of_nat i) 20), (Nat.leb_spec i 18); try lia; cbn [orb]; auto.
    destruct (Z.eqb_spec ((1 + Z.of_nat i) mod 5) 0), (Z.eqb_spec (Z.of_nat i mod 5) 4); auto; exfalso; Z.to_euclidean_division_equations; lia.
  - assert (G : forall (k : nat) (vs : list R) (c : Z), (c + Z.of_nat k = 19)%Z -> firstn k (tracked c vs) = firstn k vs).
    { clear. induction k as [|k IH]; intros [|v vs] c Hc; auto. cbn [tracked]. 
      destruct (Z.ltb_spec (c + 1) 20); [|lia]. cbn [orb firstn]. f_equal. apply IH. lia. }
    apply G. reflexivity.
  - apply sub_sorted, tracked_sub.
  - apply sub_in, tracked_sub.
Qed.
Print Assumptions C125_callbacks.

Lemma accumulate_length b l : length (accumulate_from b l) = length l.
Proof. revert b. induction l as [|x l IH]; intros b; simpl; auto. Qed.

(** The other curves show the best value so far. *)
Theorem C125_best :
  forall l, length (accumulate l) = length l /\ StronglySorted Rle (accumulate l)
    /\ forall i m, nth_error (accumulate l) i = Some m -> is_max m (firstn (S i) l).
Proof.
  assert (G : forall l b seen, is_max b seen -> StronglySorted Rle (accumulate_from b l) /\ (forall x, In x (accumulate_from b l) -> b <= x)
      /\ forall i m, nth_error (accumulate_from b l) i = Some m -> is_max m (seen ++ firstn (S i) l)).
  { induction l as [|x l IH]; intros b seen [Hb Mb].
    - split; [constructor|]. split; [intros ? []|]. intros [|i] m; discriminate.
    - assert (Hm : is_max (Rmax b x) (seen ++ [x])).
      { split; [unfold Rmax; destruct (Rle_dec b x); apply in_or_app; simpl; auto|].
        intros y Hy. apply in_app_or in Hy. destruct Hy as [Hy|[<-|[]]]; [eapply Rle_trans; [apply Mb, Hy|apply Rmax_l]|apply Rmax_r]. }
      destruct (IH _ _ Hm) as [S [L N]]. cbn [accumulate_from]. split; [|split].
      + constructor; auto. apply Forall_forall. auto.
      + intros y [<-|Hy]; [apply Rmax_l|]. eapply Rle_trans; [apply Rmax_l|apply L, Hy].
      + intros [|i] m E; cbn [nth_error] in E.
        * injection E as <-. exact Hm.
        * specialize (N i m E). rewrite <- app_assoc in N. exact N. }
  intros [|x l].
  - split; auto. split; [constructor|]. intros [|i] m; discriminate.
  - assert (Hx : is_max x [x]) by (split; [now left|intros y [<-|[]]; lra]). destruct (G l x [x] Hx) as [S [L N]]. cbn [accumulate]. split; [|split].
    + simpl. now rewrite accumulate_length.
    + constructor; auto. apply Forall_forall. auto.
    + intros [|i] m E; cbn [nth_error] in E; [injection E as <-; exact Hx|]. apply (N i m E).
Qed.
Print Assumptions C125_best.

(** A witness: two measurements with a pause of three seconds between them; and why pauses should not
    be nested: the inner pause would be taken out twice. *)
Example C125_witness :
  let h := [Measure 1 10; Pause 2 5; Measure 6 20; Measure 8 30] in
  StronglySorted Rle (0 :: readings h)
  /\ tr_times (run (new_tracker 0) (calls h)) = [1 - 0; 6 - (0 + (5 - 2)); 8 - (0 + (5 - 2))]
  /\ tracked 1 (map INR (seq 1 30)) = map INR (seq 1 19 ++ [24; 29]%nat)
  /\ accumulate [1; 3; 2] = [1; 3; 3]
  /\ tr_times (run (new_tracker 0) [EEnter 1; EEnter 2; EExit 3; EExit 4; ETrack 5 0]) = [5 - (0 + (3 - 2) + (4 - 1))].
Proof.
  split; [|split; [|split; [|split]]].
  - repeat (constructor; [|repeat constructor; lra]). constructor.
  - reflexivity.
  - reflexivity.
  - unfold accumulate, accumulate_from. rewrite Rmax_right by lra. rewrite Rmax_left by lra. reflexivity.
  - reflexivity.
Qed.

(** * C126 *)

Definition differences (a b : list R) : list R := map (fun p => fst p - snd p) (combine a b).

Lemma sum_diff a : forall b, length a = length b -> np_sum (differences a b) = np_sum a - np_sum b.
Proof.
  unfold differences. induction a as [|x a IH]; intros [|y b] L; simpl in *; try discriminate; [ring|]. injection L as L.
  unfold np_sum in *. rewrite IH by auto. ring.
Qed.
Lemma diff_length a b : length a = length b -> length (differences a b) = length a.
Proof. intros L. unfold differences. rewrite map_length, combine_length. lia. Qed.
Lemma diff_swap a : forall b, differences b a = map Ropp (differences a b).
Proof.
  unfold differences. induction a as [|x a IH]; intros [|y b]; auto. cbn [combine map fst snd]. rewrite IH. f_equal. ring.
Qed.
Lemma sum_opp l : np_sum (map Ropp l) = - np_sum l.
Proof. induction l as [|x l IH]; simpl; [ring|]. unfold np_sum in *. rewrite IH. ring. Qed.
Lemma mean_opp l : np_mean (map Ropp l) = - np_mean l.
Proof. unfold np_mean. rewrite sum_opp, map_length. unfold Rdiv. ring. Qed.
Lemma std_opp l : np_std (map Ropp l) = np_std l.
Proof. unfold np_std. rewrite mean_opp, map_map. do 2 f_equal. apply map_ext. intros x. ring. Qed.
Lemma sum_perm l l' : Permutation l l' -> np_sum l = np_sum l'.
Proof. unfold np_sum. induction 1; simpl; lra. Qed.
Lemma mean_perm l l' : Permutation l l' -> np_mean l = np_mean l'.
Proof. intros P. unfold np_mean. now rewrite (sum_perm _ _ P), (Permutation_length P). Qed.
Lemma std_perm l l' : Permutation l l' -> np_std l = np_std l'.
Proof. intros P. unfold np_std. rewrite (mean_perm _ _ P). f_equal. apply mean_perm. now apply Permutation_map. Qed.

Lemma sum_sq_nonneg (l : list R) m : 0 <= np_sum (map (fun x => (x - m) * (x - m)) l).
Proof. induction l as [|y l IH]; simpl; [lra|]. unfold np_sum in *. pose proof (Rle_0_sqr (y - m)). unfold Rsqr in *. lra. Qed.
Lemma sum_sq_zero (l : list R) m : np_sum (map (fun x => (x - m) * (x - m)) l) = 0 -> forall x, In x l -> x = m.
Proof.
  induction l as [|y l IH]; intros H x Hx; [destruct Hx|]. simpl in H. pose proof (sum_sq_nonneg l m) as N. unfold np_sum in *.
  pose proof (Rle_0_sqr (y - m)) as Q. unfold Rsqr in Q. 
  destruct Hx as [<-|Hx]; [|apply IH; auto; lra].
  assert (Z : Rsqr (y - m) = 0) by (unfold Rsqr; lra). apply Rsqr_0_uniq in Z. lra.
Qed.

Theorem C126_compare :
  forall cdf, symmetric_cdf cdf -> forall a b, length a = length b -> a <> [] ->
    let '(mean, std, p) := compare cdf a b in
    (* the reported mean is the difference of the means, as in the other experiment *)
    mean = aggregate a b
    (* a comparison with zero error happens for constant differences only, and has no p-value *)
    /\ 0 <= std /\ (std = 0 <-> exists c, forall i x y, nth_error a i = Some x -> nth_error b i = Some y -> x - y = c)
    /\ (std = 0 <-> p = Err ZeroDivisionError)
    (* a p-value is at most one half, and one half if the means agree only *)
    /\ (forall v, p = Ok v -> v <= 1 / 2 /\ (v = 1 / 2 <-> np_mean a = np_mean b))
    (* the other way round the difference changes sign and nothing else *)
    /\ compare cdf b a = (- mean, std, p)
    (* the order of the test sets does not matter *)
    /\ (forall a' b', length a' = length b' -> Permutation (combine a b) (combine a' b') -> compare cdf a' b' = (mean, std, p))
    (* nor does an offset of the metric *)
    /\ (forall c, compare cdf (map (fun x => x + c) a) (map (fun x => x + c) b) = (mean, std, p)).
Proof.
  intros cdf [Ci Cs] a b L Na. unfold compare. fold (differences a b). fold (differences b a).
  set (d := differences a b). set (n := INR (length d)).
  assert (Ld : length d = length a) by now apply diff_length.
  assert (Pn : 0 < n). { unfold n. rewrite Ld. apply lt_0_INR. destruct a; [easy|simpl; lia]. }
  assert (Sn : 0 < sqrt n) by now apply sqrt_lt_R0.
  set (mean := np_mean d). set (std := np_std d / sqrt n).
  assert (Em : mean = aggregate a b).
  { unfold mean, aggregate, np_mean. rewrite Ld. unfold d. rewrite sum_diff by auto. rewrite <- L. unfold Rdiv. ring. }
  assert (Ps : 0 <= std). { unfold std. apply Rmult_le_pos; [apply sqrt_pos|]. left. now apply Rinv_0_lt_compat. }
  assert (V : std = 0 <-> forall x, In x d -> x = mean).
  { unfold std. split.
    - intros H. assert (np_std d = 0) as H'. { apply Rmult_eq_reg_r with (/ sqrt n); [|apply Rinv_neq_0_compat; lra]. rewrite Rmult_0_l. exact H. }
      unfold np_std in H'. fold mean in H'. apply sqrt_eq_0 in H'.
      + unfold np_mean in H'. apply sum_sq_zero. rewrite map_length in H'. fold n in H'.
        apply Rmult_eq_reg_r with (/ n); [|apply Rinv_neq_0_compat; lra]. rewrite Rmult_0_l. exact H'.
      + unfold np_mean. rewrite map_length. fold n. apply Rmult_le_pos; [apply sum_sq_nonneg|]. left. now apply Rinv_0_lt_compat.
    - intros H. assert (np_std d = 0) as ->; [|unfold Rdiv; ring]. unfold np_std. fold mean.
      assert (map (fun x => (x - mean) * (x - mean)) d = map (fun _ => 0) d) as ->.
      { apply map_ext_in. intros x Hx. rewrite (H x Hx). ring. }
      assert (Z : np_sum (map (fun _ : R => 0) d) = 0). { clear. induction d as [|x d IH]; simpl; auto. unfold np_sum in *. rewrite IH. ring. }
      unfold np_mean. rewrite Z. unfold Rdiv. rewrite Rmult_0_l. apply sqrt_0. }
  assert (I : forall x, In x d <-> exists i u v, nth_error a i = Some u /\ nth_error b i = Some v /\ x = u - v).
  { unfold d, differences. clear - L. intros x. revert b L. induction a as [|u a IH]; intros [|v b] L; simpl in L; try discriminate.
    - split; [intros []|]. intros [[|i] [u [v [H _]]]]; discriminate.
    - injection L as L. cbn [combine map In fst snd]. rewrite (IH b L). split.
      + intros [<-|[i [u' [v' [A [B C]]]]]]; [exists 0%nat, u, v; auto|exists (S i), u', v'; auto].
      + intros [[|i] [u' [v' [A [B C]]]]]; simpl in *; [left; congruence|right; exists i, u', v'; auto]. }
  set (p := bind _ _).
  assert (Ep : std = 0 <-> p = Err ZeroDivisionError).
  { unfold p. destruct (Req_EM_T std 0); cbn [bind]; split; congruence. }
  assert (C0 : cdf 0 = 1 / 2). { pose proof (Cs 0) as H. rewrite Ropp_0 in H. lra. }
  split; [exact Em|]. split; [exact Ps|]. split; [|split; [exact Ep|split; [|split; [|split]]]].
  - rewrite V. split.
    + intros H. exists mean. intros i x y A B. apply H. apply I. exists i, x, y. auto.
    + intros [c Hc]. assert (forall x, In x d -> x = c) as H.
      { intros x Hx. apply I in Hx. destruct Hx as [i [u [v [A [B ->]]]]]. eauto. }
      assert (mean = c); [|intros; subst; auto]. unfold mean, np_mean. fold n.
      assert (S : np_sum d = n * c).
      { unfold n. clear - H. induction d as [|x d IH]; [simpl; ring|]. cbn [length]. rewrite S_INR. unfold np_sum in *. cbn [fold_right].
        rewrite IH by (intros; apply H; now right). rewrite (H x) by now left. ring. }
      rewrite S. field. lra.
  - intros v Hv. unfold p in Hv. destruct (Req_EM_T std 0) as [|N]; cbn [bind] in Hv; [discriminate|]. injection Hv as <-.
    assert (P : 0 < std) by lra. assert (Hm : np_mean a = np_mean b <-> mean = 0) by (rewrite Em; unfold aggregate; lra). rewrite Hm.
    destruct (Req_EM_T mean 0) as [Z|Z].
    + rewrite Z, Rabs_R0, Ropp_0. unfold Rdiv. rewrite Rmult_0_l, C0. split; [lra|tauto].
    + assert (- Rabs mean / std < 0).
      { unfold Rdiv. rewrite Ropp_mult_distr_l_reverse. apply Ropp_lt_gt_0_contravar. apply Rmult_lt_0_compat; [now apply Rabs_pos_lt|now apply Rinv_0_lt_compat]. }
      specialize (Ci _ _ H). rewrite C0 in Ci. split; [lra|]. split; [lra|tauto].
  - rewrite (diff_swap a b). fold d. rewrite map_length, mean_opp, std_opp. fold n. fold mean. fold std. rewrite Rabs_Ropp. reflexivity.
  - intros a' b' L' P. fold (differences a' b').
    assert (Pd : Permutation (differences a' b') d) by (apply Permutation_map; now symmetry).
    rewrite (mean_perm _ _ Pd), (std_perm _ _ Pd), (Permutation_length Pd). reflexivity.
  - intros c. fold (differences (map (fun x => x + c) a) (map (fun x => x + c) b)).
    assert (differences (map (fun x => x + c) a) (map (fun x => x + c) b) = d) as ->; [|reflexivity].
    unfold d, differences. clear. revert b. induction a as [|x a IH]; intros [|y b]; auto. cbn [map combine fst snd]. rewrite IH. f_equal. ring.
Qed.
Print Assumptions C126_compare.
