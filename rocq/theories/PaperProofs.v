(** Proofs about the scripts of /repo/experiments/paper: changes of units. *)
From Coq Require Import Reals ZArith List Bool Lra Lia.
From Verif Require Import Py UtilModel UtilSpec UtilProofs UtilProofs2 PaperModel PaperSpec.
Import ListNotations.
Local Open Scope R_scope.

Section Scale.
Variable c : R.
Notation sc := (map (fun v => c * v)).

Lemma sum_sc l : np_sum (sc l) = c * np_sum l.
Proof. induction l as [|x l IH]; simpl; [lra|]. rewrite IH. ring. Qed.
Lemma mean_sc l : np_mean (sc l) = c * np_mean l.
Proof. unfold np_mean. rewrite sum_sc, map_length. unfold Rdiv. ring. Qed.
Lemma std_sc l : 0 <= c -> np_std (sc l) = c * np_std l.
Proof.
  intros Hc. unfold np_std. rewrite mean_sc, map_map.
  replace (map (fun x => (c * x - c * np_mean l) * (c * x - c * np_mean l)) l)
    with (map (fun v => c ^ 2 * v) (map (fun x => (x - np_mean l) * (x - np_mean l)) l)).
  2:{ rewrite map_map. apply map_ext. intros x. ring. }
  set (d := map (fun x => (x - np_mean l) * (x - np_mean l)) l).
  assert (np_mean (map (fun v => c ^ 2 * v) d) = c ^ 2 * np_mean d) as ->.
  { unfold np_mean. rewrite map_length. replace (np_sum (map (fun v => c ^ 2 * v) d)) with (c ^ 2 * np_sum d).
    - unfold Rdiv. ring.
    - clear. clearbody d. induction d as [|x e IH]; simpl; [lra|]. simpl in IH. rewrite <- IH. ring. }
  assert (0 <= np_mean d).
  { unfold np_mean. destruct l as [|x l]; [simpl in d; subst d; simpl; lra|].
    apply Rmult_le_pos; [|left; apply Rinv_0_lt_compat, lt_0_INR; subst d; rewrite map_length; simpl; lia].
    assert (forall y, In y d -> 0 <= y).
    { intros y Hy. apply in_map_iff in Hy. destruct Hy as [z [<- _]]. apply Rle_0_sqr. }
    clearbody d. clear -H. induction d as [|y d IH]; simpl; [lra|].
    pose proof (H y (or_introl eq_refl)). assert (0 <= np_sum d) by (apply IH; intros; apply H; now right). lra. }
  rewrite sqrt_mult; [|nra|auto]. f_equal. replace (c ^ 2) with (c * c) by ring. now apply sqrt_square.
Qed.

Hypothesis Hc : 0 < c.
Lemma insert_sc x l : insert (c * x) (sc l) = sc (insert x l).
Proof.
  induction l as [|y l IH]; simpl; auto.
  destruct (Rle_dec (c * x) (c * y)) as [H|H], (Rle_dec x y) as [G|G]; simpl; auto.
  - exfalso. apply G. now apply Rmult_le_reg_l in H.
  - exfalso. apply H. apply Rmult_le_compat_l; lra.
  - now rewrite IH.
Qed.
Lemma sort_sc l : np_sort (sc l) = sc (np_sort l).
Proof.
  unfold np_sort. induction l as [|x l IH]; auto.
  change (insert (c * x) (fold_right insert [] (sc l)) = sc (insert x (fold_right insert [] l))).
  rewrite IH. apply insert_sc.
Qed.
Lemma nth_sc l i : nth i (sc l) 0 = c * nth i l 0.
Proof. rewrite <- (map_nth (fun v => c * v) l 0 i). f_equal. ring. Qed.
Lemma quantile_sc l q : np_quantile (sc l) q = c * np_quantile l q.
Proof. unfold np_quantile. rewrite sort_sc, map_length, !nth_sc. ring. Qed.

Lemma fft_sc l m : fft_re (sc l) m = c * fft_re l m.
Proof.
  unfold fft_re. rewrite map_length. rewrite !sumn_total, <- total_scal. apply total_ext. intros i _. rewrite nth_sc. ring.
Qed.
Lemma trapz_sc y x : trapz (sc y) x = c * trapz y x.
Proof.
  unfold trapz. rewrite map_length, !sumn_total, <- total_scal. apply total_ext. intros i _. rewrite !nth_sc. field.
Qed.
Lemma removelast_sc l : removelast (sc l) = sc (removelast l).
Proof. induction l as [|x [|y l] IH]; auto. change (c * x :: removelast (sc (y :: l)) = c * x :: sc (removelast (y :: l))). now rewrite IH. Qed.
Lemma inner_sc l : inner (sc l) = sc (inner l).
Proof. unfold inner. rewrite <- removelast_sc. f_equal. now destruct l. Qed.
Lemma filter_sc f p : map fst (filter (fun q => if Rle_dec 0 (fst q) then true else false) (combine f (sc p)))
    = map fst (filter (fun q : R * R => if Rle_dec 0 (fst q) then true else false) (combine f p))
  /\ map snd (filter (fun q => if Rle_dec 0 (fst q) then true else false) (combine f (sc p)))
    = sc (map snd (filter (fun q : R * R => if Rle_dec 0 (fst q) then true else false) (combine f p))).
Proof.
  revert p. induction f as [|x f IH]; intros [|y p]; simpl; auto.
  destruct (IH p) as [A B]. destruct (Rle_dec 0 x); simpl; rewrite ?A, ?B; auto.
Qed.

Lemma estimate_psd_sc t k n freqs psd : nth 0 k 0 <> 0 ->
  estimate_psd t k n false = Ok (freqs, psd) -> estimate_psd t (sc k) n false = Ok (freqs, sc psd).
Proof.
  intros Nk. unfold estimate_psd. destruct t as [|t0 t]; [discriminate|]. destruct (Req_EM_T t0 0); [|discriminate].
  destruct k as [|k0 k]; [now elim Nk|]. simpl in Nk.
  replace (sc (k0 :: k) ++ repeat 0 n) with (sc ((k0 :: k) ++ repeat 0 n)).
  2:{ rewrite map_app. f_equal. induction n; simpl; auto. rewrite IHn. f_equal. ring. }
  change (((k0 :: k) ++ repeat 0 n)) with (k0 :: (k ++ repeat 0 n)). set (k' := k ++ repeat 0 n).
  replace (sc (k0 :: k') ++ rev (inner (sc (k0 :: k')))) with (sc ((k0 :: k') ++ rev (inner (k0 :: k')))).
  2:{ now rewrite map_app, map_rev, inner_sc. }
  set (ks := (k0 :: k') ++ rev (inner (k0 :: k'))). rewrite map_length.
  change (sc (k0 :: k')) with (c * k0 :: sc k'). destruct t as [|t1 t]; [discriminate|]. cbv zeta.
  set (fr := map (fun f => f / (t1 - t0)) (fftfreq (length ks))).
  set (p := map (fun m => Rabs (fft_re ks m)) (seq 0 (length ks))).
  replace (map (fun m => Rabs (fft_re (sc ks) m)) (seq 0 (length ks))) with (sc p).
  2:{ unfold p. rewrite map_map. apply map_ext. intros m. rewrite fft_sc, Rabs_mult, (Rabs_right c); lra. }
  rewrite trapz_sc. replace (c * trapz p fr / (c * k0)) with (trapz p fr / k0) by (field; split; lra).
  replace (map (fun v => v / (trapz p fr / k0)) (sc p)) with (sc (map (fun v => v / (trapz p fr / k0)) p)).
  2:{ rewrite !map_map. apply map_ext. intros v. unfold Rdiv. ring. }
  set (p' := map _ p). destruct (filter_sc fr p') as [A B]. rewrite A, B. now intros [= <- <-].
Qed.
End Scale.

Lemma log10_sq s x : 0 < s -> 0 < x -> 10 * log10 (s ^ 2 * x) = 10 * log10 x + 20 * log10 s.
Proof.
  intros Hs Hx. unfold log10. replace (s ^ 2 * x) with (s * (s * x)) by ring.
  assert (0 < s * x) by nra. rewrite !ln_mult by auto. unfold Rdiv. ring.
Qed.

Lemma ln10_pos : 1 < ln 10.
Proof.
  rewrite <- (ln_exp 1). apply ln_increasing; [apply exp_pos|]. pose proof exp_le_3. lra.
Qed.

Lemma ln_log10 s : 0 < s -> ln s = log10 s <-> s = 1.
Proof.
  intros Hs. unfold log10. split.
  - intros H. pose proof ln10_pos. assert (ln s * (ln 10 - 1) = 0) as E.
    { apply (Rmult_eq_compat_r (ln 10)) in H. field_simplify in H; lra. }
    apply Rmult_integral in E. destruct E as [E|E]; [|lra]. rewrite <- ln_1 in E. apply ln_inv in E; lra.
  - intros ->. rewrite ln_1. unfold Rdiv. ring.
Qed.

Lemma mean_pos l : l <> [] -> (forall v, In v l -> 0 < v) -> 0 < np_mean l.
Proof.
  intros Nl H. unfold np_mean. destruct l as [|x l]; [easy|]. apply Rdiv_lt_0_compat; [|apply lt_0_INR; simpl; lia].
  pose proof (H x (or_introl eq_refl)). assert (0 <= np_sum l); [|simpl; lra].
  assert (G : forall v, In v l -> 0 < v) by (intros; apply H; now right). clear -G.
  induction l as [|y l IH]; simpl; [lra|]. pose proof (G y (or_introl eq_refl)). assert (0 <= np_sum l) by (apply IH; intros; apply G; now right). lra.
Qed.

Lemma min_pos l : l <> [] -> (forall v, In v l -> 0 < v) -> exists m, 0 < m /\ forall v, In v l -> m <= v.
Proof.
  induction l as [|x l IH]; [easy|]. intros _ H. pose proof (H x (or_introl eq_refl)) as Px. destruct l as [|y l].
  - exists x. split; auto. intros v [<-|[]]. lra.
  - destruct IH as [m [Pm Hm]]; [easy|intros; apply H; now right|]. exists (Rmin x m). split; [now apply Rmin_glb_lt|].
    intros v [<-|Hv]; [apply Rmin_l|]. eapply Rle_trans; [apply Rmin_r|auto].
Qed.
Lemma quantile_pos l q : l <> [] -> (forall v, In v l -> 0 < v) -> 0 <= q <= 1 -> 0 < np_quantile l q.
Proof.
  intros Nl H Hq. destruct (min_pos l Nl H) as [m [Pm Hm]]. pose proof (quantile_ge l q m Nl Hq Hm). lra.
Qed.
