(** The property C122: the splits of the data of the experiments do not leak. *)
From Coq Require Import Reals ZArith List Bool Lra Lia Permutation Sorting.Sorted.
From Verif Require Import Py ListFacts UtilModel PaperModel PaperSpec.
Import ListNotations.
Local Open Scope Z_scope.

Lemma day_pos : 0 < day. Proof. reflexivity. Qed.
Lemma week_day : week = day * 7. Proof. reflexivity. Qed.

Lemma fold_or {A} (f : A -> bool) l b : fold_left (fun acc i => acc || f i) l b = b || existsb f l.
Proof. revert b. induction l as [|x l IH]; intros b; simpl; [now rewrite orb_false_r|]. now rewrite IH, orb_assoc. Qed.

Lemma test_weeks_spec i : In i test_weeks <-> exists j, 13 <= j <= 25 /\ i = 2 * j + 1.
Proof.
  unfold test_weeks. rewrite filter_In, in_map_iff. split.
  - intros [[n [<- Hn]] E]. apply in_seq in Hn. apply Z.eqb_eq in E. exists (Z.of_nat n / 2).
    Z.to_euclidean_division_equations; lia.
  - intros [j [Hj ->]]. split.
    + exists (Z.to_nat (2 * j + 1)). split; [lia|]. apply in_seq. lia.
    + apply Z.eqb_eq. Z.to_euclidean_division_equations; lia.
Qed.

Lemma test_inds_spec ts : test_inds ts = true <-> in_test_week ts.
Proof.
  unfold test_inds, in_test_week. rewrite (fold_or (fun i => (i * week <=? ts) && ((i + 1) * week >? ts))). cbn [orb]. rewrite existsb_exists. split.
  - intros [i [Hi E]]. apply test_weeks_spec in Hi. destruct Hi as [j [Hj ->]]. exists j. split; auto.
    apply andb_prop in E. destruct E as [A B]. apply Z.leb_le in A. rewrite Z.gtb_ltb in B. apply Z.ltb_lt in B. lia.
  - intros [j [Hj H]]. exists (2 * j + 1). split; [apply test_weeks_spec; eauto|]. apply andb_true_intro.
    split; [apply Z.leb_le|rewrite Z.gtb_ltb; apply Z.ltb_lt]; lia.
Qed.

Lemma test_week_div ts : in_test_week ts <-> exists j, 13 <= j <= 25 /\ (ts / day) / 7 = 2 * j + 1.
Proof.
  unfold in_test_week. rewrite week_day. split; intros [j [Hj H]]; exists j; split; auto.
  - rewrite Z.div_div by (try discriminate; reflexivity). symmetry. apply Z.div_unique with (ts - (day * 7) * (2 * j + 1)); [left|ring].
    pose proof day_pos. nia.
  - rewrite Z.div_div in H by (try discriminate; reflexivity). pose proof day_pos.
    pose proof (Z.mod_pos_bound ts (day * 7) ltac:(lia)). pose proof (Z.div_mod ts (day * 7) ltac:(lia)). rewrite H in *. nia.
Qed.

Lemma partition_perm {A} (f : A -> bool) l : Permutation l (filter (fun x => negb (f x)) l ++ filter f l).
Proof.
  induction l as [|x l IH]; simpl; auto. destruct (f x); simpl.
  - now apply Permutation_cons_app.
  - now apply perm_skip.
Qed.

(** The observations of a year: those with times from 1 January to 31 December. *)
Definition of_the_year (len : Z) (data : list (Z * R)) : list (Z * R) :=
  filter (fun o => (0 <=? fst o) && (fst o <? len * day)) data.
Definition as_point (o : Z * R) : R * R := (days (fst o), snd o).

Theorem C122_crude_oil :
  forall (len : Z) (data : list (Z * R)), let c := crude_split len data in
    (* training and test points are a partition of the data of the year, into whole weeks *)
    Permutation (map as_point (of_the_year len data)) (cr_train c ++ cr_test c)
    /\ (forall p, In p (cr_test c) <-> exists o, In o (of_the_year len data) /\ p = as_point o /\ in_test_week (fst o))
    /\ (forall p, In p (cr_train c) <-> exists o, In o (of_the_year len data) /\ p = as_point o /\ ~ in_test_week (fst o))
    (* no day has both *)
    /\ (forall p q, In p (cr_train c) -> In q (cr_test c) -> fst p <> fst q)
    (* the models and the normaliser do not see the values of the test points *)
    /\ (forall data', same_but_test_values data data' -> let c' := crude_split len data' in
         cr_t c' = cr_t c /\ cr_train c' = cr_train c /\ cr_normaliser c' = cr_normaliser c /\ cr_y_train c' = cr_y_train c
         /\ map fst (cr_test c') = map fst (cr_test c)).
Proof.
  intros len data c. change (of_the_year len data) with (filter (fun o : Z * R => (0 <=? fst o) && (fst o <? len * day)) data).
  assert (N : forall ts, test_inds ts = false <-> ~ in_test_week ts).
  { intros ts. rewrite <- test_inds_spec. destruct (test_inds ts); intuition congruence. }
  assert (Te : forall p, In p (cr_test c) <-> exists o, In o (of_the_year len data) /\ p = as_point o /\ in_test_week (fst o)).
  { intros p. unfold c, crude_split. cbn [cr_test]. rewrite in_map_iff. split.
    - intros [o [<- Ho]]. apply filter_In in Ho. exists o. rewrite <- test_inds_spec. tauto.
    - intros [o [Ho [-> W]]]. exists o. split; auto. apply filter_In. rewrite test_inds_spec. auto. }
  assert (Tr : forall p, In p (cr_train c) <-> exists o, In o (of_the_year len data) /\ p = as_point o /\ ~ in_test_week (fst o)).
  { intros p. unfold c, crude_split. cbn [cr_train]. rewrite in_map_iff. split.
    - intros [o [<- Ho]]. apply filter_In in Ho. destruct Ho as [Ho E]. apply negb_true_iff, N in E. exists o. auto.
    - intros [o [Ho [-> W]]]. exists o. split; auto. apply filter_In. split; auto. apply negb_true_iff, N. auto. }
  split; [|split; [exact Te|split; [exact Tr|split]]].
  - unfold c, crude_split. cbn [cr_train cr_test]. fold as_point. rewrite <- map_app. apply Permutation_map.
    apply (partition_perm (fun o : Z * R => test_inds (fst o))).
  - intros p q Hp Hq E. apply Tr in Hp. apply Te in Hq. destruct Hp as [o [_ [-> W]]]. destruct Hq as [o' [_ [-> W']]].
    simpl in E. unfold days in E. apply eq_IZR in E. apply W. apply test_week_div. rewrite E. now apply test_week_div.
  - intros data' H c'.
    assert (F : forall (P : Z -> bool), Forall2 (fun o o' => fst o = fst o' /\ (~ in_test_week (fst o) -> snd o = snd o'))
        (filter (fun o => P (fst o)) data) (filter (fun o => P (fst o)) data')).
    { intros P. clear - H. unfold same_but_test_values in H. induction H as [|o o' d d' [E V] H IH]; simpl; [constructor|]. rewrite <- E. destruct (P (fst o)); [constructor; auto|auto]. }
    specialize (F (fun z => (0 <=? z) && (z <? len * day))). cbv beta in F.
    assert (T : cr_train c' = cr_train c /\ map fst (cr_test c') = map fst (cr_test c) /\ cr_t c' = cr_t c).
    { unfold c, c', crude_split. cbn [cr_train cr_test cr_t]. clear - F N.
      induction F as [|[ts v] [ts' v'] d d' [E V] F IH]; auto. cbn [fst snd] in *. subst ts'. cbn [filter map fst snd].
      destruct IH as [A [B C]]. destruct (test_inds ts) eqn:Et; cbn [negb map fst]; rewrite ?B, ?C.
      - auto.
      - assert (W : ~ in_test_week ts) by now apply N. rewrite A, (V W). auto. }
    destruct T as [A [B C]]. split; auto. split; auto.
    assert (D : cr_normaliser c' = cr_normaliser c).
    { change (cr_normaliser c') with (fit_normaliser (map snd (cr_train c'))). now rewrite A. }
    split; auto. split; auto.
    change (cr_y_train c') with (map (transform (cr_normaliser c')) (map snd (cr_train c'))). now rewrite A, D.
Qed.
Print Assumptions C122_crude_oil.

(** * The VIX forecasts *)

Theorem C122_first_monday :
  forall year, exists d, first_monday year = Some d /\ weekday d = 0 /\ jan1 year <= d
    /\ (forall d', jan1 year <= d' -> weekday d' = 0 -> d <= d')
    /\ d < jan1 year + 7
    (* the calendar *)
    /\ jan1 2000 = 0 /\ weekday (jan1 2000) = 5
    /\ jan1 (year + 1) = jan1 year + (if (year mod 4 =? 0) && (negb (year mod 100 =? 0) || (year mod 400 =? 0)) then 366 else 365).
Proof.
  intros year. set (j := jan1 year).
  assert (L : forall fuel d, weekday d = 0 \/ 7 - weekday d <= Z.of_nat fuel -> exists d', next_monday fuel d = Some d' /\ weekday d' = 0
      /\ d <= d' < d + 7 /\ forall e, d <= e -> weekday e = 0 -> d' <= e).
  { induction fuel as [|fuel IH]; intros d H; cbn [next_monday].
    - assert (weekday d = 0) as W. { destruct H as [H|H]; auto. unfold weekday in *. Z.to_euclidean_division_equations; lia. }
      exists d. rewrite W. cbn. repeat split; auto; lia.
    - destruct (Z.eqb_spec (weekday d) 0) as [W|W].
      + exists d. repeat split; auto; lia.
      + destruct (IH (d + 1)) as [d' [A [B [C D]]]].
        { destruct H as [H|H]; [easy|]. unfold weekday in *. Z.to_euclidean_division_equations; lia. }
        exists d'. split; auto. split; auto.
        assert (M : forall e, d <= e -> weekday e = 0 -> d' <= e).
        { intros e He We. apply D; auto. assert (d <> e) by congruence. lia. }
        split; auto. split; [lia|].
        assert (d' <= d + (7 - weekday d)).
        { apply M; unfold weekday in *; Z.to_euclidean_division_equations; lia. }
        unfold weekday in *. Z.to_euclidean_division_equations; lia. }
  destruct (L 7%nat j) as [d [A [B [C D]]]].
  { right. unfold weekday. Z.to_euclidean_division_equations; lia. }
  exists d. split; auto. split; auto. split; [lia|]. split; [exact D|]. split; [lia|]. split; [reflexivity|]. split; [reflexivity|].
  subst j. unfold jan1, leap_days. replace (year + 1 - 1) with year by ring.
  assert (Q : forall k, 0 < k -> year / k = (year - 1) / k + (if year mod k =? 0 then 1 else 0)).
  { intros k Hk. destruct (Z.eqb_spec (year mod k) 0) as [E|E].
    - apply Z.mod_divide in E; [|lia]. destruct E as [q ->]. rewrite Z.div_mul by lia.
      enough ((q * k - 1) / k = q - 1) by lia. symmetry. apply Z.div_unique with (k - 1); [left; lia|ring].
    - pose proof (Z.div_mod year k ltac:(lia)). pose proof (Z.mod_pos_bound year k Hk).
      rewrite Z.add_0_r. apply Z.div_unique with (year mod k - 1); [left; lia|]. 
      enough ((year - 1) / k = year / k) by lia. symmetry. apply Z.div_unique with (year mod k - 1); [left; lia|lia]. }
  rewrite (Q 4), (Q 100), (Q 400) by lia.
  assert (H4 : year mod 100 = 0 -> year mod 4 = 0) by (intros; Z.to_euclidean_division_equations; lia).
  assert (H100 : year mod 400 = 0 -> year mod 100 = 0) by (intros; Z.to_euclidean_division_equations; lia).
  destruct (Z.eqb_spec (year mod 4) 0), (Z.eqb_spec (year mod 100) 0), (Z.eqb_spec (year mod 400) 0); cbn [andb orb negb]; try lia; tauto.
Qed.
Print Assumptions C122_first_monday.

Lemma count_get r data a b : count_from r (get_data data a b) = points r (window data a b).
Proof. unfold count_from, get_data, points, window. rewrite map_map. reflexivity. Qed.
Lemma first_get data a b :
  first_time (get_data data a b) = match window data a b with [] => Err IndexError | o :: _ => Ok (days (fst o)) end.
Proof. unfold get_data, window. now destruct (filter _ data). Qed.

Lemma window_before data data' a b : same_before b data data' -> window data a b = window data' a b.
Proof.
  intros H. assert (E : forall d, window d a b = filter (fun o => a <=? fst o) (filter (fun o : Z * R => fst o <? b) d)).
  { clear. unfold window. induction d as [|o d IH]; simpl; auto. destruct (fst o <? b) eqn:B; simpl.
    - rewrite andb_true_r, IH. reflexivity.
    - rewrite andb_false_r. exact IH. }
  rewrite !E. now rewrite H.
Qed.

Lemma days_lt o o' k : fst (o : Z * R) < k * day -> k * day <= fst (o' : Z * R) -> (days (fst o) < days (fst o'))%R.
Proof.
  intros A B. apply IZR_lt. pose proof day_pos. assert (fst o / day < k) by (apply Z.div_lt_upper_bound; lia).
  assert (k <= fst o' / day) by (apply Z.div_le_lower_bound; lia). lia.
Qed.

Lemma in_window o data a b : In o (window data a b) <-> In o data /\ a <= fst o < b.
Proof. unfold window. rewrite filter_In, andb_true_iff, Z.leb_le, Z.ltb_lt. tauto. Qed.

Theorem C122_training :
  forall data m15 m16,
    match vix_train data m15 m16 with
    | Ok l => exists o rest, window data (m15 * day) (m16 * day) = o :: rest /\ l = points (days (fst o)) (o :: rest)
        (* the training data do not depend on what happens later *)
        /\ (forall data', same_before (m16 * day) data data' -> vix_train data' m15 m16 = Ok l)
        (* and lie on earlier days than all the data of the forecasts *)
        /\ (forall i p q, 0 <= i -> In p (window data (m15 * day) (m16 * day)) ->
              In q (window data (m16 * day + i * week) (m16 * day + (i + 5) * week)) -> (days (fst p) < days (fst q))%R)
    | Err e => e = IndexError /\ window data (m15 * day) (m16 * day) = []
    end.
Proof.
  intros data m15 m16. unfold vix_train. rewrite first_get. destruct (window data (m15 * day) (m16 * day)) as [|o rest] eqn:E; cbn [bind]; auto.
  exists o, rest. split; auto. rewrite count_get, E. split; auto. split.
  - intros data' H. rewrite first_get, <- (window_before data data') by exact H. rewrite E. cbn [bind]. rewrite count_get.
    rewrite <- (window_before data data') by exact H. now rewrite E.
  - intros i p q Hi Hp Hq. rewrite <- E in Hp. apply in_window in Hp. apply in_window in Hq. apply days_lt with m16; [tauto|].
    assert (0 < week) by reflexivity. nia.
Qed.
Print Assumptions C122_training.

Theorem C122_forecasts :
  forall data m16 i, let a := m16 * day + i * week in let b := m16 * day + (i + 4) * week in let c := m16 * day + (i + 5) * week in
    match vix_test data m16 i with
    | Ok (known, future) =>
        (* both count the days since the first observation that is conditioned on *)
        (exists o rest, window data a b = o :: rest
          /\ known = points (days (fst o)) (o :: rest) /\ future = points (days (fst o)) (window data b c)
          /\ hd_error (map fst known) = Some 0%R)
        (* what is conditioned on precedes what is forecast, and does not depend on it *)
        /\ (forall p q, In p known -> In q future -> (fst p < fst q)%R)
        /\ (forall data', same_before b data data' ->
              exists future', vix_test data' m16 i = Ok (known, future')
                /\ (map fst (window data' b c) = map fst (window data b c) -> map fst future' = map fst future))
    | Err e => e = IndexError /\ window data a b = []
    end.
Proof.
  intros data m16 i a b c. unfold vix_test. fold a b c. rewrite first_get. destruct (window data a b) as [|o rest] eqn:E; cbn [bind]; auto.
  rewrite !count_get, E. split; [|split].
  - exists o, rest. repeat split; auto. simpl. f_equal. ring.
  - intros p q Hp Hq. unfold points in Hp, Hq. apply in_map_iff in Hp. apply in_map_iff in Hq.
    destruct Hp as [o1 [<- H1]]. destruct Hq as [o2 [<- H2]]. cbn [fst].
    rewrite <- E in H1. apply in_window in H1. apply in_window in H2.
    assert (b = (m16 + 7 * (i + 4)) * day) as Eb by (unfold b; rewrite week_day; ring).
    pose proof (days_lt o1 o2 (m16 + 7 * (i + 4))). rewrite <- Eb in H. assert (days (fst o1) < days (fst o2))%R by (apply H; tauto). lra.
  - intros data' H. exists (points (days (fst o)) (window data' b c)). split.
    + rewrite first_get, <- (window_before data data') by exact H. rewrite E. cbn [bind]. rewrite !count_get.
      rewrite <- (window_before data data') by exact H. now rewrite E.
    + unfold points. rewrite !map_map. cbn [fst]. intros F.
      rewrite <- (map_map fst (fun z => (days z - days (fst o))%R)), F, map_map. reflexivity.
Qed.
Print Assumptions C122_forecasts.

Lemma window_cons data a b o : window (o :: data) a b = if (a <=? fst o) && (fst o <? b) then o :: window data a b else window data a b.
Proof. reflexivity. Qed.

Lemma window_split data a b c : a <= b -> b <= c -> Permutation (window data a b ++ window data b c) (window data a c).
Proof.
  intros A B. induction data as [|o d IH]; [constructor|]. rewrite !window_cons.
  destruct (Z.leb_spec a (fst o)), (Z.ltb_spec (fst o) b), (Z.leb_spec b (fst o)), (Z.ltb_spec (fst o) c); cbn [andb]; try lia; auto.
  - now apply perm_skip.
  - symmetry. apply Permutation_cons_app. now symmetry.
Qed.

(** Every observation of the hundred weeks that are forecast is forecast exactly once. *)
Theorem C122_weeks :
  forall data m16 n,
    Permutation (flat_map (fun i => window data (m16 * day + (Z.of_nat i + 4) * week) (m16 * day + (Z.of_nat i + 5) * week)) (seq 0 n))
      (window data (m16 * day + 4 * week) (m16 * day + (Z.of_nat n + 4) * week))
    /\ (forall l, vix_tests data m16 = Ok l -> length l = 100%nat
         /\ forall i, (i < 100)%nat -> exists p, nth_error l i = Some p /\ vix_test data m16 (Z.of_nat i) = Ok p).
Proof.
  intros data m16 n. split.
  - induction n as [|n IH].
    + cbn [seq flat_map]. change (Z.of_nat 0 + 4) with 4. assert (E : window data (m16 * day + 4 * week) (m16 * day + 4 * week) = []).
      { induction data as [|o d IH]; auto. rewrite window_cons, IH.
        destruct (Z.leb_spec (m16 * day + 4 * week) (fst o)), (Z.ltb_spec (fst o) (m16 * day + 4 * week)); auto; lia. }
      rewrite E. constructor.
    + rewrite seq_S, flat_map_app. simpl flat_map. rewrite app_nil_r.
      assert (0 < week) by reflexivity.
      rewrite IH, Nat2Z.inj_succ. replace (Z.succ (Z.of_nat n) + 4) with (Z.of_nat n + 5) by lia.
      apply window_split; nia.
  - intros l H. unfold vix_tests in H.
    assert (G : forall k s l, mapM (vix_test data m16) (map Z.of_nat (seq s k)) = Ok l ->
        length l = k /\ forall i, (i < k)%nat -> exists p, nth_error l i = Some p /\ vix_test data m16 (Z.of_nat (s + i)) = Ok p).
    { clear. induction k as [|k IH]; intros s l H.
      - simpl in H. injection H as <-. split; auto. intros; lia.
      - cbn [seq map mapM] in H. destruct (vix_test data m16 (Z.of_nat s)) as [p|] eqn:E; cbn [bind] in H; [|discriminate].
        destruct (mapM (vix_test data m16) (map Z.of_nat (seq (S s) k))) as [l'|] eqn:E'; cbn [bind] in H; [|discriminate].
        injection H as <-. destruct (IH _ _ E') as [L N]. split; [simpl; congruence|].
        intros [|i] Hi; [exists p; rewrite Nat.add_0_r; auto|]. destruct (N i) as [q [A B]]; [lia|].
        exists q. split; auto. rewrite <- B. f_equal. lia. }
    exact (G 100%nat 0%nat l H).
Qed.
Print Assumptions C122_weeks.

(** A witness: the first Mondays are 5 January 2015 and 4 January 2016; an observation per week, at
    noon on Tuesday. *)
Example C122_witness :
  first_monday 2015 = Some (jan1 2015 + 4) /\ first_monday 2016 = Some (jan1 2016 + 3)
  /\ jan1 2015 = 5479 /\ jan1 2016 = 5844
  /\ (let data := map (fun i => (5847 * day + Z.of_nat i * week + 129600 * 10 ^ 6, 1%R)) (seq 0 10) in
      exists known future, vix_test data 5847 2 = Ok (known, future) /\ length known = 4%nat /\ length future = 1%nat
        /\ map fst known = map (fun z => (IZR z - IZR 5862)%R) [5862; 5869; 5876; 5883]
        /\ map fst future = [(IZR 5890 - IZR 5862)%R])
  /\ (in_test_week (27 * week) /\ in_test_week (28 * week - 1) /\ ~ in_test_week (27 * week - 1) /\ ~ in_test_week (28 * week))
  /\ (let c := crude_split 365 (map (fun i => (Z.of_nat i * day, INR i)) (seq 180 20)) in
      length (cr_train c) = 13%nat /\ length (cr_test c) = 7%nat).
Proof.
  split; [reflexivity|]. split; [reflexivity|]. split; [reflexivity|]. split; [reflexivity|]. split; [|split].
  - eexists _, _. split; [reflexivity|]. split; [reflexivity|]. split; [reflexivity|]. split; vm_compute; reflexivity.
  - rewrite <- !test_inds_spec. repeat split; try reflexivity; discriminate.
  - split; reflexivity.
Qed.
