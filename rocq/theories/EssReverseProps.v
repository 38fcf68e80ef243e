(** C100 and C101: the moves of elliptical slice sampling are reversible with respect to the
    posterior; its retries after a failed pass are not. *)
From Coq Require Import Reals List Lra Lia Arith FunctionalExtensionality.
From Verif Require Import EssModel EssSpec EssProofs EssReverseSpec EssReverse.
Import ListNotations.
Local Open Scope R_scope.

(** What an attempt shows: its bracket, its angle and its proposal. *)
Definition view {D G} (a : attempt D G) : R * R * R * tensor D :=
  (at_lower D G a, at_upper D G a, angle a, proposal a).

(** The numbers that a pass drew. *)
Definition drawn {D G} (exponential : G -> R * G) (p : try D G) : numbers D :=
  Numbers (fst (exponential (gen D G (tr_before D G p)))) (y D G (tr_start D G p)) (tr_upper D G p)
          (map angle (tr_attempts D G p)).

(** Every search of every generator is the search on the angles that it drew; when the generator
    respects its limits and the start is above the slice height, their density is positive. *)
Lemma draw_replay (D G : Type) uniform log_lik : @uniform_ok G uniform ->
  forall fuel k (s : ess D G) (s2 : ess D (dealer D)) l u h w0,
  x _ _ s2 = x _ _ s -> y _ _ s2 = y _ _ s ->
  l <= 0 <= u -> l < u -> h < log_lik (x _ _ s) -> 0 < w0 ->
  forall tr s' r, draw_rec D G uniform log_lik fuel k s l u h = (tr, s', r) ->
  gen _ _ s2 = Dealer (map Real (map angle tr)) w0 ->
  exists tr2 s2', draw_rec D _ deal_uniform log_lik fuel k s2 l u h = (tr2, s2', r) /\
    map view tr2 = map view tr /\ rest (gen _ _ s2') = [] /\ 0 < weight (gen _ _ s2').
Proof.
  intros Hu. induction fuel as [|fuel IH]; intros k s s2 l u h w0 X Y LU LT H0 W0 tr s' r E Gn.
  - inversion E; subst. simpl. do 2 eexists. split; [reflexivity|]. split; [reflexivity|]. rewrite Gn. split; [reflexivity|exact W0].
  - simpl in E. simpl. destruct (draw_proposal D G uniform log_lik s l u) as [x1 l1 y1 th xp lp g1] eqn:E1.
    unfold draw_proposal in E1. pose proof (Hu l u (gen D G s) ltac:(lra)) as B.
    destruct (uniform l u (gen D G s)) as [th0 g0]. cbn [fst] in B.
    injection E1; intros <- <- <- <- <- <- <-. clear E1.
    cbn [log_lik_x_proposed x_proposed theta] in E.
    assert (W1 : 0 < w0 * uniform_density l u th0).
    { rewrite uniform_in by exact B. apply Rmult_lt_0_compat; [exact W0|]. apply Rinv_0_lt_compat. lra. }
    unfold draw_proposal. rewrite X, Y.
    destruct (Rgt_dec _ _) as [A|A].
    + inversion E; subst. cbn [map angle at_self theta] in Gn. rewrite Gn. rewrite !deal_one.
      cbn [log_lik_x_proposed x_proposed].
      destruct (Rgt_dec _ _) as [_|C]; [|contradiction]. do 2 eexists. split; [reflexivity|]. split; [reflexivity|].
      split; [reflexivity|exact W1].
    + assert (T0 : th0 <> 0).
      { intros ->. apply A. replace (fun d => cos 0 * x D G s d + sin 0 * y D G s d) with (x D G s); [exact H0|].
        apply functional_extensionality; intros d. rewrite cos_0, sin_0. ring. }
      destruct (Rgt_dec th0 0) as [T|T].
      * destruct (draw_rec D G uniform log_lik fuel _ _ _ _ _) as [[tr1 s1] r1] eqn:E2.
        inversion E; subst. cbn [map angle at_self theta] in Gn. rewrite Gn. rewrite !deal_one.
        cbn [log_lik_x_proposed x_proposed theta].
        destruct (Rgt_dec _ _) as [C|_]; [contradiction|]. destruct (Rgt_dec th0 0) as [_|C]; [|contradiction].
        match goal with |- context [draw_rec D _ _ log_lik fuel (k + 1) ?s3 l th0 h] =>
          pose proof (fun a b c d e => IH _ _ s3 _ _ _ _ a b c d e W1 _ _ _ E2 eq_refl) as J end.
        destruct (J eq_refl eq_refl ltac:(lra) ltac:(lra) H0) as (tr2 & s2' & E3 & V & V2).
        cbn [EssModel.x EssModel.y] in E3. rewrite E3. do 2 eexists. split; [reflexivity|].
        split; [cbn [map]; f_equal; exact V|exact V2].
      * destruct (draw_rec D G uniform log_lik fuel _ _ _ _ _) as [[tr1 s1] r1] eqn:E2.
        inversion E; subst. cbn [map angle at_self theta] in Gn. rewrite Gn. rewrite !deal_one.
        cbn [log_lik_x_proposed x_proposed theta].
        destruct (Rgt_dec _ _) as [C|_]; [contradiction|]. destruct (Rgt_dec th0 0) as [C|_]; [contradiction|].
        match goal with |- context [draw_rec D _ _ log_lik fuel (k + 1) ?s3 th0 u h] =>
          pose proof (fun a b c d e => IH _ _ s3 _ _ _ _ a b c d e W1 _ _ _ E2 eq_refl) as J end.
        destruct (J eq_refl eq_refl ltac:(lra) ltac:(lra) H0) as (tr2 & s2' & E3 & V & V2).
        cbn [EssModel.x EssModel.y] in E3. rewrite E3. do 2 eexists. split; [reflexivity|].
        split; [cbn [map]; f_equal; exact V|exact V2].
Qed.

Lemma try_replay (D G : Type) (idx : list D) (P : D -> D -> R) uniform exponential sample_prior log_lik :
  @uniform_ok G uniform -> (forall g : G, 0 < fst (exponential g)) ->
  forall s : ess D G, log_lik_x D G s = log_lik (x D G s) ->
  let p := sample_try D G uniform exponential sample_prior log_lik s in
  let q := pass idx P log_lik (x D G s) (drawn exponential p) in
  tr_u _ _ q = tr_u _ _ p /\ map view (tr_attempts _ _ q) = map view (tr_attempts _ _ p) /\
  tr_result _ _ q = tr_result _ _ p /\
  rest (gen _ _ (tr_after _ _ q)) = [] /\ 0 < weight (gen _ _ (tr_after _ _ q)) /\
  (tr_result _ _ p <> None -> x _ _ (tr_after _ _ q) = x _ _ (tr_after _ _ p)).
Proof.
  intros Hu He s K. cbv zeta.
  unfold drawn, sample_try. pose proof (He (gen D G s)) as E0.
  destruct (exponential (gen D G s)) as [e g0] eqn:Ee. cbn [fst] in E0.
  unfold establish_ellipse; cbn [gen].
  destruct (sample_prior g0) as [y' g1] eqn:Ey.
  pose proof PI_RGT_0 as P0.
  unfold draw_bracket; cbn [gen]. pose proof (Hu 0 (2 * PI) g1 ltac:(lra)) as B.
  destruct (uniform 0 (2 * PI) g1) as [b g2]. cbn [fst] in B.
  cbn [x y theta x_proposed log_lik_x_proposed log_lik_x]. unfold draw. change (100 + 1 - 1)%nat with 100%nat.
  rewrite K.
  destruct (draw_rec D G uniform log_lik 100 _ _ _ _ _) as [[tr s4] r] eqn:E.
  cbn [tr_u tr_attempts tr_result tr_before tr_start tr_upper y gen tr_after].
  rewrite Ee. cbn [fst].
  destruct (pass_draw idx P log_lik (x D G s) (Numbers e y' b (map angle tr))) as (s2 & X & Y & Gn & U & A & Rs & Gn' & T).
  cbn [n_exp n_prior n_bracket n_angles] in *. cbv zeta in A, Rs, T, Gn'. rewrite U, A, Rs, Gn'.
  assert (W0 : 0 < first_weight idx P (Numbers e y' b (map angle tr))).
  { unfold first_weight. cbn [n_exp n_prior n_bracket]. rewrite uniform_in by exact B.
    apply Rmult_lt_0_compat; [|apply Rinv_0_lt_compat; lra].
    apply Rmult_lt_0_compat; [|apply exp_pos]. rewrite Rmult_1_l. unfold exponential_density.
    destruct (Rlt_dec 0 e); [apply exp_pos|lra]. }
  pose proof (fun a b c d e => draw_replay D G uniform log_lik Hu _ _ _ s2 _ _ _ _ a b c d e W0 _ _ _ E Gn) as J.
  destruct (J X Y ltac:(lra) ltac:(lra) ltac:(cbn [EssModel.x]; lra)) as (tr2 & s2' & E2 & V & V1 & V2).
  rewrite E2 in T |- *. cbn [fst snd] in *.
  split; [reflexivity|]. split; [exact V|]. split; [reflexivity|]. split; [exact V1|]. split; [exact V2|].
  destruct r as [[[x1 ll] k]|]; [|congruence]. intros _. exact (T _ _ _ eq_refl).
Qed.

Lemma try_moves (D G : Type) idx P uniform exponential sample_prior log_lik :
  @uniform_ok G uniform -> (forall g : G, 0 < fst (exponential g)) ->
  forall s : ess D G, log_lik_x D G s = log_lik (x D G s) ->
  let p := sample_try D G uniform exponential sample_prior log_lik s in
  tr_result _ _ p <> None ->
  exists w, moves idx P log_lik (x D G s) (drawn exponential p) (x D G (tr_after D G p)) w.
Proof.
  intros Hu He s K p Rs.
  pose proof (try_replay D G idx P uniform exponential sample_prior log_lik Hu He s K) as Q.
  cbv zeta in Q. fold p in Q. destruct Q as (Q1 & Q2 & Q3 & Q4 & Q5 & Q6).
  eexists. unfold moves. cbv zeta. split; [rewrite Q3; exact Rs|]. split; [exact (Q6 Rs)|]. split; [exact Q4|].
  split; [reflexivity|exact Q5].
Qed.

(** C100, first half: in every history of [move] and [sample] calls, for every generator whose
    uniform numbers lie between their limits and whose exponential numbers are positive, a pass
    that succeeds is a move with the numbers that it drew: the same slice height, brackets,
    angles, proposals and outcome. *)
Theorem C100_every_move : forall (D G : Type) uniform exponential sample_prior log_lik,
  @uniform_ok G uniform -> (forall g : G, 0 < fst (exponential g)) ->
  forall fuel ops (x_init : option (tensor D)) g passes visited final,
  exec D G uniform exponential sample_prior log_lik fuel ops (init D G sample_prior log_lik x_init g)
    = Some (passes, visited, final) ->
  forall (idx : list D) (P : D -> D -> R) p, In p passes -> tr_result D G p <> None ->
  let before := x D G (tr_before D G p) in
  let n := drawn exponential p in
  (exists w, moves idx P log_lik before n (x D G (tr_after D G p)) w) /\
  tr_u _ _ (pass idx P log_lik before n) = tr_u _ _ p /\
  map view (tr_attempts _ _ (pass idx P log_lik before n)) = map view (tr_attempts _ _ p) /\
  tr_result _ _ (pass idx P log_lik before n) = tr_result _ _ p.
Proof.
  intros D G uniform exponential sample_prior log_lik Hu He fuel ops x_init g passes visited final E idx P p I Rs.
  assert (K : coherent D G log_lik (init D G sample_prior log_lik x_init g)).
  { unfold init. destruct x_init; [reflexivity|]. destruct (sample_prior g); reflexivity. }
  destruct (exec_all _ _ _ _ _ _ Hu _ _ _ _ _ _ E K) as (_ & _ & C).
  destruct (C p I) as [T Kp]. cbv zeta.
  pose proof (try_replay D G idx P uniform exponential sample_prior log_lik Hu He (tr_before D G p) Kp) as Q.
  pose proof (try_moves D G idx P uniform exponential sample_prior log_lik Hu He (tr_before D G p) Kp) as M.
  cbv zeta in Q, M. rewrite <- T in Q, M. destruct Q as (Q1 & Q2 & Q3 & _).
  split; [exact (M Rs)|split; [exact Q1|split; [exact Q2|exact Q3]]].
Qed.
Print Assumptions C100_every_move.

(** C100, second half: every move from [x0] to [x'] with numbers [n] of density [w] has a reverse
    move from [x'] to [x0] with numbers [reverse n] of density [w'], and the posterior density of
    [x0] times [w] is the posterior density of [x'] times [w'].  The reverse move has as many
    angles, the same slice height and the same rejected points, and reversing twice gives back
    [n]. *)
Theorem C100_reversible : forall (D : Type) (idx : list D) (P : D -> D -> R) (log_lik : tensor D -> R)
    (x0 : tensor D) (n : numbers D) (x' : tensor D) (w : R),
  moves idx P log_lik x0 n x' w ->
  let n' := reverse log_lik x0 n in
  let p := pass idx P log_lik x0 n in
  let p' := pass idx P log_lik x' n' in
  exists w', moves idx P log_lik x' n' x0 w' /\
  posterior idx P log_lik x0 * w = posterior idx P log_lik x' * w' /\
  reverse log_lik x' n' = n /\ length (n_angles n') = length (n_angles n) /\
  tr_u _ _ p' = tr_u _ _ p /\
  map proposal (removelast (tr_attempts _ _ p')) = map proposal (removelast (tr_attempts _ _ p)).
Proof. intros D idx P log_lik x0 n x' w M. exact (reversible idx P log_lik x0 n x' w M). Qed.
Print Assumptions C100_reversible.

(** Non-vacuity: a move with a rejected angle, between different states of different likelihood. *)
Definition step_lik (p : tensor unit) : R := if Rlt_dec 1 (p tt) then 1 else 0.

Lemma step_high p : 1 < p tt -> step_lik p = 1.
Proof. intros H. unfold step_lik. destruct (Rlt_dec 1 (p tt)); lra. Qed.
Lemma step_low p : p tt <= 1 -> step_lik p = 0.
Proof. intros H. unfold step_lik. destruct (Rlt_dec 1 (p tt)); lra. Qed.

Lemma pos4 a b c d : 0 < a -> 0 < b -> 0 < c -> 0 < d -> 0 < a * b * / c * d.
Proof.
  intros. apply Rmult_lt_0_compat; [|assumption]. apply Rmult_lt_0_compat; [|apply Rinv_0_lt_compat; assumption].
  apply Rmult_lt_0_compat; assumption.
Qed.

Example C100_witness : exists w,
  moves [tt] (fun _ _ => 1) step_lik (fun _ => 2) (Numbers (1 / 2) (fun _ => 3) (3 * (PI / 2)) [PI; PI / 2]) (fun _ => 3) w.
Proof.
  pose proof PI_RGT_0 as P0. eexists.
  replace (fun _ : unit => 3) with (point (fun _ : unit => 2) (fun _ => 3) (last [PI; PI / 2] 0)) at 2.
  2: { apply functional_extensionality; intros []. unfold point. cbn [last]. rewrite cos_PI2, sin_PI2. ring. }
  apply (search_moves _ _ step_lik (fun _ => 2) (Numbers (1 / 2) (fun _ => 3) (3 * (PI / 2)) [PI; PI / 2]));
    cbn [n_exp n_prior n_bracket n_angles length]; [lra|lra|lia| |reflexivity|].
  - cbn [search]. rewrite !(step_high (fun _ => 2)) by lra.
    split; [rewrite step_low; [lra|unfold point; rewrite cos_PI, sin_PI; lra]|].
    split; [lra|]. split; [|intros C; lra]. intros _.
    split; [rewrite step_high; [lra|unfold point; rewrite cos_PI2, sin_PI2; lra]|lra].
  - apply pos4; [apply exp_pos|apply exp_pos|lra|]. cbn [widths].
    destruct (Rgt_dec PI 0); [|lra]. destruct (Rgt_dec (PI / 2) 0); [|lra]. cbn [angles_density].
    apply Rmult_lt_0_compat; [apply Rinv_0_lt_compat; lra|].
    apply Rmult_lt_0_compat; [apply Rinv_0_lt_compat; lra|lra].
Qed.

(** A failing pass: a hundred angles that decrease towards a quarter turn, where the ellipse
    through 2 and 0 is at the lower level. *)
Definition miss (k : nat) : R := PI / 2 + / (INR k + 1).
Definition n_fail : numbers unit := Numbers (1 / 2) (fun _ => 0) (3 * (PI / 2)) (map miss (seq 0 100)).
Definition n_leave : numbers unit := Numbers 2 (fun _ => 0) (3 * (PI / 2)) [PI / 2].

Lemma miss_bounds k : PI / 2 < miss k <= PI / 2 + 1.
Proof.
  unfold miss. pose proof (pos_INR k). assert (0 < / (INR k + 1)) by (apply Rinv_0_lt_compat; lra).
  assert (/ (INR k + 1) <= / 1) by (apply Rinv_le_contravar; lra). lra.
Qed.
Lemma miss_decr k : miss (S k) < miss k.
Proof.
  unfold miss. rewrite S_INR. pose proof (pos_INR k).
  assert (/ (INR k + 1 + 1) < / (INR k + 1)); [|lra].
  apply Rinv_lt_contravar; [apply Rmult_lt_0_compat; lra|lra].
Qed.

Lemma fail_draw more : forall m j k (s : ess unit (dealer unit)) u w0,
  x _ _ s = (fun _ => 2) -> y _ _ s = (fun _ => 0) -> gen _ _ s = Dealer (map Real (map miss (seq j m)) ++ more) w0 ->
  miss j < u -> 0 < w0 ->
  exists tr s' w, draw_rec unit _ deal_uniform step_lik m k s (- (PI / 2)) u (1 / 2) = (tr, s', None) /\
    gen _ _ s' = Dealer more w /\ 0 < w /\ x _ _ s' = x _ _ s /\ log_lik_x _ _ s' = log_lik_x _ _ s.
Proof.
  pose proof PI_RGT_0 as P0. pose proof PI2_3_2 as P3.
  induction m as [|m IH]; intros j k s u w0 X Y Gn U W0.
  - do 3 eexists. split; [reflexivity|]. split; [exact Gn|]. split; [exact W0|]. split; reflexivity.
  - cbn [draw_rec]. unfold draw_proposal. rewrite Gn. cbn [seq map app]. rewrite !deal_one. cbn [log_lik_x_proposed theta].
    pose proof (miss_bounds j) as B.
    rewrite step_low.
    2: { rewrite X, Y. pose proof (cos_le_0 (miss j) ltac:(lra) ltac:(lra)). lra. }
    destruct (Rgt_dec 0 (1 / 2)) as [C|_]; [lra|]. destruct (Rgt_dec (miss j) 0) as [_|C]; [|lra].
    assert (W1 : 0 < w0 * uniform_density (- (PI / 2)) u (miss j)).
    { rewrite uniform_in by lra. apply Rmult_lt_0_compat; [exact W0|apply Rinv_0_lt_compat; lra]. }
    match goal with |- context [draw_rec _ _ _ _ m _ ?s1 _ _ _] =>
      destruct (IH (S j) (k + 1)%nat s1 (miss j) _ X Y eq_refl (miss_decr j) W1) as (tr & s' & w & E & G' & W' & X' & L') end.
    rewrite E. do 3 eexists. split; [reflexivity|]. split; [exact G'|]. split; [exact W'|]. split; [exact X'|exact L'].
Qed.

Lemma leave : exists w, moves [tt] (fun _ _ => 1) step_lik (fun _ => 2) n_leave (fun _ => 0) w.
Proof.
  pose proof PI_RGT_0 as P0. eexists.
  replace (fun _ : unit => 0) with (point (fun _ : unit => 2) (n_prior n_leave) (last (n_angles n_leave) 0)).
  2: { apply functional_extensionality; intros []. unfold point. cbn. rewrite cos_PI2, sin_PI2. ring. }
  apply search_moves; cbn [n_leave n_exp n_prior n_bracket n_angles length]; [lra|lra|lia| |reflexivity|].
  - cbn [search]. rewrite !(step_high (fun _ => 2)) by lra.
    split; [rewrite step_low; [lra|unfold point; rewrite cos_PI2, sin_PI2; lra]|lra].
  - apply pos4; [apply exp_pos|apply exp_pos|lra|]. cbn [widths]. destruct (Rgt_dec (PI / 2) 0); [|lra]. cbn [angles_density].
    apply Rmult_lt_0_compat; [apply Rinv_0_lt_compat; lra|lra].
Qed.

(** C101: the move that [sample] makes, with its retries, is not reversible.  For a likelihood
    with two levels there are numbers of positive density with which [sample], started at a state
    of the higher level, fails in one pass and then moves to a state of the lower level; but no
    pass from that state can fail with numbers of positive density, so no run leads back with a
    retry, while the move without a retry has its reverse by C100.  Because a failed pass is
    repeated instead of counted as staying put, moves away from states from which passes fail are
    too frequent. *)
Theorem C101_retries_refuted : exists (idx : list unit) (P : unit -> unit -> R) (log_lik : tensor unit -> R)
    (high low : tensor unit) (n1 n2 : numbers unit),
  (exists l s,
     sample_one unit _ deal_uniform deal_exponential (deal_prior idx P) log_lik 2
       (init unit _ (deal_prior idx P) log_lik (Some high) (deal [n1; n2])) = Some (l, s, 2%nat) /\
     length l = 2%nat /\ x _ _ s = low /\ rest (gen _ _ s) = [] /\ 0 < weight (gen _ _ s)) /\
  (exists w, moves idx P log_lik high n2 low w) /\
  forall n, 0 < weight (gen _ _ (tr_after _ _ (pass idx P log_lik low n))) ->
    tr_result _ _ (pass idx P log_lik low n) <> None.
Proof.
  pose proof PI_RGT_0 as P0. pose proof PI2_3_2 as P3.
  exists [tt], (fun _ _ => 1), step_lik, (fun _ => 2), (fun _ => 0), n_fail, n_leave. split; [|split].
  - pose proof (miss_bounds 0) as B0.
    cbn [sample_one].
    set (s0 := init _ _ _ _ _ _).
    set (more := [Real 2; Tensor (fun _ : unit => 0); Real (3 * (PI / 2)); Real (PI / 2)]).
    assert (T : exists t, sample_try unit _ deal_uniform deal_exponential (deal_prior [tt] (fun _ _ => 1)) step_lik s0 = t /\
        tr_result _ _ t = None /\ (exists w, gen _ _ (tr_after _ _ t) = Dealer more w /\ 0 < w) /\
        x _ _ (tr_after _ _ t) = (fun _ => 2) /\ log_lik_x _ _ (tr_after _ _ t) = 1).
    { eexists. split; [reflexivity|].
      unfold sample_try, s0, init, move, deal, n_fail, n_leave. cbn [gen flat_map app n_exp n_prior n_bracket n_angles].
      unfold deal_exponential. cbn [rest weight].
      unfold establish_ellipse. cbn [gen]. rewrite !deal_tensor. unfold draw_bracket. cbn [gen]. rewrite !deal_one.
      unfold draw. change (100 + 1 - 1)%nat with 100%nat.
      cbn [x y theta x_proposed log_lik_x_proposed log_lik_x gen].
      rewrite (step_high (fun _ => 2)) by lra.
      replace (3 * (PI / 2) - 2 * PI) with (- (PI / 2)) by field. replace (1 - 1 / 2) with (1 / 2) by field.
      assert (W0 : 0 < 1 * exponential_density (1 / 2) * prior [tt] (fun _ _ => 1) (fun _ => 0) * uniform_density 0 (2 * PI) (3 * (PI / 2))).
      { rewrite uniform_in by lra. apply Rmult_lt_0_compat; [|apply Rinv_0_lt_compat; lra].
        apply Rmult_lt_0_compat; [|apply exp_pos]. rewrite Rmult_1_l. unfold exponential_density.
        destruct (Rlt_dec 0 (1 / 2)); [apply exp_pos|lra]. }
      match goal with |- context [draw_rec _ _ _ _ 100 1 ?s1 _ _ _] =>
        destruct (fail_draw more 100 0 1 s1 (3 * (PI / 2)) _ eq_refl eq_refl eq_refl ltac:(lra) W0)
          as (tr & s' & w & E & G' & W' & X' & L') end.
      rewrite E. cbn [tr_result tr_after]. split; [reflexivity|]. split; [exists w; split; [exact G'|exact W']|].
      split; [exact X'|exact L']. }
    destruct T as (t & -> & R1 & (w1 & G4 & W4) & X4 & L4). rewrite R1.
    set (s4 := tr_after _ _ t) in *. clearbody s4.
    assert (T : exists t2 s5, sample_try unit _ deal_uniform deal_exponential (deal_prior [tt] (fun _ _ => 1)) step_lik s4 = t2 /\
        tr_result _ _ t2 = Some (s5, step_lik s5, 2%nat) /\ x _ _ (tr_after _ _ t2) = s5 /\ s5 = (fun _ => 0) /\
        rest (gen _ _ (tr_after _ _ t2)) = [] /\ 0 < weight (gen _ _ (tr_after _ _ t2))).
    { unfold sample_try, deal_exponential. rewrite G4. unfold more. cbn [rest weight].
      unfold establish_ellipse. cbn [gen]. rewrite deal_tensor. unfold draw_bracket. cbn [gen]. rewrite deal_one.
      unfold draw. change (100 + 1 - 1)%nat with (S 99)%nat. generalize 99%nat; intros f.
      cbn [x y theta x_proposed log_lik_x_proposed log_lik_x gen draw_rec].
      rewrite L4. unfold draw_proposal. cbn [gen]. rewrite !deal_one. cbn [log_lik_x_proposed x_proposed].
      destruct (Rgt_dec _ _) as [_|C].
      2: { exfalso. apply C. cbn [x y]. rewrite X4. rewrite step_low; [lra|]. rewrite cos_PI2. lra. }
      do 2 eexists. split; [reflexivity|]. cbn [tr_result tr_after x gen]. split; [reflexivity|]. split; [reflexivity|].
      split; [apply functional_extensionality; intros []; cbn [x y]; rewrite X4, cos_PI2; ring|].
      split; [reflexivity|]. cbn [weight]. rewrite !uniform_in by lra.
      unfold exponential_density. destruct (Rlt_dec 0 2); [|lra].
      apply Rmult_lt_0_compat; [|apply Rinv_0_lt_compat; lra].
      apply Rmult_lt_0_compat; [|apply Rinv_0_lt_compat; lra].
      apply Rmult_lt_0_compat; [|apply exp_pos]. apply Rmult_lt_0_compat; [exact W4|apply exp_pos]. }
    destruct T as (t2 & s5 & E2 & R2 & X5 & Z5 & A5). rewrite E2, R2.
    do 2 eexists. split; [reflexivity|]. split; [reflexivity|]. split; [rewrite X5; exact Z5|]. exact A5.
  - exact leave.
  - intros n W. destruct (pass_draw [tt] (fun _ _ => 1) step_lik (fun _ => 0) n) as (s & X & Y & Gn & _ & _ & Rs & Gn' & _).
    cbv zeta in Rs, Gn'. rewrite Gn' in W. rewrite Rs. clear Gn' Rs.
    assert (E : 0 < n_exp n).
    { destruct (Rlt_dec 0 (n_exp n)) as [E|E]; [exact E|]. exfalso.
      destruct (draw_rec _ _ _ _ _ _ _ _ _ _) as [[tr s'] r] eqn:Er. cbn [fst snd] in W.
      rewrite (zero_stays _ _ _ _ _ _ _ _ _ _ Er) in W; [lra|]. rewrite Gn. cbn [weight]. unfold first_weight, exponential_density.
      destruct (Rlt_dec 0 (n_exp n)); [contradiction|ring]. }
    clear W. change 100%nat with (S 99). generalize 99%nat; intros f. cbn [draw_rec].
    unfold draw_proposal. destruct (deal_uniform _ _ (gen _ _ s)) as [th g]. cbn [log_lik_x_proposed].
    destruct (Rgt_dec _ _) as [_|C]; [discriminate|]. exfalso. apply C.
    rewrite (step_low (fun _ => 0)) by lra. unfold step_lik. destruct (Rlt_dec _ _); lra.
Qed.
Print Assumptions C101_retries_refuted.

(** C101, what holds: a sample is always reached by a reversible move from the state before it;
    failed passes do not change the state. *)
Theorem C101_sample_moves_partial : forall (D G : Type) idx P uniform exponential sample_prior log_lik,
  @uniform_ok G uniform -> (forall g : G, 0 < fst (exponential g)) ->
  forall fuel (s : ess D G) passes s' k,
  log_lik_x D G s = log_lik (x D G s) ->
  sample_one D G uniform exponential sample_prior log_lik fuel s = Some (passes, s', k) ->
  log_lik_x D G s' = log_lik (x D G s') /\
  exists n w, moves idx P log_lik (x D G s) n (x D G s') w.
Proof.
  intros D G idx P uniform exponential sample_prior log_lik Hu He.
  induction fuel as [|fuel IH]; intros s passes s' k K E; [discriminate|].
  cbn [sample_one] in E.
  pose proof (sample_try_ok D G uniform exponential sample_prior log_lik Hu s) as O. cbv zeta in O.
  pose proof (sample_try_coherent D G uniform exponential sample_prior log_lik Hu s K) as C.
  destruct (tr_result D G (sample_try D G uniform exponential sample_prior log_lik s)) as [[[x1 ll] j]|] eqn:Rs.
  - injection E; intros <- <- <-. split; [exact C|].
    eexists. apply (try_moves D G idx P uniform exponential sample_prior log_lik Hu He s K). rewrite Rs. discriminate.
  - destruct O as (_ & _ & _ & _ & _ & _ & _ & _ & _ & X & _).
    destruct (sample_one _ _ _ _ _ _ _ _) as [[[l s1] j]|] eqn:E1; [|discriminate].
    injection E; intros <- <- <-. destruct (IH _ _ _ _ C E1) as [A B]. split; [exact A|].
    rewrite X in B. exact B.
Qed.
Print Assumptions C101_sample_moves_partial.
