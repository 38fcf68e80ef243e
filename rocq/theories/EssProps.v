(** C57-C60: elliptical slice sampling.  All theorems hold for every generator of random numbers
    whose uniform draws lie between their limits and whose exponential draws are not negative,
    for every prior and every likelihood. *)
From Coq Require Import Reals List Lra Lia Arith FunctionalExtensionality.
From Verif Require Import EssModel EssSpec EssProofs.
Import ListNotations.
Local Open Scope R_scope.

(** C57: along every history of [move] and [sample] calls, started from the constructor, the
    cached log-likelihood is that of the current state in every visited state; and a pass that
    returns a state returns one strictly above its slice height, which is at or below the
    log-likelihood of the state before; every proposal that the pass rejected is at or below the
    slice height. *)
Theorem C57_coherent_and_on_slice : forall (D G : Type) uniform exponential sample_prior log_lik,
  @uniform_ok G uniform -> @exponential_ok G exponential ->
  forall fuel ops (x_init : option (tensor D)) g passes visited final,
  exec D G uniform exponential sample_prior log_lik fuel ops (init D G sample_prior log_lik x_init g)
    = Some (passes, visited, final) ->
  (forall s, In s visited -> log_lik_x D G s = log_lik (x D G s)) /\
  log_lik_x D G final = log_lik (x D G final) /\
  (forall p, In p passes ->
     let before := x D G (tr_before D G p) in
     let height := tr_u D G p in
     (exists e, 0 <= e /\ height = log_lik before - e) /\
     height <= log_lik before /\
     (tr_result D G p <> None ->
        height < log_lik (x D G (tr_after D G p)) /\
        exists rejected accepted, tr_attempts D G p = rejected ++ [accepted] /\
          x D G (tr_after D G p) = x_proposed D G (at_self D G accepted) /\
          Forall (fun a => log_lik (x_proposed D G (at_self D G a)) <= height) rejected) /\
     (tr_result D G p = None ->
        Forall (fun a => log_lik (x_proposed D G (at_self D G a)) <= height) (tr_attempts D G p))).
Proof.
  intros D G uniform exponential sample_prior log_lik Hu He fuel ops x_init g passes visited final E.
  assert (K : coherent D G log_lik (init D G sample_prior log_lik x_init g)).
  { unfold init. destruct x_init; [reflexivity|]. destruct (sample_prior g); reflexivity. }
  destruct (exec_all _ _ _ _ _ _ Hu _ _ _ _ _ _ E K) as (A & B & C).
  split; [intros s I; rewrite Forall_forall in B; exact (B s I)|].
  split; [exact A|].
  intros p I. destruct (C p I) as [T Kp]. unfold coherent in Kp.
  generalize (sample_try_ok D G uniform exponential sample_prior log_lik Hu (tr_before D G p)).
  cbv zeta. rewrite <- T. intros (_ & U & _ & _ & _ & _ & _ & _ & R).
  generalize (He (gen D G (tr_before D G p))); intros He'.
  rewrite Kp in U.
  split; [exists (fst (exponential (gen D G (tr_before D G p)))); split; assumption|].
  split; [rewrite U; lra|].
  destruct (tr_result D G p) as [[[x' ll] n]|].
  - split; [|discriminate]. intros _. destruct R as (_ & _ & X & _ & S & l0 & a & E1 & E2 & E3).
    rewrite X. split; [exact S|]. exists l0, a. repeat split; auto. 
  - split; [congruence|]. intros _. tauto.
Qed.
Print Assumptions C57_coherent_and_on_slice.

(** C58: in every pass the search starts with a bracket of a full turn around 0; every bracket
    contains 0 and the angle tried, a rejected angle becomes the end point on its side, no
    bracket is wider than an earlier one; every proposal, hence the accepted state, is the point
    of its angle on the ellipse through the current state and one prior draw. *)
Theorem C58_bracket : forall (D G : Type) uniform exponential sample_prior log_lik,
  @uniform_ok G uniform -> @exponential_ok G exponential ->
  forall fuel ops (x_init : option (tensor D)) g passes visited final,
  exec D G uniform exponential sample_prior log_lik fuel ops (init D G sample_prior log_lik x_init g)
    = Some (passes, visited, final) ->
  forall p, In p passes ->
  let search := map (fun a => (at_lower D G a, at_upper D G a, theta D G (at_self D G a))) (tr_attempts D G p) in
  tr_upper D G p - tr_lower D G p = 2 * PI /\ tr_lower D G p <= 0 <= tr_upper D G p /\
  bracket_search (tr_lower D G p) (tr_upper D G p) search /\
  never_widens search /\
  exists gy, let y := fst (sample_prior gy) in
    (forall a, In a (tr_attempts D G p) ->
       on_ellipse (x D G (tr_before D G p)) y (theta D G (at_self D G a)) (x_proposed D G (at_self D G a))) /\
    (tr_result D G p <> None ->
       exists th, on_ellipse (x D G (tr_before D G p)) y th (x D G (tr_after D G p)) /\
         tr_lower D G p <= th <= tr_upper D G p).
Proof.
  intros D G uniform exponential sample_prior log_lik Hu He fuel ops x_init g passes visited final E p I.
  assert (K : coherent D G log_lik (init D G sample_prior log_lik x_init g)).
  { unfold init. destruct x_init; [reflexivity|]. destruct (sample_prior g); reflexivity. }
  destruct (exec_all _ _ _ _ _ _ Hu _ _ _ _ _ _ E K) as (_ & _ & C).
  destruct (C p I) as [T _].
  generalize (sample_try_ok D G uniform exponential sample_prior log_lik Hu (tr_before D G p)).
  cbv zeta. rewrite <- T. intros (_ & _ & (gy & Y & _) & _ & B & W & F & S & R).
  split; [exact W|]. split; [exact B|]. split; [exact S|].
  split; [exact (bracket_never_widens _ _ _ S)|].
  exists gy. rewrite Forall_forall in F. rewrite Y in F.
  split; [intros a J; apply F in J; apply J|].
  intros N. destruct (tr_result D G p) as [[[x' ll] n]|]; [|congruence].
  destruct R as (_ & _ & X & _ & _ & l0 & a & E1 & E2 & _).
  exists (theta D G (at_self D G a)).
  assert (J : In a (tr_attempts D G p)) by (rewrite E1; apply in_or_app; right; left; reflexivity).
  split; [rewrite X, E2; apply F; exact J|].
  unfold angles in S.
  destruct (In_nth_error _ _ J) as [i N'].
  assert (N'' := map_nth_error (fun a => (at_lower D G a, at_upper D G a, theta D G (at_self D G a))) _ _ N').
  assert (Z : forall s l u i l' u' th, bracket_search l u s -> nth_error s i = Some (l', u', th) -> l' <= th <= u').
  { induction s as [|[[l1 u1] t1] s IH]; intros l u [|k] l' u' th Bs Nt; try discriminate.
    - injection Nt; intros; subst. destruct Bs as (-> & -> & _ & ? & _); lra.
    - destruct Bs as (-> & -> & _ & ? & P & M). destruct (Rlt_dec 0 t1) as [Q|Q].
      + exact (IH _ _ k _ _ _ (P Q) Nt).
      + exact (IH _ _ k _ _ _ (M ltac:(lra)) Nt). }
  generalize (Z _ _ _ _ _ _ _ S N'') (bracket_bounds _ _ _ _ _ _ _ S N''). lra.
Qed.
Print Assumptions C58_bracket.

(** C59: [sample(num)] returns [num] states, independently of the fuel; the state before the
    first pass of each sample is the sampler's; every pass makes at most 100 likelihood
    evaluations, at least one; a pass that fails has made 100 and leaves the state and its cached
    likelihood alone, and the next pass of that sample starts from the sampler it left, with a
    slice height and a prior draw taken from the generator at that point. *)
Theorem C59_bounded_attempts : forall (D G : Type) uniform exponential sample_prior log_lik,
  @uniform_ok G uniform -> @exponential_ok G exponential ->
  forall fuel num s r s',
  sample D G uniform exponential sample_prior log_lik fuel num s = Some (r, s') ->
  length (samples D G r) = num /\
  (forall k, sample D G uniform exponential sample_prior log_lik (fuel + k) num s = Some (r, s')) /\
  (forall i l s1 n, nth_error r i = Some (l, s1, n) ->
     nth_error (samples D G r) i = Some (x D G s1) /\
     (exists t, nth_error l 0 = Some t /\
        tr_before D G t = match i with O => s | S j => match nth_error r j with Some (_, s0, _) => s0 | None => s end end) /\
     (exists t, nth_error l (length l - 1) = Some t /\ tr_result D G t <> None /\ tr_after D G t = s1) /\
     (forall t, In t l ->
        (1 <= length (tr_attempts D G t) <= 100)%nat /\
        (tr_result D G t = None -> length (tr_attempts D G t) = 100%nat /\
           x D G (tr_after D G t) = x D G (tr_before D G t) /\
           log_lik_x D G (tr_after D G t) = log_lik_x D G (tr_before D G t)) /\
        tr_u D G t = log_lik_x D G (tr_before D G t) - fst (exponential (gen D G (tr_before D G t))) /\
        y D G (tr_start D G t) = fst (sample_prior (snd (exponential (gen D G (tr_before D G t)))))) /\
     (forall j t t', nth_error l j = Some t -> nth_error l (S j) = Some t' ->
        tr_result D G t = None /\ tr_before D G t' = tr_after D G t)).
Proof.
  intros D G uniform exponential sample_prior log_lik Hu He fuel num s r s' E.
  split; [eapply sample_length; exact E|].
  split; [intros k; apply sample_mono; exact E|].
  apply sample_runs in E. clear num fuel.
  revert s E. induction r as [|[[l0 s0] n0] r IH]; intros s R i l s1 n N.
  { destruct i; discriminate. }
  destruct R as (C & _ & R).
  assert (P : nth_error (samples D G ((l0, s0, n0) :: r)) i = Some (x D G s1)).
  { unfold samples. exact (map_nth_error (fun p => x D G (snd (fst p))) _ _ N). }
  split; [exact P|].
  destruct i as [|i].
  - injection N; intros; subst n0 s0 l0.
    split; [exact (chain_first _ _ _ _ _ _ Hu _ _ _ C)|].
    split; [exact (chain_last _ _ _ _ _ _ _ _ _ C)|].
    split; [|intros j t t'; exact (chain_nth _ _ _ _ _ _ Hu _ _ _ j t t' C)].
    intros t I. destruct (chain_states _ _ _ _ _ _ Hu _ _ _ C t I) as (_ & _ & T).
    generalize (sample_try_ok D G uniform exponential sample_prior log_lik Hu (tr_before D G t)).
    cbv zeta. rewrite <- T. intros (_ & U & (gy & Y & Gy) & _ & _ & _ & _ & _ & Q).
    rewrite Gy in Y.
    destruct (tr_result D G t) as [[[x' ll] k]|].
    + split; [tauto|]. split; [discriminate|]. split; assumption.
    + destruct Q as (Q1 & Q2 & Q3 & _). split; [lia|]. split; [intros _; repeat split; assumption|].
      split; assumption.
  - specialize (IH _ R i l s1 n N). destruct IH as (_ & I1 & I2 & I3 & I4).
    split; [|tauto]. destruct I1 as (t & T1 & T2). exists t; split; [exact T1|]. rewrite T2.
    destruct i as [|i]; [reflexivity|]. cbn [nth_error].
    destruct (nth_error r i) as [[[l2 s2] n2]|] eqn:Z; [reflexivity|].
    exfalso. apply nth_error_None in Z. assert (nth_error r (S i) <> None) by (change (nth_error r (S i) = Some (l, s1, n)) in N; congruence).
    apply nth_error_Some in H; lia.
Qed.
Print Assumptions C59_bounded_attempts.

(** C60, refuted: the reported number is never the number of proposals that were drawn, neither
    in all passes of the sample nor in the one that succeeded. *)
Theorem C60_attempts_refuted : forall (D G : Type) uniform exponential sample_prior log_lik,
  @uniform_ok G uniform -> @exponential_ok G exponential ->
  forall fuel s l s' reported,
  sample_one D G uniform exponential sample_prior log_lik fuel s = Some (l, s', reported) ->
  reported <> fold_right plus O (map (fun t => length (tr_attempts D G t)) l) /\
  forall t, nth_error l (length l - 1) = Some t -> reported <> length (tr_attempts D G t).
Proof.
  intros D G uniform exponential sample_prior log_lik Hu He fuel s l s' n E.
  apply sample_one_chain in E. destruct E as [C (t & N & x' & ll & R)].
  destruct (chain_proposals _ _ _ _ _ _ Hu _ _ _ C) as (t0 & N0 & P).
  rewrite N in N0; injection N0; intros <-.
  assert (I := nth_error_In _ _ N).
  destruct (chain_states _ _ _ _ _ _ Hu _ _ _ C t I) as (_ & _ & T).
  generalize (sample_try_ok D G uniform exponential sample_prior log_lik Hu (tr_before D G t)).
  cbv zeta. rewrite <- T, R. intros (_ & _ & _ & _ & _ & _ & _ & _ & Q & Q' & _).
  unfold proposals in P. split; [rewrite P; lia|].
  intros t1 N1; rewrite N in N1; injection N1; intros <-. lia.
Qed.
Print Assumptions C60_attempts_refuted.

(** What is true instead: it is one more than the number of proposals of the successful pass. *)
Theorem C60_attempts_partial : forall (D G : Type) uniform exponential sample_prior log_lik,
  @uniform_ok G uniform -> @exponential_ok G exponential ->
  forall fuel s l s' reported,
  sample_one D G uniform exponential sample_prior log_lik fuel s = Some (l, s', reported) ->
  exists t, nth_error l (length l - 1) = Some t /\ tr_after D G t = s' /\
    reported = (length (tr_attempts D G t) + 1)%nat /\ (2 <= reported <= 101)%nat.
Proof.
  intros D G uniform exponential sample_prior log_lik Hu He fuel s l s' n E.
  apply sample_one_chain in E. destruct E as [C (t & N & x' & ll & R)].
  destruct (chain_last _ _ _ _ _ _ _ _ _ C) as (t0 & N0 & _ & A).
  rewrite N in N0; injection N0; intros <-.
  assert (I := nth_error_In _ _ N).
  destruct (chain_states _ _ _ _ _ _ Hu _ _ _ C t I) as (_ & _ & T).
  generalize (sample_try_ok D G uniform exponential sample_prior log_lik Hu (tr_before D G t)).
  cbv zeta. rewrite <- T, R. intros (_ & _ & _ & _ & _ & _ & _ & _ & Q & Q' & _).
  exists t. repeat split; auto; lia.
Qed.
Print Assumptions C60_attempts_partial.

(** A run that meets the hypotheses: a generator that counts its uniform draws, started at 2 with
    log-likelihood [x]; the first proposal, half a turn away at -2, is rejected and the second, at
    angle 0, is accepted.  The sampler reports 3 attempts for 2 proposals. *)
Definition toy_uniform (l u : R) (g : nat) : R * nat :=
  match g with
  | 1%nat => (u, 2%nat)
  | _ => ((l + u) / 2, S g)
  end.
Definition toy_exponential (g : nat) : R * nat := (1 / 2, g).
Definition toy_prior (g : nat) : tensor unit * nat := (fun _ => 1, g).
Definition toy_log_lik (x : tensor unit) : R := x tt.

Example ess_generators_ok : uniform_ok toy_uniform /\ exponential_ok toy_exponential.
Proof.
  split.
  - intros l u g H. destruct g as [|[|g]]; simpl; lra.
  - intros g; simpl; lra.
Qed.

(** One step of the search, for any fuel. *)
Lemma draw_rec_step (D G : Type) uniform log_lik fuel attempts (self : ess D G) lower upper u :
  draw_rec D G uniform log_lik (S fuel) attempts self lower upper u =
  (let self := draw_proposal D G uniform log_lik self lower upper in
   let here := Attempt D G lower upper self in
   if Rgt_dec (log_lik_x_proposed D G self) u then
     ([here], self, Some (x_proposed D G self, log_lik_x_proposed D G self, (attempts + 1)%nat))
   else
     let '(l, self', r) :=
       if Rgt_dec (theta D G self) 0 then draw_rec D G uniform log_lik fuel (attempts + 1) self lower (theta D G self) u
       else draw_rec D G uniform log_lik fuel (attempts + 1) self (theta D G self) upper u in
     (here :: l, self', r)).
Proof. reflexivity. Qed.

Example ess_run : exists l s',
  sample_one unit nat toy_uniform toy_exponential toy_prior toy_log_lik 1
    (init unit nat toy_prior toy_log_lik (Some (fun _ => 2)) 0%nat) = Some (l, s', 3%nat) /\
  map (fun t => length (tr_attempts unit nat t)) l = [2%nat] /\ x unit nat s' tt = 2.
Proof.
  assert (Hc : cos ((PI - 2 * PI + PI) / 2) = 1) by (replace ((PI - 2 * PI + PI) / 2) with 0 by field; apply cos_0).
  assert (Hs : sin ((PI - 2 * PI + PI) / 2) = 0) by (replace ((PI - 2 * PI + PI) / 2) with 0 by field; apply sin_0).
  assert (Hstep : forall fuel s, gen unit nat s = 1%nat -> x unit nat s tt = 2 ->
    exists l s' x' ll, draw_rec unit nat toy_uniform toy_log_lik (S (S fuel)) 1 s (PI - 2 * PI) PI (2 - 1 / 2) =
      (l, s', Some (x', ll, 3%nat)) /\ length l = 2%nat /\ x' tt = 2).
  { intros fuel s Gs X. rewrite draw_rec_step. unfold draw_proposal at 1. rewrite Gs.
    cbn [toy_uniform]. cbv zeta. cbn [log_lik_x_proposed theta].
    destruct (Rgt_dec _ _) as [Z|_]; [exfalso; unfold toy_log_lik in Z; rewrite X, cos_PI, sin_PI in Z; lra|].
    destruct (Rgt_dec PI 0) as [_|Z]; [|exfalso; generalize PI_RGT_0; lra].
    rewrite draw_rec_step. unfold draw_proposal at 1. cbn [gen].
    cbn [toy_uniform]. cbv zeta. cbn [log_lik_x_proposed theta x y].
    destruct (Rgt_dec _ _) as [_|Z]; [|exfalso; unfold toy_log_lik in Z; rewrite Hc, Hs, X in Z; lra].
    do 4 eexists. split; [reflexivity|]. split; [reflexivity|].
    cbn [x_proposed x y]. rewrite Hc, Hs, X. lra. }
  unfold sample_one. unfold sample_try, init, move, toy_exponential. cbn [gen].
  unfold establish_ellipse, toy_prior. cbn [gen].
  unfold draw_bracket. cbn [gen toy_uniform].
  replace ((0 + 2 * PI) / 2) with PI by field.
  unfold draw. change (100 + 1 - 1)%nat with (S (S 98))%nat.
  cbn [log_lik_x].
  destruct (Hstep 98%nat (Ess unit nat (fun _ => 2) (toy_log_lik (fun _ => 2)) (fun _ => 1) 0 (fun _ => 2) 0 1%nat))
    as (l & s' & x' & ll & E & L & X); try reflexivity.
  cbn [x y theta x_proposed log_lik_x_proposed]. change (toy_log_lik (fun _ => 2) - 1 / 2) with (2 - 1 / 2).
  rewrite E. cbn [tr_result tr_after]. eexists; eexists; split; [reflexivity|].
  split; [cbn [map tr_attempts]; rewrite L; reflexivity|]. exact X.
Qed.

Example C57_witness : exists passes visited final,
  exec unit nat toy_uniform toy_exponential toy_prior toy_log_lik 1 [Sample 1; Move (fun _ => 7)]
    (init unit nat toy_prior toy_log_lik (Some (fun _ => 2)) 0%nat) = Some (passes, visited, final) /\
  length passes = 1%nat /\ log_lik_x unit nat final = 7.
Proof.
  destruct ess_run as (l & s' & E & L & _). cbn [exec sample]. rewrite E.
  eexists; eexists; eexists; split; [reflexivity|].
  split; [|reflexivity]. cbn [flat_map fst]. rewrite !app_nil_r.
  rewrite <- (map_length (fun t => length (tr_attempts unit nat t))), L. reflexivity.
Qed.
