(** Invariants of the elliptical slice sampler. *)
From Coq Require Import Reals List Lra Lia Arith.
From Verif Require Import EssModel EssSpec.
Import ListNotations.
Local Open Scope R_scope.

Section EssProofs.
Variables (D G : Type).
Variable uniform : R -> R -> G -> R * G.
Variable exponential : G -> R * G.
Variable sample_prior : G -> tensor D * G.
Variable log_lik : tensor D -> R.
Hypothesis Hu : uniform_ok uniform.
Hypothesis He : exponential_ok exponential.
Notation ess := (ess D G).
Notation draw_rec := (draw_rec D G uniform log_lik).
Notation sample_try := (sample_try D G uniform exponential sample_prior log_lik).
Notation sample_one := (sample_one D G uniform exponential sample_prior log_lik).
Notation sample := (sample D G uniform exponential sample_prior log_lik).
Notation x := (x D G).
Notation y := (y D G).
Notation theta := (theta D G).
Notation log_lik_x := (log_lik_x D G).
Notation x_proposed := (x_proposed D G).
Notation log_lik_x_proposed := (log_lik_x_proposed D G).
Notation gen := (gen D G).
Notation attempt := (attempt D G).

Definition angles (l : list attempt) : list (R * R * R) :=
  map (fun a => (at_lower D G a, at_upper D G a, theta (at_self D G a))) l.

(** One attempt for the current state [x0] and the prior draw [y0]. *)
Definition attempt_ok (x0 y0 : tensor D) (ll : R) (a : attempt) : Prop :=
  let s := at_self D G a in
  x s = x0 /\ y s = y0 /\ log_lik_x s = ll /\
  on_ellipse x0 y0 (theta s) (x_proposed s) /\ log_lik_x_proposed s = log_lik (x_proposed s).

Lemma draw_proposal_ok s l u :
  let s' := draw_proposal D G uniform log_lik s l u in
  x s' = x s /\ y s' = y s /\ log_lik_x s' = log_lik_x s /\
  on_ellipse (x s) (y s) (theta s') (x_proposed s') /\
  log_lik_x_proposed s' = log_lik (x_proposed s') /\ (l <= u -> l <= theta s' <= u).
Proof.
  unfold draw_proposal. generalize (Hu l u (gen s)).
  destruct (uniform l u (gen s)) as [th g]; simpl; intros H.
  repeat split; try tauto; intro; apply H; assumption.
Qed.

Lemma draw_rec_ok : forall fuel attempts s lower upper u,
  lower <= 0 <= upper ->
  let '(l, s', r) := draw_rec fuel attempts s lower upper u in
  x s' = x s /\ y s' = y s /\ log_lik_x s' = log_lik_x s /\
  Forall (attempt_ok (x s) (y s) (log_lik_x s)) l /\
  bracket_search lower upper (angles l) /\
  match r with
  | Some (x', ll, n) =>
      (n = attempts + length l)%nat /\ (1 <= length l <= fuel)%nat /\
      exists l0 a, l = l0 ++ [a] /\ x' = x_proposed (at_self D G a) /\
        ll = log_lik x' /\ ll > u /\
        Forall (fun b => log_lik (x_proposed (at_self D G b)) <= u) l0
  | None =>
      length l = fuel /\ Forall (fun b => log_lik (x_proposed (at_self D G b)) <= u) l
  end.
Proof.
  induction fuel as [|fuel IH]; intros attempts s lower upper u B.
  { simpl. repeat split; auto. }
  cbn [EssModel.draw_rec].
  destruct (draw_proposal_ok s lower upper) as (X & Y & L & E & P & T).
  specialize (T ltac:(lra)).
  set (s1 := draw_proposal D G uniform log_lik s lower upper) in *.
  assert (A : attempt_ok (x s) (y s) (log_lik_x s) (Attempt D G lower upper s1)).
  { repeat split; assumption. }
  destruct (Rgt_dec (log_lik_x_proposed s1) u) as [K|K].
  { split; [assumption|]. split; [assumption|]. split; [assumption|].
    split; [constructor; auto|]. split; [simpl; repeat split; auto; lra|].
    split; [simpl; lia|]. split; [simpl; lia|]. 
    exists [], (Attempt D G lower upper s1); simpl; repeat split; auto. }
  assert (K' : log_lik (x_proposed s1) <= u) by (rewrite <- P; lra).
  assert (J : forall lo up, lo <= 0 <= up ->
    (0 < theta s1 -> lo = lower /\ up = theta s1) -> (theta s1 <= 0 -> lo = theta s1 /\ up = upper) ->
    let '(l, s', r) := let '(l, s', r) := draw_rec fuel (attempts + 1) s1 lo up u in
       (Attempt D G lower upper s1 :: l, s', r) in
  x s' = x s /\ y s' = y s /\ log_lik_x s' = log_lik_x s /\
  Forall (attempt_ok (x s) (y s) (log_lik_x s)) l /\
  bracket_search lower upper (angles l) /\
  match r with
  | Some (x', ll, n) =>
      (n = attempts + length l)%nat /\ (1 <= length l <= S fuel)%nat /\
      exists l0 a, l = l0 ++ [a] /\ x' = x_proposed (at_self D G a) /\
        ll = log_lik x' /\ ll > u /\
        Forall (fun b => log_lik (x_proposed (at_self D G b)) <= u) l0
  | None =>
      length l = S fuel /\ Forall (fun b => log_lik (x_proposed (at_self D G b)) <= u) l
  end).
  { intros lo up B' C1 C2. specialize (IH (attempts + 1)%nat s1 lo up u B').
    destruct (draw_rec fuel (attempts + 1) s1 lo up u) as [[l s'] r].
    destruct IH as (X' & Y' & L' & F & S & R).
    rewrite X, Y, L in *.
    split; [congruence|]. split; [congruence|]. split; [congruence|].
    split; [constructor; assumption|].
    split.
    { simpl. repeat split; auto; try lra.
      - intros Q; destruct (C1 Q); subst; assumption.
      - intros Q; destruct (C2 Q); subst; assumption. }
    destruct r as [[[x' ll] n]|].
    - destruct R as (N & N' & l0 & a & -> & R1 & R2 & R3 & R4).
      split; [simpl; lia|]. split; [simpl; lia|].
      exists (Attempt D G lower upper s1 :: l0), a. simpl; repeat split; auto.
    - destruct R as (N & R). split; [simpl; lia|]. constructor; assumption. }
  destruct (Rgt_dec (theta s1) 0) as [Q|Q].
  - apply J; [lra|intros; split; reflexivity|intros; exfalso; lra].
  - apply J; [lra|intros; exfalso; lra|intros; split; reflexivity].
Qed.

(** Everything about one pass of the loop. *)
Lemma sample_try_ok s :
  let t := sample_try s in
  tr_before D G t = s /\
  tr_u D G t = log_lik_x s - fst (exponential (gen s)) /\
  (exists g, y (tr_start D G t) = fst (sample_prior g) /\ g = snd (exponential (gen s))) /\
  x (tr_start D G t) = x s /\
  tr_lower D G t <= 0 <= tr_upper D G t /\
  tr_upper D G t - tr_lower D G t = 2 * PI /\
  Forall (attempt_ok (x s) (y (tr_start D G t)) (log_lik_x s)) (tr_attempts D G t) /\
  bracket_search (tr_lower D G t) (tr_upper D G t) (angles (tr_attempts D G t)) /\
  match tr_result D G t with
  | Some (x', ll, n) =>
      (n = length (tr_attempts D G t) + 1)%nat /\ (1 <= length (tr_attempts D G t) <= 100)%nat /\
      x (tr_after D G t) = x' /\ log_lik_x (tr_after D G t) = log_lik x' /\
      log_lik x' > tr_u D G t /\
      exists l0 a, tr_attempts D G t = l0 ++ [a] /\ x' = x_proposed (at_self D G a) /\
        Forall (fun b => log_lik (x_proposed (at_self D G b)) <= tr_u D G t) l0
  | None =>
      length (tr_attempts D G t) = 100%nat /\
      x (tr_after D G t) = x s /\ log_lik_x (tr_after D G t) = log_lik_x s /\
      Forall (fun b => log_lik (x_proposed (at_self D G b)) <= tr_u D G t) (tr_attempts D G t)
  end.
Proof.
  unfold EssModel.sample_try.
  destruct (exponential (gen s)) as [e g0] eqn:Ee.
  unfold establish_ellipse; cbn [EssModel.gen].
  destruct (sample_prior g0) as [y' g1] eqn:Ey.
  unfold draw_bracket; cbn [EssModel.gen].
  generalize (Hu 0 (2 * PI) g1). destruct (uniform 0 (2 * PI) g1) as [th g2]; cbn [fst].
  intros B. generalize PI_RGT_0; intros Hpi. specialize (B ltac:(lra)).
  cbn [EssModel.x EssModel.log_lik_x EssModel.y EssModel.theta EssModel.x_proposed EssModel.log_lik_x_proposed].
  set (s3 := Ess D G _ _ _ _ _ _ _).
  generalize (draw_rec_ok 100 1 s3 (th - 2 * PI) th (log_lik_x s - e) ltac:(lra)).
  unfold draw. change (100 + 1 - 1)%nat with 100%nat.
  destruct (draw_rec 100 1 s3 (th - 2 * PI) th (log_lik_x s - e)) as [[l s4] r].
  intros (X & Y & L & F & S & R).
  cbn [tr_before tr_u tr_start tr_lower tr_upper tr_attempts tr_after tr_result fst snd].
  change (x s3) with (x s) in *. change (log_lik_x s3) with (log_lik_x s) in *.
  split; [reflexivity|]. split; [reflexivity|].
  split; [exists g0; rewrite Ey; split; reflexivity|].
  split; [reflexivity|]. split; [lra|]. split; [lra|].
  split; [exact F|]. split; [exact S|].
  destruct r as [[[x' ll] n]|].
  - destruct R as (N & N' & l0 & a & E1 & E2 & E3 & E4 & E5).
    cbn [EssModel.x EssModel.log_lik_x].
    repeat split; try lia; auto; try (rewrite <- E3; exact E4).
    exists l0, a; auto.
  - destruct R as (N & R). repeat split; auto; congruence.
Qed.

Definition coherent (s : ess) : Prop := log_lik_x s = log_lik (x s).

Lemma sample_try_coherent s : coherent s -> coherent (tr_after D G (sample_try s)).
Proof.
  intros C. generalize (sample_try_ok s); intros (_ & _ & _ & _ & _ & _ & _ & _ & R).
  destruct (tr_result D G (sample_try s)) as [[[x' ll] n]|].
  - destruct R as (_ & _ & X & L & _). unfold coherent; congruence.
  - destruct R as (_ & X & L & _). unfold coherent in *; congruence.
Qed.

(** The passes of [_sample]: failed ones, each starting where the one before ended, then one
    that succeeded. *)
Fixpoint chain (s : ess) (l : list (try D G)) (s' : ess) : Prop :=
  match l with
  | [] => False
  | t :: l' =>
      t = sample_try s /\
      match l' with
      | [] => tr_result D G t <> None /\ s' = tr_after D G t
      | _ => tr_result D G t = None /\ chain (tr_after D G t) l' s'
      end
  end.

Lemma sample_one_chain : forall fuel s l s' n,
  sample_one fuel s = Some (l, s', n) ->
  chain s l s' /\
  exists t, nth_error l (length l - 1) = Some t /\ exists x' ll, tr_result D G t = Some (x', ll, n).
Proof.
  induction fuel as [|fuel IH]; intros s l s' n; cbn [EssModel.sample_one]; [discriminate|].
  destruct (tr_result D G (sample_try s)) as [[[x' ll] k]|] eqn:E.
  - intros Q; injection Q; intros <- <- <-. split.
    + simpl; rewrite E; repeat split; discriminate.
    + exists (sample_try s); split; [reflexivity|]. exists x', ll; exact E.
  - destruct (sample_one fuel (tr_after D G (sample_try s))) as [[[l' s1] k]|] eqn:E'; [|discriminate].
    intros Q; injection Q; intros <- <- <-. apply IH in E'. destruct E' as [C (t & T & X)].
    destruct l' as [|t' l']; [destruct C|]. split.
    + simpl; simpl in C; rewrite E; repeat split; tauto.
    + exists t; split; [|exact X]. replace (length (sample_try s :: t' :: l') - 1)%nat with
        (S (length (t' :: l') - 1)) by (simpl; lia). exact T.
Qed.

Lemma chain_states : forall l s s', chain s l s' ->
  forall t, In t l -> x (tr_before D G t) = x s /\ log_lik_x (tr_before D G t) = log_lik_x s /\
    t = sample_try (tr_before D G t).
Proof.
  induction l as [|t0 l IH]; intros s s' C t I; [destruct I|].
  destruct C as [E C].
  generalize (sample_try_ok s); intros (B & _ & _ & _ & _ & _ & _ & _ & R).
  destruct I as [<-|I].
  { rewrite E, B; repeat split; reflexivity. }
  destruct l as [|t1 l]; [destruct I|]. destruct C as [N C]. rewrite E in N; rewrite N in R.
  destruct R as (_ & X & L & _).
  destruct (IH _ _ C t I) as (X' & L' & T'). rewrite E in X', L'. repeat split; congruence.
Qed.

Lemma chain_coherent : forall l s s', chain s l s' -> coherent s -> coherent s'.
Proof.
  induction l as [|t0 l IH]; intros s s' C K; [destruct C|].
  destruct C as [E C]. destruct l as [|t1 l].
  - destruct C as [_ ->]. rewrite E; apply sample_try_coherent; assumption.
  - destruct C as [_ C]. refine (IH _ _ C _). rewrite E; apply sample_try_coherent; assumption.
Qed.

(** The samples of [sample]: the passes that led from each state to the next. *)
Lemma sample_length : forall num fuel s r s',
  sample fuel num s = Some (r, s') -> length (samples D G r) = num.
Proof.
  induction num as [|num IH]; intros fuel s r s'; cbn [EssModel.sample].
  { intros Q; injection Q; intros <- <-; reflexivity. }
  destruct (sample_one fuel s) as [[[l s1] a]|]; [|discriminate].
  destruct (sample fuel num s1) as [[rest s2]|] eqn:E; [|discriminate].
  intros Q; injection Q; intros <- <-. simpl; f_equal. eapply IH; exact E.
Qed.

(** [runs s r]: each recorded sample starts in the state where the one before ended. *)
Fixpoint runs (s : ess) (r : list (list (try D G) * ess * nat)) (s' : ess) : Prop :=
  match r with
  | [] => s' = s
  | (l, s1, n) :: r' =>
      chain s l s1 /\
      (exists t, nth_error l (length l - 1) = Some t /\ exists x' ll, tr_result D G t = Some (x', ll, n)) /\
      runs s1 r' s'
  end.

Lemma sample_runs : forall num fuel s r s',
  sample fuel num s = Some (r, s') -> runs s r s'.
Proof.
  induction num as [|num IH]; intros fuel s r s'; cbn [EssModel.sample].
  { intros Q; injection Q; intros <- <-; reflexivity. }
  destruct (sample_one fuel s) as [[[l s1] a]|] eqn:E1; [|discriminate].
  destruct (sample fuel num s1) as [[rest s2]|] eqn:E; [|discriminate].
  intros Q; injection Q; intros <- <-. apply sample_one_chain in E1. destruct E1. simpl. eauto.
Qed.

Lemma bracket_bounds : forall s l u i l' u' th', bracket_search l u s ->
  nth_error s i = Some (l', u', th') -> l <= l' /\ u' <= u.
Proof.
  induction s as [|[[l0 u0] th] s IH]; intros l u i l' u' th' B N.
  { destruct i; discriminate. }
  destruct B as (-> & -> & Z & T & P & M). destruct i as [|i].
  { injection N; intros; subst; lra. }
  destruct (Rlt_dec 0 th) as [Q|Q].
  - destruct (IH _ _ i _ _ _ (P Q) N). lra.
  - destruct (IH _ _ i _ _ _ (M ltac:(lra)) N). lra.
Qed.

Lemma bracket_never_widens : forall s l u, bracket_search l u s -> never_widens s.
Proof.
  induction s as [|[[l0 u0] th] s IH]; intros l u B i j l1 u1 th1 l2 u2 th2 I N1 N2.
  { destruct i; discriminate. }
  destruct i as [|i].
  { injection N1; intros; subst.
    generalize (bracket_bounds _ _ _ _ _ _ _ B N2). destruct B as (-> & -> & _). tauto. }
  destruct j as [|j]; [lia|].
  destruct B as (-> & -> & Z & T & P & M).
  destruct (Rlt_dec 0 th) as [Q|Q].
  - refine (IH _ _ (P Q) i j _ _ _ _ _ _ _ N1 N2); lia.
  - refine (IH _ _ (M ltac:(lra)) i j _ _ _ _ _ _ _ N1 N2); lia.
Qed.
End EssProofs.

Section HistoryProofs.
Variables (D G : Type).
Variable uniform : R -> R -> G -> R * G.
Variable exponential : G -> R * G.
Variable sample_prior : G -> tensor D * G.
Variable log_lik : tensor D -> R.
Hypothesis Hu : uniform_ok uniform.
Hypothesis He : exponential_ok exponential.
Notation ess := (ess D G).
Notation sample_try := (sample_try D G uniform exponential sample_prior log_lik).
Notation sample_one := (sample_one D G uniform exponential sample_prior log_lik).
Notation sample := (sample D G uniform exponential sample_prior log_lik).
Notation chain := (chain D G uniform exponential sample_prior log_lik).
Notation runs := (runs D G uniform exponential sample_prior log_lik).
Notation coherent := (coherent D G log_lik).
Notation exec := (exec D G uniform exponential sample_prior log_lik).

Lemma chain_all : forall l s s', chain s l s' -> coherent s ->
  coherent s' /\ forall t, In t l ->
    t = sample_try (tr_before D G t) /\ coherent (tr_before D G t) /\ coherent (tr_after D G t).
Proof.
  induction l as [|t0 l IH]; intros s s' C K; [destruct C|].
  destruct C as [E C].
  assert (T : t0 = sample_try (tr_before D G t0) /\ coherent (tr_before D G t0) /\ coherent (tr_after D G t0)).
  { generalize (sample_try_ok D G uniform exponential sample_prior log_lik Hu s); intros (B & _).
    rewrite E, B; repeat split; try assumption.
    apply sample_try_coherent; assumption. }
  destruct l as [|t1 l].
  - destruct C as [_ ->]. split; [tauto|]. intros t [<-|[]]; exact T.
  - destruct C as [_ C]. destruct (IH _ _ C ltac:(tauto)) as [C1 C2].
    split; [exact C1|]. intros t [<-|I]; [exact T|exact (C2 t I)].
Qed.

Lemma runs_all : forall r s s', runs s r s' -> coherent s ->
  coherent s' /\ forall t, In t (flat_map (fun p => fst (fst p)) r) ->
    t = sample_try (tr_before D G t) /\ coherent (tr_before D G t) /\ coherent (tr_after D G t).
Proof.
  induction r as [|[[l s1] n] r IH]; intros s s' R K.
  { simpl in R; subst; split; [assumption|intros t []]. }
  destruct R as (C & _ & R). destruct (chain_all _ _ _ C K) as [K1 A].
  destruct (IH _ _ R K1) as [K2 B]. split; [assumption|].
  intros t I; simpl in I; apply in_app_or in I; destruct I; auto.
Qed.

Lemma exec_all : forall ops fuel s t v s', exec fuel ops s = Some (t, v, s') -> coherent s ->
  coherent s' /\ Forall coherent v /\ forall p, In p t ->
    p = sample_try (tr_before D G p) /\ coherent (tr_before D G p).
Proof.
  induction ops as [|o ops IH]; intros fuel s t v s' E K.
  { injection E; intros <- <- <-. repeat split; auto; destruct H. }
  destruct o as [x'|num]; cbn [EssModel.exec] in E.
  - destruct (exec fuel ops (move D G log_lik s x')) as [[[t1 v1] s1]|] eqn:E1; [|discriminate].
    injection E; intros <- <- <-.
    destruct (IH _ _ _ _ _ E1 eq_refl) as (A & B & C). repeat split; auto; apply C; assumption.
  - destruct (sample fuel num s) as [[r s1]|] eqn:E0; [|discriminate].
    destruct (exec fuel ops s1) as [[[t1 v1] s2]|] eqn:E1; [|discriminate].
    injection E; intros <- <- <-.
    destruct (runs_all _ _ _ (sample_runs _ _ _ _ _ _ _ _ _ _ _ E0) K) as [K1 A].
    destruct (IH _ _ _ _ _ E1 K1) as (B1 & B2 & B3).
    split; [assumption|]. split.
    + constructor; [assumption|]. apply Forall_app. split; [|assumption].
      apply Forall_forall; intros q I; apply in_map_iff in I; destruct I as (t0 & <- & I).
      apply A in I; tauto.
    + intros p I; apply in_app_or in I. destruct I as [I|I]; [apply A in I; tauto|auto].
Qed.

Lemma sample_one_mono : forall fuel s r k, sample_one fuel s = Some r -> sample_one (fuel + k) s = Some r.
Proof.
  induction fuel as [|fuel IH]; intros s r k; [discriminate|]. cbn [plus EssModel.sample_one].
  destruct (tr_result D G (sample_try s)) as [[[x' ll] n]|]; [auto|].
  destruct (sample_one fuel (tr_after D G (sample_try s))) as [r'|] eqn:E; [|discriminate].
  rewrite (IH _ _ k E). auto.
Qed.

Lemma sample_mono : forall num fuel s r k, sample fuel num s = Some r -> sample (fuel + k) num s = Some r.
Proof.
  induction num as [|num IH]; intros fuel s r k; cbn [EssModel.sample]; [auto|].
  destruct (sample_one fuel s) as [[[l s1] a]|] eqn:E1; [|discriminate].
  rewrite (sample_one_mono _ _ _ k E1).
  destruct (sample fuel num s1) as [r'|] eqn:E; [|discriminate].
  rewrite (IH _ _ _ k E). auto.
Qed.

(** Consecutive passes of one sample. *)
Lemma chain_nth : forall l s s' i t t', chain s l s' ->
  nth_error l i = Some t -> nth_error l (S i) = Some t' ->
  tr_result D G t = None /\ tr_before D G t' = tr_after D G t.
Proof.
  induction l as [|t0 l IH]; intros s s' i t t' C N N'; [destruct i; discriminate|].
  destruct C as [E C]. destruct l as [|t1 l]; [destruct i; discriminate|].
  destruct C as [F C]. destruct i as [|i].
  - injection N; injection N'; intros <- <-. destruct C as [E' _]. split; [assumption|].
    rewrite E'. generalize (sample_try_ok D G uniform exponential sample_prior log_lik Hu (tr_after D G t0)).
    intros (B & _); exact B.
  - exact (IH _ _ i t t' C N N').
Qed.

Lemma chain_first : forall l s s', chain s l s' -> exists t, nth_error l 0 = Some t /\ tr_before D G t = s.
Proof.
  intros [|t l] s s' C; [destruct C|]. exists t; split; [reflexivity|]. destruct C as [-> _].
  generalize (sample_try_ok D G uniform exponential sample_prior log_lik Hu s). intros (B & _); exact B.
Qed.

Lemma chain_last : forall l s s', chain s l s' ->
  exists t, nth_error l (length l - 1) = Some t /\ tr_result D G t <> None /\ tr_after D G t = s'.
Proof.
  induction l as [|t0 l IH]; intros s s' C; [destruct C|].
  destruct C as [E C]. destruct l as [|t1 l].
  - exists t0; simpl; intuition congruence.
  - destruct C as [_ C]. destruct (IH _ _ C) as (t & N & T). exists t; split; [|exact T].
    replace (length (t0 :: t1 :: l) - 1)%nat with (S (length (t1 :: l) - 1)) by (simpl; lia). exact N.
Qed.

Definition proposals (l : list (try D G)) : nat :=
  fold_right plus O (map (fun t => length (tr_attempts D G t)) l).

Lemma chain_proposals : forall l s s', chain s l s' ->
  exists t, nth_error l (length l - 1) = Some t /\
    (proposals l = 100 * (length l - 1) + length (tr_attempts D G t))%nat.
Proof.
  induction l as [|t0 l IH]; intros s s' C; [destruct C|].
  destruct C as [E C]. destruct l as [|t1 l].
  - exists t0; split; [reflexivity|]. unfold proposals; simpl; lia.
  - destruct C as [F C]. destruct (IH _ _ C) as (t & N & P). exists t; split.
    + replace (length (t0 :: t1 :: l) - 1)%nat with (S (length (t1 :: l) - 1)) by (simpl; lia). exact N.
    + generalize (sample_try_ok D G uniform exponential sample_prior log_lik Hu s).
      cbv zeta; rewrite <- E, F. intros (_ & _ & _ & _ & _ & _ & _ & _ & H & _).
      unfold proposals in *; cbn [map fold_right]. cbn [map fold_right] in P. rewrite P, H.
      simpl length. lia.
Qed.
End HistoryProofs.
