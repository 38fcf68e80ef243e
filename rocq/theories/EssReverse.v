(** Reversibility of the passes of elliptical slice sampling. *)
From Coq Require Import Reals List Lra Lia Arith FunctionalExtensionality.
From Verif Require Import EssModel EssSpec EssProofs EssReverseSpec.
Import ListNotations.
Local Open Scope R_scope.

(** The pass that the sampler at [x0] makes when it is dealt [n]. *)
Definition pass {D} (idx : list D) (P : D -> D -> R) (log_lik : tensor D -> R) (x0 : tensor D) (n : numbers D)
    : try D (dealer D) :=
  sample_try D _ deal_uniform deal_exponential (deal_prior idx P) log_lik
    (init D _ (deal_prior idx P) log_lik (Some x0) (deal [n])).

Definition angle {D G} (a : attempt D G) : R := theta D G (at_self D G a).
Definition proposal {D G} (a : attempt D G) : tensor D := x_proposed D G (at_self D G a).

(** A pass moves from [x0] to [x'] when it is dealt [n]: it uses all numbers, it returns [x'], and
    [w > 0] is the density of these numbers. *)
Definition moves {D} (idx : list D) (P : D -> D -> R) (log_lik : tensor D -> R)
    (x0 : tensor D) (n : numbers D) (x' : tensor D) (w : R) : Prop :=
  let p := pass idx P log_lik x0 n in
  tr_result _ _ p <> None /\ x _ _ (tr_after _ _ p) = x' /\
  rest (gen _ _ (tr_after _ _ p)) = [] /\ weight (gen _ _ (tr_after _ _ p)) = w /\ 0 < w.

Section Reverse.
Context {D : Type}.
Variables (idx : list D) (P : D -> D -> R) (log_lik : tensor D -> R).

(** The search with prescribed angles, as a relation on the data alone: from the bracket [(l, u)]
    the angles miss until the last one, which hits. *)
Fixpoint search (hit : R -> Prop) (l u : R) (ths : list R) : Prop :=
  match ths with
  | [] => False
  | [th] => hit th /\ l <= th <= u
  | th :: ths => ~ hit th /\ l <= th <= u /\ (0 < th -> search hit l th ths) /\ (~ 0 < th -> search hit th u ths)
  end.

Fixpoint widths (l u : R) (ths : list R) : list R :=
  match ths with
  | [] => []
  | th :: ths => (u - l) :: (if Rgt_dec th 0 then widths l th ths else widths th u ths)
  end.

Lemma search_cons hit l u th ths : ths <> [] ->
  search hit l u (th :: ths) <->
  ~ hit th /\ l <= th <= u /\ (0 < th -> search hit l th ths) /\ (~ 0 < th -> search hit th u ths).
Proof. destruct ths; [congruence|]. intros _. reflexivity. Qed.

Lemma search_nonempty hit l u ths : search hit l u ths -> ths <> [].
Proof. destruct ths; [tauto|discriminate]. Qed.

(** The accepted angle lies in the bracket. *)
Lemma search_last hit : forall ths l u, search hit l u ths -> hit (last ths 0) /\ l <= last ths 0 <= u.
Proof.
  induction ths as [|th ths IH]; intros l u H; [destruct H|].
  destruct ths as [|th' ths]; [exact H|].
  apply search_cons in H; [|discriminate]. destruct H as (N & B & P1 & Q).
  change (last (th :: th' :: ths) 0) with (last (th' :: ths) 0).
  destruct (Rlt_dec 0 th) as [T|T].
  - destruct (IH _ _ (P1 T)) as [A C]. split; [exact A|lra].
  - destruct (IH _ _ (Q T)) as [A C]. split; [exact A|lra].
Qed.

Lemma removelast_cons (A : Type) (a b : A) l : removelast (a :: b :: l) = a :: removelast (b :: l).
Proof. reflexivity. Qed.

(** The reverse search. *)
Lemma search_reverse (hit hit' : R -> Prop) (z : R) :
  (forall a, hit' (a - z) <-> hit a) -> hit' (- z) ->
  forall ths l u, l <= 0 <= u -> search hit l u ths -> last ths 0 = z ->
  let ths' := map (fun a => a - z) (removelast ths) ++ [- z] in
  search hit' (l - z) (u - z) ths' /\ widths (l - z) (u - z) ths' = widths l u ths.
Proof.
  intros HH H0. induction ths as [|th ths IH]; intros l u LU H L; [destruct H|].
  destruct ths as [|th' ths].
  - cbn in L. subst th. simpl in H. simpl. destruct H as [A B]. split.
    + split; [exact H0|lra].
    + replace (u - z - (l - z)) with (u - l) by ring.
      destruct (Rgt_dec (- z) 0), (Rgt_dec z 0); reflexivity.
  - pose proof (search_last _ _ _ _ H) as [HL BL]. rewrite L in HL, BL.
    apply search_cons in H; [|discriminate]. destruct H as (N & B & P1 & Q).
    change (last (th' :: ths) 0 = z) in L.
    cbv zeta. rewrite removelast_cons. cbn [map app].
    assert (NE : map (fun a => a - z) (removelast (th' :: ths)) ++ [- z] <> []) by (intros E; destruct (app_eq_nil _ _ E); discriminate).
    assert (TZ : th <> z) by (intros ->; contradiction).
    destruct (Rlt_dec 0 th) as [T|T].
    + specialize (P1 T). pose proof (search_last _ _ _ _ P1) as [_ BL']. rewrite L in BL'.
      destruct (IH l th ltac:(lra) P1 L) as [S W]. cbv zeta in S, W.
      split.
      * apply search_cons; [exact NE|]. split; [rewrite HH; exact N|]. split; [lra|]. split; [intros _; exact S|].
        intros C. exfalso. apply C. lra.
      * cbn [widths]. replace (u - z - (l - z)) with (u - l) by ring. f_equal.
        destruct (Rgt_dec (th - z) 0) as [_|C]; [|lra]. destruct (Rgt_dec th 0) as [_|C]; [exact W|lra].
    + specialize (Q T). pose proof (search_last _ _ _ _ Q) as [_ BL']. rewrite L in BL'.
      destruct (IH th u ltac:(lra) Q L) as [S W]. cbv zeta in S, W.
      split.
      * apply search_cons; [exact NE|]. split; [rewrite HH; exact N|]. split; [lra|]. split; [intros C; lra|].
        intros _. exact S.
      * cbn [widths]. replace (u - z - (l - z)) with (u - l) by ring. f_equal.
        destruct (Rgt_dec (th - z) 0) as [C|_]; [lra|]. destruct (Rgt_dec th 0) as [C|_]; [lra|exact W].
Qed.

(** The density of the angles. *)
Fixpoint angles_density (ws : list R) : R := match ws with [] => 1 | w :: ws => / w * angles_density ws end.

(** The model's search on dealt angles is that relation. *)
Definition point (x0 y0 : tensor D) (th : R) : tensor D := fun d => cos th * x0 d + sin th * y0 d.

Notation sdraw := (draw_rec D (dealer D) deal_uniform log_lik).

Lemma uniform_pos l u r : 0 < uniform_density l u r -> l <= r <= u /\ uniform_density l u r = / (u - l).
Proof. unfold uniform_density. destruct (Rle_dec l r), (Rle_dec r u); lra. Qed.
Lemma uniform_in l u r : l <= r <= u -> uniform_density l u r = / (u - l).
Proof. unfold uniform_density. destruct (Rle_dec l r), (Rle_dec r u); lra. Qed.

Lemma uniform_ge l u r : 0 <= uniform_density l u r.
Proof.
  unfold uniform_density. destruct (Rle_dec l r), (Rle_dec r u); try lra.
  destruct (Req_dec (u - l) 0) as [->|E]; [rewrite Rinv_0; lra|].
  left. apply Rinv_0_lt_compat. lra.
Qed.

Lemma deal_one l u r (g : list (number D)) w : deal_uniform l u (Dealer (Real r :: g) w) = (r, Dealer g (w * uniform_density l u r)).
Proof. reflexivity. Qed.

Lemma deal_tensor t (g : list (number D)) w : deal_prior idx P (Dealer (Tensor t :: g) w) = (t, Dealer g (w * prior idx P t)).
Proof. reflexivity. Qed.

(** A product of densities that is zero stays zero. *)
Lemma zero_stays : forall fuel k s l u h tr s' r,
  sdraw fuel k s l u h = (tr, s', r) -> weight (gen _ _ s) = 0 -> weight (gen _ _ s') = 0.
Proof.
  induction fuel as [|fuel IH]; intros k s l u h tr s' r E Z; [inversion E; subst; exact Z|].
  simpl in E.
  assert (Z1 : weight (gen _ _ (draw_proposal D _ deal_uniform log_lik s l u)) = 0).
  { unfold draw_proposal, deal_uniform. destruct (rest (gen _ _ s)) as [|[r0|t] g']; simpl; try reflexivity. rewrite Z; ring. }
  destruct (Rgt_dec _ _); [inversion E; subst; exact Z1|].
  destruct (Rgt_dec _ _); destruct (sdraw fuel _ _ _ _ _) as [[tr1 s1] r1] eqn:E1; inversion E; subst;
    exact (IH _ _ _ _ _ _ _ _ E1 Z1).
Qed.

Lemma draw_search : forall ths fuel k s l u h w0,
  gen _ _ s = Dealer (map Real ths) w0 -> 0 <= w0 ->
  forall tr s' x' ll n,
  sdraw fuel k s l u h = (tr, s', Some (x', ll, n)) ->
  rest (gen _ _ s') = [] -> 0 < weight (gen _ _ s') ->
  search (fun th => h < log_lik (point (x _ _ s) (y _ _ s) th)) l u ths /\
  weight (gen _ _ s') = w0 * angles_density (widths l u ths) /\ map angle tr = ths /\
  map proposal tr = map (point (x _ _ s) (y _ _ s)) ths /\
  x' = point (x _ _ s) (y _ _ s) (last ths 0) /\ (length ths <= fuel)%nat.
Proof.
  induction ths as [|th ths IH]; intros fuel k s l u h w0 G W0 tr s' x' ll n E Re We.
  - exfalso. destruct fuel; [discriminate|]. simpl in E.
    assert (Z1 : weight (gen _ _ (draw_proposal D _ deal_uniform log_lik s l u)) = 0).
    { unfold draw_proposal, deal_uniform. rewrite G. reflexivity. }
    destruct (Rgt_dec _ _); [inversion E; subst; rewrite Z1 in We; lra|].
    destruct (Rgt_dec _ _); destruct (sdraw fuel _ _ _ _ _) as [[tr1 s1] r1] eqn:E1; inversion E; subst;
      rewrite (zero_stays _ _ _ _ _ _ _ _ _ E1 Z1) in We; lra.
  - destruct fuel; [discriminate|]. simpl in E. unfold draw_proposal in E. rewrite G in E. cbn [map] in E. rewrite !deal_one in E.
    cbn [log_lik_x_proposed theta x_proposed] in E.
    fold (point (x _ _ s) (y _ _ s) th) in E.
    destruct (Rgt_dec _ _) as [A|A].
    + inversion E; subst. clear E. cbn [gen rest weight] in Re, We |- *. destruct ths; [|discriminate].
      assert (U : 0 < uniform_density l u th).
      { destruct (uniform_ge l u th) as [U|U]; [exact U|]. rewrite <- U in We. lra. }
      apply uniform_pos in U. destruct U as [U V]. rewrite V.
      cbn. repeat split; try tauto; try lia; try lra.
      destruct (Rgt_dec th 0); simpl; ring.
    + assert (U : 0 < w0 * uniform_density l u th).
      { destruct (Rle_lt_or_eq_dec 0 (w0 * uniform_density l u th)) as [U|U]; [apply Rmult_le_pos; [exact W0|apply uniform_ge]|exact U|].
        exfalso. destruct (Rgt_dec th 0); destruct (sdraw fuel _ _ _ _ _) as [[tr1 s1] r1] eqn:E1; inversion E; subst;
          rewrite (zero_stays _ _ _ _ _ _ _ _ _ E1 (eq_sym U)) in We; lra. }
      assert (U1 : 0 < uniform_density l u th).
      { destruct (uniform_ge l u th) as [U1|U1]; [exact U1|]. rewrite <- U1 in U. lra. }
      apply uniform_pos in U1. destruct U1 as [U1 V].
      set (s1 := Ess D _ (x _ _ s) (log_lik_x _ _ s) (y _ _ s) th (point (x _ _ s) (y _ _ s) th) (log_lik (point (x _ _ s) (y _ _ s) th))
                   (Dealer (map Real ths) (w0 * uniform_density l u th))) in *.
      destruct (Rgt_dec th 0) as [T|T]; destruct (sdraw fuel _ _ _ _ _) as [[l1 s2] r1] eqn:E1;
        inversion E; subst; clear E;
        destruct (IH fuel _ s1 _ _ h _ eq_refl ltac:(lra) _ _ _ _ _ E1 Re We) as (Q1 & Q2 & Q3 & Q4 & Q5 & Q6);
        pose proof (search_nonempty _ _ _ _ Q1) as NE.
      * split; [apply search_cons; [exact NE|]; split; [lra|]; split; [exact U1|]; split; [intros _; exact Q1|intros C; lra]|].
        split; [rewrite Q2, V; cbn [widths]; destruct (Rgt_dec th 0); [|lra]; simpl; ring|].
        split; [cbn [map]; f_equal; exact Q3|]. split; [cbn [map]; f_equal; exact Q4|].
        split; [destruct ths; [congruence|exact Q5]|simpl in Q6 |- *; lia].
      * split; [apply search_cons; [exact NE|]; split; [lra|]; split; [exact U1|]; split; [intros C; lra|intros _; exact Q1]|].
        split; [rewrite Q2, V; cbn [widths]; destruct (Rgt_dec th 0); [lra|]; simpl; ring|].
        split; [cbn [map]; f_equal; exact Q3|]. split; [cbn [map]; f_equal; exact Q4|].
        split; [destruct ths; [congruence|exact Q5]|simpl in Q6 |- *; lia].
Qed.

Lemma search_draw : forall ths fuel k s l u h w0,
  gen _ _ s = Dealer (map Real ths) w0 -> (length ths <= fuel)%nat ->
  search (fun th => h < log_lik (point (x _ _ s) (y _ _ s) th)) l u ths ->
  exists tr s',
  sdraw fuel k s l u h =
    (tr, s', Some (point (x _ _ s) (y _ _ s) (last ths 0), log_lik (point (x _ _ s) (y _ _ s) (last ths 0)),
                   (k + length ths)%nat)) /\
  gen _ _ s' = Dealer [] (w0 * angles_density (widths l u ths)).
Proof.
  induction ths as [|th ths IH]; intros fuel k s l u h w0 G F S; [destruct S|].
  destruct fuel; [simpl in F; lia|]. simpl sdraw. unfold draw_proposal. rewrite G. cbn [map]. rewrite !deal_one.
  cbn [log_lik_x_proposed theta x_proposed].
  fold (point (x _ _ s) (y _ _ s) th).
  set (s1 := Ess D _ (x _ _ s) (log_lik_x _ _ s) (y _ _ s) th (point (x _ _ s) (y _ _ s) th) (log_lik (point (x _ _ s) (y _ _ s) th))
               (Dealer (map Real ths) (w0 * uniform_density l u th))).
  destruct ths as [|th' ths].
  - destruct S as [A B]. destruct (Rgt_dec _ _) as [_|C]; [|contradiction].
    do 2 eexists. split; [reflexivity|]. unfold s1. cbn [gen map]. f_equal. rewrite uniform_in by exact B.
    cbn. destruct (Rgt_dec th 0); simpl; ring.
  - apply search_cons in S; [|discriminate]. destruct S as (N & B & P1 & Q).
    destruct (Rgt_dec _ _) as [C|_]; [contradiction|].
    assert (EK : (k + 1 + length (th' :: ths) = k + length (th :: th' :: ths))%nat) by (simpl; lia).
    destruct (Rgt_dec th 0) as [T|T].
    + destruct (IH fuel (k + 1)%nat s1 l th h _ eq_refl ltac:(simpl in F |- *; lia) (P1 T)) as (tr & s' & E & L1).
      rewrite E. do 2 eexists. split; [rewrite <- EK; reflexivity|]. rewrite L1. f_equal. rewrite uniform_in by exact B.
      change (widths l u (th :: th' :: ths)) with ((u - l) :: (if Rgt_dec th 0 then widths l th (th' :: ths) else widths th u (th' :: ths))).
      destruct (Rgt_dec th 0); [|lra]. cbn [angles_density]. ring.
    + destruct (IH fuel (k + 1)%nat s1 th u h _ eq_refl ltac:(simpl in F |- *; lia) (Q T)) as (tr & s' & E & L1).
      rewrite E. do 2 eexists. split; [rewrite <- EK; reflexivity|]. rewrite L1. f_equal. rewrite uniform_in by exact B.
      change (widths l u (th :: th' :: ths)) with ((u - l) :: (if Rgt_dec th 0 then widths l th (th' :: ths) else widths th u (th' :: ths))).
      destruct (Rgt_dec th 0); [lra|]. cbn [angles_density]. ring.
Qed.

(** A whole pass on dealt numbers. *)
Notation atts p := (tr_attempts D (dealer D) p).

Definition first_weight (n : numbers D) : R :=
  1 * exponential_density (n_exp n) * prior idx P (n_prior n) * uniform_density 0 (2 * PI) (n_bracket n).

Lemma pass_draw (x0 : tensor D) (n : numbers D) :
  exists s, x _ _ s = x0 /\ y _ _ s = n_prior n /\ gen _ _ s = Dealer (map Real (n_angles n)) (first_weight n) /\
  let d := sdraw 100 1 s (n_bracket n - 2 * PI) (n_bracket n) (log_lik x0 - n_exp n) in
  let p := pass idx P log_lik x0 n in
  tr_u _ _ p = log_lik x0 - n_exp n /\
  atts p = fst (fst d) /\ tr_result _ _ p = snd d /\ gen _ _ (tr_after _ _ p) = gen _ _ (snd (fst d)) /\
  (forall x' ll k, snd d = Some (x', ll, k) -> x _ _ (tr_after _ _ p) = x').
Proof.
  unfold pass, sample_try, init, move, deal. cbn [gen flat_map app]. rewrite app_nil_r.
  unfold deal_exponential. cbn [rest weight].
  unfold establish_ellipse. cbn [gen]. rewrite !deal_tensor.
  unfold draw_bracket. cbn [gen]. rewrite !deal_one.
  unfold draw. change (100 + 1 - 1)%nat with 100%nat.
  cbn [x y theta x_proposed log_lik_x_proposed log_lik_x gen].
  match goal with |- context [sdraw 100 1 ?s0 _ _ _] => exists s0 end.
  cbn [x y gen]. split; [reflexivity|]. split; [reflexivity|]. split; [reflexivity|].
  cbv zeta. destruct (sdraw 100 _ _ _ _ _) as [[tr s'] [[[x1 ll] k]|]]; cbn [fst snd tr_u tr_attempts tr_result tr_after gen];
    (split; [reflexivity|split; [reflexivity|split; [reflexivity|split; [reflexivity|intros x' ll' k']]]]);
    [intros E; inversion E; reflexivity|discriminate].
Qed.

Lemma prior_pos z : 0 < prior idx P z.
Proof. apply exp_pos. Qed.

Lemma moves_search x0 n x' w : moves idx P log_lik x0 n x' w ->
  0 < n_exp n /\ 0 <= n_bracket n <= 2 * PI /\ (length (n_angles n) <= 100)%nat /\
  search (fun th => log_lik x0 - n_exp n < log_lik (point x0 (n_prior n) th))
    (n_bracket n - 2 * PI) (n_bracket n) (n_angles n) /\
  w = exp (- n_exp n) * prior idx P (n_prior n) * / (2 * PI) *
      angles_density (widths (n_bracket n - 2 * PI) (n_bracket n) (n_angles n)) /\
  map angle (atts (pass idx P log_lik x0 n)) = n_angles n /\
  map proposal (atts (pass idx P log_lik x0 n)) = map (point x0 (n_prior n)) (n_angles n) /\
  x' = point x0 (n_prior n) (last (n_angles n) 0).
Proof.
  intros (R0 & X0 & Re & We & Wp).
  destruct (pass_draw x0 n) as (s & X & Y & G & _ & A & Rs & Gn & T). cbv zeta in A, Rs, T, Gn.
  rewrite Gn in Re, We. rewrite Rs in R0. rewrite A.
  assert (W0 : 0 <= first_weight n).
  { unfold first_weight. pose proof (prior_pos (n_prior n)). pose proof (uniform_ge 0 (2 * PI) (n_bracket n)).
    apply Rmult_le_pos; [|assumption]. apply Rmult_le_pos; [|lra]. rewrite Rmult_1_l.
    unfold exponential_density. destruct (Rlt_dec _ _); [left; apply exp_pos|lra]. }
  destruct (sdraw 100 _ _ _ _ _) as [[tr s'] [[[x1 ll] k]|]] eqn:E; cbn [fst snd] in *; [|congruence].
  rewrite (T _ _ _ eq_refl) in X0. subst x1. rewrite <- We in Wp.
  destruct (draw_search _ _ _ _ _ _ _ _ G W0 _ _ _ _ _ E Re Wp) as (S1 & S2 & S3 & S4 & S5 & S6).
  rewrite X, Y in *.
  assert (WF : first_weight n <> 0).
  { intros Z. rewrite S2, Z in Wp. lra. }
  unfold first_weight in WF, S2.
  assert (B : 0 <= n_bracket n <= 2 * PI /\ uniform_density 0 (2 * PI) (n_bracket n) = / (2 * PI - 0)).
  { apply uniform_pos. destruct (uniform_ge 0 (2 * PI) (n_bracket n)) as [U|U]; [exact U|].
    exfalso. apply WF. rewrite <- U. ring. }
  destruct B as [B1 B2].
  assert (E1 : 0 < n_exp n /\ exponential_density (n_exp n) = exp (- n_exp n)).
  { unfold exponential_density in WF |- *. destruct (Rlt_dec 0 (n_exp n)); [split; [assumption|reflexivity]|].
    exfalso. apply WF. ring. }
  destruct E1 as [E1 E2]. rewrite E2, B2 in S2.
  split; [exact E1|]. split; [exact B1|]. split; [exact S6|]. split; [exact S1|].
  split; [rewrite <- We, S2; replace (2 * PI - 0) with (2 * PI) by ring; ring|].
  split; [exact S3|]. split; [exact S4|exact S5].
Qed.

Lemma search_moves x0 n w :
  0 < n_exp n -> 0 <= n_bracket n <= 2 * PI -> (length (n_angles n) <= 100)%nat ->
  search (fun th => log_lik x0 - n_exp n < log_lik (point x0 (n_prior n) th))
    (n_bracket n - 2 * PI) (n_bracket n) (n_angles n) ->
  w = exp (- n_exp n) * prior idx P (n_prior n) * / (2 * PI) *
      angles_density (widths (n_bracket n - 2 * PI) (n_bracket n) (n_angles n)) -> 0 < w ->
  moves idx P log_lik x0 n (point x0 (n_prior n) (last (n_angles n) 0)) w.
Proof.
  intros E0 B0 F S W Wp. unfold moves. cbv zeta.
  destruct (pass_draw x0 n) as (s & X & Y & G & _ & A & Rs & Gn & T). cbv zeta in A, Rs, T, Gn.
  rewrite Gn, Rs. subst x0. rewrite <- Y in S.
  destruct (search_draw _ 100 1 _ _ _ _ _ G F S) as (tr & s' & E & L1).
  rewrite E in T |- *. cbn [fst snd] in *. rewrite L1. cbn [rest weight].
  split; [discriminate|]. split; [rewrite (T _ _ _ eq_refl), Y; reflexivity|].
  split; [reflexivity|]. split; [|exact Wp]. rewrite W. unfold first_weight.
  rewrite uniform_in by exact B0. unfold exponential_density. destruct (Rlt_dec 0 (n_exp n)); [|lra].
  replace (2 * PI - 0) with (2 * PI) by ring. ring.
Qed.

Lemma sum_plus (is : list D) f g : sum is (fun d => f d + g d) = sum is f + sum is g.
Proof. induction is as [|i is IH]; simpl; [ring|rewrite IH; ring]. Qed.
Lemma sum_ext (is : list D) f g : (forall d, f d = g d) -> sum is f = sum is g.
Proof. intros E. induction is as [|i is IH]; simpl; [ring|rewrite IH, E; ring]. Qed.

(** The prior does not change when the pair turns. *)
Lemma prior_rotate (x0 y0 : tensor D) th :
  prior idx P (fun d => cos th * x0 d + sin th * y0 d) * prior idx P (fun d => cos th * y0 d - sin th * x0 d) =
  prior idx P x0 * prior idx P y0.
Proof.
  unfold prior. rewrite <- !exp_plus. f_equal. rewrite <- !Rmult_plus_distr_l. f_equal.
  rewrite <- !sum_plus. apply sum_ext; intros i. rewrite <- !sum_plus. apply sum_ext; intros j.
  generalize (sin2_cos2 th). unfold Rsqr. intros H.
  replace (x0 i * P i j * x0 j + y0 i * P i j * y0 j)
    with ((sin th * sin th + cos th * cos th) * (x0 i * P i j * x0 j + y0 i * P i j * y0 j)) by (rewrite H; ring).
  ring.
Qed.

Lemma last_app_one (A : Type) (l : list A) a d : last (l ++ [a]) d = a.
Proof. apply last_last. Qed.

Lemma removelast_app_one (A : Type) (l : list A) a : removelast (l ++ [a]) = l.
Proof. apply removelast_last. Qed.

Lemma point_back x0 y0 th : point (point x0 y0 th) (fun d => cos th * y0 d - sin th * x0 d) (- th) = x0.
Proof.
  apply functional_extensionality; intros d. unfold point. rewrite cos_neg, sin_neg.
  generalize (sin2_cos2 th). unfold Rsqr. intros H.
  transitivity ((sin th * sin th + cos th * cos th) * x0 d); [ring|rewrite H; ring].
Qed.

Lemma point_shift x0 y0 th a :
  point (point x0 y0 th) (fun d => cos th * y0 d - sin th * x0 d) (a - th) = point x0 y0 a.
Proof.
  apply functional_extensionality; intros d. unfold point. rewrite cos_minus, sin_minus.
  generalize (sin2_cos2 th). unfold Rsqr. intros H.
  transitivity ((sin th * sin th + cos th * cos th) * (cos a * x0 d + sin a * y0 d)); [ring|rewrite H; ring].
Qed.

Lemma reverse_reverse x0 n : n_angles n <> [] -> reverse log_lik (reached x0 n) (reverse log_lik x0 n) = n.
Proof.
  intros NE. unfold reverse at 1. cbn [n_angles reverse]. rewrite last_app_one, removelast_app_one.
  assert (B : reached (reached x0 n) (reverse log_lik x0 n) = x0).
  { unfold reached at 1. cbn [n_angles n_prior reverse]. rewrite last_app_one. apply point_back. }
  rewrite B. cbn [n_exp n_prior n_bracket reverse]. destruct n as [e y0 b ths]. cbn [n_exp n_prior n_bracket n_angles] in *.
  set (th := last ths 0). f_equal.
  - ring.
  - apply functional_extensionality; intros d. unfold reached. cbn [n_angles n_prior]. fold th.
    rewrite cos_neg, sin_neg. generalize (sin2_cos2 th). unfold Rsqr. intros H.
    transitivity ((sin th * sin th + cos th * cos th) * y0 d); [ring|rewrite H; ring].
  - ring.
  - rewrite map_map. rewrite (map_ext _ (fun a => a)) by (intros; ring). rewrite map_id, Ropp_involutive.
    symmetry. apply app_removelast_last. exact NE.
Qed.

Lemma removelast_map (A B : Type) (f : A -> B) l : removelast (map f l) = map f (removelast l).
Proof. induction l as [|a [|b l] IH]; [reflexivity|reflexivity|]. cbn [map] in *. rewrite !removelast_cons. cbn [map]. f_equal. exact IH. Qed.

Theorem reversible x0 n x' w : moves idx P log_lik x0 n x' w ->
  let n' := reverse log_lik x0 n in
  let p := pass idx P log_lik x0 n in
  let p' := pass idx P log_lik x' n' in
  exists w', moves idx P log_lik x' n' x0 w' /\
  posterior idx P log_lik x0 * w = posterior idx P log_lik x' * w' /\
  reverse log_lik x' n' = n /\ length (n_angles n') = length (n_angles n) /\
  tr_u _ _ p' = tr_u _ _ p /\
  map proposal (removelast (atts p')) = map proposal (removelast (atts p)).
Proof.
  intros M. pose proof M as (_ & _ & _ & _ & Wp). apply moves_search in M.
  destruct M as (E0 & B0 & F & S & W & A & Pr & X'). cbv zeta.
  set (th := last (n_angles n) 0) in *.
  assert (XR : x' = reached x0 n) by exact X'.
  pose proof (search_nonempty _ _ _ _ S) as NE.
  pose proof (search_last _ _ _ _ S) as [HL BL]. cbv beta in HL. fold th in HL, BL. rewrite <- X' in HL.
  set (n' := reverse log_lik x0 n).
  assert (AN : n_angles n' = map (fun a => a - th) (removelast (n_angles n)) ++ [- th]) by reflexivity.
  assert (EN : log_lik x' - n_exp n' = log_lik x0 - n_exp n).
  { unfold n', reverse. cbn [n_exp]. rewrite <- XR. ring. }
  assert (PN : forall a, point x' (n_prior n') (a - th) = point x0 (n_prior n) a).
  { intros a. rewrite X'. apply point_shift. }
  assert (PB : point x' (n_prior n') (- th) = x0) by (rewrite X'; apply point_back).
  assert (LN : length (n_angles n') = length (n_angles n)).
  { rewrite AN, app_length, map_length. simpl.
    rewrite (app_removelast_last 0 NE) at 2. rewrite app_length. simpl. lia. }
  assert (NP : 0 < n_exp n') by lra.
  assert (BN : n_bracket n' = n_bracket n - th) by reflexivity.
  pose proof PI_RGT_0 as PI0.
  set (hit' := fun a => log_lik x' - n_exp n' < log_lik (point x' (n_prior n') a)).
  assert (H1 : forall a, hit' (a - th) <-> log_lik x0 - n_exp n < log_lik (point x0 (n_prior n) a)).
  { intros a. unfold hit'. rewrite EN, PN. reflexivity. }
  assert (H2 : hit' (- th)) by (unfold hit'; rewrite EN, PB; lra).
  assert (LU : n_bracket n - 2 * PI <= 0 <= n_bracket n) by lra.
  destruct (search_reverse _ hit' th H1 H2 _ _ _ LU S eq_refl) as [S' W'].
  cbv zeta in S', W'. fold th in S', W'. rewrite <- AN in S', W'.
  replace (n_bracket n - 2 * PI - th) with (n_bracket n' - 2 * PI) in S', W' by (rewrite BN; ring).
  rewrite <- BN in S', W'.
  set (w' := exp (- n_exp n') * prior idx P (n_prior n') * / (2 * PI) *
      angles_density (widths (n_bracket n' - 2 * PI) (n_bracket n') (n_angles n'))).
  assert (Q : posterior idx P log_lik x0 * w = posterior idx P log_lik x' * w').
  { unfold w'. rewrite W, W'. unfold posterior. set (v := angles_density _).
    transitivity (exp (log_lik x0 - n_exp n) * (prior idx P x0 * prior idx P (n_prior n)) * / (2 * PI) * v).
    { unfold Rminus. rewrite exp_plus. ring. }
    rewrite <- EN, <- (prior_rotate x0 (n_prior n) th). unfold Rminus at 1. rewrite exp_plus.
    rewrite XR. unfold reached, n', reverse. cbn [n_prior]. fold th. ring. }
  assert (Wp' : 0 < w').
  { apply (Rmult_lt_reg_l (posterior idx P log_lik x')); [apply Rmult_lt_0_compat; apply exp_pos|].
    rewrite Rmult_0_r, <- Q. apply Rmult_lt_0_compat; [apply Rmult_lt_0_compat; apply exp_pos|exact Wp]. }
  pose proof (search_moves x' n' w' NP ltac:(rewrite BN; lra) ltac:(lia) S' eq_refl Wp') as M'.
  replace (last (n_angles n') 0) with (- th) in M' by (rewrite AN, last_app_one; reflexivity).
  rewrite PB in M'.
  exists w'. split; [exact M'|]. split; [exact Q|].
  split; [rewrite XR; apply reverse_reverse; exact NE|]. split; [exact LN|].
  pose proof (moves_search _ _ _ _ M') as (_ & _ & _ & _ & _ & _ & Pr' & _).
  split.
  { destruct (pass_draw x0 n) as (? & _ & _ & _ & U & _). destruct (pass_draw x' n') as (? & _ & _ & _ & U' & _).
    rewrite U, U'. exact EN. }
  rewrite <- !removelast_map, Pr, Pr', AN, map_app. cbn [map]. rewrite removelast_app_one, map_map, removelast_map.
  apply map_ext. intros a. apply PN.
Qed.
End Reverse.
