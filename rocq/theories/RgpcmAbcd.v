(** The a-b-c-d integral. *)
From Coq Require Import Reals ZArith List Bool Lia Lra Psatz.
From Coquelicot Require Import Coquelicot.
From Verif Require Import Py ListFacts ExpPolyIntModel ExpPolyIntProofs GpcmInit Glue RgpcmModel RgpcmSpec.
Import ListNotations.
Local Open Scope R_scope.

Section Abcd.
Context (c d : R).
Hypothesis (Nc : c <> 0) (Np : c + d <> 0) (Nm : c - d <> 0).

Ltac fe := unfold Rminus; field; repeat split; first [exact Nc | exact Np | exact Nm].

Definition kxy (x y : R) : R := exp (c * (x + y) - d * Rabs (x - y)).
Definition lowk (x y : R) : R := exp (c * (x + y) - d * (x - y)).   (* y <= x *)
Definition upk (x y : R) : R := exp (c * (x + y) - d * (y - x)).    (* y >= x *)
Definition Kx (x : R) : R := exp (2 * c * x) * (/ (c + d) - / (c - d)).
Definition anti (x y : R) : R := glue x (fun y => lowk x y / (c + d)) (fun y => upk x y / (c - d) + Kx x) y.

Lemma kxy_glue x y : kxy x y = glue x (lowk x) (upk x) y.
Proof.
  unfold kxy, lowk, upk, glue. destruct (Rle_dec y x).
  - rewrite Rabs_right by lra. auto.
  - rewrite Rabs_left by lra. f_equal. ring.
Qed.

Lemma lowk_x x : lowk x x = exp (2 * c * x). Proof. unfold lowk. f_equal. ring. Qed.
Lemma upk_x x : upk x x = exp (2 * c * x). Proof. unfold upk. f_equal. ring. Qed.

Lemma kxy_cont x (y : R) : continuous (kxy x) y.
Proof.
  apply (continuous_ext (glue x (lowk x) (upk x))); [intros; now rewrite kxy_glue|].
  apply glue_continuous.
  - intros z. apply (ex_derive_continuous (lowk x) z). unfold lowk. now auto_derive.
  - intros z. apply (ex_derive_continuous (upk x) z). unfold upk. now auto_derive.
  - now rewrite lowk_x, upk_x.
Qed.

Lemma anti_derive x y : is_derive (anti x) y (kxy x y).
Proof.
  rewrite kxy_glue. apply glue_derive.
  - intros z. unfold lowk. auto_derive; [auto|]. fe.
  - intros z. unfold upk. auto_derive; [auto|]. fe.
  - rewrite lowk_x, upk_x. unfold Kx. field. split; auto.
  - now rewrite lowk_x, upk_x.
Qed.

Lemma inner_integral x b : is_RInt (kxy x) 0 b (anti x b - anti x 0).
Proof. apply is_RInt_ftc; [apply anti_derive|apply kxy_cont]. Qed.

(** The closed form. *)
Definition abcd (a b : R) : R :=
  ((if Rle_dec 0 (a * b) then 1 else 0) * (sign a * d / c * (1 - exp (2 * c * sign a * Rmin (Rabs a) (Rabs b))))
   + (1 - exp (c * a - d * Rabs a) - exp (c * b - d * Rabs b) + exp (c * (a + b) - d * Rabs (a - b)))) / (c ^ 2 - d ^ 2).

Lemma Ncd : c ^ 2 - d ^ 2 <> 0.
Proof. replace (c ^ 2 - d ^ 2) with ((c + d) * (c - d)) by ring. now apply Rmult_integral_contrapositive_currified. Qed.

Lemma integral_abcd_eq a b : integral_abcd a b c d = Ok (abcd a b).
Proof.
  unfold integral_abcd. rewrite rdiv_ok by auto. cbn [bind]. rewrite rdiv_ok by apply Ncd. reflexivity.
Qed.

Lemma abcd_0 b : abcd 0 b = 0.
Proof.
  unfold abcd. assert (sign 0 = 0) as -> by (unfold sign; destruct (Rlt_dec 0 0); lra).
  rewrite Rabs_R0, Rplus_0_l, Rminus_0_l, Rabs_Ropp. replace (c * 0 - d * 0) with 0 by ring. rewrite exp_0.
  unfold Rdiv. rewrite !Rmult_0_l, Rmult_0_r. ring.
Qed.

Lemma sign_pos x : 0 < x -> sign x = 1.
Proof. intros. unfold sign. destruct (Rlt_dec 0 x); lra. Qed.
Lemma sign_neg x : x < 0 -> sign x = -1.
Proof. intros. unfold sign. destruct (Rlt_dec 0 x); [lra|]. destruct (Rlt_dec x 0); lra. Qed.

(** Exchange of the axes. *)
Lemma abcd_sym a b : abcd a b = abcd b a.
Proof.
  unfold abcd. f_equal. rewrite (Rmult_comm b a), (Rplus_comm b a), (Rabs_minus_sym b a), (Rmin_comm (Rabs b)).
  destruct (Rle_dec 0 (a * b)) as [P|P]; [|ring].
  assert (H : sign a * d / c * (1 - exp (2 * c * sign a * Rmin (Rabs a) (Rabs b)))
            = sign b * d / c * (1 - exp (2 * c * sign b * Rmin (Rabs a) (Rabs b)))).
  { destruct (Req_dec a 0) as [->|Na].
    { rewrite Rabs_R0, Rmin_left by apply Rabs_pos. rewrite !Rmult_0_r, exp_0. ring. }
    destruct (Req_dec b 0) as [->|Nb].
    { rewrite Rabs_R0, Rmin_right by apply Rabs_pos. rewrite !Rmult_0_r, exp_0. ring. }
    replace (sign b) with (sign a); auto.
    destruct (Rlt_le_dec 0 a), (Rlt_le_dec 0 b).
    - rewrite !sign_pos; auto.
    - nra.
    - nra.
    - rewrite !sign_neg; auto; lra. }
  rewrite H. ring.
Qed.

(** The pieces of the closed form and of its derivative, for [0 <= b]. *)
Ltac abs_case := repeat match goal with
  | |- context [Rabs ?x] => first [rewrite (Rabs_right x) by lra | rewrite (Rabs_left x) by lra | rewrite (Rabs_left1 x) by lra]
  end.

Definition P1 b x := (1 - exp (c * x + d * x) - exp (c * b - d * Rabs b) + exp (c * (x + b) - d * (b - x))) / (c ^ 2 - d ^ 2).
Definition Q1 b x := (exp (c * (x + b) - d * (b - x)) - exp (c * x + d * x)) / (c - d).
Definition P2 b x := (d / c * (1 - exp (2 * c * x)) + (1 - exp (c * x - d * x) - exp (c * b - d * Rabs b) + exp (c * (x + b) - d * (b - x)))) / (c ^ 2 - d ^ 2).
Definition Q2 b x := exp (c * (x + b) - d * (b - x)) / (c - d) + Kx x - exp (c * x - d * x) / (c + d).
Definition P3 b x := (d / c * (1 - exp (2 * c * b)) + (1 - exp (c * x - d * x) - exp (c * b - d * Rabs b) + exp (c * (x + b) - d * (x - b)))) / (c ^ 2 - d ^ 2).
Definition Q3 b x := (exp (c * (x + b) - d * (x - b)) - exp (c * x - d * x)) / (c + d).

(** For [b <= 0]. *)
Definition P4 b x := (- d / c * (1 - exp (-2 * c * - b)) + (1 - exp (c * x + d * x) - exp (c * b - d * Rabs b) + exp (c * (x + b) - d * (b - x)))) / (c ^ 2 - d ^ 2).
Definition P5 b x := (- d / c * (1 - exp (-2 * c * - x)) + (1 - exp (c * x + d * x) - exp (c * b - d * Rabs b) + exp (c * (x + b) - d * (x - b)))) / (c ^ 2 - d ^ 2).
Definition Q5 b x := exp (c * (x + b) - d * (x - b)) / (c + d) - exp (c * x + d * x) / (c - d) - Kx x.
Definition P6 b x := (1 - exp (c * x - d * x) - exp (c * b - d * Rabs b) + exp (c * (x + b) - d * (x - b))) / (c ^ 2 - d ^ 2).

Lemma half : c ^ 2 - d ^ 2 = (c + d) * (c - d). Proof. ring. Qed.

Ltac piece := unfold P1, P2, P3, P4, P5, P6, Q1, Q2, Q3, Q5, Kx; rewrite ?half; auto_derive; [auto|];
  rewrite ?half; fe.

Lemma P1_derive b x : is_derive (P1 b) x (Q1 b x). Proof. piece. Qed.
Lemma P3_derive b x : is_derive (P3 b) x (Q3 b x). Proof. piece. Qed.
Lemma P4_derive b x : is_derive (P4 b) x (Q1 b x). Proof. piece. Qed.
Lemma P6_derive b x : is_derive (P6 b) x (Q3 b x). Proof. piece. Qed.
Lemma P2_derive b x : is_derive (P2 b) x (Q2 b x). Proof. piece. Qed.
Lemma P5_derive b x : is_derive (P5 b) x (Q5 b x).
Proof.
  unfold P5, Q5, Kx. rewrite half. auto_derive; [auto|].
  replace (-2 * c * - x) with (2 * c * x) by ring. fe.
Qed.

Lemma exp_same a b : a = b -> exp a = exp b. Proof. now intros ->. Qed.

Lemma Rmin_0 a b : (a = 0 \/ b = 0) -> Rmin (Rabs a) (Rabs b) = 0.
Proof.
  intros [->| ->]; rewrite Rabs_R0; [apply Rmin_left|apply Rmin_right]; apply Rabs_pos.
Qed.

(** Evaluate one case: [condition], [sign], absolute values. *)
Ltac cond_true := match goal with |- context [Rle_dec 0 ?p] => destruct (Rle_dec 0 p); [|exfalso; nra] end.
Ltac cond_false := match goal with |- context [Rle_dec 0 ?p] => destruct (Rle_dec 0 p); [exfalso; nra|] end.

Lemma abcd_pos b x : 0 <= b -> abcd x b = glue 0 (P1 b) (glue b (P2 b) (P3 b)) x.
Proof.
  intros Hb. destruct (Rlt_le_dec x 0) as [L|L].
  - rewrite glue_l by lra. unfold abcd, P1. rewrite (Rabs_left x), (Rabs_left (x - b)) by lra.
    replace (c * x - d * - x) with (c * x + d * x) by ring. replace (- (x - b)) with (b - x) by ring.
    destruct Hb as [Hb|<-].
    + cond_false. rewrite Rmult_0_l, Rplus_0_l. reflexivity.
    + rewrite Rabs_R0, (Rmin_right (- x) 0) by lra.
      replace (2 * c * sign x * 0) with 0 by ring. rewrite exp_0. f_equal. ring.
  - destruct L as [L|<-].
    2:{ rewrite glue_l by lra. rewrite abcd_0. unfold P1.
        replace (c * 0 + d * 0) with 0 by ring. rewrite exp_0, (Rabs_right b) by lra.
        replace (c * (0 + b) - d * (b - 0)) with (c * b - d * b) by ring. field. apply Ncd. }
    rewrite (glue_r 0) by auto. destruct (Rle_lt_dec x b) as [M|M].
    + rewrite glue_l by lra. unfold abcd, P2. rewrite (sign_pos x), (Rabs_right x), (Rabs_left1 (x - b)) by lra.
      cond_true. rewrite (Rabs_right b) by lra. rewrite Rmin_left by lra. replace (- (x - b)) with (b - x) by ring.
      rewrite !Rmult_1_r, !Rmult_1_l. reflexivity.
    + rewrite (glue_r b) by auto. unfold abcd, P3. rewrite (sign_pos x), (Rabs_right x), (Rabs_right (x - b)) by lra.
      cond_true. rewrite (Rabs_right b) by lra. rewrite Rmin_right by lra.
      rewrite !Rmult_1_r, !Rmult_1_l. reflexivity.
Qed.

Lemma abcd_neg b x : b < 0 -> abcd x b = glue b (P4 b) (glue 0 (P5 b) (P6 b)) x.
Proof.
  intros Hb. destruct (Rle_lt_dec x b) as [L|L].
  - rewrite glue_l by lra. unfold abcd, P4. rewrite (sign_neg x), (Rabs_left x), (Rabs_left1 (x - b)), (Rabs_left b) by lra.
    cond_true. rewrite Rmin_right by lra.
    replace (c * x - d * - x) with (c * x + d * x) by ring. replace (- (x - b)) with (b - x) by ring.
    replace (2 * c * -1 * - b) with (-2 * c * - b) by ring. f_equal. f_equal. rewrite Rmult_1_l. f_equal. field. auto.
  - rewrite (glue_r b) by auto. destruct (Rle_lt_dec x 0) as [M|M].
    + rewrite glue_l by lra. destruct M as [M| ->].
      * unfold abcd, P5. rewrite (sign_neg x), (Rabs_left x), (Rabs_right (x - b)), (Rabs_left b) by lra.
        cond_true. rewrite Rmin_left by lra.
        replace (c * x - d * - x) with (c * x + d * x) by ring.
        replace (2 * c * -1 * - x) with (-2 * c * - x) by ring. f_equal. f_equal. rewrite Rmult_1_l. f_equal. field. auto.
      * rewrite abcd_0. unfold P5. replace (-2 * c * - 0) with 0 by ring. replace (c * 0 + d * 0) with 0 by ring.
        rewrite exp_0, (Rabs_left b) by lra. replace (c * (0 + b) - d * (0 - b)) with (c * b - d * - b) by ring. field.
        split; auto using Ncd.
    + rewrite (glue_r 0) by auto. unfold abcd, P6. rewrite (Rabs_right x), (Rabs_right (x - b)) by lra.
      cond_false. rewrite Rmult_0_l, Rplus_0_l. reflexivity.
Qed.

Lemma g_pos b x : 0 <= b -> anti x b - anti x 0 = glue 0 (Q1 b) (glue b (Q2 b) (Q3 b)) x.
Proof.
  intros Hb. unfold anti. destruct (Rle_lt_dec x 0) as [L|L].
  - rewrite (glue_l 0) by lra. unfold Q1.
    rewrite (glue_r x _ _ b), (glue_r x _ _ 0).
    + unfold upk. replace (c * (x + 0) - d * (0 - x)) with (c * x + d * x) by ring. field. auto.
    + right. split; [lra|]. rewrite lowk_x, upk_x. unfold Kx. field. auto.
    + right. split; [lra|]. rewrite lowk_x, upk_x. unfold Kx. field. auto.
  - rewrite (glue_r 0) by auto. rewrite (glue_l x _ _ 0) by lra.
    replace (lowk x 0) with (exp (c * x - d * x)) by (unfold lowk; apply exp_same; ring).
    destruct (Rle_lt_dec x b) as [M|M].
    + rewrite (glue_l b) by lra. unfold Q2. rewrite (glue_r x _ _ b).
      * unfold upk. reflexivity.
      * right. split; [lra|]. rewrite lowk_x, upk_x. unfold Kx. field. auto.
    + rewrite (glue_r b) by auto. unfold Q3. rewrite (glue_l x) by lra. unfold lowk. field. auto.
Qed.

Lemma g_neg b x : b < 0 -> anti x b - anti x 0 = glue b (Q1 b) (glue 0 (Q5 b) (Q3 b)) x.
Proof.
  intros Hb. unfold anti. destruct (Rle_lt_dec x b) as [L|L].
  - rewrite (glue_l b) by lra. unfold Q1.
    rewrite (glue_r x _ _ b), (glue_r x _ _ 0).
    + unfold upk. replace (c * (x + 0) - d * (0 - x)) with (c * x + d * x) by ring. field. auto.
    + auto. left. lra.
    + right. split; [lra|]. rewrite lowk_x, upk_x. unfold Kx. field. auto.
  - rewrite (glue_r b _ _ x) by auto. rewrite (glue_l x _ _ b) by lra.
    destruct (Rle_lt_dec x 0) as [M|M].
    + rewrite (glue_l 0) by lra. unfold Q5. rewrite (glue_r x _ _ 0).
      * unfold lowk, upk. replace (c * (x + 0) - d * (0 - x)) with (c * x + d * x) by ring. ring.
      * right. split; [lra|]. rewrite lowk_x, upk_x. unfold Kx. field. auto.
    + rewrite (glue_r 0 _ _ x) by auto. unfold Q3. rewrite (glue_l x _ _ 0) by lra. unfold lowk.
      replace (c * (x + 0) - d * (x - 0)) with (c * x - d * x) by ring. field. auto.
Qed.

Lemma Q1_cont (b x : R) : continuous (Q1 b) x.
Proof. apply (ex_derive_continuous (Q1 b) x). unfold Q1. auto_derive; auto. Qed.
Lemma Q2_cont (b x : R) : continuous (Q2 b) x.
Proof. apply (ex_derive_continuous (Q2 b) x). unfold Q2, Kx. auto_derive; auto. Qed.
Lemma Q3_cont (b x : R) : continuous (Q3 b) x.
Proof. apply (ex_derive_continuous (Q3 b) x). unfold Q3. auto_derive; auto. Qed.
Lemma Q5_cont (b x : R) : continuous (Q5 b) x.
Proof. apply (ex_derive_continuous (Q5 b) x). unfold Q5, Kx. auto_derive; auto. Qed.

Ltac joint := unfold P1, P2, P3, P4, P5, P6, Q1, Q2, Q3, Q5, Kx.

Lemma abcd_spec a b : is_rect_integral kxy 0 a 0 b (abcd a b).
Proof.
  exists (fun x => anti x b - anti x 0). split; [intros; apply inner_integral|].
  replace (abcd a b) with (abcd a b - abcd 0 b) by (rewrite abcd_0; ring).
  destruct (Rle_lt_dec 0 b) as [Hb|Hb].
  - assert (J0 : P1 b 0 = P2 b 0).
    { joint. replace (2 * c * 0) with 0 by ring. replace (c * 0 + d * 0) with 0 by ring. replace (c * 0 - d * 0) with 0 by ring.
      rewrite exp_0. field. split; auto using Ncd. }
    assert (J0' : Q1 b 0 = Q2 b 0).
    { joint. replace (2 * c * 0) with 0 by ring. replace (c * 0 + d * 0) with 0 by ring. replace (c * 0 - d * 0) with 0 by ring.
      rewrite exp_0. field. auto. }
    assert (J1 : P2 b b = P3 b b).
    { joint. replace (c * (b + b) - d * (b - b)) with (2 * c * b) by ring. reflexivity. }
    assert (J1' : Q2 b b = Q3 b b).
    { joint. replace (c * (b + b) - d * (b - b)) with (2 * c * b) by ring. field. auto. }
    assert (G0 : forall f g : R -> R, glue b f g 0 = f 0) by (intros; apply glue_l; auto).
    apply (is_RInt_ftc (fun x => abcd x b) (fun x => anti x b - anti x 0)).
    + intros x. rewrite g_pos by auto.
      apply (is_derive_ext (glue 0 (P1 b) (glue b (P2 b) (P3 b)))); [intros; symmetry; now apply abcd_pos|].
      apply (glue_derive 0 (P1 b) (glue b (P2 b) (P3 b)) (Q1 b) (glue b (Q2 b) (Q3 b))).
      * apply P1_derive.
      * apply glue_derive; auto using P2_derive, P3_derive.
      * now rewrite G0.
      * now rewrite G0.
    + intros x. apply (continuous_ext (glue 0 (Q1 b) (glue b (Q2 b) (Q3 b)))); [intros; symmetry; now apply g_pos|].
      apply glue_continuous; [apply Q1_cont| |now rewrite G0]. apply glue_continuous; [apply Q2_cont|apply Q3_cont|auto].
  - assert (J0 : P5 b 0 = P6 b 0).
    { joint. replace (-2 * c * - 0) with 0 by ring. replace (c * 0 + d * 0) with 0 by ring. replace (c * 0 - d * 0) with 0 by ring.
      rewrite exp_0. field. split; auto using Ncd. }
    assert (J0' : Q5 b 0 = Q3 b 0).
    { joint. replace (2 * c * 0) with 0 by ring. replace (c * 0 + d * 0) with 0 by ring. replace (c * 0 - d * 0) with 0 by ring.
      rewrite exp_0. field. auto. }
    assert (J1 : P4 b b = P5 b b) by reflexivity.
    assert (J1' : Q1 b b = Q5 b b).
    { joint. replace (c * (b + b) - d * (b - b)) with (2 * c * b) by ring. field. auto. }
    assert (G0 : forall f g : R -> R, glue 0 f g b = f b) by (intros; apply glue_l; lra).
    apply (is_RInt_ftc (fun x => abcd x b) (fun x => anti x b - anti x 0)).
    + intros x. rewrite g_neg by auto.
      apply (is_derive_ext (glue b (P4 b) (glue 0 (P5 b) (P6 b)))); [intros; symmetry; now apply abcd_neg|].
      apply (glue_derive b (P4 b) (glue 0 (P5 b) (P6 b)) (Q1 b) (glue 0 (Q5 b) (Q3 b))).
      * apply P4_derive.
      * apply glue_derive; auto using P5_derive, P6_derive.
      * now rewrite G0.
      * now rewrite G0.
    + intros x. apply (continuous_ext (glue b (Q1 b) (glue 0 (Q5 b) (Q3 b)))); [intros; symmetry; now apply g_neg|].
      apply glue_continuous; [apply Q1_cont| |now rewrite G0]. apply glue_continuous; [apply Q5_cont|apply Q3_cont|auto].
Qed.

(** Arbitrary rectangles. *)
Lemma abcd_lu_spec a0 a1 b0 b1 :
  is_rect_integral kxy a0 a1 b0 b1 (abcd a1 b1 + abcd a0 b0 + - abcd a1 b0 + - abcd a0 b1).
Proof.
  assert (I : forall b a, is_RInt (fun x => anti x b - anti x 0) 0 a (abcd a b)).
  { intros b a. destruct (abcd_spec a b) as [g [Hg H]]. eapply is_RInt_ext; [|exact H]. intros x _.
    rewrite <- (is_RInt_unique _ _ _ _ (Hg x)), <- (is_RInt_unique _ _ _ _ (inner_integral x b)). reflexivity. }
  exists (fun x => anti x b1 - anti x b0). split.
  - intros x. apply is_RInt_ftc; [apply anti_derive|apply kxy_cont].
  - assert (J : forall b, is_RInt (fun x => anti x b - anti x 0) a0 a1 (abcd a1 b - abcd a0 b)).
    { intros b. replace (abcd a1 b - abcd a0 b) with (plus (opp (abcd a0 b)) (abcd a1 b)) by (unfold plus, opp; simpl; ring).
      apply (is_RInt_Chasles (fun x => anti x b - anti x 0) a0 0 a1); [apply (is_RInt_swap (fun x => anti x b - anti x 0)), I|apply I]. }
    replace (abcd a1 b1 + abcd a0 b0 + - abcd a1 b0 + - abcd a0 b1)
      with (minus (abcd a1 b1 - abcd a0 b1) (abcd a1 b0 - abcd a0 b0)) by (unfold minus, plus, opp; simpl; ring).
    eapply is_RInt_ext; [|apply (is_RInt_minus (fun x => anti x b1 - anti x 0) (fun x => anti x b0 - anti x 0) a0 a1 _ _ (J b1) (J b0))]. intros x _. unfold minus, plus, opp; simpl. ring.
Qed.

End Abcd.
