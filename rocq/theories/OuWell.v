(** What the inducing variables of the RGPCM leave unexplained. *)
From Coq Require Import Reals ZArith Lra Lia Psatz.
From Coquelicot Require Import Coquelicot.
From Verif Require Import Gauss Gauss2 GaussFeat GpcmEntries GpcmPsd RgpcmSpec RgpcmHz KernelForm RgpcmKernel OuFeat.
Local Open Scope R_scope.

(** ** Functions with finitely many jumps *)
Inductive PC : (R -> R) -> Prop :=
| PC_cont A : (forall x, continuous A x) -> PC A
| PC_cut A c : (forall x, continuous A x) -> PC (fun x => A x * ind x c)
| PC_plus f g : PC f -> PC g -> PC (fun x => f x + g x)
| PC_ext f g : (forall x, f x = g x) -> PC f -> PC g.

Lemma PC_zero : PC (fun _ => 0).
Proof. apply PC_cont. intros; apply continuous_const. Qed.
Lemma PC_times A f : (forall x, continuous A x) -> PC f -> PC (fun x => A x * f x).
Proof.
  intros HA H. induction H.
  - apply PC_cont. intros; now apply mult_cont.
  - apply (PC_ext (fun x => (A x * A0 x) * ind x c)); [intros; ring|]. apply PC_cut. intros; now apply mult_cont.
  - apply (PC_ext (fun x => A x * f x + A x * g x)); [intros; ring|]. now apply PC_plus.
  - apply (PC_ext (fun x => A x * f x)); [intros; now rewrite H|auto].
Qed.
Lemma PC_indic f c : PC f -> PC (fun x => f x * ind x c).
Proof.
  intros H. induction H.
  - now apply PC_cut.
  - apply (PC_ext (fun x => A x * ind x (Rmin c0 c))); [intros; rewrite <- ind_min; ring|]. now apply PC_cut.
  - apply (PC_ext (fun x => f x * ind x c + g x * ind x c)); [intros; ring|]. now apply PC_plus.
  - apply (PC_ext (fun x => f x * ind x c)); [intros; now rewrite H|auto].
Qed.
Lemma PC_mult f g : PC f -> PC g -> PC (fun x => f x * g x).
Proof.
  intros Hf Hg. induction Hf.
  - now apply PC_times.
  - apply (PC_ext (fun x => (A x * g x) * ind x c)); [intros; ring|]. apply PC_indic. now apply PC_times.
  - apply (PC_ext (fun x => f x * g x + g0 x * g x)); [intros; ring|]. now apply PC_plus.
  - apply (PC_ext (fun x => f x * g x)); [intros; now rewrite H|auto].
Qed.
Lemma PC_sum n (f : nat -> R -> R) : (forall i, (i < n)%nat -> PC (f i)) -> PC (fun x => Sum n (fun i => f i x)).
Proof. induction n as [|n IH]; intros H; cbn [Sum]; [apply PC_zero|]. apply PC_plus; [apply IH; auto|apply H; lia]. Qed.

Lemma cut_int (F : R -> R) u S v : 0 <= u <= S -> is_RInt F 0 u v -> is_RInt (fun x => F x * ind x u) 0 S v.
Proof.
  intros Hu H. rewrite <- (Rplus_0_r v). apply (@is_RInt_Chasles R_NormedModule _ 0 u).
  - apply (is_RInt_ext F); [|exact H]. intros z. rewrite Rmin_left, Rmax_right by lra. intros Hz. unfold ind. destruct (Rle_dec z u); lra.
  - apply (is_RInt_ext (fun _ => 0)); [|apply is_RInt_zero].
    intros z. rewrite Rmin_left, Rmax_right by lra. intros Hz. unfold ind. destruct (Rle_dec z u); lra.
Qed.
Lemma cont_ex (A : R -> R) x y : (forall x, continuous A x) -> ex_RInt A x y.
Proof. intros H. apply (@ex_RInt_continuous R_CompleteNormedModule). auto. Qed.
Lemma PC_ex f S : 0 <= S -> PC f -> ex_RInt f 0 S.
Proof.
  intros HS H. induction H.
  - now apply cont_ex.
  - destruct (Rle_dec c 0) as [L|L]; [|destruct (Rle_dec c S) as [L'|L']].
    + exists 0. apply (is_RInt_ext (fun _ => 0)); [|apply is_RInt_zero].
      intros z. rewrite Rmin_left, Rmax_right by lra. intros Hz. unfold ind. destruct (Rle_dec z c); lra.
    + destruct (cont_ex A 0 c H) as [v Hv]. exists v. apply cut_int; [lra|auto].
    + destruct (cont_ex A 0 S H) as [v Hv]. exists v. apply (is_RInt_ext A); [|exact Hv].
      intros z. rewrite Rmin_left, Rmax_right by lra. intros Hz. unfold ind. destruct (Rle_dec z c); lra.
  - apply (@ex_RInt_plus R_NormedModule); auto.
  - apply (@ex_RInt_ext R_NormedModule f); auto.
Qed.
Lemma PC_RInt f S : 0 <= S -> PC f -> is_RInt f 0 S (RInt f 0 S).
Proof. intros. apply (@RInt_correct R_CompleteNormedModule). now apply PC_ex. Qed.
Lemma jump_PC g t : one_jump g -> PC (fun x => g (t - x)).
Proof.
  intros [A [B [r [HA [HB E]]]]].
  assert (C : forall F : R -> R, (forall x, continuous F x) -> forall x, continuous (fun x => F (t - x)) x).
  { intros F HF x. apply (@continuous_comp R_UniformSpace R_UniformSpace R_UniformSpace (fun x => t - x) F); [|apply HF].
    apply (@ex_derive_continuous R_AbsRing R_NormedModule (fun x => t - x)). auto_derive. auto. }
  apply (PC_ext (fun x => A (t - x) * ind x (t - r) + B (t - x))).
  - intros x. now rewrite E, ind_shift.
  - apply PC_plus; [apply PC_cut; now apply C|apply PC_cont; now apply C].
Qed.

(** ** The filter *)
Section Filter.
Context (al alt ga gat S : R) (Pa : 0 < al) (Pg : 0 < ga) (HS : 0 <= S).
Context (nu : nat) (tu : nat -> R).
Hypothesis Htu : forall i, (i < nu)%nat -> 0 <= tu i <= S.

Definition qq (a : nat) (x : R) : R := alt * gat * exp (- al * x - ga * (tu a - x)).
Definition KK (a b : nat) : R := gat ^ 2 / (2 * ga) * exp (- ga * Rabs (tu a - tu b)).
Let om (x : R) : R := alt * exp (- al * x).
Let G (a : nat) (x : R) : R := gat * exp (- ga * (tu a - x)).

Lemma qq_om a x : qq a x = om x * G a x.
Proof. unfold qq, om, G. unfold Rminus at 1. rewrite exp_plus. replace (- (ga * (tu a - x))) with (- ga * (tu a - x)) by ring. ring. Qed.
Lemma om_cont x : continuous om x.
Proof. apply scal_cont. apply (@ex_derive_continuous R_AbsRing R_NormedModule). auto_derive. auto. Qed.
Lemma G_cont a x : continuous (G a) x.
Proof. apply scal_cont. apply (@ex_derive_continuous R_AbsRing R_NormedModule). auto_derive. auto. Qed.
Lemma qq_cont a x : continuous (qq a) x.
Proof. apply scal_cont. apply (@ex_derive_continuous R_AbsRing R_NormedModule). auto_derive. auto. Qed.

Lemma om_sq x : om x * om x = alt ^ 2 * exp (-2 * al * x).
Proof. unfold om. replace (-2 * al * x) with (- al * x + - al * x) by ring. rewrite exp_plus. ring. Qed.

Lemma exp_neg x : x <= 0 -> exp x <= 1.
Proof. intros [X|X]; [rewrite <- exp_0; left; now apply exp_increasing|rewrite X, exp_0; lra]. Qed.
Lemma om_bound x : 0 <= x -> om x * om x <= alt ^ 2.
Proof.
  intros Hx. rewrite om_sq. rewrite <- (Rmult_1_r (alt ^ 2)) at 2. apply Rmult_le_compat_l; [apply pow2_ge_0|].
  apply exp_neg. assert (0 <= al * x) by (apply Rmult_le_pos; lra). lra.
Qed.
Lemma qq_bound a x : 0 <= x <= tu a -> Rabs (qq a x) <= Rabs (alt * gat).
Proof.
  intros Hx. unfold qq. rewrite Rabs_mult, (Rabs_pos_eq (exp _)) by (left; apply exp_pos).
  rewrite <- (Rmult_1_r (Rabs (alt * gat))) at 2. apply Rmult_le_compat_l; [apply Rabs_pos|]. apply exp_neg.
  assert (0 <= al * x) by (apply Rmult_le_pos; lra). assert (0 <= ga * (tu a - x)) by (apply Rmult_le_pos; lra). lra.
Qed.

(** The integrals of a function against the inducing variables, and its energy. *)
Definition XX (f : R -> R) (a : nat) : R := RInt (fun x => qq a x * f x) 0 (tu a).
Definition YY (f : R -> R) : R := RInt (fun x => alt ^ 2 * exp (-2 * al * x) * (f x * f x)) 0 S.

Lemma XX_spec f a : PC f -> (a < nu)%nat -> is_RInt (fun x => qq a x * f x) 0 (tu a) (XX f a).
Proof. intros Hf Ha. apply PC_RInt; [apply Htu; auto|]. apply PC_times; [apply qq_cont|auto]. Qed.
Lemma YY_spec f : PC f -> is_RInt (fun x => alt ^ 2 * exp (-2 * al * x) * (f x * f x)) 0 S (YY f).
Proof.
  intros Hf. apply PC_RInt; [auto|]. apply PC_times; [|now apply PC_mult]. intros x. apply scal_cont.
  apply (@ex_derive_continuous R_AbsRing R_NormedModule). auto_derive. auto.
Qed.

Lemma GG_spec a b : (a < nu)%nat -> (b < nu)%nat ->
  is_RInt (fun x => (G a x * ind x (tu a)) * (G b x * ind x (tu b))) 0 S (KK a b - gat ^ 2 / (2 * ga) * (exp (- ga * tu a) * exp (- ga * tu b))).
Proof.
  intros Ha Hb. set (m := Rmin (tu a) (tu b)).
  assert (Hm : 0 <= m <= S) by (unfold m, Rmin; pose proof (Htu a Ha); pose proof (Htu b Hb); destruct (Rle_dec (tu a) (tu b)); lra).
  apply (is_RInt_ext (fun x => G a x * G b x * ind x m)).
  { intros x _. unfold m. rewrite <- ind_min. asR. ring. }
  apply cut_int; [auto|].
  replace (KK a b - gat ^ 2 / (2 * ga) * (exp (- ga * tu a) * exp (- ga * tu b)))
    with (minus (gat ^ 2 / (2 * ga) * exp (- ga * (tu a + tu b) + 2 * ga * m)) (gat ^ 2 / (2 * ga) * exp (- ga * (tu a + tu b) + 2 * ga * 0))).
  2:{ unfold KK, m. rewrite Rabs_min. rewrite <- exp_plus. unfold minus, plus, opp; cbn.
      replace (- ga * (tu a + tu b) + 2 * ga * 0) with (- ga * tu a + - ga * tu b) by ring.
      replace (- ga * (tu a + tu b) + 2 * ga * Rmin (tu a) (tu b)) with (- ga * (tu a + tu b - 2 * Rmin (tu a) (tu b))) by ring. ring. }
  apply (is_RInt_derive (fun x => gat ^ 2 / (2 * ga) * exp (- ga * (tu a + tu b) + 2 * ga * x))).
  - intros x _. unfold G. auto_derive; auto.
    replace (gat * exp (- ga * (tu a - x)) * (gat * exp (- ga * (tu b - x)))) with (gat ^ 2 * (exp (- ga * (tu a - x)) * exp (- ga * (tu b - x)))) by ring.
    rewrite <- exp_plus. replace (- ga * (tu a - x) + - ga * (tu b - x)) with (- ga * (tu a + tu b) + 2 * ga * x) by ring. field. lra.
  - intros x _. apply mult_cont; apply G_cont.
Qed.

(** The covariance of a filtered function with the inducing variables is positive semi-definite. *)
Lemma joint f (d : nat -> R) : PC f ->
  0 <= YY f + 2 * Sum nu (fun a => d a * XX f a) + Sum nu (fun a => Sum nu (fun b => d a * d b * KK a b)).
Proof.
  intros Hf. set (h := fun x => Sum nu (fun a => d a * (G a x * ind x (tu a)))).
  assert (I1 : is_RInt (fun x => Sum nu (fun a => d a * (qq a x * f x * ind x (tu a)))) 0 S (Sum nu (fun a => d a * XX f a))).
  { apply (is_RInt_Sum nu (fun a x => d a * (qq a x * f x * ind x (tu a)))). intros a Ha. apply is_RInt_times.
    apply (cut_int (fun x => qq a x * f x)); [now apply Htu|]. now apply XX_spec. }
  assert (I2 : is_RInt (fun x => Sum nu (fun a => Sum nu (fun b => d a * d b * ((G a x * ind x (tu a)) * (G b x * ind x (tu b)))))) 0 S
     (Sum nu (fun a => Sum nu (fun b => d a * d b * (KK a b - gat ^ 2 / (2 * ga) * (exp (- ga * tu a) * exp (- ga * tu b))))))).
  { apply (is_RInt_Sum nu (fun a x => Sum nu (fun b => d a * d b * ((G a x * ind x (tu a)) * (G b x * ind x (tu b)))))). intros a Ha.
    apply (is_RInt_Sum nu (fun b x => d a * d b * ((G a x * ind x (tu a)) * (G b x * ind x (tu b))))). intros b Hb. apply is_RInt_times. now apply GG_spec. }
  pose proof (is_RInt_times 2 _ _ _ _ I1) as I1'.
  pose proof (@is_RInt_plus R_NormedModule _ _ _ _ _ _ (@is_RInt_plus R_NormedModule _ _ _ _ _ _ (YY_spec f Hf) I1') I2) as I.
  apply is_RInt_ge_0 in I; [|exact HS|].
  - match type of I with 0 <= plus (plus ?x ?y) ?z => change (0 <= x + y + z) in I end.
    assert (E : Sum nu (fun a => Sum nu (fun b => d a * d b * (KK a b - gat ^ 2 / (2 * ga) * (exp (- ga * tu a) * exp (- ga * tu b)))))
      = Sum nu (fun a => Sum nu (fun b => d a * d b * KK a b)) - gat ^ 2 / (2 * ga) * (Sum nu (fun a => d a * exp (- ga * tu a)) * Sum nu (fun a => d a * exp (- ga * tu a)))).
    { rewrite Sum_sq, <- Sum_scal, <- Sum_minus. apply Sum_ext. intros a _. rewrite <- Sum_scal, <- Sum_minus. apply Sum_ext. intros; ring. }
    rewrite E in I.
    assert (0 <= gat ^ 2 / (2 * ga) * (Sum nu (fun a => d a * exp (- ga * tu a)) * Sum nu (fun a => d a * exp (- ga * tu a)))).
    { apply Rmult_le_pos; [|apply Rle_0_sqr]. apply Rmult_le_pos; [apply pow2_ge_0|]. left. apply Rinv_0_lt_compat. lra. }
    lra.
  - intros x _. match goal with |- 0 <= plus (plus ?x ?y) ?z => change (0 <= x + y + z) end.
    assert (E1 : Sum nu (fun a => d a * (qq a x * f x * ind x (tu a))) = om x * f x * h x).
    { unfold h. rewrite <- Sum_scal. apply Sum_ext. intros a _. rewrite qq_om. ring. }
    assert (E2 : Sum nu (fun a => Sum nu (fun b => d a * d b * ((G a x * ind x (tu a)) * (G b x * ind x (tu b))))) = h x * h x).
    { unfold h. rewrite Sum_sq. apply Sum_ext. intros a _. apply Sum_ext. intros; ring. }
    rewrite E1, E2. rewrite <- om_sq. pose proof (Rle_0_sqr (om x * f x + h x)) as Q. unfold Rsqr in Q. lra.
Qed.

Context (W : nat -> nat -> R).
Hypothesis HW : forall i j, (i < nu)%nat -> (j < nu)%nat ->
  Sum nu (fun k => Sum nu (fun l => W k i * KK k l * W l j)) = W i j.

Lemma bessel f : PC f -> wform nu W (XX f) <= YY f.
Proof.
  intros Hf. pose proof (joint f (fun a => - weights nu W (XX f) a) Hf) as H. cbv beta in H.
  assert (E1 : Sum nu (fun a => - weights nu W (XX f) a * XX f a) = - wform nu W (XX f)).
  { rewrite <- weights_dot. replace (- Sum nu (fun i => weights nu W (XX f) i * XX f i)) with (-1 * Sum nu (fun i => weights nu W (XX f) i * XX f i)) by ring.
    rewrite <- Sum_scal. apply Sum_ext. intros; ring. }
  assert (E2 : Sum nu (fun i => Sum nu (fun j => - weights nu W (XX f) i * - weights nu W (XX f) j * KK i j)) = wform nu W (XX f)).
  { rewrite <- (weights_form nu KK W HW). apply Sum_ext. intros. apply Sum_ext. intros. ring. }
  rewrite E1, E2 in H. lra.
Qed.

(** ** Kernels with features *)
Context (kk : R -> R -> R).
Hypothesis Hkk : forall eps, 0 < eps -> exists K (g : nat -> R -> R), (forall k, (k < K)%nat -> PC (g k)) /\
  forall x y, 0 <= x <= S -> 0 <= y <= S -> Rabs (Sum K (fun k => g k x * g k y) - kk x y) <= eps.

Lemma kk_diag x : 0 <= x <= S -> 0 <= kk x x.
Proof.
  intros Hx. apply (limit_nonneg _ 1). intros eps He. destruct (Hkk eps He) as [K [g [_ H]]]. specialize (H x x Hx Hx).
  assert (0 <= Sum K (fun k => g k x * g k x)) by (apply Sum_pos; intros; apply Rle_0_sqr). apply Rabs_le_between in H. lra.
Qed.

Context (Q : nat -> nat -> R).
Hypothesis HQ : forall a b, (a < nu)%nat -> (b < nu)%nat -> is_rect_integral (fun x y => qq a x * qq b y * kk x y) 0 (tu a) 0 (tu b) (Q a b).

Lemma Q_close K (g : nat -> R -> R) eps a b : (forall k, (k < K)%nat -> PC (g k)) -> 0 <= eps ->
  (forall x y, 0 <= x <= S -> 0 <= y <= S -> Rabs (Sum K (fun k => g k x * g k y) - kk x y) <= eps) ->
  (a < nu)%nat -> (b < nu)%nat ->
  Rabs (Sum K (fun k => XX (g k) a * XX (g k) b) - Q a b) <= S * (S * ((alt * gat) ^ 2)) * eps.
Proof.
  intros Hg Pe H Ha Hb. destruct (HQ a b Ha Hb) as [v [Hv Hu]].
  pose proof (Htu a Ha) as Ta. pose proof (Htu b Hb) as Tb.
  assert (P0 : 0 <= (alt * gat) ^ 2 * eps) by (apply Rmult_le_pos; [apply pow2_ge_0|exact Pe]).
  apply Rle_trans with ((tu a - 0) * (S * ((alt * gat) ^ 2 * eps))).
  2:{ replace (S * (S * (alt * gat) ^ 2) * eps) with (S * (S * ((alt * gat) ^ 2 * eps))) by ring. apply Rmult_le_compat_r; [apply Rmult_le_pos; auto|lra]. }
  apply (is_RInt_close (fun x => Sum K (fun k => XX (g k) b * (qq a x * g k x))) v); [lra| |exact Hu|].
  { rewrite (Sum_ext K _ (fun k => XX (g k) b * XX (g k) a)) by (intros; ring).
    apply (is_RInt_Sum K (fun k x => XX (g k) b * (qq a x * g k x))). intros k Hk. apply is_RInt_times. apply XX_spec; auto. }
  intros x Hx. apply Rle_trans with ((tu b - 0) * ((alt * gat) ^ 2 * eps)).
  2:{ apply Rmult_le_compat_r; [auto|lra]. }
  refine (is_RInt_close (fun y => Sum K (fun k => qq a x * g k x * (qq b y * g k y))) _ _ _ _ _ _ _ _ (Hv x) _); [lra| |].
  { rewrite (Sum_ext K _ (fun k => qq a x * g k x * XX (g k) b)) by (intros; ring).
    apply (is_RInt_Sum K (fun k y => qq a x * g k x * (qq b y * g k y))). intros k Hk. apply is_RInt_times. apply XX_spec; auto. }
  intros y Hy. specialize (H x y ltac:(lra) ltac:(lra)).
  rewrite (Sum_ext K _ (fun k => qq a x * qq b y * (g k x * g k y))) by (intros; ring).
  rewrite Sum_scal, <- Rmult_minus_distr_l, Rabs_mult. apply Rmult_le_compat; [apply Rabs_pos|apply Rabs_pos| |exact H].
  rewrite Rabs_mult. replace ((alt * gat) ^ 2) with (Rabs (alt * gat) * Rabs (alt * gat)).
  2:{ rewrite <- Rabs_mult. rewrite Rabs_pos_eq; [ring|apply Rle_0_sqr]. }
  apply Rmult_le_compat; try apply Rabs_pos; now apply qq_bound.
Qed.

Lemma forms_close K (g : nat -> R -> R) eps (P : nat -> nat -> R) : (forall k, (k < K)%nat -> PC (g k)) -> 0 <= eps ->
  (forall x y, 0 <= x <= S -> 0 <= y <= S -> Rabs (Sum K (fun k => g k x * g k y) - kk x y) <= eps) ->
  Rabs (Sum K (fun k => wform nu P (XX (g k))) - Sum nu (fun a => Sum nu (fun b => P a b * Q a b)))
  <= Sum nu (fun a => Sum nu (fun b => Rabs (P a b))) * (S * (S * ((alt * gat) ^ 2))) * eps.
Proof.
  intros Hg Pe H.
  replace (Sum K (fun k => wform nu P (XX (g k)))) with (Sum nu (fun a => Sum nu (fun b => P a b * Sum K (fun k => XX (g k) a * XX (g k) b)))).
  2:{ unfold wform. rewrite (Sum_swap K nu). apply Sum_ext. intros a _. rewrite (Sum_swap K nu). apply Sum_ext. intros b _. now rewrite <- Sum_scal. }
  rewrite Rmult_assoc, <- Sum_scal_r. apply Sum_close. intros a Ha. rewrite <- Sum_scal_r. apply Sum_close. intros b Hb.
  rewrite <- Rmult_minus_distr_l, Rabs_mult. apply Rmult_le_compat_l; [apply Rabs_pos|]. now apply Q_close.
Qed.

Lemma kk_form (d : nat -> R) : 0 <= Sum nu (fun a => Sum nu (fun b => d a * d b * Q a b)).
Proof.
  set (E := Sum nu (fun a => Sum nu (fun b => Rabs (d a * d b))) * (S * (S * ((alt * gat) ^ 2)))).
  apply (limit_nonneg _ E). intros eps He. destruct (Hkk eps He) as [K [g [Hg H]]].
  pose proof (forms_close K g eps (fun a b => d a * d b) Hg ltac:(lra) H) as F. cbv beta in F. fold E in F.
  assert (P : 0 <= Sum K (fun k => wform nu (fun a b => d a * d b) (XX (g k)))).
  { apply Sum_pos. intros k _. unfold wform.
    rewrite (Sum_ext nu _ (fun i => Sum nu (fun j => d i * XX (g k) i * (d j * XX (g k) j)))) by (intros; apply Sum_ext; intros; cbv beta; ring).
    rewrite <- Sum_sq. apply Rle_0_sqr. }
  apply Rabs_le_between in F. lra.
Qed.

Lemma kk_residual D : is_RInt (fun x => alt ^ 2 * exp (-2 * al * x) * kk x x) 0 S D ->
  0 <= D - Sum nu (fun a => Sum nu (fun b => W a b * Q a b)).
Proof.
  intros HD. set (E := Sum nu (fun a => Sum nu (fun b => Rabs (W a b))) * (S * (S * ((alt * gat) ^ 2)))).
  apply (limit_nonneg _ (S * alt ^ 2 + E)). intros eps He. destruct (Hkk eps He) as [K [g [Hg H]]].
  pose proof (forms_close K g eps W Hg ltac:(lra) H) as F. fold E in F.
  assert (B : Sum K (fun k => wform nu W (XX (g k))) <= Sum K (fun k => YY (g k))) by (apply Sum_le; intros; apply bessel; auto).
  assert (Y : Rabs (Sum K (fun k => YY (g k)) - D) <= (S - 0) * (alt ^ 2 * eps)).
  { apply (is_RInt_close (fun x => Sum K (fun k => alt ^ 2 * exp (-2 * al * x) * (g k x * g k x))) (fun x => alt ^ 2 * exp (-2 * al * x) * kk x x)); [auto| |exact HD|].
    - apply (is_RInt_Sum K (fun k x => alt ^ 2 * exp (-2 * al * x) * (g k x * g k x))). intros k Hk. apply YY_spec. auto.
    - intros x Hx. rewrite Sum_scal, <- Rmult_minus_distr_l, Rabs_mult. rewrite <- om_sq.
      apply Rmult_le_compat; [apply Rabs_pos|apply Rabs_pos| |now apply H].
      rewrite Rabs_pos_eq by apply Rle_0_sqr. apply om_bound. lra. }
  apply Rabs_le_between in F. apply Rabs_le_between in Y. lra.
Qed.
End Filter.

(** ** The RGPCM at one time *)
Lemma is_integral_Sum (n : nat) (f : nat -> R -> R) (hi : Rbar) (v : nat -> R) :
  (forall m, (m < n)%nat -> is_integral (f m) m_infty hi (v m)) -> is_integral (fun x => Sum n (fun m => f m x)) m_infty hi (Sum n v).
Proof.
  induction n; intros H; simpl; [apply is_integral_zero|]. apply is_integral_plus; [|apply H; lia]. apply IHn. intros. apply H. lia.
Qed.
Lemma tail_le (f : R -> R) (a t v v' : R) : (forall x, x <= a -> 0 <= f x) -> is_integral f m_infty t v -> is_RInt f a t v' -> a <= t -> v' <= v.
Proof.
  intros Hf Hv Hv' Hat. destruct (Rle_dec v' v) as [|L]; auto. exfalso.
  assert (Pe : 0 < v' - v) by lra.
  destruct (Hv (ball v (mkposreal _ Pe)) (locally_ball _ _)) as [P1 P2 H1 H2 H]. destruct H1 as [A HA]. simpl in H2.
  set (x := Rmin (A - 1) a). assert (Hx : x < A) by (unfold x; pose proof (Rmin_l (A - 1) a); lra).
  assert (Hxa : x <= a) by apply Rmin_r.
  destruct (H x t (HA x Hx) H2) as [i [Hi Bi]]. simpl in Hi.
  assert (Ex : ex_RInt f x a) by (apply (ex_RInt_Chasles_1 f x a t); [lra|eexists; exact Hi]).
  destruct Ex as [w Hw].
  assert (Pw : 0 <= w) by (apply (is_RInt_ge_0 f x a w); [auto|exact Hw|intros y Hy; apply Hf; lra]).
  pose proof (@is_RInt_Chasles R_NormedModule f x a t w v' Hw Hv') as C.
  pose proof (is_RInt_unique _ _ _ _ Hi) as U1. pose proof (is_RInt_unique _ _ _ _ C) as U2. rewrite U1 in U2.
  change (i = w + v') in U2. subst i.
  unfold ball in Bi; simpl in Bi; unfold AbsRing_ball, abs, minus, plus, opp in Bi; simpl in Bi.
  rewrite Rabs_pos_eq in Bi; lra.
Qed.

Lemma flip (f : R -> R) (t a v : R) : is_RInt f a t v -> is_RInt (fun x => f (t - x)) 0 (t - a) v.
Proof.
  intros H. pose proof (@is_RInt_comp_lin R_NormedModule f (-1) t (t - a) 0 v) as C.
  replace (-1 * (t - a) + t) with a in C by ring. replace (-1 * 0 + t) with t in C by ring. specialize (C H).
  apply (@is_RInt_swap R_NormedModule) in C.
  apply (is_RInt_ext (fun x => opp (scal (-1) (f (-1 * x + t))))).
  - intros x _. unfold opp, scal; cbn; unfold mult; cbn. replace (-1 * x + t) with (t - x) by ring. ring.
  - pose proof (@is_RInt_opp R_NormedModule _ _ _ _ C) as O. rewrite opp_opp in O. exact O.
Qed.

Section Time.
Context (al alt ga gat lam a b t : R) (Pa : 0 < al) (Pg : 0 < ga) (Pl : 0 < lam) (Hab : a < b) (Ht : a <= t <= b).
Context (nu nz : nat) (tu : nat -> R).
Hypothesis Htu : forall i, (i < nu)%nat -> 0 <= tu i <= t - a.
Context (c c1 c2 : nat -> R -> R).
Hypothesis Hc : forall m x, is_derive (c m) x (c1 m x).
Hypothesis Hc1 : forall m x, is_derive (c1 m) x (c2 m x).
Hypothesis Hc2 : forall m x, continuous (c2 m) x.
(* the features of the excitation, continued below the support *)
Context (be : nat -> R -> R).
Hypothesis be_in : forall m x, (m < nz)%nat -> a <= x <= b -> be m x = c m x.
Hypothesis be_out : forall m x, (m < nz)%nat -> x <= a -> be m x = exp (- lam * (a - x)) * c m a.
Context (hx : R) (ux uz hz : nat -> nat -> R).
Hypothesis Hhx : hx = alt ^ 2 / 2 / al.
Hypothesis Hux : forall i j, (i < nu)%nat -> (j < nu)%nat ->
  is_rect_integral (fun x y => qq al alt ga gat tu i x * qq al alt ga gat tu j y * exp (- lam * Rabs ((t - x) - (t - y)))) 0 (tu i) 0 (tu j) (ux i j).
Hypothesis Huz : forall i m, (i < nu)%nat -> (m < nz)%nat -> is_RInt (fun x => qq al alt ga gat tu i x * be m (t - x)) 0 (tu i) (uz i m).
Hypothesis Hhz : forall m n, (m < nz)%nat -> (n < nz)%nat ->
  is_integral (fun x => alt ^ 2 * exp (-2 * al * (t - x)) * be m x * be n x) m_infty t (hz m n).
Let gr := gram lam a b c c1.
Let S : R := t - a.
Lemma S_nonneg : 0 <= S.
Proof. unfold S. lra. Qed.

Lemma c_shift m x : continuous (fun x => c m (t - x)) x.
Proof.
  apply (@continuous_comp R_UniformSpace R_UniformSpace R_UniformSpace (fun x => t - x) (c m)); [|apply (c_cont c c1 Hc)].
  apply (@ex_derive_continuous R_AbsRing R_NormedModule (fun x => t - x)). auto_derive. auto.
Qed.
Lemma be_shift m x : (m < nz)%nat -> 0 <= x <= S -> be m (t - x) = c m (t - x).
Proof. intros Hm Hx. apply be_in; [auto|]. unfold S in Hx. lra. Qed.

(** [I_hz] with [K_u]. *)
Lemma hz_joint (d w : nat -> R) :
  0 <= Sum nz (fun m => Sum nz (fun n => w m * w n * hz m n)) + 2 * Sum nu (fun i => d i * Sum nz (fun m => w m * uz i m))
       + Sum nu (fun i => Sum nu (fun j => d i * d j * KK ga gat tu i j)).
Proof.
  set (f := fun x => Sum nz (fun m => w m * c m (t - x))).
  assert (Hf : PC f).
  { apply (PC_sum nz (fun m x => w m * c m (t - x))). intros m _. apply PC_cont. intros x. apply scal_cont, c_shift. }
  pose proof (joint al alt ga gat S Pg S_nonneg nu tu Htu f d Hf) as J.
  assert (E : Sum nu (fun i => d i * XX al alt ga gat tu f i) = Sum nu (fun i => d i * Sum nz (fun m => w m * uz i m))).
  { apply Sum_ext. intros i Hi. f_equal. unfold XX. apply is_RInt_unique.
    apply (is_RInt_ext (fun x => Sum nz (fun m => w m * (qq al alt ga gat tu i x * be m (t - x))))).
    - intros x. rewrite Rmin_left, Rmax_right by (apply Htu; auto). intros Hx. unfold f. asR. rewrite <- Sum_scal. apply Sum_ext. intros m Hm.
      rewrite be_shift; [ring|auto|]. pose proof (Htu i Hi). unfold S. lra.
    - apply (is_RInt_Sum nz (fun m x => w m * (qq al alt ga gat tu i x * be m (t - x)))). intros m Hm. apply is_RInt_times. now apply Huz. }
  rewrite E in J.
  assert (Y : YY al alt S f <= Sum nz (fun m => Sum nz (fun n => w m * w n * hz m n))).
  { set (F := fun x => alt ^ 2 * exp (-2 * al * (t - x)) * (Sum nz (fun m => w m * be m x) * Sum nz (fun m => w m * be m x))).
    assert (HF : is_integral F m_infty t (Sum nz (fun m => Sum nz (fun n => w m * w n * hz m n)))).
    { apply (is_integral_ext (fun x => Sum nz (fun m => Sum nz (fun n => w m * w n * (alt ^ 2 * exp (-2 * al * (t - x)) * be m x * be n x))))).
      - intros x. unfold F. rewrite Sum_sq, <- Sum_scal. apply Sum_ext. intros m _. rewrite <- Sum_scal. apply Sum_ext. intros; ring.
      - apply (is_integral_Sum nz (fun m x => Sum nz (fun n => w m * w n * (alt ^ 2 * exp (-2 * al * (t - x)) * be m x * be n x)))). intros m Hm.
        apply (is_integral_Sum nz (fun n x => w m * w n * (alt ^ 2 * exp (-2 * al * (t - x)) * be m x * be n x))). intros n Hn.
        apply is_integral_scal. now apply Hhz. }
    set (F' := fun x => alt ^ 2 * exp (-2 * al * (t - x)) * (Sum nz (fun m => w m * c m x) * Sum nz (fun m => w m * c m x))).
    assert (CF : forall x, continuous F' x).
    { intros x. unfold F'. apply mult_cont; [apply scal_cont; apply (@ex_derive_continuous R_AbsRing R_NormedModule); auto_derive; auto|].
      assert (forall x, continuous (fun x => Sum nz (fun m => w m * c m x)) x); [|now apply mult_cont].
      intros y. apply (Sum_cont nz (fun m x => w m * c m x)). intros m. apply scal_cont, (c_cont c c1 Hc). }
    destruct (cont_ex F' a t CF) as [v Hv].
    assert (HF' : is_RInt F a t v).
    { apply (is_RInt_ext F'); [|exact Hv]. intros x. rewrite Rmin_left, Rmax_right by lra. intros Hx. unfold F, F'.
      assert (Es : Sum nz (fun m => w m * be m x) = Sum nz (fun m => w m * c m x)) by (apply Sum_ext; intros; rewrite be_in; [ring|auto|lra]).
      now rewrite Es. }
    assert (EY : YY al alt S f = v).
    { unfold YY. apply is_RInt_unique. pose proof (flip F' t a v Hv) as Fl. fold S in Fl. apply (is_RInt_ext (fun x => F' (t - x))); [|exact Fl].
      intros x _. unfold F', f. replace (t - (t - x)) with x by ring. reflexivity. }
    rewrite EY. apply (tail_le F a t); [|exact HF|exact HF'|lra].
    intros x _. unfold F. apply Rmult_le_pos; [|apply Rle_0_sqr]. apply Rmult_le_pos; [apply pow2_ge_0|left; apply exp_pos]. }
  lra.
Qed.

Context (Wz : nat -> nat -> R).
Hypothesis Wzs : forall i j, (i < nz)%nat -> (j < nz)%nat -> Wz i j = Wz j i.
Hypothesis HWz : forall i j, (i < nz)%nat -> (j < nz)%nat -> Sum nz (fun k => Sum nz (fun l => Wz k i * gr k l * Wz l j)) = Wz i j.
Let kk (x y : R) : R := kres lam nz c Wz (t - x) (t - y).

Lemma kk_features eps : 0 < eps -> exists K (g : nat -> R -> R), (forall k, (k < K)%nat -> PC (g k)) /\
  forall x y, 0 <= x <= S -> 0 <= y <= S -> Rabs (Sum K (fun k => g k x * g k y) - kk x y) <= eps.
Proof.
  intros He. destruct (kres_features lam a b Pl Hab nz c c1 c2 Hc Hc1 Hc2 Wz Wzs HWz eps He) as [K [g [Hg H]]].
  exists K, (fun k x => g k (t - x)). split; [intros; apply jump_PC; auto|]. intros x y Hx Hy. unfold S in *. apply H; lra.
Qed.

(** The covariance of the filtered excitation given the features. *)
Let Q (i j : nat) : R := ux i j - Sum nz (fun m => Sum nz (fun n => Wz m n * (uz i m * uz j n))).
Lemma Q_rect i j : (i < nu)%nat -> (j < nu)%nat ->
  is_rect_integral (fun x y => qq al alt ga gat tu i x * qq al alt ga gat tu j y * kk x y) 0 (tu i) 0 (tu j) (Q i j).
Proof.
  intros Hi Hj. destruct (Hux i j Hi Hj) as [g [Hg Hv]].
  pose proof (Htu i Hi) as Ti. pose proof (Htu j Hj) as Tj.
  set (q := qq al alt ga gat tu) in *.
  exists (fun x => RInt (fun y => q i x * q j y * kk x y) 0 (tu j)).
  assert (Uc : forall j m, (j < nu)%nat -> (m < nz)%nat -> is_RInt (fun y => q j y * c m (t - y)) 0 (tu j) (uz j m)).
  { intros k m Hk Hm. apply (is_RInt_ext (fun y => q k y * be m (t - y))); [|now apply Huz].
    intros y. pose proof (Htu k Hk). rewrite Rmin_left, Rmax_right by lra. intros Hy. rewrite be_shift; [reflexivity|auto|unfold S; lra]. }
  assert (In : forall x, is_RInt (fun y => q i x * q j y * kk x y) 0 (tu j)
     (g x - Sum nz (fun m => Sum nz (fun n => Wz m n * (q i x * c m (t - x) * uz j n))))).
  { intros x.
    apply (is_RInt_ext (fun y => minus (q i x * q j y * exp (- lam * Rabs ((t - x) - (t - y))))
        (Sum nz (fun m => Sum nz (fun n => Wz m n * (q i x * c m (t - x) * (q j y * c n (t - y)))))))).
    - intros y _. unfold kk, kres, minus, plus, opp; cbn.
      rewrite Rmult_minus_distr_l. unfold Rminus. f_equal. f_equal. rewrite <- Sum_scal. apply Sum_ext. intros m _. rewrite <- Sum_scal. apply Sum_ext. intros; ring.
    - apply (@is_RInt_minus R_NormedModule); [apply Hg|].
      apply (is_RInt_Sum nz (fun m y => Sum nz (fun n => Wz m n * (q i x * c m (t - x) * (q j y * c n (t - y)))))). intros m Hm.
      apply (is_RInt_Sum nz (fun n y => Wz m n * (q i x * c m (t - x) * (q j y * c n (t - y))))). intros n Hn.
      apply is_RInt_times, is_RInt_times. now apply Uc. }
  split.
  - intros x. rewrite (is_RInt_unique _ _ _ _ (In x)). apply In.
  - apply (is_RInt_ext (fun x => minus (g x) (Sum nz (fun m => Sum nz (fun n => Wz m n * uz j n * (q i x * c m (t - x))))))).
    + intros x _. rewrite (is_RInt_unique _ _ _ _ (In x)). unfold minus, plus, opp; cbn. unfold Rminus. f_equal. f_equal.
      apply Sum_ext. intros m _. apply Sum_ext. intros; ring.
    + apply (@is_RInt_minus R_NormedModule); [exact Hv|].
      rewrite (Sum_ext nz _ (fun m => Sum nz (fun n => Wz m n * uz j n * uz i m))) by (intros; apply Sum_ext; intros; ring).
      apply (is_RInt_Sum nz (fun m x => Sum nz (fun n => Wz m n * uz j n * (q i x * c m (t - x))))). intros m Hm.
      apply (is_RInt_Sum nz (fun n x => Wz m n * uz j n * (q i x * c m (t - x)))). intros n Hn. apply is_RInt_times. now apply Uc.
Qed.

(** [I_ux] with [K_z]. *)
Lemma ux_schur (d : nat -> R) :
  0 <= Sum nu (fun i => Sum nu (fun j => d i * d j * (ux i j - Sum nz (fun m => Sum nz (fun n => Wz m n * (uz i m * uz j n)))))).
Proof. exact (kk_form al alt ga gat S Pa Pg S_nonneg nu tu Htu kk kk_features Q Q_rect d). Qed.

Context (Wu : nat -> nat -> R).
Hypothesis HWu : forall i j, (i < nu)%nat -> (j < nu)%nat -> Sum nu (fun k => Sum nu (fun l => Wu k i * KK ga gat tu k l * Wu l j)) = Wu i j.

Lemma hx_integral : is_integral (fun x => alt ^ 2 * exp (-2 * al * (t - x))) m_infty t hx.
Proof.
  rewrite Hhx. replace (alt ^ 2 / 2 / al) with (alt ^ 2 * (exp (2 * al * t + - (2 * al * t)) / (2 * al))).
  - apply is_integral_scal. apply (is_integral_ext (fun x => exp (2 * al * x + - (2 * al * t)))); [intros; f_equal; ring|].
    apply exp_below. lra.
  - rewrite Rplus_opp_r, exp_0. field. lra.
Qed.

Lemma rgpcm_residual :
  0 <= hx - Sum nu (fun i => Sum nu (fun j => Wu i j * ux i j)) - Sum nz (fun m => Sum nz (fun n => Wz m n * hz m n))
       + Sum nz (fun m => Sum nz (fun n => Wz m n * Sum nu (fun i => Sum nu (fun j => Wu i j * (uz i m * uz j n))))).
Proof.
  set (F := fun x => alt ^ 2 * exp (-2 * al * (t - x)) * (1 - Sum nz (fun m => Sum nz (fun n => Wz m n * (be m x * be n x))))).
  assert (HF : is_integral F m_infty t (hx - Sum nz (fun m => Sum nz (fun n => Wz m n * hz m n)))).
  { apply (is_integral_ext (fun x => alt ^ 2 * exp (-2 * al * (t - x)) - Sum nz (fun m => Sum nz (fun n => Wz m n * (alt ^ 2 * exp (-2 * al * (t - x)) * be m x * be n x))))).
    - intros x. unfold F. set (A := alt ^ 2 * exp (-2 * al * (t - x))). rewrite (Rmult_minus_distr_l A), Rmult_1_r. f_equal. rewrite <- Sum_scal. apply Sum_ext. intros m _. rewrite <- Sum_scal. apply Sum_ext. intros; ring.
    - apply is_integral_minus; [apply hx_integral|].
      apply (is_integral_Sum nz (fun m x => Sum nz (fun n => Wz m n * (alt ^ 2 * exp (-2 * al * (t - x)) * be m x * be n x)))). intros m Hm.
      apply (is_integral_Sum nz (fun n x => Wz m n * (alt ^ 2 * exp (-2 * al * (t - x)) * be m x * be n x))). intros n Hn.
      apply is_integral_scal. now apply Hhz. }
  set (F' := fun x => alt ^ 2 * exp (-2 * al * (t - x)) * (1 - Sum nz (fun m => Sum nz (fun n => Wz m n * (c m x * c n x))))).
  assert (CF : forall x, continuous F' x).
  { intros x. unfold F'. apply mult_cont; [apply scal_cont; apply (@ex_derive_continuous R_AbsRing R_NormedModule); auto_derive; auto|].
    apply (continuous_ext (fun x => 1 + -1 * Sum nz (fun m => Sum nz (fun n => Wz m n * (c m x * c n x))))); [intros; asR; ring|].
    apply plus_cont; [apply continuous_const|]. apply scal_cont.
    apply (Sum_cont nz (fun m x => Sum nz (fun n => Wz m n * (c m x * c n x)))). intros m.
    apply (Sum_cont nz (fun n x => Wz m n * (c m x * c n x))). intros n. apply scal_cont. apply mult_cont; apply (c_cont c c1 Hc). }
  destruct (cont_ex F' a t CF) as [v Hv].
  assert (HF' : is_RInt F a t v).
  { apply (is_RInt_ext F'); [|exact Hv]. intros x. rewrite Rmin_left, Rmax_right by lra. intros Hx. unfold F, F'.
    assert (Es : Sum nz (fun m => Sum nz (fun n => Wz m n * (be m x * be n x))) = Sum nz (fun m => Sum nz (fun n => Wz m n * (c m x * c n x)))).
    { apply Sum_ext. intros. apply Sum_ext. intros. rewrite !be_in by (auto; lra). ring. }
    now rewrite Es. }
  assert (HD : is_RInt (fun x => alt ^ 2 * exp (-2 * al * x) * kk x x) 0 S v).
  { pose proof (flip F' t a v Hv) as Fl. fold S in Fl. apply (is_RInt_ext (fun x => F' (t - x))); [|exact Fl].
    intros x _. unfold F', kk, kres. replace (t - (t - x)) with x by ring. replace (t - x - (t - x)) with 0 by ring. rewrite Rabs_R0, Rmult_0_r, exp_0. reflexivity. }
  pose proof (kk_residual al alt ga gat S Pa Pg S_nonneg nu tu Htu Wu HWu kk kk_features Q Q_rect v HD) as R1.
  assert (Hk : 0 <= kk S S) by (apply (kk_diag S kk kk_features); unfold S; lra).
  assert (R2 : v <= hx - Sum nz (fun m => Sum nz (fun n => Wz m n * hz m n))).
  { apply (tail_le F a t); [|exact HF|exact HF'|lra]. intros x Hx. unfold F.
    apply Rmult_le_pos; [apply Rmult_le_pos; [apply pow2_ge_0|left; apply exp_pos]|].
    set (V := Sum nz (fun m => Sum nz (fun n => Wz m n * (c m a * c n a)))).
    assert (HV : V <= 1).
    { unfold kk, kres in Hk. replace (t - S) with a in Hk by (unfold S; ring). replace (a - a) with 0 in Hk by ring. rewrite Rabs_R0, Rmult_0_r, exp_0 in Hk. fold V in Hk. lra. }
    set (e := exp (- lam * (a - x))).
    assert (Es : Sum nz (fun m => Sum nz (fun n => Wz m n * (be m x * be n x))) = e * e * V).
    { unfold V. rewrite <- Sum_scal. apply Sum_ext. intros m Hm. rewrite <- Sum_scal. apply Sum_ext. intros n Hn. rewrite !be_out by auto. fold e. ring. }
    rewrite Es. assert (0 < e <= 1).
    { unfold e. split; [apply exp_pos|]. apply exp_neg. assert (0 <= lam * (a - x)) by (apply Rmult_le_pos; lra). lra. }
    assert (0 <= e * e <= 1) by nra. nra. }
  assert (E : Sum nu (fun i => Sum nu (fun j => Wu i j * Q i j)) = Sum nu (fun i => Sum nu (fun j => Wu i j * ux i j))
     - Sum nz (fun m => Sum nz (fun n => Wz m n * Sum nu (fun i => Sum nu (fun j => Wu i j * (uz i m * uz j n)))))).
  { transitivity (Sum nu (fun i => Sum nu (fun j => Wu i j * ux i j)) - Sum nu (fun i => Sum nu (fun j => Sum nz (fun m => Sum nz (fun n => Wz m n * (Wu i j * (uz i m * uz j n))))))).
    - rewrite <- Sum_minus. apply Sum_ext. intros i _. rewrite <- Sum_minus. apply Sum_ext. intros j _. unfold Q. rewrite Rmult_minus_distr_l. f_equal.
      rewrite <- Sum_scal. apply Sum_ext. intros m _. rewrite <- Sum_scal. apply Sum_ext. intros; ring.
    - f_equal. transitivity (Sum nu (fun i => Sum nz (fun m => Sum nu (fun j => Sum nz (fun n => Wz m n * (Wu i j * (uz i m * uz j n))))))).
      { apply Sum_ext. intros i _. apply Sum_swap. }
      rewrite Sum_swap. apply Sum_ext. intros m _.
      transitivity (Sum nu (fun i => Sum nz (fun n => Sum nu (fun j => Wz m n * (Wu i j * (uz i m * uz j n)))))).
      { apply Sum_ext. intros i _. apply Sum_swap. }
      rewrite Sum_swap. apply Sum_ext. intros n _. rewrite <- Sum_scal. apply Sum_ext. intros i _. now rewrite <- Sum_scal. }
  rewrite E in R1. lra.
Qed.
End Time.
