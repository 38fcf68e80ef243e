(** Gram matrices: symmetric and positive semi-definite. *)
From Coq Require Import Reals ZArith List Bool String Lia Lra Psatz.
From Coquelicot Require Import Coquelicot.
From Verif Require Import Py ListFacts Gauss Gauss2 GpcmSpec.
Import ListNotations.
Local Open Scope R_scope.

Lemma is_integral_nonneg f (hi : Rbar) v : (forall x, 0 <= f x) -> is_integral f m_infty hi v -> 0 <= v.
Proof.
  intros P I. destruct (Rle_dec 0 v) as [|Nv]; auto. exfalso.
  assert (Hp : 0 < - v) by lra.
  destruct (I (ball v (mkposreal _ Hp)) (locally_ball _ _)) as [Q1 Q2 H1 H2 H].
  destruct (filter_ex Q2 H2) as [y Hy].
  assert (H3 : Rbar_locally m_infty (fun x => Q1 x /\ x < y)).
  { apply filter_and; auto. exists y. auto. }
  destruct (filter_ex _ H3) as [x [Hx Lx]].
  destruct (H x y Hx Hy) as [i [Ii Bi]]. simpl in Ii.
  unfold ball in Bi; simpl in Bi; unfold AbsRing_ball, abs, minus, plus, opp in Bi; simpl in Bi.
  apply Rabs_def2 in Bi. assert (0 <= i) by (apply (is_RInt_ge_0 f x y); auto; lra). lra.
Qed.

(** Quadratic forms of tabulated functions. *)
Definition lin (l : list (R * R)) (h : R -> R) : R := sum (map (fun tc => snd tc * h (fst tc)) l).

Lemma combine_map {A B C} (g : A -> B) (l : list A) (c : list C) :
  combine (map g l) c = map (fun p => (g (fst p), snd p)) (combine l c).
Proof. revert c. induction l as [|a l IH]; intros [|x c]; simpl; auto. now rewrite IH. Qed.

Lemma quad_table F (l c : list R) :
  quad_form (map (fun a => map (F a) l) l) c = lin (combine l c) (fun a => lin (combine l c) (F a)).
Proof.
  unfold quad_form, lin. rewrite combine_map, map_map. f_equal. apply map_ext. intros [a x]. simpl. f_equal.
  rewrite combine_map, map_map. f_equal. apply map_ext. intros [b y]. simpl. ring.
Qed.

Lemma lin_ext l h h' : (forall a, h a = h' a) -> lin l h = lin l h'.
Proof. intros E. unfold lin. f_equal. apply map_ext. intros. now rewrite E. Qed.

Lemma lin_scal l k h : lin l (fun a => k * h a) = k * lin l h.
Proof. unfold lin. induction l as [|p l IH]; simpl; [ring|]. rewrite IH. ring. Qed.

Lemma is_integral_zero (hi : Rbar) : is_integral (fun _ => 0) m_infty hi 0.
Proof.
  assert (J : is_integral (qf (-1) 0 0) m_infty hi (qlim (-1) 0 0 hi - qlim (-1) 0 0 m_infty)) by (apply quad_integral; lra).
  pose proof (is_integral_scal 0 _ _ _ _ J) as K. rewrite Rmult_0_l in K.
  eapply is_integral_ext; [|exact K]. intros x. cbv beta. ring.
Qed.

Lemma lin_integral (l : list (R * R)) (f : R -> R -> R) (hi : Rbar) (h : R -> R) :
  (forall a, is_integral (f a) m_infty hi (h a)) -> is_integral (fun x => lin l (fun a => f a x)) m_infty hi (lin l h).
Proof.
  intros H. induction l as [|p l IH].
  - apply is_integral_zero.
  - apply (is_integral_plus (fun x => snd p * f (fst p) x) (fun x => lin l (fun a => f a x))).
    + apply is_integral_scal. apply H.
    + exact IH.
Qed.

(** A matrix of integrals of products of a feature is positive semi-definite. *)
Lemma gram_psd (F : R -> R -> R) (phi : R -> R -> R) (hi : Rbar) (l : list R) :
  (forall a b, is_integral (fun x => phi a x * phi b x) m_infty hi (F a b)) ->
  psd (map (fun a => map (F a) l) l).
Proof.
  intros H c _. rewrite quad_table. set (p := combine l c).
  assert (I : is_integral (fun x => lin p (fun a => lin p (fun b => phi a x * phi b x))) m_infty hi (lin p (fun a => lin p (F a)))).
  { apply (lin_integral p (fun a x => lin p (fun b => phi a x * phi b x)) hi (fun a => lin p (F a))).
    intros a. apply (lin_integral p (fun b x => phi a x * phi b x) hi (F a)). auto. }
  eapply is_integral_nonneg; [|exact I]. intros x.
  assert (E : lin p (fun a => lin p (fun b => phi a x * phi b x)) = lin p (fun a => phi a x) ^ 2).
  { transitivity (lin p (fun a => lin p (fun b => phi b x) * phi a x)).
    - apply lin_ext. intros a. rewrite lin_scal. ring.
    - rewrite lin_scal. ring. }
  cbv beta. rewrite E. apply pow2_ge_0.
Qed.

(** Rescaling rows and columns keeps positive semi-definiteness. *)
Lemma lin_weight l c (s : R -> R) h :
  lin (combine l c) (fun a => s a * h a) = lin (combine l (map (fun p => s (fst p) * snd p) (combine l c))) h.
Proof.
  unfold lin. revert c. induction l as [|a l IH]; intros [|x c]; simpl; auto. rewrite IH. ring.
Qed.

Lemma psd_scale F (s : R -> R) l :
  psd (map (fun a => map (F a) l) l) -> psd (map (fun a => map (fun b => s a * s b * F a b) l) l).
Proof.
  intros H c Hc. rewrite map_length in Hc. rewrite quad_table.
  eapply Rle_trans with (quad_form (map (fun a => map (F a) l) l) (map (fun p => s (fst p) * snd p) (combine l c))).
  - apply H. rewrite !map_length, combine_length. lia.
  - right. rewrite quad_table. rewrite <- !lin_weight. apply lin_ext. intros a.
    rewrite <- lin_weight, <- lin_scal. apply lin_ext. intros b. ring.
Qed.

(** Rank one. *)
Lemma psd_rank1 (s : R -> R) l : psd (map (fun a => map (fun b => s a * s b) l) l).
Proof.
  intros c _. rewrite quad_table. set (p := combine l c).
  assert (E : lin p (fun a => lin p (fun b => s a * s b)) = lin p s ^ 2).
  { transitivity (lin p (fun a => lin p s * s a)).
    - apply lin_ext. intros a. rewrite lin_scal. ring.
    - rewrite lin_scal. ring. }
  rewrite E. apply pow2_ge_0.
Qed.

Lemma table_at2 (F : R -> R -> R) (l l' : list R) i j :
  at2 (map (fun a => map (F a) l') l) i j
  = match nth_error l i, nth_error l' j with Some a, Some b => Some (F a b) | _, _ => None end.
Proof.
  unfold at2. rewrite nth_error_map. destruct (nth_error l i) as [a|]; simpl; auto. rewrite nth_error_map.
  destruct (nth_error l' j); auto.
Qed.

Lemma table_symmetric (F : R -> R -> R) l : (forall a b, F a b = F b a) -> symmetric (map (fun a => map (F a) l) l).
Proof.
  intros H i j. rewrite !table_at2. destruct (nth_error l i), (nth_error l j); auto. now rewrite H.
Qed.

(** A computed table. *)
Lemma mapM_table {A B} (f : A -> B -> res R) (F : A -> B -> R) la lb r :
  (forall a b y, f a b = Ok y -> y = F a b) ->
  mapM (fun a => mapM (f a) lb) la = Ok r -> r = map (fun a => map (F a) lb) la.
Proof.
  intros H E. apply mapM_Ok in E. induction E as [|a row la r E _ IH]; auto. simpl. f_equal; auto.
  apply mapM_Ok in E. clear IH. induction E as [|b y lb row E _ IH]; auto. simpl. f_equal; auto.
Qed.

(** The squared-exponential kernel as an integral of products. *)
Lemma gauss_product w a b : 0 < w ->
  is_integral (fun x => exp (- w * (a - x) ^ 2) * exp (- w * (b - x) ^ 2)) m_infty p_infty
    (sqrt (PI / (2 * w)) * exp (- (w / 2) * (a - b) ^ 2)).
Proof.
  intros Hw.
  replace (sqrt (PI / (2 * w)) * exp (- (w / 2) * (a - b) ^ 2))
    with (sqrt (- PI / (-2 * w)) * exp (- / 4 * (2 * w * (a + b)) ^ 2 / (-2 * w) + (- w * (a ^ 2 + b ^ 2)))).
  - eapply is_integral_ext; [|apply (gauss_full (-2 * w) (2 * w * (a + b)) (- w * (a ^ 2 + b ^ 2))); lra].
    intros x. unfold qf. rewrite <- exp_plus. f_equal. ring.
  - f_equal; f_equal; field; lra.
Qed.

Lemma eq_kernel_psd g l : 0 <= g -> psd (map (fun a => map (fun b => exp (- g * (a - b) ^ 2)) l) l).
Proof.
  intros [Hg|<-].
  - set (k := sqrt (/ sqrt (PI / (2 * (2 * g))))).
    assert (Sp : 0 < sqrt (PI / (2 * (2 * g)))).
    { apply sqrt_lt_R0. apply Rdiv_lt_0_compat; [apply PI_RGT_0|lra]. }
    assert (Hk : k * k = / sqrt (PI / (2 * (2 * g)))).
    { apply sqrt_sqrt. left. now apply Rinv_0_lt_compat. }
    apply (gram_psd _ (fun a x => k * exp (- (2 * g) * (a - x) ^ 2)) p_infty).
    intros a b. pose proof (is_integral_scal (k * k) _ _ _ _ (gauss_product (2 * g) a b ltac:(lra))) as I.
    replace (exp (- g * (a - b) ^ 2)) with (k * k * (sqrt (PI / (2 * (2 * g))) * exp (- (2 * g / 2) * (a - b) ^ 2))).
    + eapply is_integral_ext; [|exact I]. intros x. cbv beta. ring.
    + rewrite Hk. replace (- (2 * g / 2)) with (- g) by field. field. lra.
  - intros c Hc. pose proof (psd_rank1 (fun _ => 1) l c) as P. rewrite !map_length in *. specialize (P Hc).
    replace (map (fun a => map (fun b => exp (- 0 * (a - b) ^ 2)) l) l) with (map (fun _ : R => map (fun _ : R => 1 * 1) l) l); auto.
    apply map_ext. intros a. apply map_ext. intros b. rewrite Ropp_0, Rmult_0_l, exp_0. ring.
Qed.
