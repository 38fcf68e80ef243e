(** The kernel of the RGPCM given the inducing variables of the filter is positive definite. *)
From Coq Require Import Reals Lra Lia Psatz.
From Coquelicot Require Import Coquelicot.
From Verif Require Import GaussFeat GpcmEntries RgpcmSpec KernelForm.
Local Open Scope R_scope.

(** ** Sums *)
Lemma Sum_close n f g e : (forall i, (i < n)%nat -> Rabs (f i - g i) <= e i) -> Rabs (Sum n f - Sum n g) <= Sum n e.
Proof.
  induction n as [|n IH]; intros H; cbn [Sum]; [rewrite Rminus_0_r, Rabs_R0; lra|].
  replace (Sum n f + f n - (Sum n g + g n)) with ((Sum n f - Sum n g) + (f n - g n)) by ring.
  eapply Rle_trans; [apply Rabs_triang|]. apply Rplus_le_compat; [apply IH; auto|apply H; lia].
Qed.
Lemma Sum_le n f g : (forall i, (i < n)%nat -> f i <= g i) -> Sum n f <= Sum n g.
Proof. induction n as [|n IH]; intros H; cbn [Sum]; [lra|]. apply Rplus_le_compat; [apply IH; auto|apply H; lia]. Qed.
Lemma Sum_pos n f : (forall i, (i < n)%nat -> 0 <= f i) -> 0 <= Sum n f.
Proof. intros H. rewrite <- (Sum_zero n). now apply Sum_le. Qed.

Lemma is_RInt_zero (a b : R) : is_RInt (fun _ => 0) a b 0.
Proof.
  apply (is_RInt_ext (fun x => 0 * 1)); [intros z _; apply Rmult_0_l|].
  pose proof (@is_RInt_scal R_NormedModule (fun _ => 1) a b 0 _ (@is_RInt_const R_NormedModule a b 1)) as P.
  refine (eq_ind _ (fun v => is_RInt (fun _ : R => 0 * 1) a b v) P 0 _). unfold scal; cbn; unfold mult; cbn. ring.
Qed.
Lemma is_RInt_Sum N (f : nat -> R -> R) (v : nat -> R) a b : (forall k, (k < N)%nat -> is_RInt (f k) a b (v k)) ->
  is_RInt (fun x => Sum N (fun k => f k x)) a b (Sum N v).
Proof.
  induction N as [|N IH]; intros H; cbn [Sum].
  - apply is_RInt_zero.
  - apply (@is_RInt_plus R_NormedModule); [apply IH; auto|apply H; lia].
Qed.

(** ** Truncated exponentials *)
Definition ind (x s : R) : R := if Rle_dec x s then 1 else 0.
Definition E (a s x : R) : R := exp (a * x) * ind x s.

Lemma ind_shift (r t x : R) : ind r (t - x) = ind x (t - r).
Proof. unfold ind. destruct (Rle_dec r (t - x)), (Rle_dec x (t - r)); lra. Qed.
Lemma ind_min x s s' : ind x s * ind x s' = ind x (Rmin s s').
Proof.
  unfold ind. pose proof (Rmin_l s s'). pose proof (Rmin_r s s').
  destruct (Rle_dec x s), (Rle_dec x s'), (Rle_dec x (Rmin s s')); try lra.
  exfalso. apply n. now apply Rmin_glb.
Qed.
Lemma E_mul a b s s' x : E a s x * E b s' x = E (a + b) (Rmin s s') x.
Proof. unfold E. rewrite <- ind_min, Rmult_plus_distr_r, exp_plus. ring. Qed.

Lemma ex_exp a x y : ex_RInt (fun x => exp (a * x)) x y.
Proof.
  apply (@ex_RInt_continuous R_CompleteNormedModule). intros z _.
  apply (@ex_derive_continuous R_AbsRing R_NormedModule (fun x => exp (a * x))). auto_derive. auto.
Qed.

Lemma E_inside a s x y : x <= y -> y <= s -> is_RInt (E a s) x y (RInt (fun x => exp (a * x)) x y).
Proof.
  intros Hxy Hs. apply (is_RInt_ext (fun x => exp (a * x))).
  - intros z. rewrite Rmin_left, Rmax_right by lra. intros Hz. unfold E, ind. destruct (Rle_dec z s); lra.
  - apply (@RInt_correct R_CompleteNormedModule), ex_exp.
Qed.
Lemma E_outside a s x y : x <= y -> s <= x -> is_RInt (E a s) x y 0.
Proof.
  intros Hxy Hs. apply (is_RInt_ext (fun _ => 0)).
  - intros z. rewrite Rmin_left, Rmax_right by lra. intros Hz. unfold E, ind. destruct (Rle_dec z s); lra.
  - apply is_RInt_zero.
Qed.
Lemma E_cut a s u T : 0 <= u <= T -> is_RInt (E a (Rmin s u)) 0 T (RInt (fun x => exp (a * x)) 0 (Rmax 0 (Rmin s u))).
Proof.
  intros [H0 HT]. pose proof (Rmin_r s u) as M. set (c := Rmin s u) in *. pose proof (Rmax_l 0 c). pose proof (Rmax_r 0 c).
  assert (Rmax 0 c <= T) by (apply Rmax_lub; lra).
  rewrite <- (Rplus_0_r (RInt _ _ _)). apply (@is_RInt_Chasles R_NormedModule _ 0 (Rmax 0 c)).
  - destruct (Rle_dec 0 c) as [L|L].
    + apply E_inside; [auto|]. rewrite Rmax_right; lra.
    + rewrite Rmax_left by lra. rewrite RInt_point. apply @is_RInt_point.
  - apply E_outside; auto.
Qed.
Lemma E_int a s T : 0 <= T -> is_RInt (E a s) 0 T (RInt (fun x => exp (a * x)) 0 (Rmax 0 (Rmin s T))).
Proof.
  intros H. apply (is_RInt_ext (E a (Rmin s T))); [|apply E_cut; lra].
  intros z. rewrite Rmin_left, Rmax_right by lra. intros Hz. unfold E. rewrite <- ind_min. unfold ind at 2. destruct (Rle_dec z T); lra.
Qed.

Definition J (T a s : R) : R := RInt (fun x => exp (a * x)) 0 (Rmax 0 (Rmin s T)).
Lemma J_spec T a s : 0 <= T -> is_RInt (E a s) 0 T (J T a s).
Proof. apply E_int. Qed.
Lemma J_cut T a s u : 0 <= u <= T -> J T a (Rmin s u) = J u a s.
Proof. intros H. unfold J. rewrite <- Rmin_assoc, (Rmin_left u T) by lra. reflexivity. Qed.

Lemma scal_mult (a b : R) : scal a b = a * b.
Proof. reflexivity. Qed.
Lemma is_RInt_times (c : R) (f : R -> R) a b v : is_RInt f a b v -> is_RInt (fun x => c * f x) a b (c * v).
Proof. intros H. exact (@is_RInt_scal R_NormedModule f a b c v H). Qed.

(** Gram matrices are positive semi-definite. *)
Lemma gramE T n (a s d : nat -> R) : 0 <= T ->
  0 <= Sum n (fun i => Sum n (fun j => d i * d j * J T (a i + a j) (Rmin (s i) (s j)))).
Proof.
  intros HT. apply (is_RInt_ge_0 (fun x => Sum n (fun i => Sum n (fun j => d i * d j * E (a i + a j) (Rmin (s i) (s j)) x))) 0 T); [auto| |].
  - apply (is_RInt_Sum n (fun i x => Sum n (fun j => d i * d j * E (a i + a j) (Rmin (s i) (s j)) x))). intros i _.
    apply (is_RInt_Sum n (fun j x => d i * d j * E (a i + a j) (Rmin (s i) (s j)) x)). intros j _. apply is_RInt_times. now apply J_spec.
  - intros x _. rewrite (Sum_ext n _ (fun i => Sum n (fun j => d i * E (a i) (s i) x * (d j * E (a j) (s j) x)))).
    + rewrite <- Sum_sq. apply Rle_0_sqr.
    + intros i _. apply Sum_ext. intros j _. rewrite <- E_mul. ring.
Qed.

(** ** Features of the exponential kernel *)
Lemma telescope (f r : nat -> R) (D m : R) N : (forall k, r (S k) = r k + D) -> 0 < D -> r O <= m ->
  (r N <= m /\ Sum N (fun k => (f (S k) - f k) * ind (r k) m) = f N - f O) \/
  (exists j, m < r j <= m + D /\ r j <= r N /\ Sum N (fun k => (f (S k) - f k) * ind (r k) m) = f j - f O).
Proof.
  intros Hr HD H0. induction N as [|N [[H1 H2]|[j [H1 [H2 H3]]]]]; cbn [Sum].
  - left. split; [auto|ring].
  - rewrite H2. assert (I1 : ind (r N) m = 1) by (unfold ind; destruct (Rle_dec (r N) m); lra). rewrite I1.
    destruct (Rle_dec (r (S N)) m) as [L|L].
    + left. split; [auto|ring].
    + right. exists (S N). rewrite Hr in *. split; [lra|]. split; [lra|ring].
  - right. exists j. split; auto. rewrite Hr. split; [lra|]. rewrite H3.
    assert (I0 : ind (r N) m = 0) by (unfold ind; destruct (Rle_dec (r N) m); lra). rewrite I0. ring.
Qed.

Definition feat (lam C r s : R) : R := C * exp (- lam * s) * ind r s.

Lemma ind_min_l r s1 s2 : ind r s1 * ind r s2 = ind r (Rmin s1 s2).
Proof.
  unfold ind. pose proof (Rmin_l s1 s2). pose proof (Rmin_r s1 s2).
  destruct (Rle_dec r s1), (Rle_dec r s2), (Rle_dec r (Rmin s1 s2)); try lra. exfalso. apply n. now apply Rmin_glb.
Qed.
Lemma Rabs_min s1 s2 : Rabs (s1 - s2) = s1 + s2 - 2 * Rmin s1 s2.
Proof. unfold Rmin, Rabs. destruct (Rle_dec s1 s2), (Rcase_abs (s1 - s2)); lra. Qed.

Lemma features lam M eps : 0 < lam -> 0 <= M -> 0 < eps ->
  exists N (C r : nat -> R), forall s1 s2, Rabs s1 <= M -> Rabs s2 <= M ->
    Rabs (Sum N (fun k => feat lam (C k) (r k) s1 * feat lam (C k) (r k) s2) - exp (- lam * Rabs (s1 - s2))) <= eps.
Proof.
  intros HL HM He.
  set (D := ln (1 + eps / 2) / (2 * lam)).
  assert (L0 : 0 < ln (1 + eps / 2)) by (rewrite <- ln_1; apply ln_increasing; lra).
  assert (HD : 0 < D) by (apply Rdiv_lt_0_compat; lra).
  assert (ED : exp (2 * lam * D) = 1 + eps / 2) by (unfold D; replace (2 * lam * _) with (ln (1 + eps / 2)) by (field; lra); apply exp_ln; lra).
  set (r0 := Rmin (- M) (ln (eps / 2) / (2 * lam) - M)).
  set (r := fun k => r0 + INR k * D).
  set (f := fun k => exp (2 * lam * r k)).
  set (N := Z.to_nat (up ((M - r0) / D))).
  assert (HN : M < r N).
  { unfold r. destruct (archimed ((M - r0) / D)) as [A _].
    assert (R0M : r0 <= M) by (unfold r0; pose proof (Rmin_l (- M) (ln (eps / 2) / (2 * lam) - M)); lra).
    assert (Q : 0 <= (M - r0) / D) by (apply Rmult_le_pos; [lra|left; now apply Rinv_0_lt_compat]).
    assert (INR N = IZR (up ((M - r0) / D))).
    { unfold N. rewrite INR_IZR_INZ, Z2Nat.id; [reflexivity|]. apply le_IZR. lra. }
    rewrite H. apply Rgt_lt, (Rmult_lt_compat_r D) in A; [|exact HD].
    replace ((M - r0) / D * D) with (M - r0) in A by (field; lra). lra. }
  assert (Hr : forall k, r (S k) = r k + D) by (intros k; unfold r; rewrite S_INR; ring).
  assert (Fup : forall k, 0 <= f (S k) - f k).
  { intros k. unfold f. rewrite Hr. assert (exp (2 * lam * r k) <= exp (2 * lam * (r k + D))); [|lra].
    left. apply exp_increasing. apply Rmult_lt_compat_l; lra. }
  exists N, (fun k => sqrt (f (S k) - f k)), r. intros s1 s2 H1 H2.
  set (m := Rmin s1 s2).
  assert (Hm : - M <= m <= M).
  { apply Rabs_le_between in H1. apply Rabs_le_between in H2. unfold m. split; [apply Rmin_glb; lra|]. pose proof (Rmin_l s1 s2). lra. }
  rewrite (Sum_ext N _ (fun k => (f (S k) - f k) * ind (r k) m * exp (- lam * (s1 + s2)))).
  2:{ intros k _. unfold feat, m. rewrite <- ind_min_l. rewrite <- (sqrt_sqrt _ (Fup k)) at 3.
      replace (- lam * (s1 + s2)) with (- lam * s1 + - lam * s2) by ring. rewrite exp_plus. ring. }
  rewrite Sum_scal_r.
  assert (H0 : r O <= m).
  { unfold r, r0. cbn [INR]. pose proof (Rmin_l (- M) (ln (eps / 2) / (2 * lam) - M)). lra. }
  destruct (telescope f r D m N Hr HD H0) as [[A _]|[j [A [_ B]]]]; [lra|]. rewrite B. clear B.
  assert (E0 : exp (- lam * Rabs (s1 - s2)) = exp (2 * lam * m) * exp (- lam * (s1 + s2))).
  { rewrite <- exp_plus. f_equal. rewrite Rabs_min. unfold m. ring. }
  rewrite E0. set (e := exp (- lam * (s1 + s2))).
  assert (Pe : 0 < e) by apply exp_pos.
  replace ((f j - f 0%nat) * e - exp (2 * lam * m) * e) with ((f j - exp (2 * lam * m)) * e - f 0%nat * e) by ring.
  assert (Le : e <= exp (- (2 * lam * m))).
  { unfold e. assert (X : - lam * (s1 + s2) <= - (2 * lam * m)).
    { assert (2 * m <= s1 + s2) by (unfold m; pose proof (Rmin_l s1 s2); pose proof (Rmin_r s1 s2); lra). nra. }
    destruct X as [X|X]; [left; now apply exp_increasing|right; now rewrite X]. }
  assert (P1 : 0 <= (f j - exp (2 * lam * m)) * e <= eps / 2).
  { assert (0 <= f j - exp (2 * lam * m)).
    { unfold f. assert (exp (2 * lam * m) < exp (2 * lam * r j)); [|lra]. apply exp_increasing. apply Rmult_lt_compat_l; lra. }
    split; [apply Rmult_le_pos; lra|].
    assert (U : f j <= exp (2 * lam * m) * (1 + eps / 2)).
    { rewrite <- ED, <- exp_plus. unfold f. assert (X : 2 * lam * r j <= 2 * lam * m + 2 * lam * D).
      { rewrite <- Rmult_plus_distr_l. apply Rmult_le_compat_l; lra. }
      destruct X as [X|X]; [left; now apply exp_increasing|right; now rewrite X]. }
    apply Rle_trans with (exp (2 * lam * m) * (eps / 2) * exp (- (2 * lam * m))).
    - apply Rmult_le_compat; lra.
    - rewrite exp_Ropp. right. field. apply Rgt_not_eq, exp_pos. }
  assert (P2 : 0 <= f 0%nat * e <= eps / 2).
  { assert (Pf : 0 < f 0%nat) by (unfold f; apply exp_pos). split; [apply Rmult_le_pos; lra|].
    apply Rle_trans with (f 0%nat * exp (- (2 * lam * m))); [apply Rmult_le_compat_l; lra|].
    unfold f. rewrite <- exp_plus. apply Rle_trans with (exp (ln (eps / 2))); [|right; apply exp_ln; lra].
    assert (X : 2 * lam * r 0%nat + - (2 * lam * m) <= ln (eps / 2)).
    { assert (Y : r 0%nat <= ln (eps / 2) / (2 * lam) - M).
      { unfold r, r0. cbn [INR]. pose proof (Rmin_r (- M) (ln (eps / 2) / (2 * lam) - M)). lra. }
      apply Rle_trans with (2 * lam * (ln (eps / 2) / (2 * lam) - M) + - (2 * lam * m)).
      - apply Rplus_le_compat_r, Rmult_le_compat_l; lra.
      - replace (2 * lam * (ln (eps / 2) / (2 * lam) - M)) with (ln (eps / 2) - 2 * lam * M) by (field; lra). nra. }
    destruct X as [X|X]; [left; now apply exp_increasing|right; now rewrite X]. }
  apply Rabs_le. lra.
Qed.

(** ** The kernel *)
Ltac asR := match goal with |- @eq _ ?x ?y => change (@eq R x y) end.
Lemma J_value T a m : 0 < a -> 0 <= m <= T -> J T a m = (exp (a * m) - 1) / a.
Proof.
  intros Ha Hm. unfold J. rewrite Rmin_left, Rmax_right by lra. apply is_RInt_unique.
  replace ((exp (a * m) - 1) / a) with (minus (exp (a * m) / a) (exp (a * 0) / a)).
  2:{ unfold minus, plus, opp; cbn. rewrite Rmult_0_r, exp_0. field. lra. }
  apply (is_RInt_derive (fun x => exp (a * x) / a)).
  - intros x _. auto_derive; auto. field. lra.
  - intros x _. apply (@ex_derive_continuous R_AbsRing R_NormedModule (fun x => exp (a * x))). auto_derive. auto.
Qed.

Lemma is_RInt_close (f g : R -> R) a b vf vg e : a <= b -> is_RInt f a b vf -> is_RInt g a b vg ->
  (forall x, a <= x <= b -> Rabs (f x - g x) <= e) -> Rabs (vf - vg) <= (b - a) * e.
Proof.
  intros Hab Hf Hg H. apply (norm_RInt_le_const (fun x => minus (f x) (g x)) a b (minus vf vg) e Hab).
  - intros x Hx. exact (H x Hx).
  - now apply (@is_RInt_minus R_NormedModule).
Qed.

Section Kernel.
Context (al alt ga gat lam T : R) (Pal : 0 < al) (Pga : 0 < ga) (Pl : 0 < lam) (HT : 0 <= T).
Context (n nu : nat) (t tu : nat -> R).
Hypothesis Htu : forall a, (a < nu)%nat -> 0 <= tu a <= T.
Context (hx : nat -> nat -> R) (ux : nat -> nat -> nat -> nat -> R).
Hypothesis Hhx : forall p q, (p < n)%nat -> (q < n)%nat -> hx p q = alt ^ 2 / 2 / al * exp (- lam * Rabs (t p - t q)).
Hypothesis Hux : forall p q a b, (p < n)%nat -> (q < n)%nat -> (a < nu)%nat -> (b < nu)%nat ->
  is_rect_integral (fun x y => alt ^ 2 * gat ^ 2 * exp (- al * (x + y) - ga * (tu a - x) - ga * (tu b - y))
     * exp (- lam * Rabs ((t p - x) - (t q - y)))) 0 (tu a) 0 (tu b) (ux p q a b).
Context (W : nat -> nat -> R) (v c : nat -> R).
Let K (a b : nat) : R := gat ^ 2 / (2 * ga) * exp (- ga * Rabs (tu a - tu b)).
Hypothesis HW : forall i j, (i < nu)%nat -> (j < nu)%nat ->
  Sum nu (fun k => Sum nu (fun l => W k i * K k l * W l j)) = W i j.

Let phi (a : nat) (x : R) : R := alt * gat * exp (- ga * tu a) * exp ((ga - al) * x).

Lemma phi_bound a x : 0 <= x <= tu a -> Rabs (phi a x) <= Rabs (alt * gat).
Proof.
  intros Hx. unfold phi. rewrite Rmult_assoc, <- exp_plus, Rabs_mult. rewrite (Rabs_pos_eq (exp _)) by (left; apply exp_pos).
  rewrite <- (Rmult_1_r (Rabs (alt * gat))) at 2. apply Rmult_le_compat_l; [apply Rabs_pos|].
  rewrite <- exp_0. assert (X : - ga * tu a + (ga - al) * x <= 0).
  { replace (- ga * tu a + (ga - al) * x) with (- (ga * (tu a - x)) - al * x) by ring.
    assert (0 <= ga * (tu a - x)) by (apply Rmult_le_pos; lra). assert (0 <= al * x) by (apply Rmult_le_pos; lra). lra. }
  destruct X as [X|X]; [left; now apply exp_increasing|right; now rewrite X].
Qed.

Definition fX (C r : R) (p a : nat) : R := alt * gat * exp (- ga * tu a) * (C * exp (- lam * t p)) * J (tu a) (lam - al + ga) (t p - r).
Definition fY (C r : R) (p q : nat) : R := alt ^ 2 * (C * exp (- lam * t p)) * (C * exp (- lam * t q)) * J T (lam - al + (lam - al)) (Rmin (t p - r) (t q - r)).

Section Feature.
Context (C r : R).
Let X := fX C r.
Let Y := fY C r.

Lemma feat_E p x : feat lam C r (t p - x) = C * exp (- lam * t p) * E lam (t p - r) x.
Proof.
  unfold feat, E. rewrite ind_shift. replace (- lam * (t p - x)) with (- lam * t p + lam * x) by ring. rewrite exp_plus. ring.
Qed.

Lemma X_spec p a : (a < nu)%nat -> is_RInt (fun x => phi a x * feat lam C r (t p - x)) 0 (tu a) (X p a).
Proof.
  intros Ha. eapply is_RInt_ext; [|apply (is_RInt_times (alt * gat * exp (- ga * tu a) * (C * exp (- lam * t p)))); apply J_spec; apply (Htu a Ha)].
  intros x _. cbv beta. asR. rewrite feat_E. unfold phi, E.
  replace ((lam - al + ga) * x) with ((ga - al) * x + lam * x) by ring. rewrite exp_plus. ring.
Qed.
Lemma Y_spec p q : is_RInt (fun x => alt ^ 2 * exp (- 2 * al * x) * (feat lam C r (t p - x) * feat lam C r (t q - x))) 0 T (Y p q).
Proof.
  eapply is_RInt_ext; [|apply (is_RInt_times (alt ^ 2 * (C * exp (- lam * t p)) * (C * exp (- lam * t q)))); apply J_spec; exact HT].
  intros x _. cbv beta. asR. rewrite !feat_E. rewrite <- E_mul. unfold E.
  replace ((lam - al) * x) with (lam * x + - al * x) by ring. replace (-2 * al * x) with (- al * x + - al * x) by ring. rewrite !exp_plus. ring.
Qed.

Lemma Rmin_exp a b : exp (- ga * tu a) * exp (- ga * tu b) * exp ((ga + ga) * Rmin (tu a) (tu b)) = exp (- ga * Rabs (tu a - tu b)).
Proof. rewrite <- !exp_plus. f_equal. rewrite Rabs_min. ring. Qed.

Lemma bessel : wform nu W (fun a => Sum n (fun p => c p * X p a)) <= Sum n (fun p => Sum n (fun q => c p * c q * Y p q)).
Proof.
  set (b := fun a => Sum n (fun p => c p * X p a)). set (w := weights nu W b).
  pose proof (gramE T (n + nu) (fun i => if lt_dec i n then lam - al else ga) (fun i => if lt_dec i n then t i - r else tu (i - n)%nat)
    (fun i => if lt_dec i n then c i * (alt * (C * exp (- lam * t i))) else - (w (i - n)%nat * (gat * exp (- ga * tu (i - n)%nat)))) HT) as G.
  set (A := fun i => if lt_dec i n then lam - al else ga) in *. set (S := fun i => if lt_dec i n then t i - r else tu (i - n)%nat) in *.
  set (D := fun i => if lt_dec i n then c i * (alt * (C * exp (- lam * t i))) else - (w (i - n)%nat * (gat * exp (- ga * tu (i - n)%nat)))) in *.
  assert (P1 : forall i, (i < n)%nat -> A i = lam - al /\ S i = t i - r /\ D i = c i * (alt * (C * exp (- lam * t i)))).
  { intros i Hi. unfold A, S, D. destruct (lt_dec i n); [auto|lia]. }
  assert (P2 : forall i, A (n + i)%nat = ga /\ S (n + i)%nat = tu i /\ D (n + i)%nat = - (w i * (gat * exp (- ga * tu i)))).
  { intros i. unfold A, S, D. destruct (lt_dec (n + i) n); [lia|]. replace (n + i - n)%nat with i by lia. auto. }
  clearbody A S D.
  assert (E1 : Sum n (fun i => Sum (n + nu) (fun j => D i * D j * J T (A i + A j) (Rmin (S i) (S j))))
     = Sum n (fun p => Sum n (fun q => c p * c q * Y p q)) - wform nu W b).
  { rewrite <- weights_dot. fold w.
    assert (Eb : Sum nu (fun i => w i * b i) = Sum n (fun p => Sum nu (fun a => c p * w a * X p a))).
    { rewrite Sum_swap. apply Sum_ext. intros a _. unfold b. rewrite <- Sum_scal. apply Sum_ext. intros p _. ring. }
    rewrite Eb, <- Sum_minus. apply Sum_ext. intros p Hp. destruct (P1 p Hp) as [A1 [S1 D1]]. rewrite Sum_app. unfold Rminus. f_equal.
    - apply Sum_ext. intros q Hq. destruct (P1 q Hq) as [A2 [S2 D2]]. rewrite A1, A2, S1, S2, D1, D2. unfold Y, fY. ring.
    - replace (- Sum nu (fun a => c p * w a * X p a)) with (-1 * Sum nu (fun a => c p * w a * X p a)) by ring. rewrite <- Sum_scal.
      apply Sum_ext. intros a Ha. destruct (P2 a) as [A2 [S2 D2]]. rewrite A1, A2, S1, S2, D1, D2. unfold X, fX. rewrite J_cut by (now apply Htu). ring. }
  assert (E2 : Sum nu (fun i => Sum (n + nu) (fun j => D (n + i)%nat * D j * J T (A (n + i)%nat + A j) (Rmin (S (n + i)%nat) (S j))))
     = Sum nu (fun a => Sum nu (fun a' => w a * w a' * K a a')) - gat ^ 2 / (2 * ga) * (Sum nu (fun a => w a * exp (- ga * tu a)) * Sum nu (fun a => w a * exp (- ga * tu a))) - wform nu W b).
  { rewrite <- weights_dot. fold w. rewrite Sum_sq, <- Sum_scal, <- !Sum_minus. apply Sum_ext. intros a Ha. destruct (P2 a) as [A1 [S1 D1]]. rewrite Sum_app.
    assert (Eb : Sum n (fun j => D (n + a)%nat * D j * J T (A (n + a)%nat + A j) (Rmin (S (n + a)%nat) (S j))) = - (w a * b a)).
    { unfold b. rewrite <- Sum_scal. replace (- Sum n (fun i => w a * (c i * X i a))) with (-1 * Sum n (fun i => w a * (c i * X i a))) by ring.
      rewrite <- Sum_scal. apply Sum_ext. intros p Hp. destruct (P1 p Hp) as [A2 [S2 D2]]. rewrite A1, A2, S1, S2, D1, D2. unfold X, fX.
      rewrite (Rmin_comm (tu a)), J_cut by (now apply Htu). rewrite (Rplus_comm ga). ring. }
    rewrite Eb. rewrite <- Sum_scal, <- Sum_minus.
    match goal with |- _ + ?x = ?y - _ => assert (Ex : x = y); [|rewrite Ex; ring] end.
    apply Sum_ext. intros a' Ha'. destruct (P2 a') as [A2 [S2 D2]]. rewrite A1, A2, S1, S2, D1, D2. unfold K. rewrite <- Rmin_exp.
    pose proof (Htu a Ha). pose proof (Htu a' Ha').
    assert (0 <= Rmin (tu a) (tu a')) by (apply Rmin_glb; lra). pose proof (Rmin_l (tu a) (tu a')).
    rewrite J_value by lra. field. lra. }
  rewrite Sum_app in G. cbv beta in G. rewrite E1, E2 in G.
  pose proof (weights_form nu K W HW b) as F. fold w in F. rewrite F in G.
  assert (0 <= gat ^ 2 / (2 * ga) * (Sum nu (fun a => w a * exp (- ga * tu a)) * Sum nu (fun a => w a * exp (- ga * tu a)))); [|lra].
  apply Rmult_le_pos; [|apply Rle_0_sqr]. apply Rmult_le_pos; [apply pow2_ge_0|]. left. apply Rinv_0_lt_compat. lra.
Qed.
End Feature.

Section Limit.
Context (N : nat) (C r : nat -> R) (eps : R).
Let kn (s1 s2 : R) : R := Sum N (fun k => feat lam (C k) (r k) s1 * feat lam (C k) (r k) s2).
Hypothesis Pe : 0 <= eps.
Hypothesis Hkn : forall p q x y, (p < n)%nat -> (q < n)%nat -> 0 <= x <= T -> 0 <= y <= T ->
  Rabs (kn (t p - x) (t q - y) - exp (- lam * Rabs ((t p - x) - (t q - y)))) <= eps.

Definition gain : R := alt ^ 2 * ((1 - exp (- 2 * al * T)) / (2 * al)).

Lemma window_int : is_RInt (fun x => exp (- 2 * al * x)) 0 T ((1 - exp (- 2 * al * T)) / (2 * al)).
Proof.
  replace ((1 - exp (- 2 * al * T)) / (2 * al)) with (minus (- exp (- 2 * al * T) / (2 * al)) (- exp (- 2 * al * 0) / (2 * al))).
  2:{ unfold minus, plus, opp; cbn. rewrite Rmult_0_r, exp_0. field. lra. }
  apply (is_RInt_derive (fun x => - exp (- 2 * al * x) / (2 * al))).
  - intros x _. auto_derive; auto. field. lra.
  - intros x _. apply (@ex_derive_continuous R_AbsRing R_NormedModule (fun x => exp (- 2 * al * x))). auto_derive. auto.
Qed.

Lemma Y_close p q : (p < n)%nat -> (q < n)%nat ->
  Rabs (Sum N (fun k => fY (C k) (r k) p q) - gain * exp (- lam * Rabs (t p - t q))) <= T * (alt ^ 2 * eps).
Proof.
  intros Hp Hq. rewrite <- (Rminus_0_r T) at 1.
  apply (is_RInt_close (fun x => Sum N (fun k => alt ^ 2 * exp (- 2 * al * x) * (feat lam (C k) (r k) (t p - x) * feat lam (C k) (r k) (t q - x))))
    (fun x => alt ^ 2 * exp (- lam * Rabs (t p - t q)) * exp (- 2 * al * x))); [exact HT| | |].
  - apply (is_RInt_Sum N (fun k x => alt ^ 2 * exp (- 2 * al * x) * (feat lam (C k) (r k) (t p - x) * feat lam (C k) (r k) (t q - x)))).
    intros k _. apply Y_spec.
  - replace (gain * exp (- lam * Rabs (t p - t q))) with (alt ^ 2 * exp (- lam * Rabs (t p - t q)) * ((1 - exp (- 2 * al * T)) / (2 * al))) by (unfold gain; ring).
    apply is_RInt_times. apply window_int.
  - intros x Hx. rewrite Sum_scal. pose proof (Hkn p q x x Hp Hq Hx Hx) as H. unfold kn in H.
    replace (t p - x - (t q - x)) with (t p - t q) in H by ring.
    set (S := Sum N _) in *. set (e := exp (- lam * Rabs (t p - t q))) in *.
    replace (alt ^ 2 * exp (-2 * al * x) * S - alt ^ 2 * e * exp (-2 * al * x)) with (alt ^ 2 * (exp (-2 * al * x) * (S - e))) by ring.
    rewrite !Rabs_mult, (Rabs_pos_eq (alt ^ 2)) by apply pow2_ge_0. apply Rmult_le_compat_l; [apply pow2_ge_0|].
    rewrite Rabs_pos_eq by (left; apply exp_pos). rewrite <- (Rmult_1_l eps). apply Rmult_le_compat; [left; apply exp_pos|apply Rabs_pos| |exact H].
    rewrite <- exp_0. assert (Z : -2 * al * x <= 0) by (assert (0 <= al * x) by (apply Rmult_le_pos; lra); lra).
    destruct Z as [Z|Z]; [left; now apply exp_increasing|right; now rewrite Z].
Qed.

Lemma X_close p q a b : (p < n)%nat -> (q < n)%nat -> (a < nu)%nat -> (b < nu)%nat ->
  Rabs (Sum N (fun k => fX (C k) (r k) p a * fX (C k) (r k) q b) - ux p q a b) <= T * (T * ((alt * gat) ^ 2 * eps)).
Proof.
  intros Hp Hq Ha Hb. destruct (Hux p q a b Hp Hq Ha Hb) as [g [Hg Hu]].
  pose proof (Htu a Ha) as Ta. pose proof (Htu b Hb) as Tb.
  assert (P0 : 0 <= (alt * gat) ^ 2 * eps) by (apply Rmult_le_pos; [apply pow2_ge_0|exact Pe]).
  apply Rle_trans with ((tu a - 0) * (T * ((alt * gat) ^ 2 * eps))).
  2:{ apply Rmult_le_compat_r; [apply Rmult_le_pos; auto|lra]. }
  apply (is_RInt_close (fun x => Sum N (fun k => fX (C k) (r k) q b * (phi a x * feat lam (C k) (r k) (t p - x)))) g); [lra| |exact Hu|].
  { rewrite (Sum_ext N _ (fun k => fX (C k) (r k) q b * fX (C k) (r k) p a)) by (intros; ring).
    apply (is_RInt_Sum N (fun k x => fX (C k) (r k) q b * (phi a x * feat lam (C k) (r k) (t p - x)))).
    intros k _. apply is_RInt_times. now apply X_spec. }
  intros x Hx.
  apply Rle_trans with ((tu b - 0) * ((alt * gat) ^ 2 * eps)).
  2:{ apply Rmult_le_compat_r; [auto|lra]. }
  refine (is_RInt_close (fun y => Sum N (fun k => phi a x * feat lam (C k) (r k) (t p - x) * (phi b y * feat lam (C k) (r k) (t q - y)))) _ _ _ _ _ _ _ _ (Hg x) _); [lra| |].
  { rewrite (Sum_ext N _ (fun k => phi a x * feat lam (C k) (r k) (t p - x) * fX (C k) (r k) q b)) by (intros; ring).
    apply (is_RInt_Sum N (fun k y => phi a x * feat lam (C k) (r k) (t p - x) * (phi b y * feat lam (C k) (r k) (t q - y)))).
    intros k _. apply is_RInt_times. now apply X_spec. }
  intros y Hy.
  assert (Hx' : 0 <= x <= T) by lra. assert (Hy' : 0 <= y <= T) by lra.
  pose proof (Hkn p q x y Hp Hq Hx' Hy') as H. unfold kn in H.
  assert (Ef : alt ^ 2 * gat ^ 2 * exp (- al * (x + y) - ga * (tu a - x) - ga * (tu b - y)) = phi a x * phi b y).
  { unfold phi. replace (- al * (x + y) - ga * (tu a - x) - ga * (tu b - y)) with (- ga * tu a + (ga - al) * x + (- ga * tu b + (ga - al) * y)) by ring.
    rewrite !exp_plus. ring. }
  rewrite Ef.
  rewrite (Sum_ext N _ (fun k => phi a x * phi b y * (feat lam (C k) (r k) (t p - x) * feat lam (C k) (r k) (t q - y)))) by (intros; ring).
  rewrite Sum_scal, <- Rmult_minus_distr_l, Rabs_mult. apply Rmult_le_compat; [apply Rabs_pos|apply Rabs_pos| |exact H].
  rewrite Rabs_mult. replace ((alt * gat) ^ 2) with (Rabs (alt * gat) * Rabs (alt * gat)).
  2:{ rewrite <- Rabs_mult. rewrite Rabs_pos_eq; [ring|apply Rle_0_sqr]. }
  apply Rmult_le_compat; try apply Rabs_pos; now apply phi_bound.
Qed.

Let err : R := Sum n (fun p => Sum n (fun q => Rabs (c p * c q))) * (T * alt ^ 2)
  + Sum n (fun p => Sum n (fun q => Rabs (c p * c q) * Sum nu (fun a => Sum nu (fun b => Rabs (W a b))))) * (T * (T * (alt * gat) ^ 2)).
Let err' : R := Sum n (fun p => Sum n (fun q => Rabs (c p * c q) * Sum nu (fun a => Sum nu (fun b => Rabs (v a * v b))))) * (T * (T * (alt * gat) ^ 2)).

Lemma form_close (Q : nat -> nat -> R) :
  Rabs (Sum n (fun p => Sum n (fun q => c p * c q * Sum nu (fun a => Sum nu (fun b => Q a b * Sum N (fun k => fX (C k) (r k) p a * fX (C k) (r k) q b)))))
        - Sum n (fun p => Sum n (fun q => c p * c q * Sum nu (fun a => Sum nu (fun b => Q a b * ux p q a b)))))
  <= Sum n (fun p => Sum n (fun q => Rabs (c p * c q) * Sum nu (fun a => Sum nu (fun b => Rabs (Q a b))))) * (T * (T * (alt * gat) ^ 2)) * eps.
Proof.
  rewrite Rmult_assoc, <- Sum_scal_r. apply Sum_close. intros p Hp. rewrite <- Sum_scal_r. apply Sum_close. intros q Hq.
  rewrite <- Rmult_minus_distr_l, Rabs_mult, Rmult_assoc. apply Rmult_le_compat_l; [apply Rabs_pos|].
  rewrite <- Sum_scal_r. apply Sum_close. intros a Ha. rewrite <- Sum_scal_r. apply Sum_close. intros b Hb.
  rewrite <- Rmult_minus_distr_l, Rabs_mult. apply Rmult_le_compat_l; [apply Rabs_pos|].
  replace (T * (T * (alt * gat) ^ 2) * eps) with (T * (T * ((alt * gat) ^ 2 * eps))) by ring. now apply X_close.
Qed.

Lemma swap_features (Q : nat -> nat -> R) :
  Sum n (fun p => Sum n (fun q => c p * c q * Sum nu (fun a => Sum nu (fun b => Q a b * Sum N (fun k => fX (C k) (r k) p a * fX (C k) (r k) q b)))))
  = Sum N (fun k => wform nu Q (fun a => Sum n (fun p => c p * fX (C k) (r k) p a))).
Proof.
  rewrite (Sum_ext N _ (fun k => Sum n (fun p => Sum n (fun q => c p * c q * Sum nu (fun a => Sum nu (fun b => Q a b * (fX (C k) (r k) p a * fX (C k) (r k) q b)))))))
    by (intros; apply wform_pairs).
  rewrite (Sum_swap N n). apply Sum_ext. intros p _. rewrite (Sum_swap N n). apply Sum_ext. intros q _. rewrite Sum_scal. f_equal.
  rewrite (Sum_swap N nu). apply Sum_ext. intros a _. rewrite (Sum_swap N nu). apply Sum_ext. intros b _. now rewrite Sum_scal.
Qed.

Lemma residual_close :
  - (err * eps) <= Sum n (fun p => Sum n (fun q => c p * c q * (gain * exp (- lam * Rabs (t p - t q)))))
    - Sum n (fun p => Sum n (fun q => c p * c q * Sum nu (fun a => Sum nu (fun b => W a b * ux p q a b)))).
Proof.
  assert (B : Sum N (fun k => wform nu W (fun a => Sum n (fun p => c p * fX (C k) (r k) p a)))
              <= Sum n (fun p => Sum n (fun q => c p * c q * Sum N (fun k => fY (C k) (r k) p q)))).
  { apply Rle_trans with (Sum N (fun k => Sum n (fun p => Sum n (fun q => c p * c q * fY (C k) (r k) p q)))).
    - apply Sum_le. intros k _. apply bessel.
    - right. rewrite (Sum_swap N n). apply Sum_ext. intros p _. rewrite (Sum_swap N n). apply Sum_ext. intros q _. now rewrite Sum_scal. }
  rewrite <- swap_features in B. pose proof (form_close W) as F.
  assert (G : Rabs (Sum n (fun p => Sum n (fun q => c p * c q * Sum N (fun k => fY (C k) (r k) p q)))
                    - Sum n (fun p => Sum n (fun q => c p * c q * (gain * exp (- lam * Rabs (t p - t q))))))
              <= Sum n (fun p => Sum n (fun q => Rabs (c p * c q))) * (T * alt ^ 2) * eps).
  { rewrite Rmult_assoc, <- Sum_scal_r. apply Sum_close. intros p Hp. rewrite <- Sum_scal_r. apply Sum_close. intros q Hq.
    rewrite <- Rmult_minus_distr_l, Rabs_mult. apply Rmult_le_compat_l; [apply Rabs_pos|].
    rewrite Rmult_assoc. now apply Y_close. }
  unfold err. rewrite Rmult_plus_distr_r. apply Rabs_le_between in F. apply Rabs_le_between in G. lra.
Qed.

Lemma mean_close :
  - (err' * eps) <= Sum n (fun p => Sum n (fun q => c p * c q * Sum nu (fun a => Sum nu (fun b => v a * v b * ux p q a b)))).
Proof.
  pose proof (form_close (fun a b => v a * v b)) as F. rewrite swap_features in F.
  assert (P : 0 <= Sum N (fun k => wform nu (fun a b => v a * v b) (fun a => Sum n (fun p => c p * fX (C k) (r k) p a)))).
  { apply Sum_pos. intros k _. set (b := fun a => Sum n (fun p => c p * fX (C k) (r k) p a)). clearbody b. unfold wform.
    rewrite (Sum_ext nu _ (fun i => Sum nu (fun j => v i * b i * (v j * b j)))) by (intros; apply Sum_ext; intros; cbv beta; ring).
    rewrite <- Sum_sq. apply Rle_0_sqr. }
  unfold err'. apply Rabs_le_between in F. lra.
Qed.
End Limit.

Lemma abs_bound k (f : nat -> R) : exists B, 0 <= B /\ forall i, (i < k)%nat -> Rabs (f i) <= B.
Proof.
  induction k as [|k [B [HB H]]]; [exists 0; split; [lra|intros; lia]|]. exists (Rmax B (Rabs (f k))).
  pose proof (Rmax_l B (Rabs (f k))). pose proof (Rmax_r B (Rabs (f k))). split; [lra|]. intros i Hi.
  assert (i = k \/ (i < k)%nat) as [->|Hi'] by lia; auto. specialize (H i Hi'). lra.
Qed.

Lemma limit_nonneg (D err : R) : (forall eps, 0 < eps -> - (err * eps) <= D) -> 0 <= D.
Proof.
  intros H. destruct (Rle_dec 0 D) as [|L]; auto. exfalso.
  assert (P : 0 < 2 * (Rabs err + 1)) by (pose proof (Rabs_pos err); lra).
  assert (He : 0 < - D / (2 * (Rabs err + 1))) by (apply Rdiv_lt_0_compat; lra).
  specialize (H _ He). set (e := - D / (2 * (Rabs err + 1))) in *.
  assert (Ee : e * (Rabs err + 1) = - D / 2) by (unfold e; field; pose proof (Rabs_pos err); lra).
  assert (err * e <= Rabs err * e) by (apply Rmult_le_compat_r; [lra|apply Rle_abs]). nra.
Qed.

Lemma kernel_features eps : 0 < eps -> exists N (C r : nat -> R),
  forall p q x y, (p < n)%nat -> (q < n)%nat -> 0 <= x <= T -> 0 <= y <= T ->
  Rabs (Sum N (fun k => feat lam (C k) (r k) (t p - x) * feat lam (C k) (r k) (t q - y)) - exp (- lam * Rabs ((t p - x) - (t q - y)))) <= eps.
Proof.
  intros He. destruct (abs_bound n t) as [B [HB H]].
  destruct (features lam (B + T) eps Pl ltac:(lra) He) as [N [C [r F]]]. exists N, C, r. intros p q x y Hp Hq Hx Hy.
  apply F; (eapply Rle_trans; [apply Rabs_triang|]); apply Rplus_le_compat; auto; rewrite Rabs_Ropp, Rabs_pos_eq; lra.
Qed.

(** What the inducing variables do not explain is at least the part of the filter beyond them. *)
Theorem kernel_bound :
  alt ^ 2 * exp (- 2 * al * T) / (2 * al) * Sum n (fun p => Sum n (fun q => c p * c q * exp (- lam * Rabs (t p - t q))))
  <= Sum n (fun p => Sum n (fun q => c p * c q *
       (hx p q - Sum nu (fun a => Sum nu (fun b => W a b * ux p q a b)) + Sum nu (fun a => Sum nu (fun b => v a * v b * ux p q a b))))).
Proof.
  assert (R1 : 0 <= Sum n (fun p => Sum n (fun q => c p * c q * (gain * exp (- lam * Rabs (t p - t q)))))
    - Sum n (fun p => Sum n (fun q => c p * c q * Sum nu (fun a => Sum nu (fun b => W a b * ux p q a b))))).
  { eapply limit_nonneg. intros eps He. destruct (kernel_features eps He) as [N [C [r F]]].
    apply (residual_close N C r eps); [lra|exact F]. }
  assert (R2 : 0 <= Sum n (fun p => Sum n (fun q => c p * c q * Sum nu (fun a => Sum nu (fun b => v a * v b * ux p q a b))))).
  { eapply limit_nonneg. intros eps He. destruct (kernel_features eps He) as [N [C [r F]]].
    apply (mean_close N C r eps); [lra|exact F]. }
  assert (E0 : Sum n (fun p => Sum n (fun q => c p * c q *
       (hx p q - Sum nu (fun a => Sum nu (fun b => W a b * ux p q a b)) + Sum nu (fun a => Sum nu (fun b => v a * v b * ux p q a b)))))
     = alt ^ 2 * exp (- 2 * al * T) / (2 * al) * Sum n (fun p => Sum n (fun q => c p * c q * exp (- lam * Rabs (t p - t q))))
       + (Sum n (fun p => Sum n (fun q => c p * c q * (gain * exp (- lam * Rabs (t p - t q)))))
          - Sum n (fun p => Sum n (fun q => c p * c q * Sum nu (fun a => Sum nu (fun b => W a b * ux p q a b)))))
       + Sum n (fun p => Sum n (fun q => c p * c q * Sum nu (fun a => Sum nu (fun b => v a * v b * ux p q a b))))).
  { rewrite <- Sum_scal, <- Sum_minus, <- !Sum_plus. apply Sum_ext. intros p Hp.
    rewrite <- Sum_scal, <- Sum_minus, <- !Sum_plus. apply Sum_ext. intros q Hq. rewrite Hhx by auto. unfold gain. field. lra. }
  lra.
Qed.
End Kernel.
