(** Covariances that are integrals of products of features: their double integrals, and the
    variance that remains after conditioning on finitely many variables. *)
From Coq Require Import Reals Lra Lia Psatz.
From Coquelicot Require Import Coquelicot.
From Verif Require Import Gauss Gauss2 Gauss3 Fubini GaussDom.
Local Open Scope R_scope.

(** * Finite sums *)

(** f 0 + ... + f (n - 1). *)
Fixpoint Sum (n : nat) (f : nat -> R) : R := match n with O => 0 | S k => Sum k f + f k end.

Lemma Sum_ext n f g : (forall i, (i < n)%nat -> f i = g i) -> Sum n f = Sum n g.
Proof.
  induction n as [|n IH]; intros H; auto. cbn [Sum]. rewrite IH by (intros; apply H; lia). rewrite H by lia. reflexivity.
Qed.
Lemma Sum_plus n f g : Sum n (fun i => f i + g i) = Sum n f + Sum n g.
Proof. induction n as [|n IH]; cbn [Sum]; [ring|]. rewrite IH. ring. Qed.
Lemma Sum_minus n f g : Sum n (fun i => f i - g i) = Sum n f - Sum n g.
Proof. induction n as [|n IH]; cbn [Sum]; [ring|]. rewrite IH. ring. Qed.
Lemma Sum_scal n k f : Sum n (fun i => k * f i) = k * Sum n f.
Proof. induction n as [|n IH]; cbn [Sum]; [ring|]. rewrite IH. ring. Qed.
Lemma Sum_scal_r n k f : Sum n (fun i => f i * k) = Sum n f * k.
Proof. induction n as [|n IH]; cbn [Sum]; [ring|]. rewrite IH. ring. Qed.
Lemma Sum_zero n : Sum n (fun _ => 0) = 0.
Proof. induction n as [|n IH]; cbn [Sum]; [ring|]. rewrite IH. ring. Qed.
Lemma Sum_swap n k (f : nat -> nat -> R) : Sum n (fun i => Sum k (f i)) = Sum k (fun j => Sum n (fun i => f i j)).
Proof.
  induction n as [|n IH]; cbn [Sum]; [now rewrite Sum_zero|]. rewrite IH. rewrite <- Sum_plus. reflexivity.
Qed.
Lemma Sum_sq n f : Sum n f * Sum n f = Sum n (fun i => Sum n (fun j => f i * f j)).
Proof.
  rewrite <- Sum_scal_r. apply Sum_ext. intros i _. rewrite <- Sum_scal. apply Sum_ext. intros j _. ring.
Qed.
Lemma Sum_prod n k f g : Sum n f * Sum k g = Sum n (fun i => Sum k (fun j => f i * g j)).
Proof.
  rewrite <- Sum_scal_r. apply Sum_ext. intros i _. rewrite <- Sum_scal. reflexivity.
Qed.

Lemma dom1_Sum n (f : nat -> R -> R) : (forall i, (i < n)%nat -> dom1 (f i)) -> dom1 (fun x => Sum n (fun i => f i x)).
Proof.
  induction n as [|n IH]; intros H; cbn [Sum]; [apply dom1_zero|]. apply dom1_plus; auto.
Qed.
Lemma dom2_zero : dom2 (fun _ _ => 0).
Proof. apply (dom2_ext (fun x y => (fun _ => 0) x * (fun _ => 0) y)); [intros; ring|]. apply dom2_prod; apply dom1_zero. Qed.
Lemma dom2_Sum n (f : nat -> R -> R -> R) : (forall i, (i < n)%nat -> dom2 (f i)) -> dom2 (fun x y => Sum n (fun i => f i x y)).
Proof.
  induction n as [|n IH]; intros H; cbn [Sum]; [apply dom2_zero|]. apply dom2_plus; auto.
Qed.
Lemma Int_Sum b n (f : nat -> R -> R) : ulim b -> (forall i, (i < n)%nat -> dom1 (f i)) ->
  Int b (fun x => Sum n (fun i => f i x)) = Sum n (fun i => Int b (f i)).
Proof.
  intros U. induction n as [|n IH]; intros H; cbn [Sum]; [now apply Int_zero|].
  rewrite (Int_plus b U (fun x => Sum n (fun i => f i x)) (f n)); auto using dom1_Sum. rewrite IH; auto.
Qed.

(** * Double integrals of a covariance with features *)

Section Feature.
Context (psi : R -> R -> R) (D : dom2 psi) (b : Rbar) (U : ulim b).

(** The covariance with features [psi]. *)
Definition fcov (s s' : R) : R := Int p_infty (fun x => psi s x * psi s' x).

Lemma fcov_dom1 s : dom1 (fun s' => fcov s s').
Proof.
  apply (dom2_Int2 (fun s' x => psi s x * psi s' x) p_infty I).
  apply (dom2_ext (fun s' x => psi s' x * psi s x)); [intros; ring|]. apply dom2_mult2; auto. now apply dom2_at1.
Qed.

Lemma fcov_mean_square g h : dom1 g -> dom1 h ->
  Int b (fun s => Int b (fun s' => fcov s s' * g s * h s')) =
  Int p_infty (fun x => Int b (fun s => psi s x * g s) * Int b (fun s => psi s x * h s)).
Proof.
  intros Dg Dh.
  set (ch := fun x => Int b (fun s => psi s x * h s)).
  assert (Dch : dom1 ch) by (apply (dom2_Int1 (fun s x => psi s x * h s) b U); now apply dom2_mult1).
  assert (E1 : forall s, Int b (fun s' => fcov s s' * g s * h s') = Int p_infty (fun x => psi s x * g s * ch x)).
  { intros s. rewrite (Int_ext b _ (fun s' => g s * (fcov s s' * h s'))) by (intros; ring).
    rewrite (Int_scal b U) by (apply dom1_mult; auto using fcov_dom1).
    rewrite (Int_ext p_infty _ (fun x => g s * (psi s x * ch x))) by (intros; ring).
    rewrite (Int_scal p_infty I) by (apply dom1_mult; auto; now apply dom2_at1). f_equal.
    assert (DF : dom2 (fun s' x => psi s' x * psi s x * h s')).
    { apply dom2_mult1; auto. apply dom2_mult2; auto. now apply dom2_at1. }
    transitivity (Int b (fun s' => Int p_infty (fun x => psi s' x * psi s x * h s'))).
    - apply Int_ext. intros s'. unfold fcov.
      rewrite Rmult_comm, <- (Int_scal p_infty I) by (apply dom1_mult; now apply dom2_at1).
      apply Int_ext. intros x. ring.
    - rewrite (fubini _ b p_infty U I DF). apply Int_ext. intros x. unfold ch.
      rewrite (Int_ext b _ (fun s' => psi s x * (psi s' x * h s'))) by (intros; ring).
      apply Int_scal; auto. apply dom1_mult; auto. now apply dom2_at2. }
  rewrite (Int_ext b _ _ E1).
  assert (DG : dom2 (fun s x => psi s x * g s * ch x)) by (apply dom2_mult2; auto; now apply dom2_mult1).
  rewrite (fubini _ b p_infty U I DG). apply Int_ext. intros x. fold (ch x).
  rewrite (Int_ext b _ (fun s => ch x * (psi s x * g s))) by (intros; ring).
  rewrite Int_scal; auto; [ring|]. apply dom1_mult; auto. now apply dom2_at2.
Qed.

Lemma fcov_trace : Int b (fun s => fcov s s) = Int p_infty (fun x => Int b (fun s => psi s x * psi s x)).
Proof. apply (fubini (fun s x => psi s x * psi s x) b p_infty U I). now apply dom2_mult. Qed.

Lemma fcov_diag_dom1 : dom1 (fun s => fcov s s).
Proof. apply (dom2_Int2 (fun s x => psi s x * psi s x) p_infty I). now apply dom2_mult. Qed.
End Feature.

(** * Conditioning on the inner products with finitely many functions *)

(** The part of the square that lies beyond the limit is not negative either. *)
Lemma Int_sq_mono b f : ulim b -> dom1 f -> Int b (fun x => f x * f x) <= Int p_infty (fun x => f x * f x).
Proof.
  intros U D. assert (D2 := dom1_mult f f D D). destruct b as [b| |]; [|lra|destruct U].
  assert (R0 : forall a, 0 <= a -> Int (- a) (fun x => f x * f x) <= Int 0 (fun x => f x * f x)).
  { intros a Ha. pose proof (below_split _ (- a) 0 _ (proj1 D2) (Int_spec _ 0 I D2)) as S. apply Int_unique in S. rewrite S.
    assert (0 <= RInt (fun x => f x * f x) (- a) 0); [|lra]. apply RInt_ge_0; [lra| |].
    - apply (@ex_RInt_continuous R_CompleteNormedModule). intros; apply D2.
    - intros; nra. }
  assert (P0 : 0 <= Int 0 (fun x => f (- x) * f (- x))).
  { apply (Int_nonneg 0 I); [|intros; nra]. apply (dom1_opp_arg (fun x => f x * f x) D2). }
  rewrite (Int_whole _ D2). destruct (Rle_dec b 0) as [Hb|Hb].
  - specialize (R0 (- b) ltac:(lra)). rewrite Ropp_involutive in R0. lra.
  - pose proof (dom1_opp_arg (fun x => f x * f x) D2) as D3. cbv beta in D3.
    pose proof (below_split _ 0 b _ (proj1 D2) (Int_spec _ b I D2)) as S. apply Int_unique in S. rewrite S.
    pose proof (below_split _ (- b) 0 _ (proj1 D3) (Int_spec _ 0 I D3)) as S'. apply Int_unique in S'.
    assert (0 <= Int (- b) (fun x => f (- x) * f (- x))) by (apply (Int_nonneg (- b) I); auto; intros; nra).
    cbv beta in S'. rewrite S' in H.
    assert (E : RInt (fun x => f (- x) * f (- x)) (- b) 0 = RInt (fun x => f x * f x) 0 b); [|lra].
    apply (@is_RInt_unique R_CompleteNormedModule).
    assert (A : is_RInt (fun x => f x * f x) (- - b) (- 0) (opp (RInt (fun x => f x * f x) 0 b))).
    { rewrite Ropp_involutive, Ropp_0. apply (@is_RInt_swap R_NormedModule). apply (@RInt_correct R_CompleteNormedModule).
      apply (@ex_RInt_continuous R_CompleteNormedModule). intros; apply D2. }
    apply (@is_RInt_comp_opp R_NormedModule) in A. apply (@is_RInt_opp R_NormedModule) in A.
    rewrite opp_opp in A. eapply (@is_RInt_ext R_NormedModule); [|exact A].
    intros x _. unfold opp; simpl. ring.
Qed.

Section Bessel.
Context (n : nat) (g : nat -> R -> R) (Dg : forall k, (k < n)%nat -> dom1 (g k)).
Context (K W : nat -> nat -> R).
Hypothesis HK : forall k l, (k < n)%nat -> (l < n)%nat -> K k l = Int p_infty (fun x => g k x * g l x).
Context (b : Rbar) (U : ulim b).

Lemma square_expand c (f : R -> R) (w : nat -> R) : ulim c -> dom1 f ->
  Int c (fun x => (f x + Sum n (fun k => w k * g k x)) * (f x + Sum n (fun k => w k * g k x))) =
  Int c (fun x => f x * f x) + 2 * Sum n (fun k => w k * Int c (fun x => f x * g k x))
  + Int c (fun x => Sum n (fun k => w k * g k x) * Sum n (fun k => w k * g k x)).
Proof.
  intros Uc Df. set (G := fun x => Sum n (fun k => w k * g k x)).
  assert (DG : dom1 G) by (apply dom1_Sum; intros; apply dom1_scal; auto).
  rewrite (Int_ext c _ (fun x => (f x * f x + 2 * (f x * G x)) + G x * G x)) by (intros; unfold G; ring).
  rewrite (Int_plus c Uc), (Int_plus c Uc), (Int_scal c Uc); auto using dom1_mult, dom1_plus, dom1_scal.
  do 2 f_equal. f_equal.
  rewrite (Int_ext c _ (fun x => Sum n (fun k => w k * (f x * g k x)))).
  - rewrite Int_Sum; auto.
    + apply Sum_ext. intros k Hk. apply Int_scal; auto. apply dom1_mult; auto.
    + intros k Hk. apply dom1_scal, dom1_mult; auto.
  - intros x. unfold G. rewrite <- Sum_scal. apply Sum_ext. intros; ring.
Qed.

Lemma gram_form (w : nat -> R) :
  Int p_infty (fun x => Sum n (fun k => w k * g k x) * Sum n (fun k => w k * g k x)) =
  Sum n (fun k => Sum n (fun l => w k * w l * K k l)).
Proof.
  rewrite (Int_ext p_infty _ (fun x => Sum n (fun k => Sum n (fun l => w k * w l * (g k x * g l x))))).
  - rewrite Int_Sum; simpl; auto.
    + apply Sum_ext. intros k Hk. rewrite Int_Sum; simpl; auto.
      * apply Sum_ext. intros l Hl. rewrite (Int_scal p_infty I) by (apply dom1_mult; auto). now rewrite HK.
      * intros l Hl. apply dom1_scal, dom1_mult; auto.
    + intros k Hk. apply dom1_Sum. intros l Hl. apply dom1_scal, dom1_mult; auto.
  - intros x. rewrite Sum_sq. apply Sum_ext. intros k _. apply Sum_ext. intros l _. ring.
Qed.

(** Positive semi-definiteness jointly with the function [f] up to the limit. *)
Lemma joint_square f (w : nat -> R) : dom1 f ->
  0 <= Int b (fun x => f x * f x) + 2 * Sum n (fun k => w k * Int b (fun x => f x * g k x))
       + Sum n (fun k => Sum n (fun l => w k * w l * K k l)).
Proof.
  intros Df. set (G := fun x => Sum n (fun k => w k * g k x)).
  assert (DG : dom1 G) by (apply dom1_Sum; intros; apply dom1_scal; auto).
  pose proof (square_expand b f w U Df) as E. rewrite <- gram_form.
  pose proof (Int_sq_mono b G U DG) as M. unfold G in M.
  assert (0 <= Int b (fun x => (f x + G x) * (f x + G x))).
  { apply (Int_nonneg b U); [|intros x; exact (Rle_0_sqr (f x + G x))]. apply dom1_mult; apply dom1_plus; auto. }
  unfold G in H. lra.
Qed.

Hypothesis HW : forall i j, (i < n)%nat -> (j < n)%nat ->
  Sum n (fun k => Sum n (fun l => W k i * K k l * W l j)) = W i j.

(** Bessel's inequality. *)
Lemma bessel f : dom1 f ->
  Sum n (fun k => Sum n (fun l => W k l * (Int b (fun x => f x * g k x) * Int b (fun x => f x * g l x))))
  <= Int b (fun x => f x * f x).
Proof.
  intros Df. set (p := fun k => Int b (fun x => f x * g k x)).
  set (w := fun k => - Sum n (fun j => W k j * p j)).
  pose proof (joint_square f w Df) as J. fold (p) in J.
  assert (E1 : Sum n (fun k => w k * p k) = - Sum n (fun k => Sum n (fun l => W k l * (p k * p l)))).
  { replace (- Sum n (fun k => Sum n (fun l => W k l * (p k * p l)))) with (-1 * Sum n (fun k => Sum n (fun l => W k l * (p k * p l)))) by ring.
    rewrite <- Sum_scal. apply Sum_ext. intros k _. unfold w.
    replace (- Sum n (fun j => W k j * p j) * p k) with (- p k * Sum n (fun j => W k j * p j)) by ring.
    rewrite <- !Sum_scal. apply Sum_ext. intros l _. ring. }
  assert (E2 : Sum n (fun k => Sum n (fun l => w k * w l * K k l)) = Sum n (fun k => Sum n (fun l => W k l * (p k * p l)))).
  { transitivity (Sum n (fun k => Sum n (fun l => Sum n (fun i => Sum n (fun j => W k i * K k l * W l j * (p i * p j)))))).
    { apply Sum_ext. intros k _. apply Sum_ext. intros l _. unfold w.
      replace (- Sum n (fun j => W k j * p j) * - Sum n (fun j => W l j * p j) * K k l)
        with (K k l * (Sum n (fun i => W k i * p i) * Sum n (fun j => W l j * p j))) by ring.
      rewrite Sum_prod, <- Sum_scal. apply Sum_ext. intros i _. rewrite <- Sum_scal. apply Sum_ext. intros j _. ring. }
    transitivity (Sum n (fun i => Sum n (fun j => Sum n (fun k => Sum n (fun l => W k i * K k l * W l j)) * (p i * p j)))).
    2:{ apply Sum_ext. intros i Hi. apply Sum_ext. intros j Hj. now rewrite HW. }
    transitivity (Sum n (fun k => Sum n (fun i => Sum n (fun j => Sum n (fun l => W k i * K k l * W l j * (p i * p j)))))).
    { apply Sum_ext. intros k _. rewrite Sum_swap. apply Sum_ext. intros i _. apply Sum_swap. }
    rewrite Sum_swap. apply Sum_ext. intros i _. rewrite Sum_swap. apply Sum_ext. intros j _.
    rewrite <- Sum_scal_r. apply Sum_ext. intros k _. now rewrite <- Sum_scal_r. }
  change (Sum n (fun k => Sum n (fun l => W k l * (p k * p l))) <= Int b (fun x => f x * f x)).
  change (Sum n (fun k => w k * Int b (fun x => f x * g k x))) with (Sum n (fun k => w k * p k)) in J.
  rewrite E1, E2 in J. lra.
Qed.

(** The trace of a covariance bounds the part of it that the functions explain. *)
Lemma trace_bessel psi : dom2 psi ->
  Sum n (fun k => Sum n (fun l => W k l * Int b (fun s => Int b (fun s' => fcov psi s s' * g k s * g l s'))))
  <= Int b (fun s => fcov psi s s).
Proof.
  intros D. rewrite (fcov_trace psi D b U).
  assert (Dk : forall k, (k < n)%nat -> dom1 (fun x => Int b (fun s => psi s x * g k s))).
  { intros k Hk. apply (dom2_Int1 (fun s x => psi s x * g k s) b U). apply dom2_mult1; auto. }
  apply Rle_trans with (Int p_infty (fun x => Sum n (fun k => Sum n (fun l => W k l *
     (Int b (fun s => psi s x * g k s) * Int b (fun s => psi s x * g l s)))))).
  - right. rewrite Int_Sum; simpl; auto.
    + apply Sum_ext. intros k Hk. rewrite Int_Sum; simpl; auto.
      * apply Sum_ext. intros l Hl. rewrite (Int_scal p_infty I) by (apply dom1_mult; auto).
        now rewrite (fcov_mean_square psi D b U) by auto.
      * intros l Hl. apply dom1_scal, dom1_mult; auto.
    + intros k Hk. apply dom1_Sum. intros l Hl. apply dom1_scal, dom1_mult; auto.
  - apply (Int_le p_infty I).
    + apply dom1_Sum. intros k Hk. apply dom1_Sum. intros l Hl. apply dom1_scal, dom1_mult; auto.
    + apply (dom2_Int1 (fun s x => psi s x * psi s x) b U). now apply dom2_mult.
    + intros x. apply bessel. now apply dom2_at2.
Qed.
End Bessel.
