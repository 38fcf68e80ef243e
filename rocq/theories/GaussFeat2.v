(** Conditioning a covariance with features on finitely many variables. *)
From Coq Require Import Reals Lra Lia Psatz.
From Coquelicot Require Import Coquelicot.
From Verif Require Import Gauss Gauss2 Gauss3 Fubini GaussDom GaussFeat.
Local Open Scope R_scope.

Section Conditional.
Context (psi : R -> R -> R) (D : dom2 psi).
Context (p : nat) (u : nat -> R -> R) (Du : forall a, (a < p)%nat -> dom1 (u a)).
Context (K W : nat -> nat -> R).
Hypothesis HK : forall a b, (a < p)%nat -> (b < p)%nat -> K a b = Int p_infty (fun x => u a x * u b x).

(** The covariance with variable [a]. *)
Definition qcov (a : nat) (s : R) : R := Int p_infty (fun x => u a x * psi s x).

Lemma qcov_dom2 a : (a < p)%nat -> dom2 (fun s x => u a x * psi s x).
Proof.
  intros Ha. apply (dom2_ext (fun s x => psi s x * u a x)); [intros; ring|]. apply dom2_mult2; auto.
Qed.
Lemma qcov_dom1 a : (a < p)%nat -> dom1 (qcov a).
Proof. intros Ha. apply (dom2_Int2 (fun s x => u a x * psi s x) p_infty I). now apply qcov_dom2. Qed.

(** ** Joint positive semi-definiteness *)
Section Joint.
Context (b : Rbar) (U : ulim b) (n : nat) (g : nat -> R -> R) (Dg : forall k, (k < n)%nat -> dom1 (g k)).

Lemma joint_cov (w v : nat -> R) :
  0 <= Sum n (fun k => Sum n (fun l => w k * w l * Int b (fun s => Int b (fun s' => fcov psi s s' * g k s * g l s'))))
       + 2 * Sum p (fun a => v a * Sum n (fun k => w k * Int b (fun s => qcov a s * g k s)))
       + Sum p (fun a => Sum p (fun c => v a * v c * K a c)).
Proof.
  set (P := fun k x => Int b (fun s => psi s x * g k s)).
  assert (DP : forall k, (k < n)%nat -> dom1 (P k)).
  { intros k Hk. apply (dom2_Int1 (fun s x => psi s x * g k s) b U). apply dom2_mult1; auto. }
  set (f := fun x => Sum n (fun k => w k * P k x)).
  assert (Df : dom1 f) by (apply dom1_Sum; intros; apply dom1_scal; auto).
  pose proof (joint_square p u Du K HK p_infty I f v Df) as J.
  assert (E1 : Int p_infty (fun x => f x * f x) =
    Sum n (fun k => Sum n (fun l => w k * w l * Int b (fun s => Int b (fun s' => fcov psi s s' * g k s * g l s'))))).
  { etransitivity; [exact (gram_form n P DP (fun k l => Int p_infty (fun x => P k x * P l x)) (fun k l _ _ => eq_refl) w)|].
    cbv beta. apply Sum_ext. intros k Hk. apply Sum_ext. intros l Hl. f_equal. symmetry. apply (fcov_mean_square psi D b U); auto. }
  assert (E2 : Sum p (fun a => v a * Int p_infty (fun x => f x * u a x)) =
    Sum p (fun a => v a * Sum n (fun k => w k * Int b (fun s => qcov a s * g k s)))).
  { apply Sum_ext. intros a Ha. f_equal.
    rewrite (Int_ext p_infty _ (fun x => Sum n (fun k => w k * (P k x * u a x)))).
    2:{ intros x. unfold f. rewrite <- Sum_scal_r. apply Sum_ext. intros; ring. }
    rewrite Int_Sum; simpl; auto.
    2:{ intros k Hk. apply dom1_scal, dom1_mult; auto. }
    apply Sum_ext. intros k Hk. rewrite (Int_scal p_infty I) by (apply dom1_mult; auto). f_equal.
    assert (DF : dom2 (fun s x => psi s x * u a x * g k s)) by (apply dom2_mult1; auto; apply dom2_mult2; auto).
    transitivity (Int p_infty (fun x => Int b (fun s => psi s x * u a x * g k s))).
    - apply Int_ext. intros x. unfold P. rewrite Rmult_comm, <- (Int_scal b U).
      + apply Int_ext. intros s. ring.
      + apply dom1_mult; auto. now apply dom2_at2.
    - rewrite <- (fubini _ b p_infty U I DF). apply Int_ext. intros s. unfold qcov.
      rewrite Rmult_comm, <- (Int_scal p_infty I).
      + apply Int_ext. intros x. ring.
      + apply dom1_mult; auto. now apply dom2_at1. }
  rewrite E1, E2 in J. exact J.
Qed.
End Joint.

(** ** The residual covariance *)
Hypothesis Wsym : forall a b, (a < p)%nat -> (b < p)%nat -> W a b = W b a.
Hypothesis HW : forall i j, (i < p)%nat -> (j < p)%nat ->
  Sum p (fun k => Sum p (fun l => W k i * K k l * W l j)) = W i j.

Definition rpsi (s x : R) : R := psi s x - Sum p (fun a => Sum p (fun c => W a c * qcov c s) * u a x).

Lemma coef_dom1 a : dom1 (fun s => Sum p (fun c => W a c * qcov c s)).
Proof. apply dom1_Sum. intros c Hc. apply dom1_scal. now apply qcov_dom1. Qed.

Lemma rpsi_dom2 : dom2 rpsi.
Proof.
  apply dom2_minus; auto. apply (dom2_Sum p (fun a s x => Sum p (fun c => W a c * qcov c s) * u a x)).
  intros a Ha. apply (dom2_prod (fun s => Sum p (fun c => W a c * qcov c s)) (u a)); auto. apply coef_dom1.
Qed.

Lemma fcov_residual s s' :
  fcov rpsi s s' = fcov psi s s' - Sum p (fun a => Sum p (fun c => W a c * (qcov a s * qcov c s'))).
Proof.
  set (c := fun s a => Sum p (fun j => W a j * qcov j s)).
  set (B := Sum p (fun a => Sum p (fun j => W a j * (qcov a s * qcov j s')))).
  set (G := fun s x => Sum p (fun a => c s a * u a x)).
  assert (Dp : forall z, dom1 (psi z)) by (intros; now apply dom2_at1).
  assert (DG : forall z, dom1 (G z)) by (intros; apply dom1_Sum; intros; apply dom1_scal; auto).
  assert (X : forall z z', Int p_infty (fun x => psi z x * G z' x) = Sum p (fun a => c z' a * qcov a z)).
  { intros z z'. rewrite (Int_ext p_infty _ (fun x => Sum p (fun a => c z' a * (u a x * psi z x)))).
    2:{ intros x. unfold G. rewrite <- Sum_scal. apply Sum_ext. intros; ring. }
    rewrite Int_Sum; simpl; auto.
    2:{ intros a Ha. apply dom1_scal, dom1_mult; auto. }
    apply Sum_ext. intros a Ha. apply (Int_scal p_infty I). apply dom1_mult; auto. }
  assert (Y : Int p_infty (fun x => G s x * G s' x) = B).
  { transitivity (Sum p (fun a => Sum p (fun j => c s a * c s' j * K a j))).
    { rewrite (Int_ext p_infty _ (fun x => Sum p (fun a => Sum p (fun j => c s a * c s' j * (u a x * u j x))))).
      2:{ intros x. unfold G. rewrite Sum_prod. apply Sum_ext. intros a _. apply Sum_ext. intros j _. ring. }
      rewrite Int_Sum; simpl; auto.
      2:{ intros a Ha. apply dom1_Sum. intros j Hj. apply dom1_scal, dom1_mult; auto. }
      apply Sum_ext. intros a Ha. rewrite Int_Sum; simpl; auto.
      2:{ intros j Hj. apply dom1_scal, dom1_mult; auto. }
      apply Sum_ext. intros j Hj. rewrite (Int_scal p_infty I) by (apply dom1_mult; auto). now rewrite HK. }
    transitivity (Sum p (fun a => Sum p (fun j => Sum p (fun i => Sum p (fun l => W a i * K a j * W j l * (qcov i s * qcov l s')))))).
    { apply Sum_ext. intros a _. apply Sum_ext. intros j _. unfold c.
      rewrite Rmult_comm, Sum_prod, <- Sum_scal. apply Sum_ext. intros i _. rewrite <- Sum_scal. apply Sum_ext. intros l _. ring. }
    transitivity (Sum p (fun i => Sum p (fun l => Sum p (fun a => Sum p (fun j => W a i * K a j * W j l)) * (qcov i s * qcov l s')))).
    2:{ unfold B. apply Sum_ext. intros i Hi. apply Sum_ext. intros l Hl. now rewrite HW. }
    transitivity (Sum p (fun a => Sum p (fun i => Sum p (fun l => Sum p (fun j => W a i * K a j * W j l * (qcov i s * qcov l s')))))).
    { apply Sum_ext. intros a _. rewrite Sum_swap. apply Sum_ext. intros i _. apply Sum_swap. }
    rewrite Sum_swap. apply Sum_ext. intros i _. rewrite Sum_swap. apply Sum_ext. intros l _.
    rewrite <- Sum_scal_r. apply Sum_ext. intros a _. now rewrite <- Sum_scal_r. }
  assert (X1 : Sum p (fun a => c s' a * qcov a s) = B).
  { unfold B, c. apply Sum_ext. intros a _. rewrite <- Sum_scal_r. apply Sum_ext. intros j _. ring. }
  assert (X2 : Sum p (fun a => c s a * qcov a s') = B).
  { unfold B, c. rewrite Sum_swap. apply Sum_ext. intros a Ha. rewrite <- Sum_scal_r. apply Sum_ext. intros j Hj.
    rewrite (Wsym j a) by auto. ring. }
  unfold fcov.
  rewrite (Int_ext p_infty _ (fun x => (psi s x * psi s' x - psi s x * G s' x) - (psi s' x * G s x - G s x * G s' x))).
  2:{ intros x. unfold rpsi. fold (c s) (c s'). unfold G, c. ring. }
  rewrite !(Int_minus p_infty I); auto using dom1_mult, dom1_minus.
  rewrite !X, X1, X2, Y. ring.
Qed.

(** The variance that remains when the variables and the inner products are both known. *)
Section Residual.
Context (b : Rbar) (U : ulim b).

Lemma residual_trace :
  Int b (fun s => fcov rpsi s s) =
  Int b (fun s => fcov psi s s) - Sum p (fun a => Sum p (fun c => W a c * Int b (fun s => qcov a s * qcov c s))).
Proof.
  rewrite (Int_ext b _ _ (fun s => fcov_residual s s)).
  rewrite (Int_minus b U); auto using fcov_diag_dom1.
  - f_equal. rewrite Int_Sum; auto.
    + apply Sum_ext. intros a Ha. rewrite Int_Sum; auto.
      * apply Sum_ext. intros c Hc. apply Int_scal; auto. apply dom1_mult; apply qcov_dom1; auto.
      * intros c Hc. apply dom1_scal, dom1_mult; apply qcov_dom1; auto.
    + intros a Ha. apply dom1_Sum. intros c Hc. apply dom1_scal, dom1_mult; apply qcov_dom1; auto.
  - apply (dom1_Sum p (fun a s => Sum p (fun c => W a c * (qcov a s * qcov c s)))). intros a Ha.
    apply dom1_Sum. intros c Hc. apply dom1_scal, dom1_mult; apply qcov_dom1; auto.
Qed.

Lemma residual_double g h : dom1 g -> dom1 h ->
  Int b (fun s => Int b (fun s' => fcov rpsi s s' * g s * h s')) =
  Int b (fun s => Int b (fun s' => fcov psi s s' * g s * h s'))
  - Sum p (fun a => Sum p (fun c => W a c * (Int b (fun s => qcov a s * g s) * Int b (fun s => qcov c s * h s)))).
Proof.
  intros Dg Dh.
  assert (Dq : forall a, (a < p)%nat -> dom1 (fun s => qcov a s * g s)) by (intros; apply dom1_mult; auto using qcov_dom1).
  assert (Dq' : forall a, (a < p)%nat -> dom1 (fun s => qcov a s * h s)) by (intros; apply dom1_mult; auto using qcov_dom1).
  set (R1 := fun s => Sum p (fun a => Sum p (fun c => W a c * Int b (fun s' => qcov c s' * h s') * (qcov a s * g s)))).
  rewrite (Int_ext b _ (fun s => Int b (fun s' => fcov psi s s' * g s * h s') - R1 s)).
  - rewrite (Int_minus b U).
    + f_equal. unfold R1. rewrite Int_Sum; auto.
      * apply Sum_ext. intros a Ha. rewrite Int_Sum; auto.
        -- apply Sum_ext. intros c Hc. rewrite (Int_scal b U) by auto. ring.
        -- intros c Hc. apply dom1_scal; auto.
      * intros a Ha. apply dom1_Sum. intros c Hc. apply dom1_scal; auto.
    + set (ch := fun x => Int b (fun s => psi s x * h s)).
      assert (Dch : dom1 ch) by (apply (dom2_Int1 (fun s x => psi s x * h s) b U); now apply dom2_mult1).
      apply (dom1_ext (fun s => g s * Int p_infty (fun x => psi s x * ch x))).
      * intros s. rewrite (Int_ext b _ (fun s' => g s * (fcov psi s s' * h s'))) by (intros; ring).
        rewrite (Int_scal b U) by (apply dom1_mult; auto; now apply fcov_dom1). f_equal.
        assert (DF : dom2 (fun s' x => psi s' x * psi s x * h s')).
        { apply dom2_mult1; auto. apply dom2_mult2; auto. now apply dom2_at1. }
        symmetry. transitivity (Int b (fun s' => Int p_infty (fun x => psi s' x * psi s x * h s'))).
        -- apply Int_ext. intros s'. unfold fcov.
           rewrite Rmult_comm, <- (Int_scal p_infty I) by (apply dom1_mult; now apply dom2_at1).
           apply Int_ext. intros x. ring.
        -- rewrite (fubini _ b p_infty U I DF). apply Int_ext. intros x. unfold ch.
           rewrite (Int_ext b _ (fun s' => psi s x * (psi s' x * h s'))) by (intros; ring).
           apply Int_scal; auto. apply dom1_mult; auto. now apply dom2_at2.
      * apply dom1_mult; auto. apply (dom2_Int2 (fun s x => psi s x * ch x) p_infty I). now apply dom2_mult2.
    + unfold R1. apply (dom1_Sum p (fun a s => Sum p (fun c => W a c * Int b (fun s' => qcov c s' * h s') * (qcov a s * g s)))).
      intros a Ha. apply dom1_Sum. intros c Hc. apply dom1_scal; auto.
  - intros s. unfold R1.
    rewrite (Int_ext b _ (fun s' => fcov psi s s' * g s * h s'
       - Sum p (fun a => Sum p (fun c => W a c * (qcov a s * g s) * (qcov c s' * h s'))))).
    + rewrite (Int_minus b U).
      * f_equal. rewrite Int_Sum; auto.
        -- apply Sum_ext. intros a Ha. rewrite Int_Sum; auto.
           ++ apply Sum_ext. intros c Hc. rewrite (Int_scal b U) by auto. ring.
           ++ intros c Hc. apply dom1_scal; auto.
        -- intros a Ha. apply dom1_Sum. intros c Hc. apply dom1_scal; auto.
      * apply dom1_mult; auto. apply (dom1_ext (fun s' => g s * fcov psi s s')); [intros; ring|]. apply dom1_scal. now apply fcov_dom1.
      * apply (dom1_Sum p (fun a s' => Sum p (fun c => W a c * (qcov a s * g s) * (qcov c s' * h s')))).
        intros a Ha. apply dom1_Sum. intros c Hc. apply dom1_scal; auto.
    + intros s'. rewrite fcov_residual.
      replace (Sum p (fun a => Sum p (fun c => W a c * (qcov a s * g s) * (qcov c s' * h s'))))
        with (g s * h s' * Sum p (fun a => Sum p (fun c => W a c * (qcov a s * qcov c s')))); [ring|].
      rewrite <- Sum_scal. apply Sum_ext. intros a _. rewrite <- Sum_scal. apply Sum_ext. intros c _. ring.
Qed.

Context (n : nat) (g : nat -> R -> R) (Dg : forall k, (k < n)%nat -> dom1 (g k)).
Context (Kz Wz : nat -> nat -> R).
Hypothesis HKz : forall k l, (k < n)%nat -> (l < n)%nat -> Kz k l = Int p_infty (fun x => g k x * g l x).
Hypothesis HWz : forall i j, (i < n)%nat -> (j < n)%nat ->
  Sum n (fun k => Sum n (fun l => Wz k i * Kz k l * Wz l j)) = Wz i j.

Lemma residual_variance :
  0 <= Int b (fun s => fcov psi s s)
       - Sum p (fun a => Sum p (fun c => W a c * Int b (fun s => qcov a s * qcov c s)))
       - Sum n (fun k => Sum n (fun l => Wz k l * Int b (fun s => Int b (fun s' => fcov psi s s' * g k s * g l s'))))
       + Sum n (fun k => Sum n (fun l => Wz k l *
           Sum p (fun a => Sum p (fun c => W a c * (Int b (fun s => qcov a s * g k s) * Int b (fun s => qcov c s * g l s)))))).
Proof.
  pose proof (trace_bessel n g Dg Kz Wz HKz b U HWz rpsi rpsi_dom2) as T. rewrite residual_trace in T.
  assert (E : Sum n (fun k => Sum n (fun l => Wz k l * Int b (fun s => Int b (fun s' => fcov rpsi s s' * g k s * g l s')))) =
    Sum n (fun k => Sum n (fun l => Wz k l * Int b (fun s => Int b (fun s' => fcov psi s s' * g k s * g l s'))))
    - Sum n (fun k => Sum n (fun l => Wz k l *
           Sum p (fun a => Sum p (fun c => W a c * (Int b (fun s => qcov a s * g k s) * Int b (fun s => qcov c s * g l s))))))).
  { rewrite <- Sum_minus. apply Sum_ext. intros k Hk. rewrite <- Sum_minus. apply Sum_ext. intros l Hl.
    rewrite residual_double by auto. ring. }
  rewrite E in T. lra.
Qed.
End Residual.
End Conditional.
