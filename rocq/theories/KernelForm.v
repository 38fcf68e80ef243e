(** Quadratic forms of covariances given finitely many variables. *)
From Coq Require Import Reals Lra Lia Psatz.
From Verif Require Import GaussFeat GpcmEntries.
Local Open Scope R_scope.

Lemma Sum_app n k f : Sum (n + k) f = Sum n f + Sum k (fun i => f (n + i)%nat).
Proof.
  induction k as [|k IH]; cbn [Sum]; [rewrite Nat.add_0_r; lra|].
  rewrite Nat.add_succ_r. cbn [Sum]. rewrite IH. lra.
Qed.

Section Inverse.
Context (nu : nat) (K W : nat -> nat -> R).
Hypothesis HW : forall i j, (i < nu)%nat -> (j < nu)%nat ->
  Sum nu (fun k => Sum nu (fun l => W k i * K k l * W l j)) = W i j.

(** The quadratic form of the inverse. *)
Definition wform (b : nat -> R) : R := Sum nu (fun i => Sum nu (fun j => W i j * (b i * b j))).
Definition weights (b : nat -> R) (i : nat) : R := Sum nu (fun c => W i c * b c).

Lemma weights_dot b : Sum nu (fun i => weights b i * b i) = wform b.
Proof. unfold wform, weights. apply Sum_ext. intros a Ha. rewrite <- Sum_scal_r. apply Sum_ext. intros c Hc. ring. Qed.

Hypothesis Wsym : forall i j, (i < nu)%nat -> (j < nu)%nat -> W i j = W j i.

Lemma weights_form b : Sum nu (fun i => Sum nu (fun j => weights b i * weights b j * K i j)) = wform b.
Proof.
  transitivity (Sum nu (fun a => Sum nu (fun c => Sum nu (fun k => Sum nu (fun l => W k a * K k l * W l c)) * (b a * b c)))).
  2:{ unfold wform. apply Sum_ext. intros a Ha. apply Sum_ext. intros c Hc. now rewrite HW. }
  transitivity (Sum nu (fun k => Sum nu (fun l => Sum nu (fun a => Sum nu (fun c => W k a * K k l * W l c * (b a * b c)))))).
  - apply Sum_ext. intros k Hk. apply Sum_ext. intros l Hl. unfold weights. rewrite Sum_prod, <- Sum_scal_r. apply Sum_ext. intros a Ha.
    rewrite <- Sum_scal_r. apply Sum_ext. intros c Hc. ring.
  - transitivity (Sum nu (fun k => Sum nu (fun a => Sum nu (fun l => Sum nu (fun c => W k a * K k l * W l c * (b a * b c)))))).
    { apply Sum_ext. intros k Hk. apply Sum_swap. }
    rewrite Sum_swap. apply Sum_ext. intros a Ha.
    transitivity (Sum nu (fun k => Sum nu (fun c => Sum nu (fun l => W k a * K k l * W l c * (b a * b c))))).
    { apply Sum_ext. intros k Hk. apply Sum_swap. }
    rewrite Sum_swap. apply Sum_ext. intros c Hc. rewrite <- Sum_scal_r. apply Sum_ext. intros k Hk. now rewrite <- Sum_scal_r.
Qed.

Lemma wform_pairs n (c : nat -> R) (B : nat -> nat -> R) :
  wform (fun a => Sum n (fun p => c p * B p a))
  = Sum n (fun p => Sum n (fun q => c p * c q * Sum nu (fun a => Sum nu (fun b => W a b * (B p a * B q b))))).
Proof.
  unfold wform.
  transitivity (Sum nu (fun a => Sum nu (fun b => Sum n (fun p => Sum n (fun q => c p * c q * (W a b * (B p a * B q b))))))).
  { apply Sum_ext. intros a _. apply Sum_ext. intros b _. rewrite Sum_prod, <- Sum_scal. apply Sum_ext. intros p _.
    rewrite <- Sum_scal. apply Sum_ext. intros q _. ring. }
  transitivity (Sum n (fun p => Sum n (fun q => Sum nu (fun a => Sum nu (fun b => c p * c q * (W a b * (B p a * B q b))))))).
  { transitivity (Sum nu (fun a => Sum n (fun p => Sum nu (fun b => Sum n (fun q => c p * c q * (W a b * (B p a * B q b))))))).
    { apply Sum_ext. intros a _. apply Sum_swap. }
    rewrite Sum_swap. apply Sum_ext. intros p _.
    transitivity (Sum nu (fun a => Sum n (fun q => Sum nu (fun b => c p * c q * (W a b * (B p a * B q b)))))).
    { apply Sum_ext. intros a _. apply Sum_swap. }
    apply Sum_swap. }
  apply Sum_ext. intros p _. apply Sum_ext. intros q _. rewrite <- Sum_scal. apply Sum_ext. intros a _. now rewrite <- Sum_scal.
Qed.

(** The Schur complement of a positive definite form is positive definite. *)
Lemma schur_pd n (A B : nat -> nat -> R) (c : nat -> R) :
  (forall d, 0 < Sum n (fun p => Sum n (fun q => c p * c q * A p q)) + 2 * Sum nu (fun a => d a * Sum n (fun p => c p * B p a))
                 + Sum nu (fun a => Sum nu (fun b => d a * d b * K a b))) ->
  0 < Sum n (fun p => Sum n (fun q => c p * c q * (A p q - Sum nu (fun a => Sum nu (fun b => W a b * (B p a * B q b)))))).
Proof.
  intros H. set (b := fun a => Sum n (fun p => c p * B p a)). specialize (H (fun a => - weights b a)).
  assert (E1 : Sum nu (fun a => - weights b a * b a) = - wform b).
  { rewrite <- weights_dot. replace (- Sum nu (fun i => weights b i * b i)) with (-1 * Sum nu (fun i => weights b i * b i)) by ring.
    rewrite <- Sum_scal. apply Sum_ext. intros; ring. }
  assert (E2 : Sum nu (fun i => Sum nu (fun j => - weights b i * - weights b j * K i j)) = wform b).
  { rewrite <- weights_form. apply Sum_ext. intros. apply Sum_ext. intros. ring. }
  cbv beta in H. rewrite E2 in H. change (Sum nu (fun a => - weights b a * Sum n (fun p => c p * B p a))) with (Sum nu (fun a => - weights b a * b a)) in H.
  rewrite E1 in H.
  replace (Sum n (fun p => Sum n (fun q => c p * c q * (A p q - Sum nu (fun a => Sum nu (fun b => W a b * (B p a * B q b)))))))
    with (Sum n (fun p => Sum n (fun q => c p * c q * A p q)) - wform b); [lra|].
  unfold b. rewrite wform_pairs. rewrite <- Sum_minus. apply Sum_ext. intros p _. rewrite <- Sum_minus. apply Sum_ext. intros q _. ring.
Qed.
End Inverse.
