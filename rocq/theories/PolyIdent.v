(** A real polynomial that vanishes everywhere has zero coefficients. *)
From Coq Require Import Reals List Lia Lra.
From Verif Require Import ListFacts.
Import ListNotations.
Local Open Scope R_scope.

Lemma poly_zero n : forall (c : nat -> R),
  (forall z, rsum (map (fun j => c j * z ^ j) (seq 0 n)) = 0) ->
  forall j, (j < n)%nat -> c j = 0.
Proof.
  induction n as [|n IH]; intros c H j Hj; [lia|].
  assert (A : forall j, (j < n)%nat -> c j = 0).
  { intros i Hi.
    assert (Z : c i * (2 ^ i - 2 ^ n) = 0).
    { apply (IH (fun j => c j * (2 ^ j - 2 ^ n))); auto. intros z.
      pose proof (H (2 * z)) as H1. pose proof (H z) as H2.
      rewrite seq_S, map_app, rsum_app in H1, H2. simpl in H1, H2.
      rewrite rsum_cons in H1, H2. unfold rsum at 2 in H1. unfold rsum at 2 in H2. simpl in H1, H2.
      rewrite Rpow_mult_distr in H1.
      replace (map (fun j0 => c j0 * (2 ^ j0 - 2 ^ n) * z ^ j0) (seq 0 n))
        with (map (fun j0 => c j0 * (2 * z) ^ j0 + - 2 ^ n * (c j0 * z ^ j0)) (seq 0 n)).
      2: { apply map_ext. intros k. rewrite Rpow_mult_distr. ring. }
      assert (P : forall (f g : nat -> R) l, rsum (map (fun k => f k + g k) l) = rsum (map f l) + rsum (map g l)).
      { clear. intros f g l. induction l as [|x l IHl]; simpl; [unfold rsum; simpl; ring|].
        rewrite !rsum_cons, IHl. ring. }
      rewrite (P (fun k => c k * (2 * z) ^ k) (fun k => - 2 ^ n * (c k * z ^ k))).
      assert (S : forall k (g : nat -> R) l, rsum (map (fun i => k * g i) l) = k * rsum (map g l)).
      { clear. intros k g l. induction l as [|x l IHl]; simpl; [unfold rsum; simpl; ring|].
        rewrite !rsum_cons, IHl. ring. }
      rewrite (S (- 2 ^ n) (fun k => c k * z ^ k)).
      replace (rsum (map (fun k => c k * z ^ k) (seq 0 n))) with (- (c n * z ^ n)) by lra.
      replace (rsum (map (fun k => c k * (2 * z) ^ k) (seq 0 n))) with (- (c n * (2 ^ n * z ^ n))) by lra.
      ring. }
    apply Rmult_integral in Z. destruct Z as [Z|Z]; auto.
    exfalso. assert (2 ^ i < 2 ^ n) by (apply Rlt_pow; [lra|lia]). lra. }
  destruct (Nat.eq_dec j n) as [->|NE]; [|apply A; lia].
  pose proof (H 1) as H1. rewrite seq_S, map_app, rsum_app in H1. simpl in H1.
  rewrite rsum_cons in H1. unfold rsum at 2 in H1. simpl in H1.
  assert (B : rsum (map (fun j => c j * 1 ^ j) (seq 0 n)) = 0).
  { assert (G : forall l, (forall j, In j l -> c j = 0) -> rsum (map (fun j => c j * 1 ^ j) l) = 0).
    { clear. intros l. induction l as [|x l IHl]; simpl; intros Hl; [reflexivity|].
      rewrite rsum_cons, IHl by auto. rewrite Hl by auto. ring. }
    apply G. intros k Hk. apply in_seq in Hk. apply A. lia. }
  rewrite B, pow1 in H1. lra.
Qed.
