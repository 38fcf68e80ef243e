(** [invert_perm] and the sorting of the frequencies. *)
From Coq Require Import Reals ZArith List Bool Lia Permutation Sorted.
From Verif Require Import Py ListFacts RgpcmModel RgpcmSpec.
Import ListNotations.

Lemma set_nth_spec {A} (l : list A) i v : (i < List.length l)%nat ->
  exists l', set_nth l i v = Ok l' /\ List.length l' = List.length l /\ nth_error l' i = Some v
             /\ forall j, j <> i -> nth_error l' j = nth_error l j.
Proof.
  revert i. induction l as [|x l IH]; intros i H; simpl in *; [lia|]. destruct i as [|i].
  - exists (v :: l). repeat split; auto. intros [|j] Hj; auto. congruence.
  - destruct (IH i ltac:(lia)) as [l' [E [L [N O]]]]. rewrite E. exists (x :: l'). cbn [bind]. repeat split; simpl; auto.
    intros [|j] Hj; simpl; auto.
Qed.

Lemma invert_fold (L : list (nat * nat)) acc :
  NoDup (map snd L) -> (forall p, In p L -> (snd p < List.length acc)%nat) ->
  exists acc', foldM (fun inv ip => set_nth inv (snd ip) (Z.of_nat (fst ip))) L acc = Ok acc'
    /\ List.length acc' = List.length acc
    /\ (forall p, In p L -> nth_error acc' (snd p) = Some (Z.of_nat (fst p)))
    /\ (forall j, ~ In j (map snd L) -> nth_error acc' j = nth_error acc j).
Proof.
  revert acc. induction L as [|p L IH]; intros acc N H.
  - exists acc. repeat split; auto. intros p [].
  - simpl in N. inversion_clear N as [|? ? N1 N2]. simpl foldM.
    destruct (set_nth_spec acc (snd p) (Z.of_nat (fst p)) (H p (or_introl eq_refl))) as [a1 [E [L1 [S O]]]].
    rewrite E. cbn [bind].
    destruct (IH a1 N2) as [a2 [E2 [L2 [S2 O2]]]]; [intros q Hq; rewrite L1; apply H; now right|].
    exists a2. rewrite E2. repeat split; [congruence| |].
    + intros q [<-|Hq]; auto. rewrite O2; auto.
    + intros j Hj. simpl in Hj. rewrite O2 by tauto. apply O. intros ->. tauto.
Qed.

Lemma nth_error_combine {A B} (l : list A) (l' : list B) i a b :
  nth_error l i = Some a -> nth_error l' i = Some b -> In (a, b) (combine l l').
Proof.
  revert l' i. induction l as [|x l IH]; intros [|y l'] [|i] Ha Hb; simpl in *; try discriminate; [left; congruence|right; eauto].
Qed.

Lemma nth_error_seq n i s : (i < n)%nat -> nth_error (seq s n) i = Some (s + i)%nat.
Proof. revert i s. induction n as [|n IH]; intros i s H; [lia|]. destruct i; simpl; [f_equal; lia|]. rewrite IH by lia. f_equal. lia. Qed.

Lemma invert_perm_spec perm : Permutation perm (seq 0 (List.length perm)) ->
  exists inv, invert_perm perm = Ok inv /\ List.length inv = List.length perm
    /\ forall i p, nth_error perm i = Some p <-> nth_error inv p = Some (Z.of_nat i).
Proof.
  intros P. set (n := List.length perm) in *. unfold invert_perm. fold n.
  assert (Sn : map snd (combine (seq 0 n) perm) = perm).
  { clear P. unfold n. clear n. generalize 0%nat. induction perm as [|a l IH]; intros s; simpl; auto. now rewrite IH. }
  assert (N : NoDup perm) by (eapply Permutation_NoDup; [apply Permutation_sym; exact P|apply seq_NoDup]).
  destruct (invert_fold (combine (seq 0 n) perm) (repeat (-1)%Z n)) as [inv [E [L [S O]]]].
  - rewrite Sn. exact N.
  - intros p Hp. rewrite repeat_length. destruct p as [a b]. apply in_combine_r in Hp.
    apply (Permutation_in _ P) in Hp. apply in_seq in Hp. simpl. lia.
  - rewrite repeat_length in L. exists inv. split; auto. split; auto.
    assert (Fw : forall i p, nth_error perm i = Some p -> nth_error inv p = Some (Z.of_nat i)).
    { intros i p Hi. apply (S (i, p)). apply nth_error_combine with i; auto.
      apply (nth_error_seq n i 0). apply nth_error_Some. fold n. congruence. }
    intros i p. split; [apply Fw|]. intros Hp.
    assert (Lp : (p < n)%nat) by (rewrite <- L; apply nth_error_Some; congruence).
    assert (In p perm) by (eapply Permutation_in; [apply Permutation_sym; exact P|]; apply in_seq; lia).
    apply In_nth_error in H. destruct H as [i' Hi']. rewrite (Fw _ _ Hi') in Hp. injection Hp as Hp.
    apply Nat2Z.inj in Hp. now subst.
Qed.

(** * Sorting and undoing it *)

Lemma py_item_nat {A} (l : list A) i : py_item l (Z.of_nat i) = match nth_error l i with Some x => Ok x | None => Err IndexError end.
Proof.
  unfold py_item. assert (E : (Z.of_nat i <? 0)%Z = false) by (apply Z.ltb_ge; lia). rewrite E. cbv iota zeta. rewrite E, Nat2Z.id. reflexivity.
Qed.

Lemma mapM_ext_In {A B} (f : A -> res B) (g : A -> B) l : (forall x, In x l -> f x = Ok (g x)) -> mapM f l = Ok (map g l).
Proof.
  induction l as [|x l IH]; intros H; simpl; auto. rewrite (H x (or_introl eq_refl)). cbn [bind].
  rewrite IH by (intros; apply H; now right). reflexivity.
Qed.

Lemma list_nth_ext {A} (l l' : list A) : (forall i, nth_error l i = nth_error l' i) -> l = l'.
Proof.
  revert l'. induction l as [|x l IH]; intros [|y l'] H; auto; try (specialize (H 0%nat); discriminate).
  f_equal; [specialize (H 0%nat); simpl in H; congruence|]. apply IH. intros i. apply (H (S i)).
Qed.

Section Sorted.
Context (argsort : list Z -> list nat) (Ha : argsorts argsort).

Lemma argsort_perm l : Permutation (argsort l) (seq 0 (List.length (argsort l))).
Proof.
  destruct (Ha l) as [P _]. pose proof (Permutation_length P) as L. rewrite seq_length in L. now rewrite L.
Qed.

Lemma argsort_length l : List.length (argsort l) = List.length l.
Proof. destruct (Ha l) as [P _]. rewrite (Permutation_length P). apply seq_length. Qed.

(** [ms[perm]]. *)
Definition sorted (l : list Z) : list Z := map (fun i => nth i l 0%Z) (argsort l).

Lemma take_sorted l : take l (map Z.of_nat (argsort l)) = Ok (sorted l).
Proof.
  unfold take, sorted.
  rewrite (mapM_ext_In _ (fun z => nth (Z.to_nat z) l 0%Z)).
  - f_equal. rewrite map_map. apply map_ext. intros i. now rewrite Nat2Z.id.
  - intros z Hz. apply in_map_iff in Hz. destruct Hz as [i [<- Hi]]. rewrite py_item_nat, Nat2Z.id.
    destruct (Ha l) as [P _]. apply (Permutation_in _ P) in Hi. apply in_seq in Hi.
    rewrite (nth_error_nth' l 0%Z) by lia. reflexivity.
Qed.

Lemma sorted_sorted l : StronglySorted Z.le (sorted l).
Proof. apply (Ha l). Qed.

Lemma sorted_perm l : Permutation (sorted l) l.
Proof.
  destruct (Ha l) as [P _]. unfold sorted. rewrite (Permutation_map _ P).
  replace (map (fun i => nth i l 0%Z) (seq 0 (List.length l))) with l; auto.
  apply list_nth_ext. intros i. destruct (Nat.lt_ge_cases i (List.length l)) as [L|L].
  - rewrite (map_nth_error (fun i => nth i l 0%Z) i (seq 0 (List.length l)) (nth_error_seq _ _ _ L)). simpl. now apply nth_error_nth'.
  - rewrite (proj2 (nth_error_None l i) L). symmetry. apply nth_error_None. rewrite map_length, seq_length. auto.
Qed.

(** Undoing the sorting of any tabulated function. *)
Lemma take_inverse {B} (f : Z -> B) l inv : invert_perm (argsort l) = Ok inv -> take (map f (sorted l)) inv = Ok (map f l).
Proof.
  intros E. destruct (invert_perm_spec (argsort l) (argsort_perm l)) as [inv' [E' [L S]]].
  rewrite E in E'. injection E' as <-. rewrite argsort_length in L.
  assert (X : forall k x, nth_error l k = Some x -> exists i, nth_error inv k = Some (Z.of_nat i) /\ nth_error (sorted l) i = Some x).
  { intros k x Hk. assert (Lk : (k < List.length l)%nat) by (apply nth_error_Some; congruence).
    assert (Hin : In k (argsort l)) by (eapply Permutation_in; [apply Permutation_sym, (Ha l)|]; apply in_seq; lia).
    apply In_nth_error in Hin. destruct Hin as [i Hi]. exists i. split; [now apply S|].
    unfold sorted. rewrite (map_nth_error _ _ _ Hi). f_equal. now apply nth_error_nth. }
  clear S E. revert inv L X. generalize (sorted l) as s. intros s. induction l as [|x l IH]; intros inv L X.
  - destruct inv; [reflexivity|discriminate].
  - destruct inv as [|z inv]; [discriminate|]. unfold take in *. simpl.
    destruct (X 0%nat x eq_refl) as [i [Hz Hi]]. simpl in Hz. injection Hz as ->.
    rewrite py_item_nat. rewrite (map_nth_error f _ _ Hi). cbn [bind]. rewrite IH.
    + reflexivity.
    + simpl in L. congruence.
    + intros k y Hk. apply (X (S k) y Hk).
Qed.

Lemma invert_argsort l : exists inv, invert_perm (argsort l) = Ok inv.
Proof. destruct (invert_perm_spec _ (argsort_perm l)) as [inv [E _]]. eauto. Qed.

End Sorted.

(** * Splitting a sorted list *)

Lemma split_sorted (l : list Z) (f g : Z -> bool) :
  StronglySorted Z.le l -> (forall x, In x l -> g x = negb (f x)) ->
  (forall x y, In x l -> In y l -> (x <= y)%Z -> f y = true -> f x = true) ->
  l = (filter f l ++ filter g l)%list.
Proof.
  induction 1 as [|x l S IH F]; intros C M; auto. simpl.
  assert (I : l = (filter f l ++ filter g l)%list).
  { apply IH; intros; [apply C|eapply M]; eauto; simpl; auto. }
  rewrite (C x (or_introl eq_refl)). destruct (f x) eqn:E; simpl.
  - now f_equal.
  - assert (Fn : filter f l = []).
    { apply filter_nil. intros y Hy. destruct (f y) eqn:Ey; auto. rewrite Forall_forall in F.
      rewrite (M x y) in E; simpl; auto. }
    rewrite Fn in *. simpl in *. now f_equal.
Qed.
