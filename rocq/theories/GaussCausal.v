(** Covariances of causal filters: integrals up to the earlier of two times. *)
From Coq Require Import Reals Lra Lia Psatz.
From Coquelicot Require Import Coquelicot.
From Verif Require Import Gauss Gauss2 Gauss3 Fubini GaussDom GaussFeat.
Local Open Scope R_scope.

Lemma Int_mono (f : R -> R) (a b : R) : dom1 f -> (forall x, 0 <= f x) -> a <= b -> Int a f <= Int b f.
Proof.
  intros D Hf Hab. pose proof (below_split _ a b _ (proj1 D) (Int_spec _ b I D)) as E. apply Int_unique in E. rewrite E.
  assert (0 <= RInt f a b); [|lra]. apply RInt_ge_0; auto.
  apply (@ex_RInt_continuous R_CompleteNormedModule). intros; apply D.
Qed.

(** Positive variances. *)
Lemma Int_pos (f : R -> R) b x0 : ulim b -> dom1 f -> (forall x, 0 <= f x) -> 0 < f x0 -> x0 <= 0 -> Rbar_le x0 b -> 0 < Int b f.
Proof.
  intros U D P Px H0 Hb.
  destruct (proj1 D x0 (fun y => f x0 / 2 < y)) as [d Hd].
  { apply (open_gt (f x0 / 2)). lra. }
  assert (X : ex_RInt f (x0 - d / 2) x0) by (apply (@ex_RInt_continuous R_CompleteNormedModule); intros; apply D).
  assert (L : 0 < RInt f (x0 - d / 2) x0).
  { pose proof (cond_pos d) as Pd. apply Rlt_le_trans with (RInt (fun _ => f x0 / 2) (x0 - d / 2) x0).
    - rewrite RInt_const. unfold scal; simpl; unfold mult; simpl. apply Rmult_lt_0_compat; lra.
    - apply RInt_le; auto; [lra|apply ex_RInt_const|]. intros y Hy. left. apply Hd. apply Rabs_def1; unfold minus, plus, opp; simpl; lra. }
  assert (A : 0 < Int x0 f).
  { pose proof (below_split _ (x0 - d / 2) x0 _ (proj1 D) (Int_spec _ x0 I D)) as E. apply Int_unique in E.
    pose proof (Int_nonneg (x0 - d / 2) I f D P). lra. }
  destruct b as [b| |]; [|clear Hb|contradiction].
  - eapply Rlt_le_trans; [exact A|]. now apply Int_mono.
  - rewrite Int_whole by auto. pose proof (Int_mono f x0 0 D P H0).
    pose proof (Int_nonneg 0 I _ (dom1_opp_arg f D) (fun x => P (- x))). lra.
Qed.

Section Causal.
Context (n : nat) (t : nat -> R) (r : nat -> nat -> R -> R).
Hypothesis Dr : forall p q, (p < n)%nat -> (q < n)%nat -> dom1 (r p q).
Hypothesis Hr : forall (c : nat -> R) x, 0 <= Sum n (fun p => Sum n (fun q => c p * c q * r p q x)).

Definition form (c : nat -> R) (F : nat -> nat -> R) : R := Sum n (fun p => Sum n (fun q => c p * c q * F p q)).

Lemma form_dom1 c : dom1 (fun x => form c (fun p q => r p q x)).
Proof. unfold form. apply dom1_Sum. intros p Hp. apply dom1_Sum. intros q Hq. apply dom1_scal. auto. Qed.

Lemma form_Int b c : ulim b -> form c (fun p q => Int b (r p q)) = Int b (fun x => form c (fun p q => r p q x)).
Proof.
  intros U. unfold form. rewrite Int_Sum; auto.
  - apply Sum_ext. intros p Hp. rewrite Int_Sum; auto.
    + apply Sum_ext. intros q Hq. symmetry. apply Int_scal; auto.
    + intros q Hq. apply dom1_scal. auto.
  - intros p Hp. apply dom1_Sum. intros q Hq. apply dom1_scal. auto.
Qed.

(** Whole lines. *)
Lemma whole_psd b c : ulim b -> 0 <= form c (fun p q => Int b (r p q)).
Proof. intros U. rewrite form_Int by auto. apply (Int_nonneg b U); [apply form_dom1|]. intros x. apply Hr. Qed.

Lemma form_step (a b : R) c : a <= b -> form c (fun p q => Int a (r p q)) <= form c (fun p q => Int b (r p q)).
Proof. intros H. rewrite !form_Int by exact I. apply Int_mono; auto using form_dom1. intros x. apply Hr. Qed.

Lemma form_minus c F G : form c (fun p q => F p q - G p q) = form c F - form c G.
Proof.
  unfold form. rewrite <- Sum_minus. apply Sum_ext. intros p _. rewrite <- Sum_minus. apply Sum_ext. intros q _. ring.
Qed.

(** The number of nonzero coefficients. *)
Fixpoint count (k : nat) (c : nat -> R) : nat :=
  match k with O => O | S k' => ((if Req_EM_T (c k') 0 then 0 else 1) + count k' c)%nat end.

Lemma count_zero k c : count k c = O -> forall p, (p < k)%nat -> c p = 0.
Proof.
  induction k as [|k IH]; cbn [count]; intros H p Hp; [lia|]. destruct (Req_EM_T (c k) 0) as [E|]; [|discriminate].
  assert (p = k \/ (p < k)%nat) as [->|Hp'] by lia; auto.
Qed.
Lemma count_less k c c' p0 : (p0 < k)%nat -> c p0 <> 0 -> c' p0 = 0 -> (forall p, p <> p0 -> c' p = c p) ->
  (count k c' < count k c)%nat.
Proof.
  intros Hp N Z E.
  assert (Same : forall j, (j <= p0)%nat -> count j c' = count j c).
  { intros j. induction j as [|j IH]; intros Hj; [reflexivity|]. cbn [count]. rewrite (E j) by lia. rewrite IH by lia. reflexivity. }
  induction k as [|k IH]; [lia|]. cbn [count]. assert (p0 = k \/ (p0 < k)%nat) as [<-|Hk] by lia.
  - rewrite Same by lia. rewrite Z. destruct (Req_EM_T 0 0); [|contradiction]. destruct (Req_EM_T (c p0) 0); [contradiction|]. lia.
  - rewrite (E k) by lia. specialize (IH Hk). lia.
Qed.

Lemma earliest k c : (exists p, (p < k)%nat /\ c p <> 0) ->
  exists p, (p < k)%nat /\ c p <> 0 /\ forall q, (q < k)%nat -> c q <> 0 -> t p <= t q.
Proof.
  induction k as [|k IH]; intros [p [Hp Np]]; [lia|].
  destruct (Req_EM_T (c k) 0) as [Z|N].
  - destruct IH as [p0 [A [B C]]].
    { exists p. split; auto. assert (p <> k) by congruence. lia. }
    exists p0. split; [lia|]. split; auto. intros q Hq Nq. apply C; auto. assert (q <> k) by congruence. lia.
  - destruct (Nat.eq_dec (count k c) 0) as [E|E].
    + exists k. split; [lia|]. split; auto. intros q Hq Nq. assert (q = k \/ (q < k)%nat) as [->|H] by lia; [lra|].
      exfalso. apply Nq. now apply (count_zero k).
    + assert (Ex : exists p, (p < k)%nat /\ c p <> 0).
      { clear - E. induction k as [|k IH]; [cbn in E; lia|]. cbn [count] in E. destruct (Req_EM_T (c k) 0) as [Z|N]; [|exists k; split; auto].
        destruct IH as [p [A B]]; [lia|]. exists p. split; auto. }
      destruct (IH Ex) as [p0 [A [B C]]]. destruct (Rle_dec (t p0) (t k)) as [L|L].
      * exists p0. split; [lia|]. split; auto. intros q Hq Nq. assert (q = k \/ (q < k)%nat) as [->|H] by lia; auto.
      * exists k. split; [lia|]. split; auto. intros q Hq Nq. assert (q = k \/ (q < k)%nat) as [->|H] by lia; [lra|].
        specialize (C q H Nq). lra.
Qed.

Lemma form_zero c F : (forall p, (p < n)%nat -> c p = 0) -> form c F = 0.
Proof.
  intros H. unfold form. rewrite <- (Sum_zero n). apply Sum_ext. intros p Hp. rewrite <- (Sum_zero n). apply Sum_ext. intros q Hq.
  rewrite (H p Hp). ring.
Qed.

Lemma causal_tail k : forall c (l : R), (count n c <= k)%nat -> (forall p, (p < n)%nat -> c p <> 0 -> l <= t p) ->
  form c (fun p q => Int l (r p q)) <= form c (fun p q => Int (Rmin (t p) (t q)) (r p q)).
Proof.
  induction k as [|k IH]; intros c l Hc Hl.
  - rewrite !form_zero; try lra; apply count_zero; lia.
  - destruct (Nat.eq_dec (count n c) 0) as [E|E]; [rewrite !form_zero; try lra; now apply count_zero|].
    destruct (earliest n c) as [p0 [A [B C]]].
    { destruct (Classical_Prop.classic (exists p, (p < n)%nat /\ c p <> 0)) as [|N]; auto. exfalso. apply E. clear - N.
      induction n as [|j IHj]; [reflexivity|]. cbn [count]. destruct (Req_EM_T (c j) 0) as [|M]; [|exfalso; apply N; exists j; split; auto].
      apply IHj. intros [p [P Q]]. apply N. exists p. split; auto. }
    set (c' := fun p => if Nat.eq_dec p p0 then 0 else c p).
    assert (L : (count n c' < count n c)%nat).
    { apply (count_less n c c' p0); auto; unfold c'.
      - destruct (Nat.eq_dec p0 p0); congruence.
      - intros p Hp. destruct (Nat.eq_dec p p0); congruence. }
    assert (H1 : form c (fun p q => Int l (r p q)) <= form c (fun p q => Int (t p0) (r p q))).
    { apply form_step. apply Hl; auto. }
    assert (H2 : form c' (fun p q => Int (t p0) (r p q)) <= form c' (fun p q => Int (Rmin (t p) (t q)) (r p q))).
    { apply IH; [lia|]. intros p Hp Np. unfold c' in Np. destruct (Nat.eq_dec p p0); [congruence|]. now apply C. }
    assert (H3 : form c (fun p q => Int (Rmin (t p) (t q)) (r p q) - Int (t p0) (r p q))
                 = form c' (fun p q => Int (Rmin (t p) (t q)) (r p q) - Int (t p0) (r p q))).
    { unfold form. apply Sum_ext. intros p Hp. apply Sum_ext. intros q Hq.
      destruct (Req_EM_T (c p) 0) as [Zp|Np].
      { unfold c'. destruct (Nat.eq_dec p p0); rewrite ?Zp; ring. }
      destruct (Req_EM_T (c q) 0) as [Zq|Nq].
      { unfold c'. destruct (Nat.eq_dec q p0); rewrite ?Zq; ring. }
      unfold c'. destruct (Nat.eq_dec p p0) as [->|Mp].
      - rewrite (Rmin_left (t p0) (t q)) by (apply C; auto). ring.
      - destruct (Nat.eq_dec q p0) as [->|Mq]; auto. rewrite (Rmin_right (t p) (t p0)) by (apply C; auto). ring. }
    rewrite !form_minus in H3. lra.
Qed.

Lemma causal_psd c : 0 <= form c (fun p q => Int (Rmin (t p) (t q)) (r p q)).
Proof.
  destruct (Classical_Prop.classic (exists p, (p < n)%nat /\ c p <> 0)) as [Ex|N].
  - destruct (earliest n c Ex) as [p0 [A [B C]]]. eapply Rle_trans; [apply (whole_psd (t p0) c I)|].
    apply (causal_tail (count n c)); auto.
  - rewrite form_zero; [lra|]. intros p Hp. destruct (Req_EM_T (c p) 0); auto. exfalso. apply N. eauto.
Qed.
End Causal.
