(** Strict positive definiteness of the squared-exponential kernel at distinct points, by the
    power series of the exponential. *)
From Coq Require Import Reals ZArith List Bool Lia Lra Psatz.
From Coquelicot Require Import Coquelicot.
From Verif Require Import Py ListFacts Gauss Gauss2 GpcmSpec GpcmPsd.
Import ListNotations.
Local Open Scope R_scope.

Lemma lin_plus l h g : lin l (fun a => h a + g a) = lin l h + lin l g.
Proof. unfold lin. induction l as [|p l IH]; simpl; [ring|]. rewrite IH. ring. Qed.

(** ** Moments determine the weights of distinct points *)

Lemma lin_zero l h : (forall p, In p l -> snd p * h (fst p) = 0) -> lin l h = 0.
Proof.
  unfold lin. induction l as [|p l IH]; intros H; simpl; [reflexivity|].
  rewrite IH by auto with datatypes. rewrite (H p) by auto with datatypes. ring.
Qed.

Fixpoint roots (l : list R) (x : R) : R := match l with [] => 1 | r :: l => (x - r) * roots l x end.

Lemma roots_zero l x : roots l x = 0 <-> In x l.
Proof.
  induction l as [|r l IH]; cbn [roots]; [split; [lra|intros []]|]. split.
  - intros H. apply Rmult_integral in H. destruct H as [H|H]; [left; lra|right; apply IH; exact H].
  - intros [->|H]; [ring|]. apply IH in H. rewrite H. ring.
Qed.

Lemma moments_roots l : (forall n : nat, lin l (fun t => t ^ n) = 0) ->
  forall r n, lin l (fun t => roots r t * t ^ n) = 0.
Proof.
  intros M. induction r as [|x r IH]; intros n.
  - rewrite <- (M n). apply lin_ext. intros a. cbn [roots]. ring.
  - rewrite (lin_ext _ _ (fun t => roots r t * t ^ S n + - x * (roots r t * t ^ n))).
    + rewrite lin_plus, lin_scal, !IH. ring.
    + intros a. cbn [roots pow]. ring.
Qed.

Lemma moments_zero l : NoDup (map fst l) -> (forall n : nat, lin l (fun t => t ^ n) = 0) ->
  forall p, In p l -> snd p = 0.
Proof.
  intros ND M p Hp. apply in_split in Hp. destruct Hp as (l1 & l2 & ->).
  set (r := map fst l1 ++ map fst l2).
  assert (Nr : ~ In (fst p) r).
  { rewrite map_app in ND. cbn [map] in ND. apply NoDup_remove_2 in ND. exact ND. }
  assert (Z := moments_roots _ M r 0). unfold lin in Z. rewrite map_app in Z. cbn [map] in Z.
  assert (A : forall a b, sum (a ++ b) = sum a + sum b).
  { induction a as [|x a IHa]; intros b; cbn; [ring|]. rewrite IHa. ring. }
  rewrite A in Z. cbn [sum] in Z.
  assert (O : forall k, (forall q, In q k -> In (fst q) r) -> lin k (fun t => roots r t * t ^ 0) = 0).
  { intros k Hk. apply lin_zero. intros q Hq. apply Hk in Hq. apply roots_zero in Hq. rewrite Hq. ring. }
  unfold lin in O. rewrite (O l1), (O l2) in Z.
  - assert (N0 : roots r (fst p) <> 0) by (rewrite roots_zero; exact Nr). cbn [pow] in Z.
    assert (Z' : snd p * roots r (fst p) = 0) by lra. apply Rmult_integral in Z'. tauto.
  - intros q Hq. apply in_or_app. right. apply in_map. exact Hq.
  - intros q Hq. apply in_or_app. left. apply in_map. exact Hq.
Qed.

(** ** Series with non-negative terms *)

Lemma series_ge (a : nat -> R) s k : (forall n, 0 <= a n) -> is_series a s -> a k <= s.
Proof.
  intros P S. apply Rle_trans with (sum_n a k).
  - destruct k as [|k]; [rewrite sum_O; lra|]. rewrite sum_Sn. unfold plus; simpl.
    assert (0 <= sum_n a k); [|lra]. clear S. induction k as [|k IH]; [rewrite sum_O; apply P|].
    rewrite sum_Sn. unfold plus; simpl. generalize (P (Datatypes.S k)). lra.
  - apply (is_lim_seq_incr_compare (sum_n a)); [exact S|].
    intros n. rewrite sum_Sn. unfold plus; simpl. generalize (P (Datatypes.S n)). lra.
Qed.

Lemma exp_series x : is_series (fun n => x ^ n / INR (fact n)) (exp x).
Proof.
  apply (is_series_ext (fun n => scal (pow_n x n) (/ INR (fact n)))).
  - intros n. unfold scal; simpl. unfold mult; simpl. rewrite pow_n_pow. reflexivity.
  - apply is_exp_Reals.
Qed.

Lemma lin_series (l : list (R * R)) (a : R -> nat -> R) (h : R -> R) :
  (forall t, is_series (a t) (h t)) -> is_series (fun n => lin l (fun t => a t n)) (lin l h).
Proof.
  intros H. unfold lin. induction l as [|p l IH].
  - cbn [map sum]. apply (is_series_ext (fun n => (fun _ : nat => 0) n)); [reflexivity|].
    apply filterlim_ext with (fun _ : nat => 0); [|apply filterlim_const].
    intros n. induction n as [|n IHn]; [rewrite sum_O; reflexivity|]. rewrite sum_Sn, <- IHn. unfold plus; simpl. ring.
  - cbn [map sum]. apply (is_series_plus (fun n => snd p * a (fst p) n)); [|exact IH].
    apply (is_series_scal (snd p) (a (fst p))). apply H.
Qed.

(** ** The kernel *)

Lemma exp_kernel_pd g l : 0 < g -> NoDup (map fst l) ->
  lin l (fun a => lin l (fun b => exp (g * (a * b)))) <= 0 -> forall p, In p l -> snd p = 0.
Proof.
  intros Hg ND Hq. apply moments_zero; [exact ND|]. intros n.
  set (a := fun k : nat => g ^ k / INR (fact k) * lin l (fun t => t ^ k) ^ 2).
  assert (F : forall k, 0 < g ^ k / INR (fact k)).
  { intros k. apply Rdiv_lt_0_compat; [apply pow_lt; exact Hg|apply INR_fact_lt_0]. }
  assert (S : is_series a (lin l (fun a => lin l (fun b => exp (g * (a * b)))))).
  { apply (is_series_ext (fun k => lin l (fun x => lin l (fun y => (g * (x * y)) ^ k / INR (fact k))))).
    - intros k. unfold a.
      rewrite (lin_ext l _ (fun x => (g ^ k / INR (fact k) * lin l (fun t => t ^ k)) * x ^ k)).
      + rewrite lin_scal. simpl. ring.
      + intros x. rewrite (lin_ext l _ (fun y => (g ^ k / INR (fact k) * x ^ k) * y ^ k)).
        * rewrite lin_scal. ring.
        * intros y. rewrite !Rpow_mult_distr. unfold Rdiv. ring.
    - apply (lin_series l (fun x k => lin l (fun y => (g * (x * y)) ^ k / INR (fact k)))). intros x.
      apply (lin_series l (fun y k => (g * (x * y)) ^ k / INR (fact k))). intros y. apply exp_series. }
  assert (G : a n <= 0).
  { eapply Rle_trans; [apply (series_ge a _ n)|exact Hq]; [|exact S].
    intros k. apply Rmult_le_pos; [left; apply F|apply pow2_ge_0]. }
  unfold a in G. generalize (F n) (pow2_ge_0 (lin l (fun t => t ^ n))). intros P Q.
  assert (Z : lin l (fun t => t ^ n) ^ 2 = 0) by nra. nra.
Qed.

Lemma weights_nodup (s : R -> R) l : map fst (map (fun p : R * R => (fst p, s (fst p) * snd p)) l) = map fst l.
Proof. rewrite map_map. reflexivity. Qed.

(** Any kernel [s a s b exp(g a b)] with a positive [g] and a non-vanishing [s]. *)
Lemma scaled_exp_pd F (s : R -> R) g l c :
  (forall a b, F a b = s a * s b * exp (g * (a * b))) -> 0 < g -> (forall a, s a <> 0) ->
  NoDup l -> List.length c = List.length l -> (exists x, In x c /\ x <> 0) ->
  0 < quad_form (map (fun a => map (F a) l) l) c.
Proof.
  intros HF Hg Hs ND Lc [x [Ix Nx]]. rewrite quad_table. set (p := combine l c).
  destruct (Rlt_dec 0 (lin p (fun a => lin p (F a)))) as [|N]; [assumption|exfalso].
  set (q := map (fun tc : R * R => (fst tc, s (fst tc) * snd tc)) p).
  assert (Q : forall h, lin q h = lin p (fun a => s a * h a)).
  { intros h. unfold q, lin. rewrite map_map. f_equal. apply map_ext. intros [a b]. simpl. ring. }
  assert (Fst : map fst p = l).
  { unfold p. clear - Lc. revert c Lc. induction l as [|a l IH]; intros [|y c] E; simpl in *; auto; try discriminate.
    f_equal. apply IH. congruence. }
  assert (Z : forall r, In r q -> snd r = 0).
  { apply (exp_kernel_pd g); [exact Hg|unfold q; rewrite weights_nodup, Fst; exact ND|].
    rewrite Q. apply Rnot_lt_le. intros H. apply N. eapply Rlt_le_trans; [exact H|right].
    apply lin_ext. intros a. rewrite Q, <- lin_scal. apply lin_ext. intros b. rewrite HF. ring. }
  assert (Ip : exists a, In (a, x) p).
  { unfold p. clear - Lc Ix. revert l Lc. induction c as [|y c IH]; intros [|a l] E; simpl in *; try discriminate; [destruct Ix|].
    destruct Ix as [->|Ix]; [exists a; left; reflexivity|]. destruct (IH Ix l) as [b Hb]; [congruence|]. exists b. right. exact Hb. }
  destruct Ip as [a Ha]. apply Nx.
  assert (Hq : In (a, s a * x) q) by (unfold q; apply in_map_iff; exists (a, x); split; [reflexivity|exact Ha]).
  apply Z in Hq. simpl in Hq. apply Rmult_integral in Hq. destruct Hq as [Hq|Hq]; [destruct (Hs a Hq)|exact Hq].
Qed.

(** Conversely, a repeated point makes any kernel matrix singular. *)
Lemma repeated_singular (F : R -> R -> R) l : ~ NoDup l ->
  exists c, List.length c = List.length l /\ (exists x, In x c /\ x <> 0) /\
    quad_form (map (fun a => map (F a) l) l) c = 0.
Proof.
  intros N. assert (D : exists t l1 l2 l3, l = l1 ++ t :: l2 ++ t :: l3).
  { induction l as [|a l IH]; [destruct N; constructor|].
    destruct (in_dec Req_EM_T a l) as [I|I].
    - apply in_split in I. destruct I as (l2 & l3 & ->). exists a, [], l2, l3. reflexivity.
    - destruct IH as (t & l1 & l2 & l3 & ->); [intros H; apply N; constructor; assumption|].
      exists t, (a :: l1), l2, l3. reflexivity. }
  destruct D as (t & l1 & l2 & l3 & ->).
  set (z := fun l : list R => repeat 0 (List.length l)).
  exists (z l1 ++ 1 :: z l2 ++ -1 :: z l3). split; [|split].
  - rewrite !app_length. cbn [List.length]. rewrite !app_length. cbn [List.length]. unfold z. rewrite !repeat_length. reflexivity.
  - exists 1. split; [apply in_or_app; right; left; reflexivity|lra].
  - rewrite quad_table. apply lin_zero. intros q _.
    assert (C : forall (l l' c c' : list R), List.length l = List.length c -> combine (l ++ l') (c ++ c') = combine l c ++ combine l' c').
    { intros A. induction A as [|a A IH]; intros l' [|y c] c' E; simpl in *; try discriminate; auto. f_equal. apply IH. congruence. }
    assert (L : forall a b h, lin (a ++ b) h = lin a h + lin b h).
    { intros a b h. unfold lin. induction a as [|y a IH]; simpl; [ring|]. rewrite IH. ring. }
    assert (Zr : forall k h, lin (combine k (z k)) h = 0).
    { intros k h. apply lin_zero. intros r Hr. destruct r as [r1 r2]. apply in_combine_r in Hr. unfold z in Hr.
      apply repeat_spec in Hr. simpl. rewrite Hr. ring. }
    rewrite C by (unfold z; rewrite repeat_length; reflexivity). rewrite L, Zr. cbn [combine].
    assert (U : forall x y k h, lin ((x, y) :: k) h = y * h x + lin k h) by reflexivity.
    rewrite U. rewrite C by (unfold z; rewrite repeat_length; reflexivity). rewrite L, Zr. cbn [combine]. rewrite U, Zr. ring.
Qed.

Lemma grid_NoDup l a d n : grid l a d n -> d <> 0 -> NoDup l.
Proof.
  intros [_ G] Hd. apply NoDup_nth_error. intros i j Hi E.
  destruct (nth_error l i) as [x|] eqn:Ei; [|apply nth_error_None in Ei; lia].
  assert (Ej : nth_error l j = Some x) by (symmetry; exact E).
  apply G in Ei. apply G in Ej. apply INR_eq. apply Rmult_eq_reg_r with d; [lra|exact Hd].
Qed.
