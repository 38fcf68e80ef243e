(** Generic facts about lists, deduplication and grouped sums. Models nothing. *)
From Coq Require Import Reals ZArith List Bool String Permutation Lia Lra.
From Verif Require Import Py ExpPolyModel.
Import ListNotations.

Section Dedup.
Context {A : Type} (eqb : A -> A -> bool).
Hypothesis eqb_refl : forall x, eqb x x = true.
Hypothesis eqb_sym : forall x y, eqb x y = eqb y x.
Hypothesis eqb_trans : forall x y z, eqb x y = true -> eqb y z = true -> eqb x z = true.

Lemma dedup_In_incl l x : In x (dedup eqb l) -> In x l.
Proof.
  induction l as [|y l IH]; simpl; auto.
  intros [->|H]; auto. apply filter_In in H. tauto.
Qed.

Lemma dedup_complete l x : In x l -> exists y, In y (dedup eqb l) /\ eqb x y = true.
Proof.
  induction l as [|y l IH]; simpl; [tauto|].
  intros [->|H].
  - exists x. auto.
  - destruct (IH H) as [z [Hz Exz]].
    destruct (eqb y z) eqn:E.
    + exists y. split; auto. rewrite eqb_sym in E. eapply eqb_trans; eauto.
    + exists z. split; auto. right. apply filter_In. rewrite E. auto.
Qed.

Lemma filter_filter_weaken (f g : A -> bool) l :
  (forall x, f x = true -> g x = true) -> filter f (filter g l) = filter f l.
Proof.
  intros H. induction l as [|x l IH]; simpl; auto.
  destruct (g x) eqn:G; simpl.
  - destruct (f x); rewrite IH; auto.
  - destruct (f x) eqn:F; auto. rewrite H in G; congruence.
Qed.

Lemma filter_nil (f : A -> bool) l : (forall x, In x l -> f x = false) -> filter f l = [].
Proof.
  induction l as [|x l IH]; simpl; auto. intros H.
  rewrite (H x); auto.
Qed.

Lemma dedup_count l x : In x l -> List.length (filter (eqb x) (dedup eqb l)) = 1.
Proof.
  revert x. induction l as [|y l IH]; intros x; simpl; [tauto|].
  intros H. destruct (eqb x y) eqn:E.
  - simpl. rewrite filter_nil; auto.
    intros z Hz. apply filter_In in Hz. destruct Hz as [_ Hz].
    destruct (eqb x z) eqn:F; auto.
    assert (eqb y z = true) by (eapply eqb_trans; [rewrite eqb_sym; exact E|exact F]).
    rewrite H0 in Hz. discriminate.
  - destruct H as [->|H]; [rewrite eqb_refl in E; discriminate|].
    rewrite filter_filter_weaken; auto.
    intros z F. destruct (eqb y z) eqn:G; auto.
    rewrite eqb_sym in G. assert (eqb x y = true) by (eapply eqb_trans; eauto). congruence.
Qed.

(** Distinct positions of the deduplicated list hold inequivalent elements. *)
Lemma dedup_pairs l : ForallOrdPairs (fun x y => eqb x y = false) (dedup eqb l).
Proof.
  induction l as [|y l IH]; simpl; constructor.
  - apply Forall_forall. intros z Hz. apply filter_In in Hz. destruct Hz as [_ Hz].
    now apply negb_true_iff in Hz.
  - clear - IH. induction (dedup eqb l) as [|z m IHm]; simpl; [constructor|].
    inversion IH; subst.
    destruct (negb (eqb y z)); auto. constructor; auto.
    apply Forall_forall. intros w Hw. apply filter_In in Hw.
    rewrite Forall_forall in H1. apply H1. tauto.
Qed.
End Dedup.

Lemma filter_len_perm {A} (f : A -> bool) l1 l2 :
  Permutation l1 l2 -> List.length (filter f l1) = List.length (filter f l2).
Proof.
  induction 1; simpl; auto.
  - destruct (f x); simpl; auto.
  - destruct (f x), (f y); simpl; auto.
  - congruence.
Qed.

Lemma FOP_perm {A} (P : A -> A -> Prop) l1 l2 :
  (forall x y, P x y -> P y x) ->
  Permutation l1 l2 -> ForallOrdPairs P l1 -> ForallOrdPairs P l2.
Proof.
  intros Hs Hp. induction Hp; intros H; auto.
  - inversion H; subst. constructor; auto.
    rewrite Forall_forall in *. intros y Hy. apply H2.
    eapply Permutation_in; [symmetry|]; eauto.
  - inversion H; subst. inversion H3; subst. inversion H2; subst.
    constructor; [constructor|constructor]; auto.
Qed.

Lemma FOP_filter {A} (P : A -> A -> Prop) f l :
  ForallOrdPairs P l -> ForallOrdPairs P (filter f l).
Proof.
  induction 1; simpl; [constructor|].
  destruct (f a); auto. constructor; auto.
  rewrite Forall_forall in *. intros y Hy. apply filter_In in Hy. apply H. tauto.
Qed.

Lemma filter_perm {A} (f : A -> bool) l1 l2 :
  Permutation l1 l2 -> Permutation (filter f l1) (filter f l2).
Proof.
  induction 1; simpl; auto.
  - destruct (f x); auto.
  - destruct (f x), (f y); auto. constructor.
  - etransitivity; eauto.
Qed.

(** A commutative monoid and big operations over lists. *)
Section Big.
Context (op : R -> R -> R) (e : R).
Hypothesis op_comm : forall a b, op a b = op b a.
Hypothesis op_assoc : forall a b c, op a (op b c) = op (op a b) c.
Hypothesis op_e : forall a, op e a = a.

Fixpoint big (l : list R) : R := match l with [] => e | x :: l' => op x (big l') end.

Lemma big_app l1 l2 : big (l1 ++ l2) = op (big l1) (big l2).
Proof. induction l1; simpl; [now rewrite op_e|]. rewrite IHl1. apply op_assoc. Qed.

Lemma big_perm l1 l2 : Permutation l1 l2 -> big l1 = big l2.
Proof.
  induction 1; simpl; auto; try congruence.
Qed.

Lemma big_map_op {A} (f g : A -> R) l :
  big (map (fun x => op (f x) (g x)) l) = op (big (map f l)) (big (map g l)).
Proof.
  induction l as [|x l IH]; simpl; [now rewrite op_e|].
  rewrite IH. rewrite !op_assoc. f_equal. rewrite <- !op_assoc. f_equal. apply op_comm.
Qed.

Lemma big_map_e {A} (f : A -> R) l : (forall x, In x l -> f x = e) -> big (map f l) = e.
Proof.
  induction l as [|x l IH]; simpl; auto. intros H.
  rewrite H, IH, op_e; auto.
Qed.

Lemma big_indicator {A} (f : A -> bool) (v : R) l :
  List.length (filter f l) = 1 -> big (map (fun x => if f x then v else e) l) = v.
Proof.
  induction l as [|x l IH]; simpl; [discriminate|].
  destruct (f x) eqn:F; simpl; intros H.
  - injection H as H. rewrite big_map_e, op_comm, op_e; auto.
    intros y Hy. destruct (f y) eqn:G; auto.
    destruct (filter f l) eqn:Fl; [|discriminate].
    assert (In y []) by (rewrite <- Fl; apply filter_In; auto). contradiction.
  - rewrite op_e. auto.
Qed.

(** Grouping by key changes nothing. *)
Lemma big_group {A K} (key : A -> K) (eqk : K -> K -> bool) (g : A -> R) (l : list A) ks :
  (forall x, In x l -> List.length (filter (eqk (key x)) ks) = 1) ->
  big (map (fun k => big (map g (filter (fun x => eqk (key x) k) l))) ks)
  = big (map g l).
Proof.
  induction l as [|x l IH]; intros H; simpl.
  - apply big_map_e. auto.
  - rewrite <- IH by (intros; apply H; simpl; auto).
    rewrite <- (big_indicator (eqk (key x)) (g x) ks) at 1 by (apply H; simpl; auto).
    rewrite <- big_map_op. f_equal. apply map_ext. intros k.
    destruct (eqk (key x) k); simpl; auto.
Qed.
End Big.

Definition rsum := big Rplus 0%R.
Definition rprod := big Rmult 1%R.
Arguments rsum : simpl never.
Arguments rprod : simpl never.

Lemma rsum_app l1 l2 : rsum (l1 ++ l2) = (rsum l1 + rsum l2)%R.
Proof. apply big_app; intros; ring. Qed.
Lemma rprod_app l1 l2 : rprod (l1 ++ l2) = (rprod l1 * rprod l2)%R.
Proof. apply big_app; intros; ring. Qed.
Lemma rsum_perm l1 l2 : Permutation l1 l2 -> rsum l1 = rsum l2.
Proof. apply big_perm; intros; ring. Qed.
Lemma rprod_perm l1 l2 : Permutation l1 l2 -> rprod l1 = rprod l2.
Proof. apply big_perm; intros; ring. Qed.
Lemma rsum_group {A K} (key : A -> K) (eqk : K -> K -> bool) (g : A -> R) (l : list A) ks :
  (forall x, In x l -> List.length (filter (eqk (key x)) ks) = 1) ->
  rsum (map (fun k => rsum (map g (filter (fun x => eqk (key x) k) l))) ks) = rsum (map g l).
Proof. apply big_group; intros; ring. Qed.
Lemma rprod_group {A K} (key : A -> K) (eqk : K -> K -> bool) (g : A -> R) (l : list A) ks :
  (forall x, In x l -> List.length (filter (eqk (key x)) ks) = 1) ->
  rprod (map (fun k => rprod (map g (filter (fun x => eqk (key x) k) l))) ks) = rprod (map g l).
Proof. apply big_group; intros; ring. Qed.

Lemma rsum_cons x l : rsum (x :: l) = (x + rsum l)%R.
Proof. reflexivity. Qed.
Lemma rprod_cons x l : rprod (x :: l) = (x * rprod l)%R.
Proof. reflexivity. Qed.

Lemma rsum_scal {A} (c : R) (f : A -> R) l :
  rsum (map (fun x => c * f x)%R l) = (c * rsum (map f l))%R.
Proof. induction l as [|x l IH]; simpl; [unfold rsum; simpl; ring|].
  rewrite !rsum_cons, IH. ring. Qed.

Lemma rsum_scal_r {A} (c : R) (f : A -> R) l :
  rsum (map (fun x => f x * c)%R l) = (rsum (map f l) * c)%R.
Proof. induction l as [|x l IH]; simpl; [unfold rsum; simpl; ring|].
  rewrite !rsum_cons, IH. ring. Qed.

Lemma rsum_filter_split {A} (f : A -> bool) (g : A -> R) l :
  rsum (map g l) = (rsum (map g (filter f l)) + rsum (map g (filter (fun x => negb (f x)) l)))%R.
Proof.
  induction l as [|x l IH]; simpl; [unfold rsum; simpl; ring|].
  destruct (f x); simpl; rewrite !rsum_cons, IH; ring.
Qed.

Lemma rprod_filter_split {A} (f : A -> bool) (g : A -> R) l :
  rprod (map g l) = (rprod (map g (filter f l)) * rprod (map g (filter (fun x => negb (f x)) l)))%R.
Proof.
  induction l as [|x l IH]; simpl; [unfold rprod; simpl; ring|].
  destruct (f x); simpl; rewrite !rprod_cons, IH; ring.
Qed.

(** Two lists that are the same set up to an equivalence, without repetitions, have the same
    sum of a function that respects the equivalence. *)
Lemma rsum_setoid {A} (E : A -> A -> Prop) (g : A -> R) :
  (forall x y, E x y -> E y x) -> (forall x y z, E x y -> E y z -> E x z) ->
  (forall x y, E x y -> g x = g y) ->
  forall l1 l2,
  ForallOrdPairs (fun x y => ~ E x y) l1 -> ForallOrdPairs (fun x y => ~ E x y) l2 ->
  (forall x, In x l1 -> exists y, In y l2 /\ E x y) ->
  (forall y, In y l2 -> exists x, In x l1 /\ E x y) ->
  rsum (map g l1) = rsum (map g l2).
Proof.
  intros Es Et Eg. induction l1 as [|x l1 IH]; intros l2 H1 H2 I1 I2.
  - destruct l2 as [|y l2]; auto. destruct (I2 y) as [z [[] _]]. simpl; auto.
  - destruct (I1 x) as [y [Hy Exy]]; [simpl; auto|].
    apply in_split in Hy. destruct Hy as [a [b ->]].
    assert (Hp : Permutation (y :: a ++ b) (a ++ y :: b)) by apply Permutation_middle.
    rewrite <- (rsum_perm _ _ (Permutation_map g Hp)).
    simpl. rewrite !rsum_cons. f_equal; auto.
    apply FOP_perm with (l2 := y :: a ++ b) in H2; [|firstorder|now symmetry].
    inversion H1; subst. inversion H2; subst.
    rewrite Forall_forall in H3, H5.
    apply IH; auto.
    + intros x' Hx'. destruct (I1 x') as [y' [Hy' E']]; [simpl; auto|].
      apply (Permutation_in _ (Permutation_sym Hp)) in Hy'. destruct Hy' as [<-|Hy'].
      * exfalso. apply (H3 x' Hx'). eauto.
      * exists y'. auto.
    + intros y' Hy'. destruct (I2 y') as [x' [Hx' E']].
      { apply (Permutation_in _ Hp). simpl; auto. }
      destruct Hx' as [<-|Hx'].
      * exfalso. apply (H5 y' Hy'). eauto.
      * exists x'. auto.
Qed.

(** Facts about the exception monad. *)
Lemma mapM_Ok {A B} (f : A -> res B) l ys :
  mapM f l = Ok ys -> Forall2 (fun x y => f x = Ok y) l ys.
Proof.
  revert ys. induction l as [|x l IH]; simpl; intros ys H.
  - injection H as <-. constructor.
  - destruct (f x) eqn:F; simpl in H; [|discriminate].
    destruct (mapM f l); simpl in H; [|discriminate].
    injection H as <-. constructor; auto.
Qed.

Lemma mapM_total {A B} (f : A -> res B) l :
  (forall x, In x l -> exists y, f x = Ok y) -> exists ys, mapM f l = Ok ys.
Proof.
  induction l as [|x l IH]; simpl; intros H; [eauto|].
  destruct (H x) as [y ->]; auto. destruct IH as [ys ->]; auto. simpl. eauto.
Qed.

Lemma Forall2_map_eq {A B} (f : A -> R) (g : B -> R) l1 l2 :
  Forall2 (fun x y => g y = f x) l1 l2 -> map g l2 = map f l1.
Proof. induction 1; simpl; congruence. Qed.

Lemma Forall2_impl_In {A B} (P Q : A -> B -> Prop) l1 l2 :
  (forall x y, In x l1 -> In y l2 -> P x y -> Q x y) -> Forall2 P l1 l2 -> Forall2 Q l1 l2.
Proof.
  intros H F. induction F; constructor.
  - apply H; simpl; auto.
  - apply IHF. intros. apply H; simpl; auto.
Qed.

Lemma Forall2_In_r {A B} (P : A -> B -> Prop) l1 l2 y :
  Forall2 P l1 l2 -> In y l2 -> exists x, In x l1 /\ P x y.
Proof.
  induction 1; simpl; [tauto|]. intros [->|H1]; eauto.
  destruct (IHForall2 H1) as [z []]; eauto.
Qed.

Lemma Forall2_In_l {A B} (P : A -> B -> Prop) l1 l2 x :
  Forall2 P l1 l2 -> In x l1 -> exists y, In y l2 /\ P x y.
Proof.
  induction 1; simpl; [tauto|]. intros [->|H1]; eauto.
  destruct (IHForall2 H1) as [z []]; eauto.
Qed.

Lemma Forall2_FOP {A B} (P : A -> B -> Prop) (Q : A -> A -> Prop) (S : B -> B -> Prop) l1 l2 :
  (forall x1 x2 y1 y2, P x1 y1 -> P x2 y2 -> Q x1 x2 -> S y1 y2) ->
  Forall2 P l1 l2 -> ForallOrdPairs Q l1 -> ForallOrdPairs S l2.
Proof.
  intros H F. induction F; intros G; constructor; inversion G; subst; auto.
  rewrite Forall_forall in *. intros z Hz.
  destruct (Forall2_In_r _ _ _ _ F Hz) as [w [Hw Pw]]. eapply H; eauto.
Qed.

Lemma bind_Ok {A B} (r : res A) (f : A -> res B) b :
  bind r f = Ok b -> exists a, r = Ok a /\ f a = Ok b.
Proof. destruct r; simpl; [eauto|discriminate]. Qed.
