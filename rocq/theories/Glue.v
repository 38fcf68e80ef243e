(** Functions that are given by different formulas left and right of a point. *)
From Coq Require Import Reals List Lia Lra Psatz.
From Coquelicot Require Import Coquelicot.
Local Open Scope R_scope.

Definition glue (p : R) (f g : R -> R) (x : R) : R := if Rle_dec x p then f x else g x.

Lemma glue_l p f g x : x <= p -> glue p f g x = f x.
Proof. intros H. unfold glue. destruct (Rle_dec x p); [auto|lra]. Qed.
Lemma glue_r p (f g : R -> R) x : p < x \/ (p <= x /\ f p = g p) -> glue p f g x = g x.
Proof.
  intros H. unfold glue. destruct (Rle_dec x p); [|auto]. destruct H as [H|[H E]]; [lra|]. replace x with p by lra. auto.
Qed.

Lemma glue_near_l p f g x : x < p -> locally x (fun y => f y = glue p f g y).
Proof.
  intros H. assert (P : 0 < p - x) by lra. exists (mkposreal _ P). intros y Hy.
  unfold ball in Hy; simpl in Hy; unfold AbsRing_ball, abs, minus, plus, opp in Hy; simpl in Hy. apply Rabs_def2 in Hy.
  rewrite glue_l; auto. lra.
Qed.
Lemma glue_near_r p f g x : p < x -> locally x (fun y => g y = glue p f g y).
Proof.
  intros H. assert (P : 0 < x - p) by lra. exists (mkposreal _ P). intros y Hy.
  unfold ball in Hy; simpl in Hy; unfold AbsRing_ball, abs, minus, plus, opp in Hy; simpl in Hy. apply Rabs_def2 in Hy.
  rewrite glue_r; auto. lra.
Qed.

Lemma glue_derive p (f g f' g' : R -> R) :
  (forall x, is_derive f x (f' x)) -> (forall x, is_derive g x (g' x)) -> f p = g p -> f' p = g' p ->
  forall x, is_derive (glue p f g) x (glue p f' g' x).
Proof.
  intros Df Dg E E' x. destruct (Rlt_le_dec x p) as [L|L].
  - rewrite glue_l by lra. eapply is_derive_ext_loc; [apply (glue_near_l p f g x L)|]. apply Df.
  - destruct L as [L|<-].
    + rewrite glue_r by auto. eapply is_derive_ext_loc; [apply (glue_near_r p f g x L)|]. apply Dg.
    + rewrite glue_l by lra. pose proof (Df p) as A. pose proof (Dg p) as B. rewrite <- E' in B.
      apply is_derive_Reals in A, B. apply is_derive_Reals. intros e He.
      destruct (A e He) as [d1 H1]. destruct (B e He) as [d2 H2].
      assert (Hm : 0 < Rmin d1 d2) by (apply Rmin_glb_lt; apply cond_pos).
      exists (mkposreal _ Hm). intros h Nh Hh. simpl in Hh.
      pose proof (Rmin_l d1 d2). pose proof (Rmin_r d1 d2).
      unfold glue. destruct (Rle_dec p p); [|lra]. destruct (Rle_dec (p + h) p).
      * apply H1; auto. lra.
      * rewrite E. apply H2; auto. lra.
Qed.

Lemma glue_continuous p (f g : R -> R) :
  (forall x : R, continuous f x) -> (forall x : R, continuous g x) -> f p = g p -> forall x : R, continuous (glue p f g) x.
Proof.
  intros Cf Cg E x. destruct (Rlt_le_dec x p) as [L|L].
  - apply (continuous_ext_loc _ f); [apply (glue_near_l p f g x L)|apply Cf].
  - destruct L as [L|<-].
    + apply (continuous_ext_loc _ g); [apply (glue_near_r p f g x L)|apply Cg].
    + intros P HP. rewrite glue_l in HP by lra. pose proof (Cf p P HP) as A. rewrite E in HP. pose proof (Cg p P HP) as B.
      unfold filtermap in *. generalize (filter_and _ _ A B). apply filter_imp. intros y [Y1 Y2]. unfold glue.
      destruct (Rle_dec y p); auto.
Qed.

(** Integrals by an antiderivative. *)
Lemma is_RInt_ftc (F f : R -> R) (a b : R) :
  (forall x : R, is_derive F x (f x)) -> (forall x : R, continuous f x) -> is_RInt f a b (F b - F a).
Proof. intros D C. apply (is_RInt_derive F f a b); intros; auto. Qed.

Lemma derive_continuous (F : R -> R) (f : R -> R) : (forall x : R, is_derive F x (f x)) -> forall x : R, continuous F x.
Proof. intros D x. apply (ex_derive_continuous F x). exists (f x). apply D. Qed.
