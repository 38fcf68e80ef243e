(** Proofs about the model of exppoly.py (symbolic part). *)
From Coq Require Import Reals ZArith List Bool String Permutation Lia Lra.
From Verif Require Import Py ExpPolyModel ListFacts.
Import ListNotations.

(** * Factors and sets of factors *)

Lemma factor_eqb_eq f g : factor_eqb f g = true <-> f = g.
Proof.
  unfold factor_eqb. rewrite andb_true_iff, String.eqb_eq, Nat.eqb_eq.
  destruct f, g; simpl. split; [intros [-> ->]; auto|]. intros H; injection H; auto.
Qed.

Lemma factor_eqb_refl f : factor_eqb f f = true.
Proof. now apply factor_eqb_eq. Qed.

Lemma factor_eqb_sym f g : factor_eqb f g = factor_eqb g f.
Proof.
  destruct (factor_eqb f g) eqn:E, (factor_eqb g f) eqn:F; auto.
  - apply factor_eqb_eq in E; subst. now rewrite factor_eqb_refl in F.
  - apply factor_eqb_eq in F; subst. now rewrite factor_eqb_refl in E.
Qed.

Lemma factor_eqb_trans f g h : factor_eqb f g = true -> factor_eqb g h = true -> factor_eqb f h = true.
Proof. rewrite !factor_eqb_eq. congruence. Qed.

Lemma fmem_In f s : fmem f s = true <-> In f s.
Proof.
  unfold fmem. rewrite existsb_exists. split.
  - intros [g [H E]]. apply factor_eqb_eq in E. now subst.
  - intros H. exists f. split; auto. apply factor_eqb_refl.
Qed.

Lemma fset_eqb_iff s1 s2 : fset_eqb s1 s2 = true <-> (forall f, In f s1 <-> In f s2).
Proof.
  unfold fset_eqb. rewrite andb_true_iff, !forallb_forall.
  split.
  - intros [H1 H2] f. split; intros H; apply fmem_In; auto.
  - intros H. split; intros f Hf; apply fmem_In; apply H; auto.
Qed.

Lemma fset_eqb_refl s : fset_eqb s s = true.
Proof. apply fset_eqb_iff. tauto. Qed.

Lemma fset_eqb_sym s1 s2 : fset_eqb s1 s2 = fset_eqb s2 s1.
Proof. unfold fset_eqb. apply andb_comm. Qed.

Lemma fset_eqb_trans s1 s2 s3 :
  fset_eqb s1 s2 = true -> fset_eqb s2 s3 = true -> fset_eqb s1 s3 = true.
Proof. rewrite !fset_eqb_iff. intros H1 H2 f. now rewrite H1, H2. Qed.

Lemma fset_eqb_nil s : fset_eqb s [] = true -> s = [].
Proof.
  rewrite fset_eqb_iff. destruct s as [|f s]; auto. intros H. destruct (H f) as [H1 _].
  destruct H1. simpl; auto.
Qed.

Lemma string_eqb_trans x y z : String.eqb x y = true -> String.eqb y z = true -> String.eqb x z = true.
Proof. rewrite !String.eqb_eq. congruence. Qed.

Definition valid_factor (f : factor) : Prop := 1 <= fpow f.
Definition wf_factors (fs : list factor) : Prop :=
  NoDup (map fname fs) /\ Forall valid_factor fs.

Lemma wf_factors_NoDup fs : wf_factors fs -> NoDup fs.
Proof. intros [H _]. eapply NoDup_map_inv; eauto. Qed.

Lemma wf_factors_perm fs gs : Permutation fs gs -> wf_factors fs -> wf_factors gs.
Proof.
  intros P [H1 H2]. split.
  - eapply Permutation_NoDup; [apply Permutation_map|]; eauto.
  - eapply Permutation_Forall; eauto.
Qed.

Lemma wf_factors_filter (h : factor -> bool) fs : wf_factors fs -> wf_factors (filter h fs).
Proof.
  intros [H1 H2]. split.
  - induction fs as [|f fs IH]; simpl; [constructor|].
    inversion H1; subst. inversion H2; subst.
    destruct (h f); simpl; auto. constructor; auto.
    intros H. apply H3. apply in_map_iff in H. destruct H as [g [E G]].
    apply filter_In in G. apply in_map_iff. exists g. tauto.
  - apply Forall_forall. intros f Hf. apply filter_In in Hf. rewrite Forall_forall in H2.
    apply H2; tauto.
Qed.

Lemma wf_factors_same_name fs f g :
  wf_factors fs -> In f fs -> In g fs -> fname f = fname g -> f = g.
Proof.
  intros [H _]. induction fs as [|h fs IH]; simpl; [tauto|].
  inversion H; subst. intros [->|Hf] [->|Hg] E; auto.
  - exfalso. apply H2. rewrite E. now apply in_map.
  - exfalso. apply H2. rewrite <- E. now apply in_map.
Qed.

Lemma fset_eqb_perm fs gs :
  wf_factors fs -> wf_factors gs -> fset_eqb fs gs = true -> Permutation fs gs.
Proof.
  intros Wf Wg H. rewrite fset_eqb_iff in H.
  apply NoDup_Permutation; auto using wf_factors_NoDup.
Qed.

(** * Value of factors under an environment *)

Definition fval (env : string -> R) (f : factor) : R := (env (fname f) ^ fpow f)%R.

Definition powsum (n : string) (fs : list factor) : nat :=
  list_sum (map fpow (filter (fun x => String.eqb (fname x) n) fs)).

Lemma mkFactor_valid n p f : mkFactor n p = Ok f -> valid_factor f.
Proof.
  unfold mkFactor, valid_factor. destruct (p <? 1)%Z eqn:E; [discriminate|].
  intros H; injection H as <-. simpl. apply Z.ltb_ge in E. lia.
Qed.

Lemma foldM_factor_mul n l f :
  fname f = n -> valid_factor f -> (forall g, In g l -> fname g = n) ->
  foldM factor_mul l f = Ok (Factor n (fpow f + list_sum (map fpow l))).
Proof.
  revert f. induction l as [|g l IH]; simpl; intros f Hn Hv H.
  - rewrite Nat.add_0_r. destruct f; simpl in *. now subst.
  - unfold factor_mul. rewrite (H g) by auto. rewrite Hn, String.eqb_refl.
    unfold mkFactor. unfold valid_factor in Hv.
    destruct (Z.of_nat (fpow f) + Z.of_nat (fpow g) <? 1)%Z eqn:E.
    + apply Z.ltb_lt in E. lia.
    + simpl. rewrite IH; simpl; auto.
      * f_equal. f_equal. lia.
      * unfold valid_factor. simpl. lia.
Qed.

Lemma reduce_factors_eq n fs :
  Forall valid_factor fs -> In n (map fname fs) ->
  reduce_factors (filter (fun x => String.eqb (fname x) n) fs) = Ok (Factor n (powsum n fs)).
Proof.
  intros V H. unfold powsum.
  assert (A : forall g, In g (filter (fun x => String.eqb (fname x) n) fs) ->
                        fname g = n /\ valid_factor g).
  { intros g Hg. apply filter_In in Hg. rewrite Forall_forall in V.
    split; [now apply String.eqb_eq|apply V]; tauto. }
  destruct (filter (fun x => String.eqb (fname x) n) fs) as [|f l] eqn:E.
  - apply in_map_iff in H. destruct H as [f [Hf1 Hf2]].
    assert (In f []) as []. rewrite <- E. apply filter_In. split; auto. now apply String.eqb_eq.
  - simpl. apply foldM_factor_mul; try (apply A; simpl; auto).
    intros g Hg. apply A; simpl; auto.
Qed.

Lemma mapM_eq {A B} (f : A -> res B) (g : A -> B) l :
  (forall x, In x l -> f x = Ok (g x)) -> mapM f l = Ok (map g l).
Proof.
  induction l as [|x l IH]; simpl; auto. intros H.
  rewrite (H x), IH by auto. reflexivity.
Qed.

Lemma dedup_id {A} (eqb : A -> A -> bool) l :
  ForallOrdPairs (fun x y => eqb x y = false) l -> dedup eqb l = l.
Proof.
  induction 1 as [|x l H F IH]; simpl; auto. rewrite IH. f_equal.
  clear - H. induction H; simpl; auto. rewrite H. simpl. congruence.
Qed.

Lemma NoDup_FOP {A} (l : list A) : NoDup l -> ForallOrdPairs (fun x y => x <> y) l.
Proof.
  induction 1; constructor; auto. apply Forall_forall. intros y Hy ->. contradiction.
Qed.

Lemma FOP_impl {A} (P Q : A -> A -> Prop) l :
  (forall x y, P x y -> Q x y) -> ForallOrdPairs P l -> ForallOrdPairs Q l.
Proof.
  intros H. induction 1; constructor; auto. eapply Forall_impl; [|eauto]. auto.
Qed.

Lemma FOP_NoDup {A} (l : list A) : ForallOrdPairs (fun x y => x <> y) l -> NoDup l.
Proof.
  induction 1; constructor; auto. intros Hin. rewrite Forall_forall in H. now apply (H a).
Qed.

Lemma dedup_string_NoDup l : NoDup (dedup String.eqb l).
Proof.
  apply FOP_NoDup. eapply FOP_impl; [|apply dedup_pairs].
  intros x y H. now apply String.eqb_neq.
Qed.

Lemma dedup_string_In l x : In x (dedup String.eqb l) <-> In x l.
Proof.
  split; [apply dedup_In_incl|].
  intros H. destruct (dedup_complete String.eqb String.eqb_refl String.eqb_sym string_eqb_trans l x H)
    as [y [Hy E]]. apply String.eqb_eq in E. now subst.
Qed.

Section Proofs.
Context (N : numdom) (so : setorder).
Notation term := (term N).
Notation poly := (poly N).

Definition merged (fs : list factor) : list factor :=
  map (fun n => Factor n (powsum n fs)) (dedup String.eqb (map fname fs)).

Lemma merge_common_factors_eq fs :
  Forall valid_factor fs ->
  exists l, merge_common_factors so fs = Ok l /\ Permutation l (merged fs).
Proof.
  intros V. unfold merge_common_factors.
  rewrite mapM_eq with (g := fun n => Factor n (powsum n fs)).
  - eexists; split; [reflexivity|]. unfold merged. apply Permutation_map. apply ord_perm.
  - intros n Hn. apply (Permutation_in _ (ord_perm so _)) in Hn.
    rewrite dedup_string_In in Hn. apply reduce_factors_eq; auto.
Qed.

Lemma powsum_valid n fs : Forall valid_factor fs -> In n (map fname fs) -> 1 <= powsum n fs.
Proof.
  intros V H. unfold powsum. apply in_map_iff in H. destruct H as [f [Hf Hin]].
  induction fs as [|g fs IH]; [destruct Hin|].
  inversion V; subst. simpl. destruct Hin as [->|Hin].
  - rewrite String.eqb_refl. simpl. unfold valid_factor in H1. lia.
  - destruct (String.eqb (fname g) (fname f)); simpl; specialize (IH H2 Hin); lia.
Qed.

Lemma merged_wf fs : Forall valid_factor fs -> wf_factors (merged fs).
Proof.
  intros V. unfold merged. split.
  - rewrite map_map. simpl. rewrite map_id. apply dedup_string_NoDup.
  - apply Forall_forall. intros f Hf. apply in_map_iff in Hf.
    destruct Hf as [n [<- Hn]]. unfold valid_factor. simpl.
    apply powsum_valid; auto. now rewrite <- dedup_string_In.
Qed.

Lemma fval_powsum env n fs :
  fval env (Factor n (powsum n fs))
  = rprod (map (fval env) (filter (fun x => String.eqb (fname x) n) fs)).
Proof.
  unfold fval, powsum. simpl. induction fs as [|f fs IH]; simpl.
  - reflexivity.
  - destruct (String.eqb (fname f) n) eqn:E; simpl; auto.
    apply String.eqb_eq in E. rewrite rprod_cons, <- IH, E, pow_add. reflexivity.
Qed.

Lemma merged_val env fs : rprod (map (fval env) (merged fs)) = rprod (map (fval env) fs).
Proof.
  unfold merged. rewrite map_map.
  rewrite (map_ext _ _ (fun n => fval_powsum env n fs)).
  apply (rprod_group fname String.eqb (fval env) fs).
  intros f Hf. apply dedup_count; [apply String.eqb_refl|apply String.eqb_sym|apply string_eqb_trans|].
  now apply in_map.
Qed.

Lemma merged_names fs n : In n (map fname (merged fs)) <-> In n (map fname fs).
Proof.
  unfold merged. rewrite map_map. simpl. rewrite map_id. apply dedup_string_In.
Qed.

(** Merging well-formed factors does nothing. *)
Lemma powsum_wf fs f : wf_factors fs -> In f fs -> powsum (fname f) fs = fpow f.
Proof.
  intros [H1 _] H. unfold powsum. induction fs as [|g fs IH]; simpl; [destruct H|].
  simpl in H1. inversion H1; subst. destruct H as [->|H].
  - rewrite String.eqb_refl. simpl.
    rewrite filter_nil; [simpl; lia|].
    intros x Hx. apply String.eqb_neq. intros E. apply H3. rewrite <- E. now apply in_map.
  - destruct (String.eqb (fname g) (fname f)) eqn:E.
    + apply String.eqb_eq in E. exfalso. apply H3. rewrite E. now apply in_map.
    + auto.
Qed.

Lemma merged_id fs : wf_factors fs -> Permutation (merged fs) fs.
Proof.
  intros W. unfold merged. rewrite dedup_id.
  - rewrite map_map. rewrite <- (map_id fs) at 2.
    rewrite (map_ext_in _ (fun f => f)); auto.
    intros f Hf. rewrite powsum_wf; auto. now destruct f.
  - eapply FOP_impl; [|apply NoDup_FOP, W]. intros x y H. now apply String.eqb_neq.
Qed.

(** * Terms *)

Definition tval (env : string -> R) (t : term) : R :=
  (val (tconst t) * rprod (map (fval env) (tfactors t)))%R.

Definition tnames (t : term) : list string := map fname (tfactors t).

Definition wf_term (t : term) : Prop :=
  wf_factors (tfactors t) /\ (isz (tconst t) = true -> tfactors t = []).

Lemma mkTerm_eq c fs :
  Forall valid_factor fs ->
  exists l, mkTerm N so c fs = Ok (Term c l)
            /\ Permutation l (merged (if isz c then [] else fs)).
Proof.
  intros V. unfold mkTerm.
  assert (V' : Forall valid_factor (if isz c then [] else fs)) by (destruct (isz c); auto).
  destruct (merge_common_factors_eq _ V') as [l [-> P]]. simpl.
  eexists; split; [reflexivity|].
  etransitivity; [apply ord_perm|].
  rewrite dedup_id; auto.
  eapply FOP_impl; [|apply NoDup_FOP].
  - intros f g H. destruct (factor_eqb f g) eqn:E; auto. apply factor_eqb_eq in E. contradiction.
  - eapply Permutation_NoDup; [symmetry; eauto|]. apply wf_factors_NoDup, merged_wf; auto.
Qed.

Lemma mkTerm_total c fs : Forall valid_factor fs -> exists t, mkTerm N so c fs = Ok t.
Proof. intros V. destruct (mkTerm_eq c fs V) as [l [H _]]. eauto. Qed.

Lemma mkTerm_const c fs t : mkTerm N so c fs = Ok t -> tconst t = c.
Proof.
  unfold mkTerm. destruct (merge_common_factors _ _); simpl; [|discriminate].
  intros H; now injection H as <-.
Qed.

Lemma mkTerm_wf c fs t : Forall valid_factor fs -> mkTerm N so c fs = Ok t -> wf_term t.
Proof.
  intros V H. destruct (mkTerm_eq c fs V) as [l [H' P]].
  rewrite H in H'. injection H' as ->. split; simpl.
  - eapply wf_factors_perm; [symmetry; eauto|]. apply merged_wf. destruct (isz c); auto.
  - intros E. rewrite E in P. apply Permutation_nil. now symmetry.
Qed.

Lemma mkTerm_val env c fs t :
  Forall valid_factor fs -> mkTerm N so c fs = Ok t ->
  tval env t = (val c * rprod (map (fval env) fs))%R.
Proof.
  intros V H. destruct (mkTerm_eq c fs V) as [l [H' P]].
  rewrite H in H'. injection H' as ->. unfold tval. simpl.
  rewrite (rprod_perm _ _ (Permutation_map (fval env) P)), merged_val.
  destruct (isz c) eqn:E; auto.
  rewrite (isz_val c E). ring.
Qed.

Lemma mkTerm_names c fs t n :
  Forall valid_factor fs -> mkTerm N so c fs = Ok t -> In n (tnames t) -> In n (map fname fs).
Proof.
  intros V H Hn. destruct (mkTerm_eq c fs V) as [l [H' P]].
  rewrite H in H'. injection H' as ->. unfold tnames in Hn. simpl in Hn.
  apply (Permutation_in _ (Permutation_map fname P)) in Hn.
  rewrite merged_names in Hn. destruct (isz c); auto. destruct Hn.
Qed.

(** Rebuilding a term from well-formed factors keeps the set unless the constant is zero. *)
Lemma mkTerm_rebuild c fs t :
  wf_factors fs -> mkTerm N so c fs = Ok t ->
  (isz c = true /\ tfactors t = []) \/ (isz c = false /\ Permutation (tfactors t) fs).
Proof.
  intros W H. destruct (mkTerm_eq c fs (proj2 W)) as [l [H' P]].
  rewrite H in H'. injection H' as ->. simpl.
  destruct (isz c) eqn:E.
  - left. split; auto. apply Permutation_nil. now symmetry.
  - right. split; auto. etransitivity; eauto. now apply merged_id.
Qed.

Lemma fset_perm fs gs : Permutation fs gs -> fset_eqb fs gs = true.
Proof.
  intros P. apply fset_eqb_iff. intros f. split; apply Permutation_in; auto.
  now symmetry.
Qed.

Lemma term_add_wf s t r : wf_term s -> term_add N so s t = Ok r -> wf_term r.
Proof.
  intros [Ws _]. unfold term_add. destruct (fset_eqb _ _); [|discriminate].
  apply mkTerm_wf. apply Ws.
Qed.

Lemma term_add_val env s t r :
  wf_term s -> wf_term t -> term_add N so s t = Ok r ->
  tval env r = (tval env s + tval env t)%R.
Proof.
  intros [Ws _] [Wt _]. unfold term_add.
  destruct (fset_eqb (tfactors s) (tfactors t)) eqn:E; [|discriminate].
  intros H. rewrite (mkTerm_val env _ _ _ (proj2 Ws) H), val_add.
  apply fset_eqb_perm in E; auto. unfold tval.
  rewrite (rprod_perm _ _ (Permutation_map (fval env) E)). ring.
Qed.

Lemma term_mul_val env s t r :
  wf_term s -> wf_term t -> term_mul N so s t = Ok r ->
  tval env r = (tval env s * tval env t)%R.
Proof.
  intros [Ws _] [Wt _] H. unfold term_mul in H.
  assert (V : Forall valid_factor (tfactors s ++ tfactors t))
    by (apply Forall_app; split; [apply Ws|apply Wt]).
  rewrite (mkTerm_val env _ _ _ V H).
  rewrite val_mul, map_app, rprod_app. unfold tval. ring.
Qed.

Lemma term_mul_total s t : wf_term s -> wf_term t -> exists r, term_mul N so s t = Ok r.
Proof.
  intros [Ws _] [Wt _]. apply mkTerm_total. apply Forall_app. split; [apply Ws|apply Wt].
Qed.

Lemma term_mul_wf s t r : wf_term s -> wf_term t -> term_mul N so s t = Ok r -> wf_term r.
Proof.
  intros [Ws _] [Wt _]. apply mkTerm_wf. apply Forall_app. split; [apply Ws|apply Wt].
Qed.

Lemma term_neg_val env t r : wf_term t -> term_neg N so t = Ok r -> tval env r = (- tval env t)%R.
Proof.
  intros [Wt _] H. unfold term_neg in H. rewrite (mkTerm_val env _ _ _ (proj2 Wt) H), val_opp.
  unfold tval. ring.
Qed.

(** * Merging terms *)

Lemma foldM_term_add env ts s r :
  wf_term s -> Forall wf_term ts -> foldM (term_add N so) ts s = Ok r ->
  wf_term r /\ tval env r = (tval env s + rsum (map (tval env) ts))%R.
Proof.
  revert s. induction ts as [|t ts IH]; simpl; intros s Ws Wts H.
  - injection H as <-. split; auto. unfold rsum; simpl. ring.
  - apply bind_Ok in H. destruct H as [r' [H1 H2]]. inversion Wts; subst.
    destruct (IH r') as [W V]; auto.
    + apply (term_add_wf s t); auto.
    + split; auto. rewrite V, rsum_cons. rewrite (term_add_val env s t r'); auto. ring.
Qed.

Lemma reduce_terms_val env ts r :
  Forall wf_term ts -> reduce_terms N so ts = Ok r ->
  wf_term r /\ tval env r = rsum (map (tval env) ts).
Proof.
  unfold reduce_terms. destruct ts as [|t ts]; [discriminate|].
  intros W H. inversion W; subst.
  destruct (foldM_term_add env ts t r) as [Wr V]; auto.
Qed.

(** The factors of a sum of terms with factor set [K] are [K], unless the constant is zero. *)
Lemma foldM_term_add_key K ts s r :
  wf_term s -> Forall wf_term ts ->
  (fset_eqb (tfactors s) K = true \/ (isz (tconst s) = true /\ tfactors s = [])) ->
  (forall t, In t ts -> fset_eqb (tfactors t) K = true) ->
  foldM (term_add N so) ts s = Ok r ->
  fset_eqb (tfactors r) K = true \/ (isz (tconst r) = true /\ tfactors r = []).
Proof.
  revert s. induction ts as [|t ts IH]; simpl; intros s Ws Wts Hs Hk H.
  - injection H as <-. auto.
  - apply bind_Ok in H. destruct H as [r' [H1 H2]]. inversion Wts; subst.
    apply (IH r'); auto.
    + apply (term_add_wf s t); auto.
    + unfold term_add in H1.
      destruct (fset_eqb (tfactors s) (tfactors t)) eqn:E; [|discriminate].
      assert (Es : fset_eqb (tfactors s) K = true) by (eapply fset_eqb_trans; eauto).
      pose proof (mkTerm_const _ _ _ H1) as Hc.
      destruct (mkTerm_rebuild _ _ _ (proj1 Ws) H1) as [[Z1 Z2]|[Z1 Z2]].
      * right. rewrite Hc. auto.
      * left. eapply fset_eqb_trans; [|exact Es]. now apply fset_perm.
Qed.

Lemma reduce_terms_key K ts r :
  Forall wf_term ts -> (forall t, In t ts -> fset_eqb (tfactors t) K = true) ->
  reduce_terms N so ts = Ok r ->
  fset_eqb (tfactors r) K = true \/ (isz (tconst r) = true /\ tfactors r = []).
Proof.
  unfold reduce_terms. destruct ts as [|t ts]; [discriminate|].
  intros W H E. inversion W; subst.
  eapply foldM_term_add_key; eauto; simpl in *; auto.
Qed.

(** Names in a sum come from the summands. *)
Lemma foldM_term_add_names ts s r n :
  wf_term s -> Forall wf_term ts -> foldM (term_add N so) ts s = Ok r ->
  In n (tnames r) -> In n (tnames s).
Proof.
  revert s. induction ts as [|t ts IH]; simpl; intros s Ws Wts H.
  - injection H as <-. auto.
  - apply bind_Ok in H. destruct H as [r' [H1 H2]]. inversion Wts; subst.
    intros Hn. pose proof (term_add_wf _ _ _ Ws H1) as Wr'.
    specialize (IH r' Wr' H4 H2 Hn).
    unfold term_add in H1. destruct (fset_eqb _ _); [|discriminate].
    eapply mkTerm_names; eauto. apply Ws.
Qed.

(** * Polynomials *)

Definition pval (env : string -> R) (p : poly) : R := rsum (map (tval env) p).
Definition pnames (p : poly) : list string := flat_map tnames p.

(** Two terms of a polynomial with the same factors: only constants, at least one of them a
    zero left behind by a cancellation. *)
Definition compat (s t : term) : Prop :=
  fset_eqb (tfactors s) (tfactors t) = true ->
  tfactors s = [] /\ tfactors t = [] /\ (isz (tconst s) = true \/ isz (tconst t) = true).

Definition wf_poly (p : poly) : Prop := Forall wf_term p /\ ForallOrdPairs compat p.

Lemma compat_sym s t : compat s t -> compat t s.
Proof.
  unfold compat. intros H E. rewrite fset_eqb_sym in E. destruct (H E) as [A [B D]]. tauto.
Qed.

Lemma filter_wf (h : term -> bool) ts : Forall wf_term ts -> Forall wf_term (filter h ts).
Proof.
  rewrite !Forall_forall. intros H t Ht. apply filter_In in Ht. apply H. tauto.
Qed.

Lemma term_key_count (ts : list term) t :
  In t ts ->
  List.length (filter (fset_eqb (tfactors t)) (ord so (dedup fset_eqb (map tfactors ts)))) = 1.
Proof.
  intros H. rewrite (filter_len_perm _ _ _ (ord_perm so _)).
  apply dedup_count; auto using fset_eqb_refl, fset_eqb_sym.
  - intros x y z. apply fset_eqb_trans.
  - now apply in_map.
Qed.

Lemma mkPoly_val env ts p :
  Forall wf_term ts -> mkPoly N so ts = Ok p -> pval env p = rsum (map (tval env) ts).
Proof.
  intros W H. unfold mkPoly, merge_common_terms in H. apply mapM_Ok in H.
  unfold pval.
  rewrite <- (rsum_group tfactors fset_eqb (tval env) ts _ (term_key_count ts)).
  f_equal. apply Forall2_map_eq. eapply Forall2_impl_In; [|exact H].
  intros K r _ _ E. eapply reduce_terms_val; eauto. now apply filter_wf.
Qed.

Lemma mkPoly_wf ts p : Forall wf_term ts -> mkPoly N so ts = Ok p -> wf_poly p.
Proof.
  intros W H. unfold mkPoly, merge_common_terms in H. apply mapM_Ok in H.
  split.
  - apply Forall_forall. intros r Hr.
    destruct (Forall2_In_r _ _ _ _ H Hr) as [K [_ E]].
    eapply (reduce_terms_val (fun _ => 0%R)); [|exact E]. now apply filter_wf.
  - assert (H' : Forall2 (fun K r =>
        wf_term r /\ (fset_eqb (tfactors r) K = true \/ (isz (tconst r) = true /\ tfactors r = [])))
        (ord so (dedup fset_eqb (map tfactors ts))) p).
    { eapply Forall2_impl_In; [|exact H]. intros K r _ _ E. split.
      - eapply (reduce_terms_val (fun _ => 0%R)); [|exact E]. now apply filter_wf.
      - eapply reduce_terms_key; [| |exact E]; [now apply filter_wf|].
        intros t Ht. apply filter_In in Ht. tauto. }
    eapply (Forall2_FOP _ (fun x y => fset_eqb x y = false)); [|exact H'|].
    + cbv beta. intros K1 K2 s t [Ws Hs] [Wt Ht] HK E.
      destruct Hs as [Hs|[Hs1 Hs2]], Ht as [Ht|[Ht1 Ht2]].
      * exfalso. assert (fset_eqb K1 K2 = true); [|congruence].
        eapply fset_eqb_trans; [rewrite fset_eqb_sym; exact Hs|].
        eapply fset_eqb_trans; eauto.
      * rewrite Ht2 in E. apply fset_eqb_nil in E. tauto.
      * rewrite Hs2, fset_eqb_sym in E. apply fset_eqb_nil in E. tauto.
      * tauto.
    + eapply (FOP_perm (fun x y => fset_eqb x y = false));
        [|symmetry; apply ord_perm|apply dedup_pairs].
      intros x y. now rewrite fset_eqb_sym.
Qed.

Lemma mkPoly_names ts p n :
  Forall wf_term ts -> mkPoly N so ts = Ok p -> In n (pnames p) ->
  exists t, In t ts /\ In n (tnames t).
Proof.
  intros W H Hn. unfold pnames in Hn. apply in_flat_map in Hn. destruct Hn as [r [Hr Hn]].
  unfold mkPoly, merge_common_terms in H. apply mapM_Ok in H.
  destruct (Forall2_In_r _ _ _ _ H Hr) as [K [_ E]].
  unfold reduce_terms in E.
  destruct (filter (fun x => fset_eqb (tfactors x) K) ts) as [|t l] eqn:F; [discriminate|].
  assert (Wf : Forall wf_term (t :: l)) by (rewrite <- F; now apply filter_wf).
  inversion Wf; subst.
  exists t. split.
  - assert (In t (filter (fun x => fset_eqb (tfactors x) K) ts)) by (rewrite F; simpl; auto).
    apply filter_In in H0. tauto.
  - eapply foldM_term_add_names; eauto.
Qed.

(** When does merging succeed? *)

(** At most two terms per non-empty factor set: always. *)
Lemma reduce_terms_nilkey ts :
  ts <> [] -> (forall t, In t ts -> tfactors t = []) -> exists r, reduce_terms N so ts = Ok r.
Proof.
  destruct ts as [|s ts]; [congruence|]. intros _ H. unfold reduce_terms.
  assert (Hs : tfactors s = []) by (apply H; simpl; auto).
  assert (Hts : forall t, In t ts -> tfactors t = []) by (intros; apply H; simpl; auto).
  clear H. revert s Hs. induction ts as [|t ts IH]; intros s Hs; simpl; [eauto|].
  unfold term_add. rewrite Hs, (Hts t) by (simpl; auto). rewrite fset_eqb_refl.
  destruct (mkTerm_total (cadd (tconst s) (tconst t)) []) as [r Hr]; [constructor|].
  rewrite Hr. simpl. apply IH.
  - intros; apply Hts; simpl; auto.
  - destruct (mkTerm_rebuild _ [] r ltac:(split; constructor) Hr) as [[_ E]|[_ E]]; auto.
    apply Permutation_nil. now symmetry.
Qed.

Lemma mkPoly_total ts :
  Forall wf_term ts ->
  (forall K, K <> [] -> List.length (filter (fun x => fset_eqb (tfactors x) K) ts) <= 2) ->
  exists p, mkPoly N so ts = Ok p.
Proof.
  intros W H. unfold mkPoly, merge_common_terms. apply mapM_total. intros K HK.
  assert (NE : filter (fun x => fset_eqb (tfactors x) K) ts <> []).
  { apply (Permutation_in _ (ord_perm so _)) in HK. apply dedup_In_incl in HK.
    apply in_map_iff in HK. destruct HK as [t [<- Ht]]. intros E.
    assert (In t []) as []. rewrite <- E. apply filter_In. split; auto. apply fset_eqb_refl. }
  destruct K as [|f K].
  - apply reduce_terms_nilkey; auto. intros t Ht. apply filter_In in Ht.
    now apply fset_eqb_nil.
  - specialize (H (f :: K) ltac:(discriminate)).
    pose proof (filter_wf (fun x => fset_eqb (tfactors x) (f :: K)) ts W) as W'.
    assert (A : forall t, In t (filter (fun x => fset_eqb (tfactors x) (f :: K)) ts) ->
                fset_eqb (tfactors t) (f :: K) = true).
    { intros t Ht. apply filter_In in Ht. tauto. }
    destruct (filter (fun x => fset_eqb (tfactors x) (f :: K)) ts) as [|s [|t [|u l]]].
    + congruence.
    + simpl. eauto.
    + simpl. unfold term_add.
      rewrite (fset_eqb_trans _ (f :: K)).
      * inversion W'; subst.
        destruct (mkTerm_total (cadd (tconst s) (tconst t)) (tfactors s)) as [r ->].
        { apply H2. }
        simpl. eauto.
      * apply A; simpl; auto.
      * rewrite fset_eqb_sym. apply A; simpl; auto.
    + simpl in H. lia.
Qed.

(** With tensor-valued constants: always. *)
Lemma foldM_term_add_total_tensor ts s K :
  (forall c : N, isz c = false) ->
  wf_term s -> fset_eqb (tfactors s) K = true ->
  (forall t, In t ts -> fset_eqb (tfactors t) K = true) ->
  exists r, foldM (term_add N so) ts s = Ok r.
Proof.
  intros T. revert s. induction ts as [|t ts IH]; simpl; intros s Ws Hs H; [eauto|].
  unfold term_add. rewrite (fset_eqb_trans _ K); auto; [|rewrite fset_eqb_sym; auto].
  destruct (mkTerm_total (cadd (tconst s) (tconst t)) (tfactors s)) as [r Hr]; [apply Ws|].
  rewrite Hr. simpl. apply IH; auto.
  - eapply mkTerm_wf; [|exact Hr]. apply Ws.
  - destruct (mkTerm_rebuild _ _ _ (proj1 Ws) Hr) as [[E _]|[_ E]].
    + rewrite T in E. discriminate.
    + eapply fset_eqb_trans; [|exact Hs]. now apply fset_perm.
Qed.

Lemma mkPoly_total_tensor ts :
  (forall c : N, isz c = false) -> Forall wf_term ts -> exists p, mkPoly N so ts = Ok p.
Proof.
  intros T W. unfold mkPoly, merge_common_terms. apply mapM_total. intros K HK.
  apply (Permutation_in _ (ord_perm so _)) in HK. apply dedup_In_incl in HK.
  apply in_map_iff in HK. destruct HK as [t [<- Ht]].
  unfold reduce_terms.
  destruct (filter (fun x => fset_eqb (tfactors x) (tfactors t)) ts) as [|s l] eqn:E.
  - assert (In t []) as []. rewrite <- E. apply filter_In. split; auto. apply fset_eqb_refl.
  - assert (A : forall u, In u (s :: l) -> In u ts /\ fset_eqb (tfactors u) (tfactors t) = true).
    { intros u Hu. rewrite <- E in Hu. now apply filter_In in Hu. }
    rewrite Forall_forall in W.
    apply (foldM_term_add_total_tensor l s (tfactors t)); auto.
    + apply W. apply A; simpl; auto.
    + apply A; simpl; auto.
    + intros u Hu. apply A; simpl; auto.
Qed.

(** Well-formed polynomials have at most one term per non-empty factor set. *)
Lemma wf_poly_key_count p K :
  wf_poly p -> K <> [] -> List.length (filter (fun x => fset_eqb (tfactors x) K) p) <= 1.
Proof.
  intros [_ H] NK. induction H as [|t p H F IH]; simpl; auto.
  destruct (fset_eqb (tfactors t) K) eqn:E; simpl; auto.
  rewrite filter_nil; auto.
  intros u Hu. destruct (fset_eqb (tfactors u) K) eqn:E'; auto.
  rewrite Forall_forall in H. specialize (H u Hu). unfold compat in H.
  destruct H as [A _].
  - eapply fset_eqb_trans; eauto. now rewrite fset_eqb_sym.
  - exfalso. apply NK. rewrite A, fset_eqb_sym in E. now apply fset_eqb_nil.
Qed.

Lemma poly_add_total p q : wf_poly p -> wf_poly q -> exists r, poly_add N so p q = Ok r.
Proof.
  intros Wp Wq. apply mkPoly_total.
  - apply Forall_app. split; [apply Wp|apply Wq].
  - intros K NK. rewrite filter_app, app_length.
    pose proof (wf_poly_key_count p K Wp NK). pose proof (wf_poly_key_count q K Wq NK). lia.
Qed.

Lemma mkPoly_total_wf p : wf_poly p -> exists r, mkPoly N so p = Ok r.
Proof.
  intros Wp. apply mkPoly_total; [apply Wp|].
  intros K NK. pose proof (wf_poly_key_count p K Wp NK). lia.
Qed.

Lemma poly_add_val env p q r :
  wf_poly p -> wf_poly q -> poly_add N so p q = Ok r -> pval env r = (pval env p + pval env q)%R.
Proof.
  intros [Wp _] [Wq _] H. unfold poly_add in H.
  rewrite (mkPoly_val env _ _ (proj2 (Forall_app _ _ _) (conj Wp Wq)) H).
  now rewrite map_app, rsum_app.
Qed.

Lemma poly_add_wf p q r : wf_poly p -> wf_poly q -> poly_add N so p q = Ok r -> wf_poly r.
Proof.
  intros [Wp _] [Wq _]. apply mkPoly_wf. now apply Forall_app.
Qed.

Lemma poly_add_names p q r n :
  wf_poly p -> wf_poly q -> poly_add N so p q = Ok r -> In n (pnames r) ->
  In n (pnames p) \/ In n (pnames q).
Proof.
  intros [Wp _] [Wq _] H Hn.
  destruct (mkPoly_names _ _ _ (proj2 (Forall_app _ _ _) (conj Wp Wq)) H Hn) as [t [Ht Hn']].
  apply in_app_iff in Ht. unfold pnames. rewrite !in_flat_map. destruct Ht; [left|right]; eauto.
Qed.

Lemma pconst_spec c : exists p, pconst N so c = Ok p /\ wf_poly p /\ pnames p = []
  /\ forall env, pval env p = val c.
Proof.
  unfold pconst. destruct (mkTerm_total c []) as [t Ht]; [constructor|]. rewrite Ht. simpl.
  assert (Wt : wf_term t) by (eapply mkTerm_wf; eauto; constructor).
  destruct (mkPoly_total [t]) as [p Hp]; [auto| |].
  - intros K _. simpl. destruct (fset_eqb _ _); simpl; lia.
  - exists p. split; auto. split; [|split].
    + eapply mkPoly_wf; [|eassumption]; auto.
    + destruct (pnames p) as [|n l] eqn:E; auto.
      destruct (mkPoly_names [t] p n) as [u [[<-|[]] Hu]]; auto.
      * rewrite E. simpl; auto.
      * apply (mkTerm_names _ _ _ _ (Forall_nil _) Ht) in Hu. destruct Hu.
    + intros env. rewrite (mkPoly_val env [t] p); auto. simpl. rewrite rsum_cons.
      rewrite (mkTerm_val env c [] t); auto. unfold rsum, rprod; simpl. ring.
Qed.

Lemma pvar_spec x k p :
  pvar N so x k = Ok p ->
  wf_poly p /\ (forall n, In n (pnames p) -> n = x)
  /\ (1 <= k)%Z /\ forall env, pval env p = (env x ^ Z.to_nat k)%R.
Proof.
  unfold pvar. intros H. apply bind_Ok in H. destruct H as [f [Hf H]].
  apply bind_Ok in H. destruct H as [t [Ht Hp]].
  pose proof (mkFactor_valid _ _ _ Hf) as Vf.
  assert (V : Forall valid_factor [f]) by auto.
  unfold mkFactor in Hf. destruct (k <? 1)%Z eqn:E; [discriminate|]. injection Hf as <-.
  assert (Wt : Forall wf_term [t]) by (constructor; [eapply mkTerm_wf; eauto|constructor]).
  split; [|split; [|split]].
  - eapply mkPoly_wf; [|eassumption]; auto.
  - intros n Hn. destruct (mkPoly_names _ _ n Wt Hp Hn) as [u [[<-|[]] Hu]].
    apply (mkTerm_names _ _ _ _ V Ht) in Hu. destruct Hu as [<-|[]]; auto.
  - apply Z.ltb_ge in E. lia.
  - intros env. rewrite (mkPoly_val env _ _ Wt Hp). simpl. rewrite rsum_cons.
    rewrite (mkTerm_val env _ _ _ V Ht), val_ofZ. simpl. unfold rsum, rprod, fval; simpl. ring.
Qed.

Lemma pvar_total x k : (1 <= k)%Z -> exists p, pvar N so x k = Ok p.
Proof.
  intros H. unfold pvar, mkFactor. destruct (k <? 1)%Z eqn:E; [apply Z.ltb_lt in E; lia|]. simpl.
  assert (V : Forall valid_factor [Factor x (Z.to_nat k)]).
  { constructor; auto. unfold valid_factor. simpl. lia. }
  destruct (mkTerm_total (ofZ 1) _ V) as [t Ht]. rewrite Ht. simpl.
  apply mkPoly_total.
  - constructor; auto. eapply mkTerm_wf; eauto.
  - intros K _. simpl. destruct (fset_eqb _ _); simpl; lia.
Qed.

Lemma poly_add_num_spec p c : wf_poly p -> exists r, poly_add_num N so p c = Ok r /\ wf_poly r
  /\ (forall n, In n (pnames r) -> In n (pnames p))
  /\ forall env, pval env r = (pval env p + val c)%R.
Proof.
  intros W. unfold poly_add_num. destruct (cis 0 c) eqn:E.
  - exists p. repeat split; auto; try apply W. intros env. rewrite (cis_val 0 c E). ring.
  - destruct (pconst_spec c) as [q [-> [Wq [Nq Vq]]]]. simpl.
    destruct (poly_add_total p q W Wq) as [r Hr]. exists r. split; auto. split; [|split].
    + apply (poly_add_wf p q); auto.
    + intros n Hn. destruct (poly_add_names p q r n W Wq Hr Hn); auto. rewrite Nq in H. destruct H.
    + intros env. now rewrite (poly_add_val env p q), Vq.
Qed.

Lemma mapM_term_neg p ts :
  Forall wf_term p -> mapM (term_neg N so) p = Ok ts ->
  Forall wf_term ts /\ (forall env, rsum (map (tval env) ts) = (- rsum (map (tval env) p))%R)
  /\ (forall t n, In t ts -> In n (tnames t) -> In n (pnames p)).
Proof.
  intros W H. apply mapM_Ok in H. induction H as [|t r p ts Ht H IH].
  - repeat split; auto. { intros. unfold rsum; simpl; ring. }
  - inversion W; subst. destruct (IH H3) as [W' [V' N']]. split; [|split].
    + constructor; auto. eapply mkTerm_wf; [|exact Ht]. exact (proj2 (proj1 H2)).
    + intros env. simpl. rewrite !rsum_cons, V', (term_neg_val env t r); auto. ring.
    + intros u n [<-|Hu] Hn; simpl; apply in_app_iff; eauto.
      left. apply (mkTerm_names _ _ _ _ (proj2 (proj1 H2)) Ht Hn).
Qed.

Lemma poly_neg_spec p r :
  wf_poly p -> poly_neg N so p = Ok r ->
  wf_poly r /\ (forall n, In n (pnames r) -> In n (pnames p))
  /\ forall env, pval env r = (- pval env p)%R.
Proof.
  intros [W _] H. unfold poly_neg in H. apply bind_Ok in H. destruct H as [ts [H1 H2]].
  destruct (mapM_term_neg p ts W H1) as [W' [V' N']]. split; [|split].
  - eapply mkPoly_wf; [|eassumption]; auto.
  - intros n Hn. destruct (mkPoly_names _ _ n W' H2 Hn) as [t [A B]]. eauto.
  - intros env. rewrite (mkPoly_val env _ _ W' H2). apply V'.
Qed.

Lemma poly_neg_total p : wf_poly p -> exists r, poly_neg N so p = Ok r.
Proof.
  intros [W C]. unfold poly_neg.
  destruct (mapM_total (term_neg N so) p) as [ts Hts].
  { intros t Ht. rewrite Forall_forall in W. apply mkTerm_total. apply W; auto. }
  rewrite Hts. simpl. apply mkPoly_total.
  - apply (mapM_term_neg p ts W Hts).
  - intros K NK.
    assert (A : List.length (filter (fun x => fset_eqb (tfactors x) K) ts)
                <= List.length (filter (fun x => fset_eqb (tfactors x) K) p)).
    { apply mapM_Ok in Hts. clear C. induction Hts as [|t r p ts Ht H IH]; simpl; auto.
      inversion W; subst. specialize (IH H3).
      destruct (mkTerm_rebuild _ _ _ (proj1 H2) Ht) as [[_ E]|[_ E]].
      - rewrite E. destruct (fset_eqb [] K) eqn:F.
        + rewrite fset_eqb_sym in F. apply fset_eqb_nil in F. contradiction.
        + destruct (fset_eqb (tfactors t) K); simpl; lia.
      - apply fset_perm in E.
        destruct (fset_eqb (tfactors r) K) eqn:F.
        + rewrite (fset_eqb_trans _ (tfactors r)); auto; [simpl; lia|now rewrite fset_eqb_sym].
        + destruct (fset_eqb (tfactors t) K); simpl; lia. }
    pose proof (wf_poly_key_count p K (conj W C) NK). lia.
Qed.

Definition pairs {A} (p q : list A) := flat_map (fun x => map (fun y => (x, y)) q) p.

Lemma pairs_In {A} (p q : list A) x y : In (x, y) (pairs p q) <-> In x p /\ In y q.
Proof.
  unfold pairs. rewrite in_flat_map. split.
  - intros [a [Ha H]]. apply in_map_iff in H. destruct H as [b [E Hb]].
    injection E as <- <-. auto.
  - intros [Hx Hy]. exists x. split; auto. apply in_map_iff. eauto.
Qed.

Lemma rsum_pairs (f g : term -> R) p q :
  rsum (map (fun xy => f (fst xy) * g (snd xy))%R (pairs p q))
  = (rsum (map f p) * rsum (map g q))%R.
Proof.
  unfold pairs. induction p as [|x p IH]; simpl; [unfold rsum; simpl; ring|].
  rewrite map_app, rsum_app, IH, rsum_cons, map_map. simpl.
  rewrite rsum_scal. ring.
Qed.

Lemma poly_mul_spec p q r :
  wf_poly p -> wf_poly q -> poly_mul N so p q = Ok r ->
  wf_poly r /\ (forall n, In n (pnames r) -> In n (pnames p) \/ In n (pnames q))
  /\ forall env, pval env r = (pval env p * pval env q)%R.
Proof.
  intros [Wp _] [Wq _] H. unfold poly_mul in H. apply bind_Ok in H. destruct H as [ts [H1 H2]].
  fold (pairs p q) in H1. apply mapM_Ok in H1.
  rewrite Forall_forall in Wp, Wq.
  assert (W : Forall wf_term ts).
  { apply Forall_forall. intros t Ht. destruct (Forall2_In_r _ _ _ _ H1 Ht) as [[x y] [Hxy E]].
    apply pairs_In in Hxy. simpl in E. eapply term_mul_wf; [| |exact E]; [apply Wp|apply Wq]; tauto. }
  split; [|split].
  - eapply mkPoly_wf; [|eassumption]; auto.
  - intros n Hn. destruct (mkPoly_names _ _ n W H2 Hn) as [t [Ht Hn']].
    destruct (Forall2_In_r _ _ _ _ H1 Ht) as [[x y] [Hxy E]]. simpl in E.
    apply pairs_In in Hxy. destruct Hxy as [Hx Hy]. unfold term_mul in E.
    apply (mkTerm_names _ _ _ n) in E; auto.
    + rewrite map_app in E. apply in_app_iff in E. unfold pnames. rewrite !in_flat_map.
      destruct E; [left; exists x|right; exists y]; auto.
    + apply Forall_app. split; [apply (Wp x Hx)|apply (Wq y Hy)].
  - intros env. rewrite (mkPoly_val env _ _ W H2). unfold pval. rewrite <- rsum_pairs.
    f_equal. apply Forall2_map_eq. eapply Forall2_impl_In; [|exact H1].
    intros [x y] t Hxy _ E. simpl in *. apply pairs_In in Hxy.
    apply term_mul_val; auto; [apply Wp|apply Wq]; tauto.
Qed.

Lemma poly_mul_num_spec p c r :
  wf_poly p -> poly_mul_num N so p c = Ok r ->
  wf_poly r /\ (forall n, In n (pnames r) -> In n (pnames p))
  /\ forall env, pval env r = (pval env p * val c)%R.
Proof.
  intros W. unfold poly_mul_num. destruct (cis 1 c) eqn:E.
  - intros H; injection H as <-. repeat split; auto; try apply W.
    intros env. rewrite (cis_val 1 c E). ring.
  - destruct (pconst_spec c) as [q [-> [Wq [Nq Vq]]]]. simpl. intros H.
    destruct (poly_mul_spec p q r W Wq H) as [Wr [Nr Vr]]. split; [auto|split].
    + intros n Hn. destruct (Nr n Hn); auto. rewrite Nq in H0. destruct H0.
    + intros env. now rewrite Vr, Vq.
Qed.

(** * Objects *)

Definition oval (env : string -> R) (o : obj N) : R :=
  match o with ONum c => val c | OPoly p => pval env p end.
Definition wf_obj (o : obj N) : Prop :=
  match o with ONum _ => True | OPoly p => wf_poly p end.
Definition onames (o : obj N) : list string :=
  match o with ONum _ => [] | OPoly p => pnames p end.

Lemma foldM_poly_mul p k q r :
  wf_poly p -> wf_poly q -> foldM (fun acc x => poly_mul N so acc x) (repeat p k) q = Ok r ->
  wf_poly r /\ (forall n, In n (pnames r) -> In n (pnames p) \/ In n (pnames q))
  /\ forall env, pval env r = (pval env q * pval env p ^ k)%R.
Proof.
  intros Wp. revert q. induction k as [|k IH]; simpl; intros q Wq H.
  - injection H as <-. repeat split; auto; try apply Wq. intros. ring.
  - apply bind_Ok in H. destruct H as [q' [H1 H2]].
    destruct (poly_mul_spec q p q' Wq Wp H1) as [W' [N' V']].
    destruct (IH q' W' H2) as [W'' [N'' V'']]. split; [auto|split].
    + intros n Hn. destruct (N'' n Hn); auto. destruct (N' n H); auto.
    + intros env. rewrite V'', V'. ring.
Qed.

Lemma poly_pow_spec p k o :
  wf_poly p -> poly_pow N so p k = Ok o ->
  wf_obj o /\ (forall n, In n (onames o) -> In n (pnames p))
  /\ (0 <= k)%Z /\ forall env, oval env o = (pval env p ^ Z.to_nat k)%R.
Proof.
  intros W. unfold poly_pow. destruct (k <? 0)%Z eqn:E; [discriminate|].
  apply Z.ltb_ge in E. destruct (Z.to_nat k) as [|n].
  - intros H; injection H as <-. simpl. repeat split; auto. intros n []. intros. now rewrite val_ofZ.
  - intros H. apply bind_Ok in H. destruct H as [r [H1 H2]]. injection H2 as <-.
    destruct (foldM_poly_mul p n p r W W H1) as [W' [N' V']]. split; [auto|split; [|split]]; auto.
    intros m Hm. destruct (N' m Hm); auto.
Qed.

Definition upd (env : string -> R) (x : string) (v : R) : string -> R :=
  fun n => if String.eqb n x then v else env n.

Lemma fold_power fs name :
  wf_factors fs ->
  let power := fold_left (fun pw f => if String.eqb (fname f) name then fpow f else pw) fs 0 in
  power = powsum name fs.
Proof.
  intros [H _]. simpl. unfold powsum.
  assert (G : forall k, fold_left (fun pw f => if String.eqb (fname f) name then fpow f else pw) fs k
    = match filter (fun x => String.eqb (fname x) name) fs with [] => k | _ => powsum name fs end).
  { unfold powsum. induction fs as [|f fs IH]; simpl; intros k; auto.
    simpl in H. inversion H; subst. rewrite IH by auto.
    destruct (String.eqb (fname f) name) eqn:E; auto.
    rewrite filter_nil; [simpl; lia|].
    intros g Hg. apply String.eqb_neq. intros F. apply String.eqb_eq in E.
    apply H2. rewrite E, <- F. now apply in_map. }
  rewrite G. unfold powsum. destruct (filter _ fs); auto.
Qed.

Lemma tval_upd env name v (t : term) :
  tval (upd env name v) t
  = (val (tconst t)
     * rprod (map (fval env) (filter (fun f => negb (String.eqb (fname f) name)) (tfactors t)))
     * v ^ powsum name (tfactors t))%R.
Proof.
  unfold tval. rewrite Rmult_assoc. f_equal.
  rewrite (rprod_filter_split (fun f => String.eqb (fname f) name)).
  rewrite Rmult_comm. f_equal.
  - f_equal. apply map_ext_in. intros f Hf. apply filter_In in Hf. destruct Hf as [_ Hf].
    unfold fval, upd. apply negb_true_iff in Hf. now rewrite Hf.
  - rewrite <- fval_powsum. unfold fval, upd. simpl. now rewrite String.eqb_refl.
Qed.

Lemma poly_mul_obj_spec p o r :
  wf_poly p -> wf_obj o -> poly_mul_obj N so p o = Ok r ->
  wf_poly r /\ (forall n, In n (pnames r) -> In n (pnames p) \/ In n (onames o))
  /\ forall env, pval env r = (pval env p * oval env o)%R.
Proof.
  intros Wp Wo. destruct o as [c|q]; simpl; intros H.
  - destruct (poly_mul_num_spec p c r Wp H) as [A [B D]]. auto.
  - apply poly_mul_spec; auto.
Qed.

Lemma term_substitute_spec t name q r :
  wf_term t -> wf_poly q -> term_substitute N so t name q = Ok r ->
  wf_poly r
  /\ (forall n, In n (pnames r) -> (In n (tnames t) /\ n <> name) \/ (In n (pnames q) /\ In name (tnames t)))
  /\ forall env, pval env r = tval (upd env name (pval env q)) t.
Proof.
  intros [Wt _] Wq H. unfold term_substitute in H.
  apply bind_Ok in H. destruct H as [t' [H1 H]].
  apply bind_Ok in H. destruct H as [p' [H2 H]].
  apply bind_Ok in H. destruct H as [o [H3 H]].
  pose proof (wf_factors_filter (fun f => negb (String.eqb (fname f) name)) _ Wt) as Wf.
  assert (Wt' : Forall wf_term [t']).
  { constructor; [|constructor]. eapply mkTerm_wf; [|exact H1]. apply Wf. }
  pose proof (mkPoly_wf _ _ Wt' H2) as Wp'.
  destruct (poly_pow_spec q _ o Wq H3) as [Wo [No [_ Vo]]].
  destruct (poly_mul_obj_spec p' o r Wp' Wo H) as [Wr [Nr Vr]].
  rewrite (fold_power _ name Wt) in H3, Vo. rewrite Nat2Z.id in Vo.
  split; [auto|split].
  - intros n Hn. destruct (Nr n Hn) as [Hn'|Hn'].
    + left. destruct (mkPoly_names _ _ n Wt' H2 Hn') as [u [[<-|[]] Hu]].
      apply (mkTerm_names _ _ _ n (proj2 Wf) H1) in Hu.
      apply in_map_iff in Hu. destruct Hu as [f [<- Hf]]. apply filter_In in Hf.
      destruct Hf as [Hf1 Hf2]. apply negb_true_iff, String.eqb_neq in Hf2.
      split; auto. unfold tnames. now apply in_map.
    + right. split; auto.
      destruct (in_dec string_dec name (tnames t)) as [I|NI]; auto. exfalso.
      assert (P0 : powsum name (tfactors t) = 0).
      { unfold powsum. rewrite filter_nil; auto. intros f Hf.
        apply String.eqb_neq. intros E. apply NI. rewrite <- E. unfold tnames. now apply in_map. }
      rewrite P0 in H3. simpl in H3. injection H3 as <-. destruct Hn'.
  - intros env. rewrite Vr, Vo, tval_upd. f_equal.
    rewrite (mkPoly_val env _ _ Wt' H2). simpl. rewrite rsum_cons.
    rewrite (mkTerm_val env _ _ _ (proj2 Wf) H1). unfold rsum; simpl. ring.
Qed.

Lemma obj_add_poly_spec o p r :
  wf_obj o -> wf_poly p -> obj_add_poly N so o p = Ok r ->
  wf_obj r /\ (forall n, In n (onames r) -> In n (onames o) \/ In n (pnames p))
  /\ forall env, oval env r = (oval env o + pval env p)%R.
Proof.
  intros Wo Wp. destruct o as [c|q]; simpl; intros H.
  - destruct (poly_add_num_spec p c Wp) as [s [E [A [B D]]]]. rewrite E in H. simpl in H.
    injection H as <-. simpl. split; [auto|split]; auto. intros. rewrite D. ring.
  - apply bind_Ok in H. destruct H as [s [H1 H2]]. injection H2 as <-. simpl.
    split; [|split].
    + apply (poly_add_wf q p); auto.
    + intros n. now apply poly_add_names.
    + intros. now apply poly_add_val.
Qed.

Lemma poly_substitute_gen p name q o r :
  Forall wf_term p -> wf_poly q -> wf_obj o ->
  foldM (fun result t => do s <- term_substitute N so t name q; obj_add_poly N so result s) p o = Ok r ->
  wf_obj r
  /\ (forall n, In n (onames r) ->
        In n (onames o) \/ (In n (pnames p) /\ n <> name) \/ (In n (pnames q) /\ In name (pnames p)))
  /\ forall env, oval env r = (oval env o + pval (upd env name (pval env q)) p)%R.
Proof.
  intros Wp Wq. revert o. induction p as [|t p IH]; simpl; intros o Wo H.
  - injection H as <-. split; [auto|split]; auto. intros. unfold pval, rsum; simpl. ring.
  - inversion Wp; subst. apply bind_Ok in H. destruct H as [o' [H1 H4]].
    apply bind_Ok in H1. destruct H1 as [s [H1 H5]].
    destruct (term_substitute_spec t name q s H2 Wq H1) as [Ws [Ns Vs]].
    destruct (obj_add_poly_spec o s o' Wo Ws H5) as [Wo' [No' Vo']].
    destruct (IH H3 o' Wo' H4) as [Wr [Nr Vr]]. split; [auto|split].
    + intros n Hn. unfold pnames in *. simpl. rewrite !in_app_iff.
      destruct (Nr n Hn) as [A|[A|A]].
      * destruct (No' n A) as [B|B]; auto. destruct (Ns n B) as [D|D]; tauto.
      * tauto.
      * tauto.
    + intros env. rewrite Vr, Vo', Vs. unfold pval. simpl. rewrite rsum_cons. ring.
Qed.

Lemma poly_substitute_spec p name q r :
  wf_poly p -> wf_poly q -> poly_substitute N so p name q = Ok r ->
  wf_obj r
  /\ (forall n, In n (onames r) ->
        (In n (pnames p) /\ n <> name) \/ (In n (pnames q) /\ In name (pnames p)))
  /\ forall env, oval env r = pval (upd env name (pval env q)) p.
Proof.
  intros [Wp _] Wq H. unfold poly_substitute in H.
  destruct (poly_substitute_gen p name q (ONum (ofZ 0)) r Wp Wq I H) as [A [B D]].
  split; [auto|split].
  - intros n Hn. destruct (B n Hn) as [[]|E]; auto.
  - intros env. rewrite D. simpl. rewrite val_ofZ. ring.
Qed.

(** * Evaluation with possibly missing variables *)

Definition env_of (m : varmap) (x : string) : R := match m x with Some v => v | None => 0%R end.

Lemma factor_eval_bound m f v :
  m (fname f) = Some v -> factor_eval m f = Ok (fval (env_of m) f).
Proof. intros H. unfold factor_eval, fval, env_of. now rewrite H. Qed.

Lemma fold_left_Rmult l a : fold_left Rmult l a = (a * rprod l)%R.
Proof.
  revert a. induction l as [|x l IH]; simpl; intros a; [unfold rprod; simpl; ring|].
  rewrite IH, rprod_cons. ring.
Qed.

Lemma term_eval_bound m (t : term) :
  (forall n, In n (tnames t) -> m n <> None) ->
  term_eval N m t = Ok (tval (env_of m) t).
Proof.
  intros H. unfold term_eval.
  rewrite mapM_eq with (g := fval (env_of m)).
  - simpl. rewrite fold_left_Rmult. reflexivity.
  - intros f Hf. specialize (H (fname f)). destruct (m (fname f)) as [v|] eqn:E.
    + eapply factor_eval_bound; eauto.
    + exfalso. apply H; auto. unfold tnames. now apply in_map.
Qed.

Lemma foldM_eval m (p : poly) a :
  (forall n, In n (pnames p) -> m n <> None) ->
  foldM (fun result t => do v <- term_eval N m t; Ok (result + v)%R) p a
  = Ok (a + pval (env_of m) p)%R.
Proof.
  revert a. induction p as [|t p IH]; simpl; intros a H.
  - unfold pval, rsum; simpl. f_equal. ring.
  - rewrite term_eval_bound.
    + simpl. rewrite IH.
      * unfold pval. simpl. rewrite rsum_cons. f_equal. ring.
      * intros n Hn. apply H. unfold pnames. simpl. apply in_app_iff. auto.
    + intros n Hn. apply H. unfold pnames. simpl. apply in_app_iff. auto.
Qed.

Lemma poly_eval_bound m (p : poly) :
  (forall n, In n (pnames p) -> m n <> None) -> poly_eval N m p = Ok (pval (env_of m) p).
Proof. intros H. unfold poly_eval. rewrite foldM_eval; auto. f_equal. ring. Qed.

Lemma poly_eval_missing m (p : poly) n :
  In n (pnames p) -> m n = None -> poly_eval N m p = Err KeyError.
Proof.
  intros Hn Hm. unfold poly_eval. generalize 0%R.
  induction p as [|t p IH]; intros a; [destruct Hn|]. simpl.
  assert (E : term_eval N m t = Err KeyError \/ exists v, term_eval N m t = Ok v).
  { unfold term_eval. clear. induction (tfactors t) as [|f fs IH]; simpl; [right; eauto|].
    unfold factor_eval at 1 3. destruct (m (fname f)); [|auto]. simpl.
    destruct (mapM (factor_eval m) fs) as [xs|e]; simpl in *.
    - right; eauto.
    - left. destruct IH as [IH|[v IH]]; [injection IH as ->; auto|discriminate]. }
  destruct E as [->|[v E]]; auto. rewrite E. simpl.
  unfold pnames in Hn. simpl in Hn. apply in_app_iff in Hn. destruct Hn as [Hn|Hn].
  - exfalso. unfold term_eval in E. apply bind_Ok in E. destruct E as [xs [E _]].
    apply mapM_Ok in E. unfold tnames in Hn. apply in_map_iff in Hn. destruct Hn as [f [<- Hf]].
    destruct (Forall2_In_l _ _ _ _ E Hf) as [y [_ Hy]]. unfold factor_eval in Hy.
    rewrite Hm in Hy. discriminate.
  - apply IH. exact Hn.
Qed.

Lemma fval_ext e1 e2 f : e1 (fname f) = e2 (fname f) -> fval e1 f = fval e2 f.
Proof. unfold fval. now intros ->. Qed.

Lemma tval_ext e1 e2 (t : term) :
  (forall n, In n (tnames t) -> e1 n = e2 n) -> tval e1 t = tval e2 t.
Proof.
  intros H. unfold tval. f_equal. f_equal. apply map_ext_in. intros f Hf. apply fval_ext.
  apply H. unfold tnames. now apply in_map.
Qed.

Lemma pval_ext e1 e2 (p : poly) :
  (forall n, In n (pnames p) -> e1 n = e2 n) -> pval e1 p = pval e2 p.
Proof.
  intros H. unfold pval. f_equal. apply map_ext_in. intros t Ht. apply tval_ext.
  intros n Hn. apply H. unfold pnames. apply in_flat_map. eauto.
Qed.

(** * Collecting and rejecting *)

Lemma poly_reject_total p x : wf_poly p -> exists r, poly_reject N so p x = Ok r.
Proof.
  intros [W C]. apply mkPoly_total_wf. split; [now apply filter_wf|now apply FOP_filter].
Qed.

Lemma is_function_of_names (t : term) x : term_is_function_of N t x = true <-> In x (tnames t).
Proof.
  unfold term_is_function_of, tnames. rewrite existsb_exists, in_map_iff.
  split; intros [f [A B]]; exists f; rewrite String.eqb_eq in *; tauto.
Qed.

Lemma poly_is_function_of_names (p : poly) x : poly_is_function_of N p x = true <-> In x (pnames p).
Proof.
  unfold poly_is_function_of, pnames. rewrite existsb_exists, in_flat_map.
  split; intros [t [A B]]; exists t; rewrite is_function_of_names in *; tauto.
Qed.

Lemma poly_reject_spec p x r :
  wf_poly p -> poly_reject N so p x = Ok r ->
  wf_poly r /\ ~ In x (pnames r) /\ (forall n, In n (pnames r) -> In n (pnames p))
  /\ forall env, pval env r
       = rsum (map (tval env) (filter (fun t => negb (term_is_function_of N t x)) p)).
Proof.
  intros [W C] H. unfold poly_reject in H.
  pose proof (filter_wf (fun t => negb (term_is_function_of N t x)) p W) as W'.
  split; [|split; [|split]].
  - eapply mkPoly_wf; [|eassumption]; auto.
  - intros Hx. destruct (mkPoly_names _ _ x W' H Hx) as [t [Ht Hn]].
    apply filter_In in Ht. apply is_function_of_names in Hn. rewrite Hn in Ht. simpl in Ht.
    destruct Ht; discriminate.
  - intros n Hn. destruct (mkPoly_names _ _ n W' H Hn) as [t [Ht Hn']].
    apply filter_In in Ht. unfold pnames. apply in_flat_map. exists t. tauto.
  - intros env. apply mkPoly_val; auto.
Qed.

Lemma term_collect_spec t f r :
  wf_term t -> term_collect_for N so t f = Ok r ->
  wf_term r /\ In f (tfactors t) /\ tconst r = tconst t
  /\ (isz (tconst t) = false)
  /\ Permutation (tfactors r) (filter (fun g => negb (factor_eqb g f)) (tfactors t))
  /\ forall env, tval env t = (tval env r * fval env f)%R.
Proof.
  intros [Wt Zt] H. unfold term_collect_for in H.
  destruct (fmem f (tfactors t)) eqn:E; simpl in H; [|discriminate].
  apply fmem_In in E.
  pose proof (wf_factors_filter (fun g => negb (factor_eqb g f)) _ Wt) as Wf.
  assert (Pf := ord_perm so (filter (fun g => negb (factor_eqb g f)) (tfactors t))).
  assert (Wo := wf_factors_perm _ _ (Permutation_sym Pf) Wf).
  assert (Z : isz (tconst t) = false).
  { destruct (isz (tconst t)) eqn:Z; auto. rewrite Zt in E by auto. destruct E. }
  pose proof (mkTerm_const _ _ _ H) as Hc.
  split; [|split; [|split; [|split; [|split]]]]; auto.
  - eapply mkTerm_wf; [|exact H]. apply Wo.
  - destruct (mkTerm_rebuild _ _ _ Wo H) as [[A _]|[_ A]]; [congruence|].
    etransitivity; eauto.
  - intros env. rewrite (mkTerm_val env _ _ _ (proj2 Wo) H). unfold tval.
    rewrite (rprod_perm _ _ (Permutation_map (fval env) Pf)).
    rewrite (rprod_filter_split (fun g => factor_eqb g f) (fval env) (tfactors t)).
    assert (S : Permutation (filter (fun g => factor_eqb g f) (tfactors t)) [f]).
    { apply NoDup_Permutation.
      - apply NoDup_filter. now apply wf_factors_NoDup.
      - constructor; [intros []|constructor].
      - intros g. rewrite filter_In, factor_eqb_eq. simpl. split.
        + intros [_ ->]. auto.
        + intros [<-|[]]. auto. }
    rewrite (rprod_perm _ _ (Permutation_map (fval env) S)). simpl. unfold rprod at 1. simpl. ring.
Qed.

Lemma term_collect_total t f :
  wf_term t -> In f (tfactors t) -> exists r, term_collect_for N so t f = Ok r.
Proof.
  intros [Wt _] H. unfold term_collect_for. apply fmem_In in H. rewrite H. simpl.
  apply mkTerm_total.
  eapply Permutation_Forall; [symmetry; apply ord_perm|].
  apply (wf_factors_filter (fun g => negb (factor_eqb g f))). exact Wt.
Qed.

Lemma poly_collect_total p f : wf_poly p -> exists r, poly_collect_for N so p f = Ok r.
Proof.
  intros [W C]. unfold poly_collect_for.
  pose proof (filter_wf (fun x => fmem f (tfactors x)) p W) as W'.
  destruct (mapM_total (fun x => term_collect_for N so x f)
              (filter (fun x => fmem f (tfactors x)) p)) as [ts Hts].
  { intros t Ht. rewrite Forall_forall in W'. apply term_collect_total; auto.
    apply filter_In in Ht. apply fmem_In. tauto. }
  rewrite Hts. simpl. apply mapM_Ok in Hts.
  apply mkPoly_total_wf. split.
  - apply Forall_forall. intros r Hr. destruct (Forall2_In_r _ _ _ _ Hts Hr) as [t [Ht E]].
    rewrite Forall_forall in W'. apply (term_collect_spec t f r (W' t Ht) E).
  - eapply (Forall2_FOP (fun t r => (wf_term t /\ fmem f (tfactors t) = true) /\ term_collect_for N so t f = Ok r)).
    3: { apply FOP_filter. exact C. }
    + intros t1 t2 r1 r2 [[W1 M1] E1] [[W2 M2] E2] Ct E.
      destruct (term_collect_spec t1 f r1 W1 E1) as [_ [I1 [_ [_ [P1 _]]]]].
      destruct (term_collect_spec t2 f r2 W2 E2) as [_ [I2 [_ [_ [P2 _]]]]].
      exfalso. assert (A : fset_eqb (tfactors t1) (tfactors t2) = true).
      { apply fset_eqb_iff. intros g.
        rewrite fset_eqb_iff in E. specialize (E g).
        assert (G1 : In g (tfactors r1) <-> In g (tfactors t1) /\ g <> f).
        { split; intros G.
          - apply (Permutation_in _ P1) in G. apply filter_In in G. destruct G as [G1 G2].
            split; auto. intros ->. rewrite factor_eqb_refl in G2. discriminate.
          - apply (Permutation_in _ (Permutation_sym P1)). apply filter_In.
            destruct G as [G1 G2]. split; auto.
            destruct (factor_eqb g f) eqn:F; auto. apply factor_eqb_eq in F. contradiction. }
        assert (G2 : In g (tfactors r2) <-> In g (tfactors t2) /\ g <> f).
        { split; intros G.
          - apply (Permutation_in _ P2) in G. apply filter_In in G. destruct G as [G2 G3].
            split; auto. intros ->. rewrite factor_eqb_refl in G3. discriminate.
          - apply (Permutation_in _ (Permutation_sym P2)). apply filter_In.
            destruct G as [G2 G3]. split; auto.
            destruct (factor_eqb g f) eqn:F; auto. apply factor_eqb_eq in F. contradiction. }
        destruct (factor_eqb g f) eqn:F.
        - apply factor_eqb_eq in F. subst. tauto.
        - assert (g <> f) by (intros ->; rewrite factor_eqb_refl in F; discriminate). tauto. }
      apply Ct in A. destruct A as [A _]. rewrite A in I1. destruct I1.
    + eapply Forall2_impl_In; [|exact Hts]. intros t r Ht _ E. split; auto.
      rewrite Forall_forall in W'. split; auto. apply filter_In in Ht. tauto.
Qed.

Lemma poly_collect_spec p f r :
  wf_poly p -> poly_collect_for N so p f = Ok r ->
  wf_poly r /\ ~ In (fname f) (pnames r) /\ (forall n, In n (pnames r) -> In n (pnames p))
  /\ forall env, rsum (map (tval env) (filter (fun t => fmem f (tfactors t)) p))
       = (pval env r * fval env f)%R.
Proof.
  intros [W C] H. unfold poly_collect_for in H.
  apply bind_Ok in H. destruct H as [ts [H1 H2]]. apply mapM_Ok in H1.
  pose proof (filter_wf (fun x => fmem f (tfactors x)) p W) as W'.
  rewrite Forall_forall in W'.
  assert (Wts : Forall wf_term ts).
  { apply Forall_forall. intros r' Hr. destruct (Forall2_In_r _ _ _ _ H1 Hr) as [t [Ht E]].
    apply (term_collect_spec t f r' (W' t Ht) E). }
  split; [|split; [|split]].
  - eapply mkPoly_wf; [|eassumption]; auto.
  - intros Hn. destruct (mkPoly_names _ _ _ Wts H2 Hn) as [u [Hu Hn']].
    destruct (Forall2_In_r _ _ _ _ H1 Hu) as [t [Ht E]].
    destruct (term_collect_spec t f u (W' t Ht) E) as [_ [I [_ [_ [P _]]]]].
    unfold tnames in Hn'. apply (Permutation_in _ (Permutation_map fname P)) in Hn'.
    apply in_map_iff in Hn'. destruct Hn' as [g [Eg Hg]]. apply filter_In in Hg.
    destruct Hg as [Hg1 Hg2].
    rewrite (wf_factors_same_name _ g f (proj1 (W' t Ht)) Hg1 I Eg), factor_eqb_refl in Hg2.
    discriminate.
  - intros n Hn. destruct (mkPoly_names _ _ _ Wts H2 Hn) as [u [Hu Hn']].
    destruct (Forall2_In_r _ _ _ _ H1 Hu) as [t [Ht E]].
    destruct (term_collect_spec t f u (W' t Ht) E) as [_ [I [_ [_ [P _]]]]].
    unfold tnames in Hn'. apply (Permutation_in _ (Permutation_map fname P)) in Hn'.
    apply in_map_iff in Hn'. destruct Hn' as [g [Eg Hg]]. apply filter_In in Hg.
    unfold pnames. apply in_flat_map. exists t. apply filter_In in Ht. split; [tauto|].
    unfold tnames. rewrite <- Eg. apply in_map. tauto.
  - intros env. rewrite (mkPoly_val env _ _ Wts H2). rewrite <- rsum_scal_r.
    f_equal. symmetry.
    apply Forall2_map_eq with (f := tval env) (g := fun t => (tval env t * fval env f)%R).
    eapply Forall2_impl_In; [|exact H1].
    intros t u Ht _ E. symmetry. apply (term_collect_spec t f u (W' t Ht) E).
Qed.

Lemma term_highest_power_spec (t : term) x :
  wf_term t -> term_highest_power N t x = powsum x (tfactors t).
Proof.
  intros [[H _] _]. unfold term_highest_power.
  assert (G : forall l k, NoDup (map fname l) ->
    fold_left (fun hp f => if String.eqb (fname f) x then Nat.max hp (fpow f) else hp) l k
    = Nat.max k (powsum x l)).
  { induction l as [|f l IH]; simpl; intros k Hl; [unfold powsum; simpl; lia|].
    inversion Hl; subst. rewrite IH by auto. unfold powsum. simpl.
    destruct (String.eqb (fname f) x) eqn:E; auto.
    rewrite filter_nil; [simpl; lia|].
    intros g Hg. apply String.eqb_neq. intros F. apply String.eqb_eq in E.
    apply H2. rewrite E, <- F. now apply in_map. }
  rewrite G by auto. lia.
Qed.

Lemma poly_highest_power_spec p x k :
  poly_highest_power N p x = Ok k ->
  p <> [] /\ (forall t, In t p -> term_highest_power N t x <= k)
  /\ exists t, In t p /\ term_highest_power N t x = k.
Proof.
  unfold poly_highest_power. destruct p as [|t p]; [discriminate|]. simpl.
  intros H; injection H as H. split; [discriminate|].
  assert (G : forall (l : list nat) a, (forall y, In y l -> y <= fold_left Nat.max l a)
     /\ a <= fold_left Nat.max l a /\ (fold_left Nat.max l a = a \/ In (fold_left Nat.max l a) l)).
  { clear. induction l as [|b l IH]; simpl; intros a; [intuition|].
    destruct (IH (Nat.max a b)) as [A [B D]].
    split; [|split].
    - intros y [<-|Hy]; auto. lia.
    - lia.
    - destruct D as [D|D]; auto. rewrite D.
      destruct (Nat.max_spec a b) as [[_ ->]|[_ ->]]; auto. }
  destruct (G (map (fun t => term_highest_power N t x) p) (term_highest_power N t x)) as [A [B D]].
  rewrite H in A, B, D. split.
  - intros u [<-|Hu]; auto. apply A. apply in_map_iff. eauto.
  - destruct D as [D|D]; [exists t; auto|].
    apply in_map_iff in D. destruct D as [u [E Hu]]. exists u; auto.
Qed.

Lemma poly_highest_power_total p x : p <> [] -> exists k, poly_highest_power N p x = Ok k.
Proof. unfold poly_highest_power. destruct p; [congruence|]. simpl. eauto. Qed.

(** A well-formed term depends on [x] through exactly the factor x^(powsum). *)
Lemma powsum_factor (t : term) x k :
  wf_term t -> 1 <= k -> (In (Factor x k) (tfactors t) <-> powsum x (tfactors t) = k).
Proof.
  intros [W _] Hk. split.
  - intros H. apply (powsum_wf _ _ W H).
  - intros H. destruct (in_dec string_dec x (map fname (tfactors t))) as [I|NI].
    + apply in_map_iff in I. destruct I as [f [<- Hf]].
      rewrite (powsum_wf _ _ W Hf) in H. subst. now destruct f.
    + exfalso. unfold powsum in H. rewrite filter_nil in H; [simpl in H; lia|].
      intros f Hf. apply String.eqb_neq. intros E. apply NI. rewrite <- E. now apply in_map.
Qed.

Lemma powsum_zero (t : term) x :
  wf_term t -> (powsum x (tfactors t) = 0 <-> term_is_function_of N t x = false).
Proof.
  intros [W _]. split.
  - intros H. destruct (term_is_function_of N t x) eqn:E; auto.
    apply is_function_of_names in E. unfold tnames in E.
    pose proof (powsum_valid x _ (proj2 W) E). lia.
  - intros H. unfold powsum. rewrite filter_nil; auto.
    intros f Hf. apply String.eqb_neq. intros F.
    assert (term_is_function_of N t x = true); [|congruence].
    apply is_function_of_names. rewrite <- F. unfold tnames. now apply in_map.
Qed.

(** Sum over the terms, split by the power of [x]. *)
Lemma split_by_power (x : string) (p : poly) (g : term -> R) k :
  (forall t, In t p -> powsum x (tfactors t) <= k) ->
  rsum (map g p)
  = rsum (map (fun j => rsum (map g (filter (fun t => Nat.eqb (powsum x (tfactors t)) j) p)))
              (seq 0 (S k))).
Proof.
  intros H. symmetry.
  apply (rsum_group (fun t => powsum x (tfactors t)) Nat.eqb g p).
  intros t Ht. specialize (H t Ht).
  assert (G : forall n a b, a <= n < a + b -> List.length (filter (Nat.eqb n) (seq a b)) = 1).
  { clear. intros n a b. revert a. induction b as [|b IH]; intros a Hn; [lia|].
    simpl. destruct (Nat.eqb n a) eqn:E.
    - apply Nat.eqb_eq in E. subst. simpl. f_equal.
      rewrite filter_nil; auto. intros y Hy. apply in_seq in Hy. apply Nat.eqb_neq. lia.
    - apply Nat.eqb_neq in E. apply IH. lia. }
  apply G. lia.
Qed.

(** * Equality *)

Definition tE (s t : term) : Prop :=
  val (tconst s) = val (tconst t) /\ fset_eqb (tfactors s) (tfactors t) = true.

Lemma term_eqb_tE s t : term_eqb N s t = true -> tE s t.
Proof.
  unfold term_eqb, tE. rewrite andb_true_iff. intros [A B]. split; auto. now apply ceqb_val.
Qed.

Lemma tE_val env s t : wf_term s -> wf_term t -> tE s t -> tval env s = tval env t.
Proof.
  intros [Ws _] [Wt _] [A B]. unfold tval. rewrite A. f_equal.
  apply rprod_perm, Permutation_map. now apply fset_eqb_perm.
Qed.

Definition nonz (t : term) : bool := negb (Reqb (val (tconst t)) 0).

Lemma pval_nonz env p : pval env p = rsum (map (tval env) (filter nonz p)).
Proof.
  unfold pval. rewrite (rsum_filter_split nonz).
  assert (E : rsum (map (tval env) (filter (fun x => negb (nonz x)) p)) = 0%R).
  { induction p as [|t p IH]; simpl; [reflexivity|].
    unfold nonz at 1. destruct (Reqb (val (tconst t)) 0) eqn:E; simpl; auto.
    rewrite rsum_cons, IH. apply Reqb_eq in E. unfold tval. rewrite E. ring. }
  rewrite E. ring.
Qed.

Lemma nonz_pairs p : wf_poly p -> ForallOrdPairs (fun s t => ~ tE s t) (filter nonz p).
Proof.
  intros [_ H]. induction H as [|t p H F IH]; simpl; [constructor|].
  destruct (nonz t) eqn:E; auto. constructor; auto.
  apply Forall_forall. intros u Hu [A B]. apply filter_In in Hu. destruct Hu as [Hu Nu].
  rewrite Forall_forall in H. destruct (H u Hu B) as [_ [_ [Z|Z]]]; apply isz_val in Z;
    unfold nonz in *; [rewrite (proj2 (Reqb_eq _ _) Z) in E|rewrite (proj2 (Reqb_eq _ _) Z) in Nu];
    discriminate.
Qed.

Lemma tE_sym s t : tE s t -> tE t s.
Proof. unfold tE. rewrite fset_eqb_sym. intuition. Qed.
Lemma tE_trans s t u : tE s t -> tE t u -> tE s u.
Proof. unfold tE. intros [] []. split; [congruence|eapply fset_eqb_trans; eauto]. Qed.

Lemma poly_eqb_val env p q :
  wf_poly p -> wf_poly q -> poly_eqb N p q = true -> pval env p = pval env q.
Proof.
  intros Wp Wq H. unfold poly_eqb in H. apply andb_true_iff in H. destruct H as [H1 H2].
  rewrite forallb_forall in H1, H2. rewrite !pval_nonz.
  assert (Ap := proj1 Wp). assert (Aq := proj1 Wq). rewrite Forall_forall in Ap, Aq.
  apply (rsum_setoid (fun s t => wf_term s /\ wf_term t /\ tE s t)).
  - intros s t [A [B D]]. auto using tE_sym.
  - intros s t u [A [B D]] [A' [B' D']]. eauto using tE_trans.
  - intros s t [A [B D]]. now apply tE_val.
  - eapply FOP_impl; [|now apply nonz_pairs]. cbv beta. tauto.
  - eapply FOP_impl; [|now apply nonz_pairs]. cbv beta. tauto.
  - intros s Hs. apply filter_In in Hs. destruct Hs as [Hs Ns].
    specialize (H1 s Hs). apply existsb_exists in H1. destruct H1 as [t [Ht E]].
    apply term_eqb_tE in E. exists t. split; [|auto].
    apply filter_In. split; auto. unfold nonz in *. now rewrite <- (proj1 E).
  - intros t Ht. apply filter_In in Ht. destruct Ht as [Ht Nt].
    specialize (H2 t Ht). apply existsb_exists in H2. destruct H2 as [s [Hs E]].
    apply term_eqb_tE in E. exists s. apply tE_sym in E. split; [|auto].
    apply filter_In. split; auto. unfold nonz in *. now rewrite (proj1 E).
Qed.

Lemma term_eqb_refl t : term_eqb N t t = true.
Proof. unfold term_eqb. now rewrite ceqb_refl, fset_eqb_refl. Qed.
Lemma term_eqb_sym s t : term_eqb N s t = term_eqb N t s.
Proof. unfold term_eqb. now rewrite ceqb_sym, fset_eqb_sym. Qed.
Lemma poly_eqb_refl p : poly_eqb N p p = true.
Proof.
  unfold poly_eqb. apply andb_true_iff.
  assert (A : forallb (fun s => existsb (term_eqb N s) p) p = true).
  { apply forallb_forall. intros s Hs. apply existsb_exists. exists s. auto using term_eqb_refl. }
  auto.
Qed.
Lemma poly_eqb_sym p q : poly_eqb N p q = poly_eqb N q p.
Proof. unfold poly_eqb. apply andb_comm. Qed.

End Proofs.
