(** Proofs about printing. *)
From Coq Require Import List Bool String Ascii Permutation Sorted NArith.
From Verif Require Import Py ExpPolyModel ExpPolySpec ExpPolyProofs PrintModel.
Import ListNotations.

(** * Strings are totally ordered *)
Lemma ascii_compare_N a b : Ascii.compare a b = N.compare (N_of_ascii a) (N_of_ascii b).
Proof. reflexivity. Qed.

Lemma str_lt_trans s t u : String.compare s t = Lt -> String.compare t u = Lt -> String.compare s u = Lt.
Proof.
  revert t u. induction s as [|a s IH]; intros [|b t] [|c u]; simpl; try discriminate; auto.
  destruct (Ascii.compare a b) eqn:E; try discriminate.
  - apply Ascii.compare_eq_iff in E. subst b. destruct (Ascii.compare a c); eauto; discriminate.
  - intros _. destruct (Ascii.compare b c) eqn:F; try discriminate.
    + apply Ascii.compare_eq_iff in F. subst c. now rewrite E.
    + intros _. rewrite ascii_compare_N in *. rewrite N.compare_lt_iff in E, F.
      replace (N.compare (N_of_ascii a) (N_of_ascii c)) with Lt; [reflexivity|]. symmetry. apply N.compare_lt_iff.
      eapply N.lt_trans; eauto.
Qed.

Lemma str_le_trans s t u : String.leb s t = true -> String.leb t u = true -> String.leb s u = true.
Proof.
  unfold String.leb. destruct (String.compare s t) eqn:E; try discriminate; intros _.
  - apply String.compare_eq_iff in E. now subst.
  - destruct (String.compare t u) eqn:F; try discriminate; intros _.
    + apply String.compare_eq_iff in F. subst. now rewrite E.
    + now rewrite (str_lt_trans _ _ _ E F).
Qed.

(** * Sorting *)
Lemma insert_comm s t l : insert s (insert t l) = insert t (insert s l).
Proof.
  induction l as [|u l IH]; simpl.
  - destruct (String.leb s t) eqn:E, (String.leb t s) eqn:F; auto.
    + now rewrite (String.leb_antisym _ _ E F).
    + destruct (String.leb_total s t); congruence.
  - destruct (String.leb t u) eqn:E, (String.leb s u) eqn:F; simpl; rewrite ?E, ?F; auto.
    + destruct (String.leb s t) eqn:G, (String.leb t s) eqn:H; auto.
      * now rewrite (String.leb_antisym _ _ G H).
      * destruct (String.leb_total s t); congruence.
    + destruct (String.leb s t) eqn:G; [|now rewrite ?E].
      rewrite (str_le_trans _ _ _ G E) in F. discriminate.
    + destruct (String.leb t s) eqn:G; [|reflexivity].
      rewrite (str_le_trans _ _ _ G F) in E. discriminate.
    + now rewrite IH.
Qed.

Lemma sorted_perm l l' : Permutation l l' -> sorted l = sorted l'.
Proof. induction 1; simpl; try congruence. apply insert_comm. Qed.

Section Print.
Context (N : numdom) (str_num : N -> string).
Hypothesis Hstr : forall a b : N, ceqb a b = true -> str_num a = str_num b.

Lemma term_str_eq s t : wf_term N s -> wf_term N t -> term_eqb N s t = true -> term_str N str_num s = term_str N str_num t.
Proof.
  intros [Ws _] [Wt _] E. unfold term_eqb in E. apply andb_true_iff in E. destruct E as [E1 E2].
  apply fset_eqb_perm in E2; auto. unfold term_str. rewrite (Hstr _ _ E1), (Permutation_length E2).
  rewrite (sorted_perm _ _ (Permutation_map (factor_str) E2)). reflexivity.
Qed.

Lemma poly_str_subset p q : wf_poly N p -> wf_poly N q -> poly_eqb N p q = true ->
  forall w, In w (map (term_str N str_num) p) -> In w (map (term_str N str_num) q).
Proof.
  intros [Wp _] [Wq _] E w I. unfold poly_eqb in E. apply andb_true_iff in E. destruct E as [E _].
  apply in_map_iff in I. destruct I as [s [<- I]]. rewrite forallb_forall in E. specialize (E s I).
  apply existsb_exists in E. destruct E as [t [It E]]. apply in_map_iff. exists t. split; [|exact It].
  rewrite Forall_forall in Wp, Wq. symmetry. apply term_str_eq; auto.
Qed.

(** Without cancelled terms the factors of two terms differ. *)
Lemma no_zero_tail x p : Forall (fun t => isz (tconst t) = false) (x :: p) -> wf_poly N (x :: p) ->
  forall t, In t p -> fset_eqb (tfactors x) (tfactors t) = false.
Proof.
  intros Z [_ F] t I. inversion F; subst. rewrite Forall_forall in H1. specialize (H1 t I).
  destruct (fset_eqb (tfactors x) (tfactors t)) eqn:E; [|reflexivity]. destruct (H1 E) as [_ [_ [A|A]]].
  - inversion Z; subst. congruence.
  - rewrite Forall_forall in Z. rewrite (Z t (or_intror I)) in A. discriminate.
Qed.

Lemma wf_poly_remove q1 y q2 : wf_poly N (q1 ++ y :: q2) -> wf_poly N (q1 ++ q2).
Proof.
  intros [F P]. split.
  - apply Forall_app in F. destruct F as [F1 F2]. inversion F2; subst. apply Forall_app. auto.
  - clear F. induction q1 as [|x q1 IH]; simpl in *; inversion P; subst; [assumption|]. constructor; [|now apply IH].
    apply Forall_app in H1. destruct H1 as [A B]. inversion B; subst. apply Forall_app. auto.
Qed.

Lemma wf_poly_middle q1 y q2 : wf_poly N (q1 ++ y :: q2) -> wf_poly N (y :: q1 ++ q2).
Proof.
  intros W. destruct (wf_poly_remove _ _ _ W) as [F P]. destruct W as [F' P']. split.
  - constructor; [|exact F]. apply Forall_app in F'. destruct F' as [_ F2]. now inversion F2.
  - constructor; [|exact P]. clear F P F'. apply Forall_app. induction q1 as [|x q1 IH]; simpl in *; inversion P'; subst.
    + split; [constructor|assumption].
    + destruct (IH H2) as [A B]. split; [|exact B]. constructor; [|exact A]. apply Forall_app in H1. destruct H1 as [_ H1].
      inversion H1; subst. now apply compat_sym.
Qed.

Lemma fset_eqb_tr s t u : fset_eqb s t = true -> fset_eqb u t = true -> fset_eqb s u = true.
Proof.
  unfold fset_eqb, fmem. rewrite !andb_true_iff, !forallb_forall. intros [A B] [C D].
  assert (M : forall l f, existsb (factor_eqb f) l = true <-> In f l).
  { intros l f. rewrite existsb_exists. split.
    - intros [g [I E]]. unfold factor_eqb in E. apply andb_true_iff in E. destruct E as [E1 E2].
      apply String.eqb_eq in E1. apply PeanoNat.Nat.eqb_eq in E2. destruct f, g; simpl in *; now subst.
    - intros I. exists f. split; [exact I|]. unfold factor_eqb. now rewrite String.eqb_refl, PeanoNat.Nat.eqb_refl. }
  split; intros f I; apply M.
  - apply M, D, M, A, I.
  - apply M, B, M, C, I.
Qed.

Lemma poly_str_perm p q : wf_poly N p -> wf_poly N q ->
  Forall (fun t => isz (tconst t) = false) p -> Forall (fun t => isz (tconst t) = false) q ->
  poly_eqb N p q = true -> Permutation (map (term_str N str_num) p) (map (term_str N str_num) q).
Proof.
  revert q. induction p as [|x p IH]; intros q Wp Wq Zp Zq E.
  - unfold poly_eqb in E. simpl in E. destruct q; [constructor|discriminate].
  - unfold poly_eqb in E. apply andb_true_iff in E. destruct E as [E1 E2]. simpl in E1. apply andb_true_iff in E1. destruct E1 as [Ex E1].
    apply existsb_exists in Ex. destruct Ex as [y [Iy Ey]]. apply in_split in Iy. destruct Iy as [q1 [q2 ->]].
    assert (Wm := wf_poly_middle _ _ _ Wq). assert (Wr := wf_poly_remove _ _ _ Wq).
    assert (Zm : Forall (fun t => isz (tconst t) = false) (y :: q1 ++ q2)).
    { apply Forall_app in Zq. destruct Zq as [A B]. inversion B; subst. constructor; [assumption|]. apply Forall_app. auto. }
    assert (Wp' : wf_poly N p). { destruct Wp as [A B]. inversion A; inversion B; subst. split; assumption. }
    assert (Fxy : fset_eqb (tfactors x) (tfactors y) = true). { unfold term_eqb in Ey. apply andb_true_iff in Ey. tauto. }
    rewrite map_app. simpl. rewrite <- (term_str_eq x y); [|now destruct Wp as [A _]; inversion A|now destruct Wm as [A _]; inversion A|exact Ey].
    apply Permutation_cons_app. rewrite <- map_app. apply IH; auto; [now inversion Zp|now inversion Zm|].
    rewrite forallb_forall in E1, E2. unfold poly_eqb. apply andb_true_iff. split; apply forallb_forall.
    + intros s Is. specialize (E1 s Is). apply existsb_exists in E1. destruct E1 as [t [It Et]]. apply existsb_exists. exists t.
      split; [|exact Et]. apply in_app_or in It. apply in_or_app. destruct It as [It|[It|It]]; auto. subst t. exfalso.
      pose proof (no_zero_tail _ _ Zp Wp s Is) as F. unfold term_eqb in Et. apply andb_true_iff in Et. destruct Et as [_ Et].
      rewrite (fset_eqb_tr _ _ _ Fxy Et) in F. discriminate.
    + intros t It. assert (It' : In t (q1 ++ y :: q2)). { apply in_app_or in It. apply in_or_app. simpl. tauto. }
      specialize (E2 t It'). simpl in E2. apply orb_true_iff in E2. destruct E2 as [E2|E2]; [|exact E2]. exfalso.
      pose proof (no_zero_tail _ _ Zm Wm t It) as F. unfold term_eqb in E2. apply andb_true_iff in E2. destruct E2 as [_ E2].
      assert (G : fset_eqb (tfactors y) (tfactors t) = true).
      { apply (fset_eqb_tr _ (tfactors x)); [rewrite fset_eqb_sym; exact Fxy|exact E2]. }
      congruence.
Qed.
End Print.
