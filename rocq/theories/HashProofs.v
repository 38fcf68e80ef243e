(** Proofs about hashes and sets. *)
From Coq Require Import Reals ZArith List Bool String Permutation Lia.
From Verif Require Import Py ExpPolyModel HashModel.
Import ListNotations.

Section Sets.
Context {A : Type} (hash : A -> Z) (eqb : A -> A -> bool).
Hypothesis Er : forall x, eqb x x = true.
Hypothesis Es : forall x y, eqb x y = eqb y x.
Hypothesis Et : forall x y z, eqb x y = true -> eqb y z = true -> eqb x z = true.
Hypothesis Eh : forall x y, eqb x y = true -> hash x = hash y.

Lemma py_in_existsb x s : py_in hash eqb x s = existsb (eqb x) s.
Proof.
  unfold py_in. induction s as [|y s IH]; simpl; [reflexivity|]. rewrite IH, (Es y x). f_equal.
  destruct (eqb x y) eqn:E; [|apply andb_false_r]. rewrite (Eh _ _ E), Z.eqb_refl. reflexivity.
Qed.

Lemma eqb_cong x y z : eqb x y = true -> eqb x z = eqb y z.
Proof.
  intros E. destruct (eqb y z) eqn:F; [eapply Et; eauto|]. destruct (eqb x z) eqn:G; [|reflexivity].
  rewrite <- F. symmetry. eapply Et; [rewrite Es; exact E|exact G].
Qed.

Lemma existsb_cong x y s : eqb x y = true -> existsb (eqb x) s = existsb (eqb y) s.
Proof. intros E. induction s as [|z s IH]; simpl; [reflexivity|]. now rewrite IH, (eqb_cong _ _ _ E). Qed.

Lemma existsb_dedup x l : existsb (eqb x) (dedup eqb l) = existsb (eqb x) l.
Proof.
  induction l as [|y l IH]; simpl; [reflexivity|]. destruct (eqb x y) eqn:E; simpl; [reflexivity|]. rewrite <- IH. clear IH.
  induction (dedup eqb l) as [|z s IH]; simpl; [reflexivity|]. destruct (eqb y z) eqn:F; simpl; rewrite IH; [|reflexivity].
  replace (eqb x z) with false; [reflexivity|]. symmetry. rewrite Es, <- (eqb_cong y z x F), Es. exact E.
Qed.

Lemma filter_filter {B} (f g : B -> bool) l : filter f (filter g l) = filter (fun x => g x && f x) l.
Proof. induction l as [|x l IH]; simpl; [reflexivity|]. destruct (g x); simpl; [destruct (f x); now rewrite IH|exact IH]. Qed.

(** Adding [l] to a set [s]. *)
Lemma py_set_from s l : fold_left (fun s x => if py_in hash eqb x s then s else s ++ [x]) l s
  = s ++ filter (fun x => negb (existsb (eqb x) s)) (dedup eqb l).
Proof.
  revert s. induction l as [|x l IH]; intros s; simpl; [now rewrite app_nil_r|].
  rewrite IH, py_in_existsb. rewrite filter_filter. destruct (existsb (eqb x) s) eqn:E; simpl.
  - f_equal. apply filter_ext. intros y. destruct (eqb x y) eqn:F; simpl; [|reflexivity].
    rewrite <- (existsb_cong _ _ _ F), E. reflexivity.
  - rewrite <- app_assoc. simpl. f_equal. f_equal. apply filter_ext. intros y. rewrite existsb_app. simpl.
    rewrite orb_false_r, (Es y x). destruct (existsb (eqb y) s), (eqb x y); reflexivity.
Qed.

Lemma py_set_dedup l : py_set hash eqb l = dedup eqb l.
Proof. unfold py_set. rewrite py_set_from. simpl. induction (dedup eqb l); simpl; [reflexivity|]. now f_equal. Qed.

(** Without repetitions up to [eqb]. *)
Fixpoint distinct (l : list A) : Prop :=
  match l with [] => True | x :: l' => existsb (eqb x) l' = false /\ distinct l' end.

Lemma existsb_filter_neg x l : existsb (eqb x) (filter (fun y => negb (eqb x y)) l) = false.
Proof. induction l as [|y l IH]; simpl; [reflexivity|]. destruct (eqb x y) eqn:E; simpl; [exact IH|]. now rewrite E, IH. Qed.

Lemma existsb_filter_false x f l : existsb (eqb x) l = false -> existsb (eqb x) (filter f l) = false.
Proof.
  induction l as [|y l IH]; simpl; [reflexivity|]. intros H. apply orb_false_iff in H. destruct H as [H1 H2].
  destruct (f y); simpl; [rewrite H1; simpl|]; auto.
Qed.

Lemma distinct_filter f l : distinct l -> distinct (filter f l).
Proof.
  induction l as [|y l IH]; simpl; [trivial|]. intros [H1 H2]. destruct (f y); simpl; auto. split; auto.
  now apply existsb_filter_false.
Qed.

Lemma dedup_distinct l : distinct (dedup eqb l).
Proof.
  induction l as [|x l IH]; simpl; [trivial|]. split; [apply existsb_filter_neg|]. now apply distinct_filter.
Qed.

(** Taking one class out of a list without repetitions. *)
Lemma remove_length x l : distinct l -> existsb (eqb x) l = true ->
  List.length l = S (List.length (filter (fun y => negb (eqb x y)) l)).
Proof.
  induction l as [|y l IH]; simpl; [discriminate|]. intros [H1 H2] H3. destruct (eqb x y) eqn:E; simpl.
  - f_equal. assert (F : forall z, In z l -> negb (eqb x z) = true).
    { intros z Hz. rewrite (eqb_cong _ _ z E). destruct (eqb y z) eqn:F; [|reflexivity].
      exfalso. rewrite <- not_true_iff_false in H1. apply H1. apply existsb_exists. eauto. }
    symmetry. clear - F. induction l as [|z l IH]; simpl; [reflexivity|]. rewrite (F z) by now left. simpl. f_equal. apply IH.
    intros w Hw. apply F. now right.
  - f_equal. apply IH; auto.
Qed.

Lemma sub_length s t : distinct s -> distinct t -> (forall x, In x s -> existsb (eqb x) t = true) ->
  List.length s <= List.length t /\ (List.length s = List.length t -> forall y, In y t -> existsb (eqb y) s = true).
Proof.
  revert t. induction s as [|x s IH]; intros t Hs Ht H; simpl in *.
  - split; [lia|]. intros E y Hy. destruct t; [contradiction|discriminate].
  - destruct Hs as [H1 H2]. assert (Hx := H x (or_introl eq_refl)). rewrite (remove_length x t Ht Hx).
    destruct (IH (filter (fun y => negb (eqb x y)) t)) as [L M]; auto using distinct_filter.
    { intros z Hz. assert (Hn : eqb z x = false).
      { rewrite Es. destruct (eqb x z) eqn:F; [|reflexivity]. exfalso. rewrite <- not_true_iff_false in H1.
        apply H1, existsb_exists. eauto. }
      specialize (H z (or_intror Hz)). apply existsb_exists in H. destruct H as [w [Hw E]].
      apply existsb_exists. exists w. split; [|exact E]. apply filter_In. split; [exact Hw|].
      apply negb_true_iff. rewrite Es, <- (eqb_cong z w x E). exact Hn. }
    split; [lia|]. intros E y Hy. destruct (eqb y x) eqn:F; [reflexivity|]. simpl. apply M; [lia|].
    apply filter_In. split; auto. now rewrite Es, F.
Qed.

Definition same_elements (l l' : list A) : bool :=
  forallb (fun x => existsb (eqb x) l') l && forallb (fun x => existsb (eqb x) l) l'.

Lemma forallb_dedup f l : (forall x y, eqb x y = true -> f x = f y) -> forallb f (dedup eqb l) = forallb f l.
Proof.
  intros H. induction l as [|x l IH]; simpl; [reflexivity|]. destruct (f x) eqn:E; simpl; [|reflexivity]. rewrite <- IH. clear IH.
  induction (dedup eqb l) as [|y s IH]; simpl; [reflexivity|]. destruct (eqb x y) eqn:F; simpl; rewrite IH; [|reflexivity].
  now rewrite <- (H _ _ F), E.
Qed.

Lemma py_set_eq_spec l l' : py_set_eq hash eqb (py_set hash eqb l) (py_set hash eqb l') = same_elements l l'.
Proof.
  unfold py_set_eq, same_elements. rewrite !py_set_dedup.
  assert (F1 : forall s, forallb (fun x => py_in hash eqb x (dedup eqb s)) (dedup eqb l) = forallb (fun x => existsb (eqb x) s) l).
  { intros s. rewrite <- (forallb_dedup (fun x => existsb (eqb x) s) l) by (intros; now apply existsb_cong).
    generalize (dedup eqb l). intros d. induction d as [|x d IH]; simpl; [reflexivity|]. now rewrite IH, py_in_existsb, existsb_dedup. }
  rewrite F1. clear F1.
  destruct (forallb (fun x => existsb (eqb x) l') l) eqn:E; [|now rewrite andb_false_r]. rewrite andb_true_r. simpl.
  assert (S1 : forall x, In x (dedup eqb l) -> existsb (eqb x) (dedup eqb l') = true).
  { intros x Hx. rewrite existsb_dedup. rewrite <- (forallb_dedup (fun x => existsb (eqb x) l') l) in E by (intros; now apply existsb_cong).
    rewrite forallb_forall in E. now apply E. }
  destruct (sub_length _ _ (dedup_distinct l) (dedup_distinct l') S1) as [L M].
  destruct (forallb (fun x => existsb (eqb x) l) l') eqn:F.
  - apply Nat.eqb_eq. apply Nat.le_antisymm; [exact L|].
    apply (sub_length _ _ (dedup_distinct l') (dedup_distinct l)). intros x Hx. rewrite existsb_dedup.
    rewrite <- (forallb_dedup (fun x => existsb (eqb x) l) l') in F by (intros; now apply existsb_cong).
    rewrite forallb_forall in F. now apply F.
  - apply Nat.eqb_neq. intros E'. specialize (M E'). rewrite <- not_true_iff_false in F. apply F.
    rewrite <- (forallb_dedup (fun x => existsb (eqb x) l) l') by (intros; now apply existsb_cong).
    apply forallb_forall. intros x Hx. rewrite <- existsb_dedup. now apply M.
Qed.
End Sets.

Lemma factor_eqb_eq f g : factor_eqb f g = true <-> f = g.
Proof.
  unfold factor_eqb. rewrite andb_true_iff, String.eqb_eq, Nat.eqb_eq. destruct f, g; simpl. split; [intros [-> ->]; reflexivity|].
  intros E; injection E; auto.
Qed.

Lemma factor_eqb_refl f : factor_eqb f f = true. Proof. now apply factor_eqb_eq. Qed.
Lemma factor_eqb_sym f g : factor_eqb f g = factor_eqb g f.
Proof. apply eq_true_iff_eq. rewrite !factor_eqb_eq. split; auto. Qed.
Lemma factor_eqb_trans f g h : factor_eqb f g = true -> factor_eqb g h = true -> factor_eqb f h = true.
Proof. rewrite !factor_eqb_eq. congruence. Qed.

Lemma fset_eqb_In s t : fset_eqb s t = true <-> forall f, In f s <-> In f t.
Proof.
  unfold fset_eqb. rewrite andb_true_iff, !forallb_forall. unfold fmem. split.
  - intros [H1 H2] f. split; intros I; [apply H1 in I|apply H2 in I]; apply existsb_exists in I; destruct I as [g [Hg E]];
      apply factor_eqb_eq in E; now subst.
  - intros H. split; intros f I; apply existsb_exists; exists f; (split; [now apply H|apply factor_eqb_refl]).
Qed.

Lemma fset_eqb_refl s : fset_eqb s s = true. Proof. apply fset_eqb_In. tauto. Qed.
Lemma fset_eqb_sym s t : fset_eqb s t = fset_eqb t s.
Proof. apply eq_true_iff_eq. rewrite !fset_eqb_In. split; intros H f; now rewrite (H f). Qed.
Lemma fset_eqb_trans s t u : fset_eqb s t = true -> fset_eqb t u = true -> fset_eqb s u = true.
Proof. rewrite !fset_eqb_In. intros H1 H2 f. now rewrite (H1 f). Qed.

Section Hash.
Context (hash_str : string -> Z) (hash_int : nat -> Z) (hash_set : list Z -> Z) (N : numdom) (hash_num : N -> option Z).
Hypothesis Hset : forall l l', Permutation l l' -> hash_set l = hash_set l'.
Hypothesis Hnum : forall a b : N, ceqb a b = true -> hash_num a = hash_num b.
Hypothesis Ctrans : forall a b c : N, ceqb a b = true -> ceqb b c = true -> ceqb a c = true.
Notation factor_hash := (factor_hash hash_str hash_int).
Notation factors_hash := (factors_hash hash_str hash_int hash_set).
Notation term_hash := (term_hash hash_str hash_int hash_set N hash_num).

Lemma factor_hash_eq f g : factor_eqb f g = true -> factor_hash f = factor_hash g.
Proof. intros E. apply factor_eqb_eq in E. now subst. Qed.

Lemma factor_set l : py_set factor_hash factor_eqb l = dedup factor_eqb l.
Proof. apply py_set_dedup; eauto using factor_eqb_sym, factor_eqb_trans, factor_hash_eq. Qed.

Lemma dedup_NoDup l : NoDup (dedup factor_eqb l) /\ forall f, In f (dedup factor_eqb l) <-> In f l.
Proof.
  induction l as [|x l [IH1 IH2]]; simpl; [split; [constructor|tauto]|]. split.
  - constructor; [|now apply NoDup_filter]. intros I. apply filter_In in I. destruct I as [_ I]. now rewrite factor_eqb_refl in I.
  - intros f. rewrite filter_In, IH2. split; [tauto|]. intros [->|I]; [now left|].
    destruct (factor_eqb x f) eqn:E; [left; now apply factor_eqb_eq|right; split; auto].
Qed.

Lemma factors_hash_eq s t : fset_eqb s t = true -> factors_hash s = factors_hash t.
Proof.
  intros E. unfold HashModel.factors_hash. rewrite !factor_set. apply Hset, Permutation_map. rewrite fset_eqb_In in E.
  destruct (dedup_NoDup s) as [N1 I1], (dedup_NoDup t) as [N2 I2].
  apply NoDup_Permutation; auto. intros f. now rewrite I1, I2.
Qed.

Lemma term_hash_eq s t : term_eqb N s t = true -> term_hash s = term_hash t.
Proof.
  unfold term_eqb. intros E. apply andb_true_iff in E. destruct E as [E1 E2]. unfold HashModel.term_hash.
  rewrite (Hnum _ _ E1). destruct (hash_num _); [|reflexivity]. now rewrite (factors_hash_eq _ _ E2).
Qed.

Lemma factors_eq_spec s t : factors_eq hash_str hash_int s t = fset_eqb s t.
Proof.
  unfold factors_eq. rewrite py_set_eq_spec; eauto using factor_eqb_refl, factor_eqb_sym, factor_eqb_trans, factor_hash_eq.
Qed.

Lemma names_spec fs : set_of_names hash_str fs = dedup String.eqb (map fname fs).
Proof.
  apply py_set_dedup; intros; try apply String.eqb_refl; try apply String.eqb_sym.
  - rewrite String.eqb_eq in *. congruence.
  - rewrite String.eqb_eq in *. congruence.
Qed.

Lemma factor_sets_spec ts : set_of_factor_sets hash_str hash_int hash_set N ts = dedup fset_eqb (map tfactors ts).
Proof. apply py_set_dedup; eauto using fset_eqb_sym, fset_eqb_trans, factors_hash_eq. Qed.

Lemma term_eqb_trans s t u : term_eqb N s t = true -> term_eqb N t u = true -> term_eqb N s u = true.
Proof.
  unfold term_eqb. rewrite !andb_true_iff. intros [A1 B1] [A2 B2]. split; [eapply Ctrans; eauto|eapply fset_eqb_trans; eauto].
Qed.
Lemma term_eqb_refl t : term_eqb N t t = true.
Proof. unfold term_eqb. now rewrite ceqb_refl, fset_eqb_refl. Qed.
Lemma term_eqb_sym s t : term_eqb N s t = term_eqb N t s.
Proof. unfold term_eqb. now rewrite ceqb_sym, fset_eqb_sym. Qed.

Definition hashed (h : Z * term N) : Prop := term_hash (snd h) = Ok (fst h).

Lemma hash_all p : (forall t, In t p -> hash_num (tconst t) <> None) ->
  exists hp, mapM (fun t => do h <- term_hash t; Ok (h, t)) p = Ok hp /\ map snd hp = p /\ Forall hashed hp.
Proof.
  induction p as [|t p IH]; intros H; simpl; [exists []; auto|].
  destruct (IH ltac:(intros; apply H; now right)) as [hp [-> [E F]]].
  pose proof (H t (or_introl eq_refl)) as Ht. unfold HashModel.term_hash at 1. destruct (hash_num (tconst t)) as [h|] eqn:G; [|congruence].
  simpl. eexists. split; [reflexivity|]. simpl. split; [now rewrite E|]. constructor; [|exact F].
  unfold hashed, HashModel.term_hash. simpl. now rewrite G.
Qed.

(** Sets of pairs of a hash and a term, for hashes that were computed. *)
Lemma py_set_pairs (hp hq : list (Z * term N)) : Forall hashed hp -> Forall hashed hq ->
  let eqb (s t : Z * term N) := term_eqb N (snd s) (snd t) in
  py_set_eq fst eqb (py_set fst eqb hp) (py_set fst eqb hq) = poly_eqb N (map snd hp) (map snd hq).
Proof.
  intros Fp Fq eqb.
  (* a hash that is right everywhere *)
  set (h' := fun x : Z * term N => match term_hash (snd x) with Ok h => h | Err _ => 0%Z end).
  assert (Hin : forall s l, hashed s -> Forall hashed l -> py_in fst eqb s l = py_in h' eqb s l).
  { intros s l Hs Fl. induction Fl as [|x l Hx Fl IH]; unfold py_in; simpl; [reflexivity|]. unfold py_in in IH. rewrite IH.
    unfold h'. rewrite Hs, Hx. reflexivity. }
  assert (Hset' : forall l s, Forall hashed l -> Forall hashed s ->
     fold_left (fun s x => if py_in fst eqb x s then s else s ++ [x]) l s = fold_left (fun s x => if py_in h' eqb x s then s else s ++ [x]) l s
     /\ Forall hashed (fold_left (fun s x => if py_in fst eqb x s then s else s ++ [x]) l s)).
  { induction l as [|x l IH]; intros s Fl Fs; simpl; [auto|]. inversion Fl; subst. rewrite <- Hin by assumption.
    apply IH; [assumption|]. destruct (py_in fst eqb x s); [assumption|]. apply Forall_app. split; auto. }
  unfold py_set. destruct (Hset' hp [] Fp (Forall_nil _)) as [Ep Gp], (Hset' hq [] Fq (Forall_nil _)) as [Eq Gq].
  transitivity (py_set_eq h' eqb (py_set h' eqb hp) (py_set h' eqb hq)).
  { unfold py_set. rewrite <- Ep, <- Eq. unfold py_set_eq. f_equal.
    revert Gp. generalize (fold_left (fun s x => if py_in fst eqb x s then s else s ++ [x]) hp []). intros s Gs.
    induction Gs as [|x s Hx Gs IH]; simpl; [reflexivity|]. now rewrite IH, Hin. }
  rewrite py_set_eq_spec.
  - unfold same_elements, poly_eqb, eqb.
    assert (X : forall s (l : list (Z * term N)), existsb (fun y => term_eqb N s (snd y)) l = existsb (term_eqb N s) (map snd l)).
    { intros s l. induction l as [|y l IH]; simpl; [reflexivity|]. now rewrite IH. }
    assert (Y : forall (f : term N -> bool) (l : list (Z * term N)), forallb (fun x => f (snd x)) l = forallb f (map snd l)).
    { intros f l. induction l as [|y l IH]; simpl; [reflexivity|]. now rewrite IH. }
    rewrite <- !Y. f_equal.
    + clear - X. induction hp as [|x l IH]; simpl; [reflexivity|]. now rewrite IH, X.
    + clear - X. induction hq as [|x l IH]; simpl; [reflexivity|]. now rewrite IH, X.
  - intros x y. apply term_eqb_sym.
  - intros x y z. apply term_eqb_trans.
  - intros x y E. unfold h'. now rewrite (term_hash_eq _ _ E).
Qed.

Lemma poly_eq_spec p q : (forall t, In t p \/ In t q -> hash_num (tconst t) <> None) ->
  poly_eq hash_str hash_int hash_set N hash_num p q = Ok (poly_eqb N p q).
Proof.
  intros H. destruct (hash_all p) as [hp [Ep [Mp Fp]]]; [auto|]. destruct (hash_all q) as [hq [Eq [Mq Fq]]]; [auto|].
  unfold poly_eq. rewrite Ep, Eq. simpl. f_equal. rewrite py_set_pairs by assumption. now rewrite Mp, Mq.
Qed.

Lemma poly_eq_raises p q t : In t p \/ In t q -> hash_num (tconst t) = None ->
  poly_eq hash_str hash_int hash_set N hash_num p q = Err TypeError.
Proof.
  assert (M : forall l, (exists hl, mapM (fun t => do h <- term_hash t; Ok (h, t)) l = Ok hl) \/
                        mapM (fun t => do h <- term_hash t; Ok (h, t)) l = Err TypeError).
  { induction l as [|x l IH]; simpl; [left; eauto|]. unfold HashModel.term_hash at 1 3. destruct (hash_num (tconst x)); simpl; [|now right].
    destruct IH as [[hl ->]| ->]; simpl; [left; eauto|now right]. }
  assert (I : forall l, In t l -> hash_num (tconst t) = None -> mapM (fun t => do h <- term_hash t; Ok (h, t)) l = Err TypeError).
  { induction l as [|x l IH]; simpl; [contradiction|]. intros [->|Hl] Hn.
    - unfold HashModel.term_hash at 1. rewrite Hn. reflexivity.
    - unfold HashModel.term_hash at 1. destruct (hash_num (tconst x)); simpl; [|reflexivity]. now rewrite IH. }
  unfold poly_eq. intros [H|H] Hn.
  - now rewrite I.
  - destruct (M p) as [[hl ->]| ->]; simpl; [|reflexivity]. now rewrite I.
Qed.
End Hash.
