(** C107: hashes agree with equality, so sets and comparisons mean what they say; C108: printing. *)
From Coq Require Import Reals ZArith List Bool String Permutation.
From Verif Require Import Py ExpPolyModel ListFacts ExpPolySpec ExpPolyProofs ExpPolyProofs2 HashModel HashProofs PrintModel PrintProofs.
Import ListNotations.

(** * Specification *)

(** The same factors, in any order and with any repetitions. *)
Definition same_factors (fs gs : list factor) : Prop := forall f, In f fs <-> In f gs.

(** The same term. *)
Definition same_term {N : numdom} (s t : term N) : Prop :=
  ceqb (tconst s) (tconst t) = true /\ same_factors (tfactors s) (tfactors t).

(** The same set of terms. *)
Definition same_terms {N : numdom} (p q : poly N) : Prop :=
  (forall s, In s p -> exists t, In t q /\ same_term s t) /\ (forall t, In t q -> exists s, In s p /\ same_term t s).

(** What Python promises about the hashes of built-in objects: the hash of a set does not depend on the order of its
    elements, and numbers that compare equal have the same hash, or are both not hashable. *)
Record python_hashes (hash_set : list Z -> Z) (N : numdom) (hash_num : N -> option Z) : Prop := {
  set_order : forall l l', Permutation l l' -> hash_set l = hash_set l';
  equal_numbers : forall a b : N, ceqb a b = true -> hash_num a = hash_num b;
  equal_trans : forall a b c : N, ceqb a b = true -> ceqb b c = true -> ceqb a c = true }.

Lemma term_eqb_same {N : numdom} (s t : term N) : term_eqb N s t = true <-> same_term s t.
Proof. unfold term_eqb, same_term, same_factors. now rewrite andb_true_iff, HashProofs.fset_eqb_In. Qed.

Lemma poly_eqb_same {N : numdom} (p q : poly N) : poly_eqb N p q = true <-> same_terms p q.
Proof.
  unfold poly_eqb, same_terms. rewrite andb_true_iff, !forallb_forall. split; intros [A B]; split; intros s I.
  - specialize (A s I). apply existsb_exists in A. destruct A as [t [It E]]. exists t. now rewrite <- term_eqb_same.
  - specialize (B s I). apply existsb_exists in B. destruct B as [t [It E]]. exists t. now rewrite <- term_eqb_same.
  - destruct (A s I) as [t [It E]]. apply existsb_exists. exists t. now rewrite term_eqb_same.
  - destruct (B s I) as [t [It E]]. apply existsb_exists. exists t. now rewrite term_eqb_same.
Qed.

(** * C107 *)

(** Equal factors have equal hashes; so do equal terms, in whatever order their factors are kept, or both cannot be
    hashed. *)
Theorem C107_equal_hashes :
  forall hash_str hash_int hash_set (N : numdom) (hash_num : N -> option Z), python_hashes hash_set N hash_num ->
    (forall f g, factor_eqb f g = true -> factor_hash hash_str hash_int f = factor_hash hash_str hash_int g)
    /\ (forall s t : term N, same_term s t ->
          term_hash hash_str hash_int hash_set N hash_num s = term_hash hash_str hash_int hash_set N hash_num t).
Proof.
  intros hs hi hf N hn [H1 H2 _]. split; [intros; now apply factor_hash_eq|]. intros s t E. apply term_hash_eq; auto.
  now apply term_eqb_same.
Qed.
Print Assumptions C107_equal_hashes.

(** The sets by which factors and terms are merged keep exactly one representative of every name and of every set of
    factors, whatever the hashes are and however they collide; two sets of factors compare equal exactly if they have
    the same factors. *)
Theorem C107_sets :
  forall hash_str hash_int hash_set (N : numdom), (forall l l', Permutation l l' -> hash_set l = hash_set l') ->
    (forall fs, NoDup (set_of_names hash_str fs) /\ forall x, In x (set_of_names hash_str fs) <-> In x (map fname fs))
    /\ (forall ts : list (term N), let S := set_of_factor_sets hash_str hash_int hash_set N ts in
          ForallOrdPairs (fun a b => ~ same_factors a b) S
          /\ (forall a, In a S -> In a (map tfactors ts))
          /\ (forall t, In t ts -> exists a, In a S /\ same_factors a (tfactors t)))
    /\ (forall fs gs, factors_eq hash_str hash_int fs gs = true <-> same_factors fs gs).
Proof.
  intros hs hi hf N H. split; [|split].
  - intros fs. rewrite names_spec. induction (map fname fs) as [|x l [IH1 IH2]]; simpl; [split; [constructor|tauto]|]. split.
    + constructor; [|now apply NoDup_filter]. intros I. apply filter_In in I. destruct I as [_ I]. now rewrite String.eqb_refl in I.
    + intros y. rewrite filter_In, IH2. split; [tauto|]. intros [->|I]; [now left|].
      destruct (String.eqb_spec x y); [now left|right; auto].
  - intros ts S. unfold S. rewrite factor_sets_spec by assumption. clear S.
    assert (G : forall l, (forall a, In a (dedup fset_eqb l) -> In a l)).
    { induction l as [|x l IH]; simpl; [tauto|]. intros a [<-|I]; [now left|]. apply filter_In in I. right. now apply IH. }
    split; [|split].
    + induction (map tfactors ts) as [|x l IH]; simpl; [constructor|]. constructor.
      * apply Forall_forall. intros a I E. apply filter_In in I. destruct I as [_ I].
        apply negb_true_iff in I. apply HashProofs.fset_eqb_In in E. congruence.
      * clear - IH. induction IH as [|y d A B IH]; simpl; [constructor|]. destruct (negb (fset_eqb x y)); [|exact IH].
        constructor; [|exact IH]. apply Forall_forall. intros a I. apply filter_In in I. rewrite Forall_forall in A. apply A. tauto.
    + apply G.
    + intros t I. apply (in_map tfactors) in I.
      pose proof (existsb_dedup fset_eqb HashProofs.fset_eqb_sym HashProofs.fset_eqb_trans (tfactors t) (map tfactors ts)) as E.
      assert (F : existsb (fset_eqb (tfactors t)) (map tfactors ts) = true).
      { apply existsb_exists. exists (tfactors t). split; [exact I|apply HashProofs.fset_eqb_refl]. }
      rewrite F in E. apply existsb_exists in E. destruct E as [a [Ia Ea]]. exists a. split; [exact Ia|].
      rewrite HashProofs.fset_eqb_sym in Ea. exact (proj1 (HashProofs.fset_eqb_In _ _) Ea).
  - intros fs gs. rewrite factors_eq_spec. apply HashProofs.fset_eqb_In.
Qed.
Print Assumptions C107_sets.

(** Comparing polynomials whose coefficients can be hashed succeeds, and it says whether they have the same terms. *)
Theorem C107_comparison_partial :
  forall hash_str hash_int hash_set (N : numdom) (hash_num : N -> option Z) (p q : poly N),
    python_hashes hash_set N hash_num ->
    (forall t, In t p \/ In t q -> hash_num (tconst t) <> None) ->
    exists b, poly_eq hash_str hash_int hash_set N hash_num p q = Ok b /\ (b = true <-> same_terms p q).
Proof.
  intros hs hi hf N hn p q [H1 H2 H3] H. exists (poly_eqb N p q). split; [|apply poly_eqb_same].
  apply poly_eq_spec; auto.
Qed.
Print Assumptions C107_comparison_partial.

(** One coefficient that cannot be hashed, as a tensor, and the comparison raises, also of a polynomial with itself. *)
Theorem C107_unhashable :
  forall hash_str hash_int hash_set (N : numdom) (hash_num : N -> option Z) (p q : poly N) (t : term N),
    In t p \/ In t q -> hash_num (tconst t) = None ->
    poly_eq hash_str hash_int hash_set N hash_num p q = Err TypeError.
Proof. intros. eapply poly_eq_raises; eauto. Qed.
Print Assumptions C107_unhashable.

(** Hashes that sum, for the examples: integers hash to themselves, tensors do not hash. *)
Definition ex_hash_str (s : string) : Z := Z.of_nat (String.length s).
Definition ex_hash_set (l : list Z) : Z := fold_right Z.add 0%Z l.

Lemma ex_hash_set_perm l l' : Permutation l l' -> ex_hash_set l = ex_hash_set l'.
Proof.
  unfold ex_hash_set. induction 1; simpl; try congruence. rewrite !Z.add_assoc. f_equal. apply Z.add_comm.
Qed.

Definition xy_poly (N : numdom) (a b : N) (x y : string) : pexpr N :=
  EAdd (EMul (EConst a) (EVar x 1)) (EMul (EConst b) (EVar y 1)).

(** Full claim: any two polynomials can be compared. It fails: a polynomial with a tensor as coefficient cannot be
    compared with itself. *)
Theorem C107_comparison_refuted :
  ~ (forall hash_str hash_int hash_set (N : numdom) (hash_num : N -> option Z) so (e f : pexpr N) (p q : poly N),
       python_hashes hash_set N hash_num -> run N so e = Ok (OPoly p) -> run N so f = Ok (OPoly q) ->
       exists b, poly_eq hash_str hash_int hash_set N hash_num p q = Ok b).
Proof.
  intros H.
  destruct (H ex_hash_str Z.of_nat ex_hash_set ZTensorDom (fun _ => None) ord_id
     (xy_poly ZTensorDom 2%Z 3%Z "x" "y") (xy_poly ZTensorDom 2%Z 3%Z "x" "y")
     _ _ ltac:(constructor; [apply ex_hash_set_perm|reflexivity|
       intros a b c; simpl; rewrite !Z.eqb_eq; congruence]) eq_refl eq_refl) as [b E].
  vm_compute in E. discriminate.
Qed.
Print Assumptions C107_comparison_refuted.

(** Witness: colliding hashes ("x" and "y" have the same length) do no harm. *)
Example C107_witness :
  python_hashes ex_hash_set ZDom (fun z => Some z)
  /\ exists p q r, run ZDom ord_id (xy_poly ZDom 2%Z 3%Z "x" "y") = Ok (OPoly p)
     /\ run ZDom ord_rev (xy_poly ZDom 3%Z 2%Z "y" "x") = Ok (OPoly q)
     /\ run ZDom ord_id (xy_poly ZDom 2%Z 3%Z "y" "x") = Ok (OPoly r)
     /\ poly_eq ex_hash_str Z.of_nat ex_hash_set ZDom (fun z => Some z) p q = Ok true
     /\ poly_eq ex_hash_str Z.of_nat ex_hash_set ZDom (fun z => Some z) p r = Ok false.
Proof.
  split.
  - constructor; [apply ex_hash_set_perm| |]; simpl.
    + intros a b E. apply Z.eqb_eq in E. now subst.
    + intros a b c; rewrite !Z.eqb_eq; congruence.
  - repeat eexists; vm_compute; reflexivity.
Qed.

(** * C108 *)

(** Equal polynomials, built in any way and by any run, print the same terms; if no term was cancelled, each equally
    often, so the printed forms differ at most by the order of the terms. *)
Theorem C108_printing_partial :
  forall (N : numdom) (str_num : N -> string) (p q : poly N),
    (forall a b : N, ceqb a b = true -> str_num a = str_num b) ->
    built N p -> built N q -> same_terms p q ->
    (forall w, In w (map (term_str N str_num) p) <-> In w (map (term_str N str_num) q))
    /\ (Forall (fun t => isz (tconst t) = false) p -> Forall (fun t => isz (tconst t) = false) q ->
        Permutation (map (term_str N str_num) p) (map (term_str N str_num) q)).
Proof.
  intros N sn p q H Bp Bq E. apply poly_eqb_same in E. apply built_wf in Bp, Bq. split.
  - intros w. split; apply poly_str_subset; auto. rewrite poly_eqb_sym. exact E.
  - intros. apply poly_str_perm; auto.
Qed.
Print Assumptions C108_printing_partial.

(** One term prints the same in every order in which its factors are given and stored. *)
Lemma mapM_map {A B} (d : B) (f : A -> res B) l r : mapM f l = Ok r -> r = map (fun x => match f x with Ok y => y | Err _ => d end) l.
Proof.
  revert r. induction l as [|x l IH]; simpl; intros r E; [now injection E as <-|].
  apply bind_Ok in E. destruct E as [y [E1 E]]. apply bind_Ok in E. destruct E as [r' [E2 E]]. injection E as <-.
  rewrite E1. f_equal. now apply IH.
Qed.

Lemma powsum_perm n fs gs : Permutation fs gs -> powsum n fs = powsum n gs.
Proof.
  unfold powsum. induction 1; simpl; try congruence.
  - destruct (String.eqb (fname x) n); simpl; congruence.
  - destruct (String.eqb (fname x) n), (String.eqb (fname y) n); simpl; try reflexivity. Lia.lia.
Qed.

Lemma merged_perm fs gs : Permutation fs gs -> Permutation (merged fs) (merged gs).
Proof.
  intros P. unfold merged. rewrite (map_ext _ (fun n => Factor n (powsum n gs))) by (intros; now rewrite (powsum_perm _ _ _ P)).
  apply Permutation_map. pose proof (Permutation_map fname P) as Q.
  pose proof (C107_sets ex_hash_str Z.of_nat ex_hash_set ZDom ex_hash_set_perm) as [S _].
  destruct (S fs) as [N1 I1], (S gs) as [N2 I2]. rewrite names_spec in *.
  apply NoDup_Permutation; auto. intros x. rewrite I1, I2. split; apply Permutation_in; auto. now symmetry.
Qed.

Theorem C108_terms :
  forall (N : numdom) (str_num : N -> string) so so' (c : N) (l l' : list (string * Z)) (s t : term N),
    Permutation l l' -> mkTermSpec N so (c, l) = Ok s -> mkTermSpec N so' (c, l') = Ok t ->
    term_str N str_num s = term_str N str_num t.
Proof.
  intros N sn so so' c l l' s t P Hs Ht. unfold mkTermSpec in *. simpl in *.
  apply bind_Ok in Hs. destruct Hs as [fs [A Hs]]. apply bind_Ok in Ht. destruct Ht as [gs [B Ht]].
  assert (V : forall l fs, mapM (fun xk : string * Z => mkFactor (fst xk) (snd xk)) l = Ok fs -> Forall valid_factor fs).
  { clear. induction l as [|x l IH]; simpl; intros fs E; [injection E as <-; constructor|].
    apply bind_Ok in E. destruct E as [y [E1 E]]. apply bind_Ok in E. destruct E as [r' [E2 E]]. injection E as <-.
    constructor; [eapply mkFactor_valid; eauto|]. now apply IH. }
  assert (Q : Permutation fs gs).
  { rewrite (mapM_map (Factor "" 0) _ _ _ A), (mapM_map (Factor "" 0) _ _ _ B). now apply Permutation_map. }
  destruct (mkTerm_eq N so c fs (V _ _ A)) as [ls [E1 P1]]. rewrite E1 in Hs. injection Hs as <-.
  destruct (mkTerm_eq N so' c gs (V _ _ B)) as [lt [E2 P2]]. rewrite E2 in Ht. injection Ht as <-.
  assert (W : Permutation ls lt).
  { rewrite P1, P2. destruct (isz c); [reflexivity|]. now apply merged_perm. }
  unfold term_str. simpl. rewrite (Permutation_length W), (sorted_perm _ _ (Permutation_map factor_str W)). reflexivity.
Qed.
Print Assumptions C108_terms.

(** The printed form of an integer, for the examples. *)
Definition ex_str (z : Z) : string := if (z <? 0)%Z then ("-" ++ str_int (Z.to_nat (- z)))%string else str_int (Z.to_nat z).

(** Full claim: equal polynomials print equally, in particular one expression prints the same in two runs. It fails,
    because the terms are printed in the order of a set, and because a cancelled term is printed. *)
Theorem C108_printing_refuted :
  (exists (e : pexpr ZDom) p q, run ZDom ord_id e = Ok (OPoly p) /\ run ZDom ord_rev e = Ok (OPoly q) /\ same_terms p q
     /\ poly_str ZDom ex_str p = "2 * x^1 + 3 * y^1"%string /\ poly_str ZDom ex_str q = "3 * y^1 + 2 * x^1"%string)
  /\ (exists (e f : pexpr ZDom) p q, run ZDom ord_id e = Ok (OPoly p) /\ run ZDom ord_id f = Ok (OPoly q) /\ same_terms p q
     /\ poly_str ZDom ex_str p = "0"%string /\ poly_str ZDom ex_str q = "0 + 0"%string).
Proof.
  split.
  - exists (xy_poly ZDom 2%Z 3%Z "x" "y"). eexists _, _. split; [reflexivity|]. split; [reflexivity|].
    split; [apply poly_eqb_same; reflexivity|split; reflexivity].
  - exists (ESub (EVar "x" 1) (EVar "x" 1)).
    exists (ESub (EAdd (EVar "x" 1) (EVar "y" 1)) (EAdd (EVar "x" 1) (EVar "y" 1))).
    eexists _, _. split; [reflexivity|]. split; [reflexivity|].
    split; [apply poly_eqb_same; reflexivity|split; reflexivity].
Qed.
Print Assumptions C108_printing_refuted.

(** Witness for [C108_printing_partial] and [C108_terms]. *)
Example C108_witness :
  exists p q, run ZDom ord_id (xy_poly ZDom 2%Z 3%Z "x" "y") = Ok (OPoly p)
     /\ run ZDom ord_rev (xy_poly ZDom 2%Z 3%Z "x" "y") = Ok (OPoly q)
     /\ same_terms p q /\ built ZDom p /\ built ZDom q
     /\ Forall (fun t : term ZDom => isz (tconst t) = false) p
     /\ exists s t, mkTermSpec ZDom ord_id ((5%Z : ZDom), [("y"%string, 2%Z); ("x"%string, 1%Z); ("y"%string, 3%Z)]) = Ok s
        /\ mkTermSpec ZDom ord_rev ((5%Z : ZDom), [("y"%string, 3%Z); ("y"%string, 2%Z); ("x"%string, 1%Z)]) = Ok t
        /\ term_str ZDom ex_str s = "5 * x^1 y^5"%string.
Proof.
  eexists _, _. split; [reflexivity|]. split; [reflexivity|]. split; [apply poly_eqb_same; reflexivity|].
  split; [|split; [|split; [repeat constructor|]]].
  - apply (built_add ZDom ord_id [Term (2%Z : ZDom) [Factor "x" 1]] [Term (3%Z : ZDom) [Factor "y" 1]]); [| |reflexivity].
    + apply (built_mul ZDom ord_id [Term (2%Z : ZDom) []] [Term (1%Z : ZDom) [Factor "x" 1]]); [| |reflexivity].
      * now apply (built_const ZDom ord_id (2%Z : ZDom)).
      * now apply (built_var ZDom ord_id "x" 1).
    + apply (built_mul ZDom ord_id [Term (3%Z : ZDom) []] [Term (1%Z : ZDom) [Factor "y" 1]]); [| |reflexivity].
      * now apply (built_const ZDom ord_id (3%Z : ZDom)).
      * now apply (built_var ZDom ord_id "y" 1).
  - apply (built_add ZDom ord_rev [Term (2%Z : ZDom) [Factor "x" 1]] [Term (3%Z : ZDom) [Factor "y" 1]]); [| |reflexivity].
    + apply (built_mul ZDom ord_rev [Term (2%Z : ZDom) []] [Term (1%Z : ZDom) [Factor "x" 1]]); [| |reflexivity].
      * now apply (built_const ZDom ord_rev (2%Z : ZDom)).
      * now apply (built_var ZDom ord_rev "x" 1).
    + apply (built_mul ZDom ord_rev [Term (3%Z : ZDom) []] [Term (1%Z : ZDom) [Factor "y" 1]]); [| |reflexivity].
      * now apply (built_const ZDom ord_rev (3%Z : ZDom)).
      * now apply (built_var ZDom ord_rev "y" 1).
  - eexists _, _. repeat split; reflexivity.
Qed.
