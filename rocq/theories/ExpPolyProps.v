(** The properties C01-C08 and C73 of exppoly.py, stated on the model. *)
From Coq Require Import Reals ZArith List Bool String Permutation Lia Lra.
From Verif Require Import Py ExpPolyModel ListFacts ExpPolyProofs ExpPolySpec ExpPolyProofs2.
Import ListNotations.
Local Open Scope string_scope.

(** * C01: arithmetic is evaluation-faithful *)

(** Whatever program a user writes with the API, if it returns an object then evaluating the
    object gives the number the program denotes. *)
Theorem C01_api_program_value :
  forall (N : numdom) (so : setorder) (e : pexpr N) (o : obj N) (m : varmap) (env : string -> R),
    run N so e = Ok o ->
    (forall x, In x (fv N e) -> m x = Some (env x)) ->
    obj_eval N m o = Ok (den N env e).
Proof.
  intros N so e o m env H Hm. destruct (run_spec N so e o H) as [_ [B D]].
  rewrite (obj_eval_bound N m o env); [now rewrite D|]. intros n Hn. apply Hm. auto.
Qed.
Print Assumptions C01_api_program_value.

(** The value does not depend on the iteration order of sets. *)
Theorem C01_value_independent_of_set_order :
  forall (N : numdom) (so1 so2 : setorder) (e : pexpr N) (o1 o2 : obj N) (m : varmap) (env : string -> R),
    run N so1 e = Ok o1 -> run N so2 e = Ok o2 ->
    (forall x, In x (fv N e) -> m x = Some (env x)) ->
    obj_eval N m o1 = obj_eval N m o2.
Proof.
  intros N so1 so2 e o1 o2 m env H1 H2 Hm.
  now rewrite (C01_api_program_value N so1 e o1 m env H1 Hm),
              (C01_api_program_value N so2 e o2 m env H2 Hm).
Qed.
Print Assumptions C01_value_independent_of_set_order.

(** The single operations, on any polynomials that exist at run time (also ones obtained by
    collecting and rejecting). *)
Theorem C01_operations :
  forall (N : numdom) (so : setorder) (p q : poly N) (c : N) (n : Z) (env : string -> R) (a b : R),
    built N p -> built N q -> evalp N env p = Ok a -> evalp N env q = Ok b ->
    (exists r, poly_add N so p q = Ok r /\ evalp N env r = Ok (a + b)%R)
    /\ (exists r, poly_add_num N so p c = Ok r /\ evalp N env r = Ok (a + val c)%R)
    /\ (exists r, poly_neg N so p = Ok r /\ evalp N env r = Ok (- a)%R)
    /\ (exists r, poly_mul_num N so p c = Ok r /\ evalp N env r = Ok (a * val c)%R)
    /\ (forall r, obj_sub N so (OPoly p) (OPoly q) = Ok (OPoly r) -> evalp N env r = Ok (a - b)%R)
    /\ (forall r, obj_sub N so (ONum c) (OPoly p) = Ok (OPoly r) -> evalp N env r = Ok (val c - a)%R)
    /\ (forall r, poly_mul N so p q = Ok r -> evalp N env r = Ok (a * b)%R)
    /\ (forall r, poly_pow N so p n = Ok (OPoly r) -> evalp N env r = Ok (a ^ Z.to_nat n)%R).
Proof.
  intros N so p q c n env a b Bp Bq Ea Eb.
  pose proof (built_wf N p Bp) as Wp. pose proof (built_wf N q Bq) as Wq.
  rewrite evalp_eq in Ea, Eb. injection Ea as <-. injection Eb as <-.
  repeat split.
  - destruct (poly_add_total N so p q Wp Wq) as [r Hr]. exists r. split; auto.
    rewrite evalp_eq. f_equal. now apply (poly_add_val N so).
  - destruct (poly_add_num_spec N so p c Wp) as [r [Hr [_ [_ V]]]]. exists r. split; auto.
    now rewrite evalp_eq, V.
  - destruct (poly_neg_total N so p Wp) as [r Hr]. exists r. split; auto.
    destruct (poly_neg_spec N so p r Wp Hr) as [_ [_ V]]. now rewrite evalp_eq, V.
  - destruct (poly_mul_num_total N so p c Wp) as [r Hr]. exists r. split; auto.
    destruct (poly_mul_num_spec N so p c r Wp Hr) as [_ [_ V]]. now rewrite evalp_eq, V.
  - intros r Hr. destruct (obj_sub_spec N so (OPoly p) (OPoly q) _ Wp Wq Hr) as [_ [_ V]].
    specialize (V env). simpl in V. now rewrite evalp_eq, V.
  - intros r Hr. destruct (obj_sub_spec N so (ONum c) (OPoly p) _ I Wp Hr) as [_ [_ V]].
    specialize (V env). simpl in V. now rewrite evalp_eq, V.
  - intros r Hr. destruct (poly_mul_spec N so p q r Wp Wq Hr) as [_ [_ V]]. now rewrite evalp_eq, V.
  - intros r Hr. destruct (poly_pow_spec N so p n _ Wp Hr) as [_ [_ [_ V]]].
    specialize (V env). simpl in V. now rewrite evalp_eq, V.
Qed.
Print Assumptions C01_operations.

(** Witness: (2 x + y)^2 - x * y + 3 runs and depends on both variables. *)
Definition ex_prog : pexpr ZDom :=
  EAdd (ESub (EPow (EAdd (EMul (ENum (2%Z : C ZDom)) (EVar "x" 1)) (EVar "y" 1)) 2)
             (EMul (EVar "x" 1) (EVar "y" 1)))
       (ENum (3%Z : C ZDom)).
Example C01_witness :
  exists p, run ZDom ord_rev ex_prog = Ok (OPoly p) /\ List.length p = 4.
Proof. vm_compute. eexists. split; reflexivity. Qed.

(** * C02: construction from parts *)

Theorem C02_term_construction :
  forall (N : numdom) (so : setorder) (c : N) (fs : list (string * Z)),
    Forall (fun xk => (1 <= snd xk)%Z) fs ->
    exists t, mkTermSpec N so (c, fs) = Ok t
      /\ NoDup (map fname (tfactors t))
      /\ Forall (fun f => 1 <= fpow f) (tfactors t)
      /\ forall (m : varmap) (env : string -> R),
           (forall x, In x (map fst fs) -> m x = Some (env x)) ->
           term_eval N m t
           = Ok (val c * prodR (map (fun xk => env (fst xk) ^ Z.to_nat (snd xk)) fs))%R.
Proof.
  intros N so c fs H.
  destruct (mapM_mkTermSpec_total N so [(c, fs)]) as [l Hl]; [auto|].
  simpl in Hl. apply bind_Ok in Hl. destruct Hl as [t [Ht _]].
  exists t. split; auto.
  destruct (mkTermSpec_spec N so (c, fs) t Ht) as [[W _] [_ [Nn V]]].
  split; [apply W|]. split; [apply W|].
  intros m env Hm. simpl in *.
  rewrite term_eval_bound.
  - f_equal. rewrite V. f_equal. rewrite <- prodR_rprod. f_equal. apply map_ext_in. intros [x k] Hx.
    simpl. unfold env_of. rewrite (Hm x); auto. apply in_map_iff. exists (x, k). auto.
  - intros n Hn. rewrite (Hm n); [discriminate|auto].
Qed.
Print Assumptions C02_term_construction.

Theorem C02_poly_construction :
  forall (N : numdom) (so : setorder) (ts : list (N * list (string * Z))) (p : poly N)
         (m : varmap) (env : string -> R),
    run N so (ETerms ts) = Ok (OPoly p) ->
    (forall cf x, In cf ts -> In x (map fst (snd cf)) -> m x = Some (env x)) ->
    poly_eval N m p
    = Ok (sumR (map (fun cf => (val (fst cf)
           * prodR (map (fun xk => env (fst xk) ^ Z.to_nat (snd xk)) (snd cf)))%R) ts))
    /\ Forall (fun t => NoDup (map fname (tfactors t))
                        /\ Forall (fun f => 1 <= fpow f) (tfactors t)) p.
Proof.
  intros N so ts p m env H Hm. split.
  - apply (C01_api_program_value N so (ETerms ts) (OPoly p) m env H).
    intros x Hx. simpl in Hx. apply in_flat_map in Hx. destruct Hx as [cf [A B]]. eauto.
  - destruct (run_spec N so _ _ H) as [[W _] _].
    eapply Forall_impl; [|exact W]. intros t [Wt _]. exact Wt.
Qed.
Print Assumptions C02_poly_construction.

Example C02_witness :
  run ZDom ord_id (ETerms [((2%Z : C ZDom), [("x", 1%Z); ("x", 2%Z)]); ((5%Z : C ZDom), [("x", 3%Z)])])
  = Ok (OPoly [Term (7%Z : C ZDom) [Factor "x" 3]]).
Proof. vm_compute. reflexivity. Qed.

(** * C03: substitution *)

Theorem C03_substitute :
  forall (N : numdom) (so : setorder) (p q : poly N) (x : string) (o : obj N)
         (env : string -> R) (v w : R),
    built N p -> built N q ->
    poly_substitute N so p x q = Ok o ->
    evalp N env q = Ok v ->
    evalp N (rebind env x v) p = Ok w ->
    obj_eval N (fun y => Some (env y)) o = Ok w.
Proof.
  intros N so p q x o env v w Bp Bq H Hv Hw.
  rewrite evalp_eq in Hv, Hw. injection Hv as <-. injection Hw as <-.
  destruct (poly_substitute_spec N so p x q o (built_wf N p Bp) (built_wf N q Bq) H) as [_ [_ V]].
  rewrite (obj_eval_bound N _ o env) by reflexivity. now rewrite V.
Qed.
Print Assumptions C03_substitute.

(** No occurrence of a variable that is neither in p (other than x) nor in q appears. *)
Theorem C03_substitute_variables :
  forall (N : numdom) (so : setorder) (p q r : poly N) (x y : string),
    built N p -> built N q ->
    poly_substitute N so p x q = Ok (OPoly r) ->
    poly_is_function_of N r y = true ->
    (poly_is_function_of N p y = true /\ y <> x)
    \/ (poly_is_function_of N q y = true /\ poly_is_function_of N p x = true).
Proof.
  intros N so p q r x y Bp Bq H Hy.
  destruct (poly_substitute_spec N so p x q _ (built_wf N p Bp) (built_wf N q Bq) H) as [_ [Nn _]].
  rewrite !poly_is_function_of_names in *. apply Nn. exact Hy.
Qed.
Print Assumptions C03_substitute_variables.

Theorem C03_translate_var :
  forall (N : numdom) (so : setorder) (e f : exppoly N) (q : poly N) (x : string)
         (env : string -> R) (v w : R),
    built N (epoly e) -> built N q ->
    exppoly_translate_var N so e x q = Ok f ->
    evalp N env q = Ok v ->
    evale N (rebind env x (env x + v)%R) e = Ok w ->
    evale N env f = Ok w.
Proof.
  intros N so e f q x env v w Be Bq H Hv Hw.
  unfold exppoly_translate_var in H.
  apply bind_Ok in H. destruct H as [vx [Hvx H]].
  apply bind_Ok in H. destruct H as [xq [Hxq H]].
  apply bind_Ok in H. destruct H as [o [Ho H]].
  destruct (pvar_spec N so x 1 vx Hvx) as [Wvx [_ [_ Vvx]]].
  pose proof (built_wf N q Bq) as Wq.
  pose proof (poly_add_wf N so vx q xq Wvx Wq Hxq) as Wxq.
  destruct (poly_substitute_spec N so _ x xq o (built_wf N _ Be) Wxq Ho) as [_ [_ V]].
  destruct o as [c|r]; simpl in H; [discriminate|]. injection H as <-.
  rewrite evalp_eq in Hv. injection Hv as <-.
  rewrite evale_eq in Hw. injection Hw as <-. rewrite evale_eq. simpl. f_equal. f_equal. f_equal.
  specialize (V env). simpl in V. rewrite V.
  rewrite (poly_add_val N so env vx q xq Wvx Wq Hxq), Vvx.
  change (Z.to_nat 1) with 1. rewrite pow_1. reflexivity.
Qed.
Print Assumptions C03_translate_var.

Example C03_witness :
  exists p, run ZDom ord_id (ESubst (EMul (EVar "x" 2) (EVar "y" 1)) "x"
                                    (EAdd (EVar "x" 1) (EVar "y" 1))) = Ok (OPoly p)
            /\ List.length p = 3.
Proof. vm_compute. eexists. split; reflexivity. Qed.

(** * C04: collecting reconstructs *)

Theorem C04_collect_reconstructs :
  forall (N : numdom) (so : setorder) (p : poly N) (x : string) (k : nat),
    built N p -> poly_highest_power N p x = Ok k ->
    exists r cs,
      poly_reject N so p x = Ok r
      /\ (forall j, 1 <= j <= k -> poly_collect_for N so p (Factor x j) = Ok (cs j))
      /\ poly_is_function_of N r x = false
      /\ (forall j, 1 <= j <= k -> poly_is_function_of N (cs j) x = false)
      /\ (forall env v,
            evalp N env p = Ok v ->
            exists v0 vs, evalp N env r = Ok v0
              /\ (forall j, 1 <= j <= k -> evalp N env (cs j) = Ok (vs j))
              /\ v = (v0 + sumR (map (fun j => vs j * env x ^ j) (seq 1 k)))%R).
Proof.
  intros N so p x k B Hk. pose proof (built_wf N p B) as W.
  destruct (poly_reject_total N so p x W) as [r Hr].
  set (cs := fun j => match poly_collect_for N so p (Factor x j) with Ok c => c | Err _ => [] end).
  assert (Hcs : forall j, poly_collect_for N so p (Factor x j) = Ok (cs j)).
  { intros j. unfold cs. destruct (poly_collect_total N so p (Factor x j) W) as [c ->]. auto. }
  exists r, cs. split; [exact Hr|]. split; [intros; apply Hcs|]. split; [|split].
  - destruct (poly_is_function_of N r x) eqn:E; auto. apply poly_is_function_of_names in E.
    destruct (poly_reject_spec N so p x r W Hr) as [_ [A _]]. contradiction.
  - intros j _. destruct (poly_is_function_of N (cs j) x) eqn:E; auto.
    apply poly_is_function_of_names in E.
    destruct (poly_collect_spec N so p _ _ W (Hcs j)) as [_ [A _]]. contradiction.
  - intros env v Hv. rewrite evalp_eq in Hv. injection Hv as <-.
    exists (pval N env r), (fun j => pval N env (cs j)).
    split; [apply evalp_eq|]. split; [intros; apply evalp_eq|].
    rewrite (decompose N so p x k r W Hk Hr cs (fun j _ => Hcs j) env). reflexivity.
Qed.
Print Assumptions C04_collect_reconstructs.

(** [highest_power] is the largest power that occurs, and it fails only without terms. *)
Theorem C04_highest_power :
  forall (N : numdom) (so : setorder) (p : poly N) (x : string),
    built N p ->
    (p = [] -> poly_highest_power N p x = Err ValueError)
    /\ (p <> [] -> exists k, poly_highest_power N p x = Ok k
         /\ (forall j, k < j -> poly_collect_for N so p (Factor x j) = Ok [])
         /\ (1 <= k -> exists c, poly_collect_for N so p (Factor x k) = Ok c /\ c <> [])).
Proof.
  intros N so p x B. pose proof (built_wf N p B) as W. split.
  - intros ->. reflexivity.
  - intros NE. destruct (poly_highest_power_total N p x NE) as [k Hk]. exists k. split; auto.
    destruct (poly_highest_power_spec N p x k Hk) as [_ [Hle [t [Ht Et]]]]. split.
    + intros j Hj. destruct (poly_collect_total N so p (Factor x j) W) as [c Hc]. rewrite Hc.
      f_equal. destruct c as [|u c]; auto. exfalso.
      assert (E : u :: c <> []) by discriminate.
      apply (collect_nonempty N so p x j (u :: c) W ltac:(lia) Hc) in E.
      destruct E as [s [Hs Es]]. specialize (Hle s Hs). lia.
    + intros H1. destruct (poly_collect_total N so p (Factor x k) W) as [c Hc].
      exists c. split; auto. apply (collect_nonempty N so p x k c W H1 Hc). eauto.
Qed.
Print Assumptions C04_highest_power.

Example C04_witness :
  exists p, run ZDom ord_id ex_prog = Ok (OPoly p)
            /\ poly_highest_power ZDom p "x" = Ok 2
            /\ poly_collect_for ZDom ord_id p (Factor "x" 1) = Ok [Term (3%Z : C ZDom) [Factor "y" 1]].
Proof. vm_compute. eexists. repeat split. Qed.

(** * C05: == is sound *)

Theorem C05_equality_sound :
  forall (N : numdom) (p q : poly N) (m : varmap),
    built N p -> built N q -> poly_eqb N p q = true -> poly_eval N m p = poly_eval N m q.
Proof. intros N p q m Bp Bq. apply poly_eqb_eval; now apply built_wf. Qed.
Print Assumptions C05_equality_sound.

Theorem C05_exppoly_equality_sound :
  forall (N : numdom) (e f : exppoly N) (m : varmap),
    built N (epoly e) -> built N (epoly f) -> exppoly_eqb N e f = true ->
    exppoly_eval N m e = exppoly_eval N m f.
Proof.
  intros N e f m Be Bf H. unfold exppoly_eqb in H. apply andb_true_iff in H. destruct H as [H1 H2].
  unfold exppoly_eval. rewrite (C05_equality_sound N _ _ m Be Bf H2).
  now rewrite (ceqb_val _ _ H1).
Qed.
Print Assumptions C05_exppoly_equality_sound.

Theorem C05_equality_reflexive_symmetric :
  forall (N : numdom) (p q : poly N),
    poly_eqb N p p = true /\ poly_eqb N p q = poly_eqb N q p.
Proof. intros. split; [apply poly_eqb_refl|apply poly_eqb_sym]. Qed.
Print Assumptions C05_equality_reflexive_symmetric.

(** For exact numbers, polynomials given the same terms in any order, under any two set
    orders, compare equal. *)
Theorem C05_order_of_terms_irrelevant :
  forall (N : numdom) (so1 so2 : setorder) (ts ts' : list (N * list (string * Z))) (p q : poly N),
    (forall a b : N, val a = val b -> ceqb a b = true) ->
    (forall a : N, val a = 0%R -> isz a = true) ->
    Permutation ts ts' ->
    run N so1 (ETerms ts) = Ok (OPoly p) -> run N so1 (ETerms ts') = Ok (OPoly q) ->
    poly_eqb N p q = true
    /\ forall l q', mapM (mkTermSpec N so1) ts' = Ok l -> mkPoly N so2 l = Ok q' ->
                    poly_eqb N p q' = true.
Proof.
  intros N so1 so2 ts ts' p q He Hz P H1 H2. simpl in H1, H2.
  apply bind_Ok in H1. destruct H1 as [l1 [A1 H1]]. apply bind_Ok in H1. destruct H1 as [p' [B1 E1]].
  injection E1 as <-.
  apply bind_Ok in H2. destruct H2 as [l2 [A2 H2]]. apply bind_Ok in H2. destruct H2 as [q'' [B2 E2]].
  injection E2 as <-.
  assert (Pl : Permutation l1 l2).
  { clear B1 B2. revert l1 l2 A1 A2. induction P as [|x l l' P IH|x y l|l l' l'' P IH P' IH'];
      intros l1 l2 A1 A2; simpl in *.
    - injection A1 as <-. injection A2 as <-. constructor.
    - apply bind_Ok in A1. destruct A1 as [a [A1 A1']]. apply bind_Ok in A1'. destruct A1' as [b [A1' E]].
      injection E as <-.
      apply bind_Ok in A2. destruct A2 as [a' [A2 A2']]. apply bind_Ok in A2'. destruct A2' as [b' [A2' E]].
      injection E as <-. rewrite A1 in A2. injection A2 as <-. constructor. auto.
    - destruct (mkTermSpec N so1 y) as [ty|]; simpl in *; [|discriminate].
      destruct (mkTermSpec N so1 x) as [tx|]; simpl in *; [|discriminate].
      destruct (mapM (mkTermSpec N so1) l) as [tl|]; simpl in *; [|discriminate].
      injection A1 as <-. injection A2 as <-. constructor.
    - assert (G : exists lm, mapM (mkTermSpec N so1) l' = Ok lm).
      { apply mapM_total. intros cf Hcf. apply mapM_Ok in A2.
        apply (Permutation_in _ P') in Hcf.
        destruct (Forall2_In_l _ _ _ _ A2 Hcf) as [y [_ Hy]]. eauto. }
      destruct G as [lm Hlm]. transitivity lm; [now apply IH|now apply IH']. }
  destruct (mapM_mkTermSpec N so1 ts l1 A1) as [W1 _].
  split.
  - eapply (mkPoly_perm_exact N He Hz so1 so1 l1 l2); eauto.
  - intros l q3 Hl Hq3. rewrite A2 in Hl. injection Hl as <-.
    eapply (mkPoly_perm_exact N He Hz so1 so2 l1 l2); eauto.
Qed.
Print Assumptions C05_order_of_terms_irrelevant.

(** The exactness hypotheses are met by integers (and by reals). *)
Example C05_witness_exact_Z :
  (forall a b : ZDom, val a = val b -> ceqb a b = true) /\ (forall a : ZDom, val a = 0%R -> isz a = true).
Proof.
  split; simpl.
  - intros a b H. apply eq_IZR in H. subst. apply Z.eqb_refl.
  - intros a H. apply eq_IZR in H. subst. reflexivity.
Qed.
Example C05_witness :
  exists p q, run ZDom ord_id ex_prog = Ok (OPoly p) /\ run ZDom ord_rev ex_prog = Ok (OPoly q)
              /\ poly_eqb ZDom p q = true /\ p <> q.
Proof. vm_compute. do 2 eexists. repeat split. discriminate. Qed.

(** * C06: equal functions compare equal. Refuted. *)

Definition x_plus_5_minus_x : pexpr ZDom :=
  ESub (EAdd (EVar "x" 1) (EConst (5%Z : C ZDom))) (EVar "x" 1).

(** (x + 5) - x and const(5) are the same function but do not compare equal, whatever the
    set order. *)
Theorem C06_equal_functions_compare_equal_refuted :
  exists (e f : pexpr ZDom),
    (forall env, den ZDom env e = den ZDom env f)
    /\ forall so, exists p q,
         run ZDom so e = Ok (OPoly p) /\ run ZDom so f = Ok (OPoly q) /\ poly_eqb ZDom p q = false.
Proof.
  exists x_plus_5_minus_x, (EConst (5%Z : C ZDom)). split.
  - intros env. simpl. ring.
  - intros so.
    destruct (run ZDom so x_plus_5_minus_x) as [o|e] eqn:E.
    + assert (O1 : forall A (a : A), ord so [a] = [a]).
      { intros A a. apply Permutation_length_1_inv. symmetry. apply ord_perm. }
      assert (O0 : forall A, ord so (@nil A) = []).
      { intros A. apply Permutation_nil. symmetry. apply ord_perm. }
      assert (O2 : forall A (a b : A), ord so [a; b] = [a; b] \/ ord so [a; b] = [b; a]).
      { intros A a b. pose proof (ord_perm so [a; b]) as P. apply Permutation_sym in P.
        apply Permutation_length_2_inv in P. exact P. }
      unfold x_plus_5_minus_x in E. cbn [run] in E. rewrite pconst_eq in E.
      Ltac norm so E O0 O1 O2 :=
        repeat (progress (unfold pvar, mkFactor, poly_add, poly_neg, term_neg, term_add, mkTerm,
                            mkPoly, merge_common_terms, merge_common_factors in E; simpl in E)
                || rewrite !O1 in E || rewrite !O0 in E
                || match type of E with context[ord so [?a; ?b]] =>
                     let F := fresh "F" in destruct (O2 _ a b) as [F|F]; rewrite F in E end).
      norm so E O0 O1 O2; injection E as <-;
      (do 2 eexists; split; [reflexivity|]; split; [cbn [run]; rewrite pconst_eq; reflexivity|];
         vm_compute; reflexivity).
    + exfalso.
      (* the program never fails: only sums and negations *)
      unfold x_plus_5_minus_x in E. cbn [run] in E.
      destruct (pvar_total ZDom so "x" 1 ltac:(lia)) as [x Hx]. rewrite Hx in E. simpl bind in E.
      rewrite pconst_eq in E. simpl bind in E.
      destruct (pvar_spec ZDom so "x" 1 x Hx) as [Wx _].
      destruct (pconst_spec ZDom so (5%Z : C ZDom)) as [c [Hc [Wc _]]].
      rewrite pconst_eq in Hc. injection Hc as <-.
      simpl in E.
      destruct (poly_add_total ZDom so x [Term (5%Z : C ZDom) []] Wx Wc) as [s Hs].
      rewrite Hs in E. simpl in E.
      pose proof (poly_add_wf ZDom so _ _ s Wx Wc Hs) as Ws.
      destruct (poly_neg_total ZDom so x Wx) as [nx Hnx]. rewrite Hnx in E. simpl in E.
      destruct (poly_neg_spec ZDom so x nx Wx Hnx) as [Wnx _].
      destruct (poly_add_total ZDom so s nx Ws Wnx) as [d Hd]. rewrite Hd in E. discriminate.
Qed.
Print Assumptions C06_equal_functions_compare_equal_refuted.

(** * C07: illegal operations raise; legal ones return polynomials *)

Theorem C07_illegal_operations_raise :
  forall (N : numdom) (so : setorder),
    (forall x k, (k < 1)%Z <-> mkFactor x k = Err ValueError)
    /\ (forall x k, (k < 1)%Z -> pvar N so x k = Err ValueError)
    /\ (forall (p : poly N) n, (n < 0)%Z -> poly_pow N so p n = Err RuntimeError)
    /\ (forall f g, fname f <> fname g -> factor_mul f g = Err RuntimeError)
    /\ (forall (s t : term N),
          ~ (forall f, In f (tfactors s) <-> In f (tfactors t)) -> term_add N so s t = Err RuntimeError)
    /\ (forall (t : term N) f, ~ In f (tfactors t) -> term_collect_for N so t f = Err RuntimeError)
    /\ (forall (p : poly N) m n, In n (pnames N p) -> m n = None -> poly_eval N m p = Err KeyError).
Proof.
  intros N so.
  assert (A : forall x k, (k < 1)%Z <-> mkFactor x k = Err ValueError).
  { intros x k. unfold mkFactor. destruct (k <? 1)%Z eqn:E.
    - apply Z.ltb_lt in E. tauto.
    - apply Z.ltb_ge in E. split; [lia|discriminate]. }
  repeat split.
  - intros H. now apply A.
  - intros H. now apply A in H.
  - intros x k H. unfold pvar. apply A with (x := x) in H. now rewrite H.
  - intros p n H. unfold poly_pow. apply Z.ltb_lt in H. now rewrite H.
  - intros f g H. unfold factor_mul. destruct (String.eqb (fname g) (fname f)) eqn:E; auto.
    apply String.eqb_eq in E. congruence.
  - intros s t H. unfold term_add. destruct (fset_eqb (tfactors s) (tfactors t)) eqn:E; auto.
    exfalso. apply H. now apply fset_eqb_iff.
  - intros t f H. unfold term_collect_for. destruct (fmem f (tfactors t)) eqn:E; auto.
    exfalso. apply H. now apply fmem_In.
  - intros p m n Hn Hm. now apply (poly_eval_missing N m p n).
Qed.
Print Assumptions C07_illegal_operations_raise.

(** Legal operations do not always return a polynomial: the zeroth power is the integer 1,
    on which [substitute] does not exist. *)
Theorem C07_zeroth_power_is_polynomial_refuted :
  forall (N : numdom) (so : setorder) (p q : poly N) (x : string),
    poly_pow N so p 0 = Ok (ONum (ofZ 1))
    /\ (do o <- poly_pow N so p 0; obj_substitute N so o x (OPoly q)) = Err AttributeError.
Proof. intros. split; reflexivity. Qed.
Print Assumptions C07_zeroth_power_is_polynomial_refuted.

(** The empty polynomial [Poly()] can be built, but [highest_power] raises on it,
    [substitute] returns the integer 0 and the ExpPoly of it cannot be substituted into. *)
Theorem C07_empty_polynomial_is_usable_refuted :
  forall (N : numdom) (so : setorder) (q : poly N) (x : string) (c : N),
    mkPoly N so [] = Ok []
    /\ poly_highest_power N [] x = Err ValueError
    /\ poly_substitute N so [] x q = Ok (ONum (ofZ 0))
    /\ exppoly_substitute N so (ExpPoly c []) x q = Err DispatchError.
Proof.
  intros N so q x c. unfold mkPoly, merge_common_terms. simpl.
  assert (O0 : ord so (@nil (list factor)) = []).
  { apply Permutation_nil. symmetry. apply ord_perm. }
  rewrite O0. repeat split.
Qed.
Print Assumptions C07_empty_polynomial_is_usable_refuted.

(** * C08: ExpPoly algebra *)

Theorem C08_exppoly_algebra :
  forall (N : numdom) (so : setorder) (e f : exppoly N) (c : N) (env : string -> R) (a b : R),
    built N (epoly e) -> built N (epoly f) ->
    evale N env e = Ok a -> evale N env f = Ok b ->
    (exists g, exppoly_mul N so e f = Ok g /\ evale N env g = Ok (a * b)%R)
    /\ (exists g, exppoly_mul_num N e c = Ok g /\ evale N env g = Ok (a * val c)%R)
    /\ (exists g, exppoly_neg N e = Ok g /\ evale N env g = Ok (- a)%R).
Proof.
  intros N so e f c env a b Be Bf Ha Hb.
  rewrite evale_eq in Ha, Hb. injection Ha as <-. injection Hb as <-.
  split; [|split].
  - unfold exppoly_mul.
    destruct (poly_add_total N so _ _ (built_wf N _ Be) (built_wf N _ Bf)) as [r Hr].
    rewrite Hr. simpl. eexists. split; [reflexivity|]. rewrite evale_eq. simpl. f_equal.
    rewrite (poly_add_val N so env _ _ r (built_wf N _ Be) (built_wf N _ Bf) Hr), exp_plus, val_mul. ring.
  - eexists. split; [reflexivity|]. rewrite evale_eq. simpl. f_equal. rewrite val_mul. ring.
  - eexists. split; [reflexivity|]. rewrite evale_eq. simpl. f_equal. rewrite val_opp. ring.
Qed.
Print Assumptions C08_exppoly_algebra.

Theorem C08_exppoly_substitute :
  forall (N : numdom) (so : setorder) (e f : exppoly N) (q : poly N) (x : string)
         (env : string -> R) (v w : R),
    built N (epoly e) -> built N q ->
    exppoly_substitute N so e x q = Ok f ->
    evalp N env q = Ok v -> evale N (rebind env x v) e = Ok w ->
    evale N env f = Ok w.
Proof.
  intros N so e f q x env v w Be Bq H Hv Hw. unfold exppoly_substitute in H.
  apply bind_Ok in H. destruct H as [o [Ho H]].
  destruct (poly_substitute_spec N so _ x q o (built_wf N _ Be) (built_wf N _ Bq) Ho) as [_ [_ V]].
  destruct o as [c|r]; simpl in H; [discriminate|]. injection H as <-.
  rewrite evalp_eq in Hv. injection Hv as <-.
  rewrite evale_eq in Hw. injection Hw as <-. rewrite evale_eq. simpl.
  specialize (V env). simpl in V. rewrite V. reflexivity.
Qed.
Print Assumptions C08_exppoly_substitute.

Example C08_witness :
  exists p f, run ZDom ord_id ex_prog = Ok (OPoly p)
    /\ exppoly_substitute ZDom ord_id (ExpPoly (2%Z : C ZDom) p) "x" p = Ok f.
Proof. vm_compute. do 2 eexists. split; reflexivity. Qed.

(** * C73: legal arithmetic never fails. Refuted for numbers, true for tensors. *)

(** (x^2 + x + 1) * (x^2 - x + 1): a legal program that raises RuntimeError under one set
    order and returns a polynomial under another. *)
Definition quartic : pexpr ZDom :=
  EMul (EAdd (EAdd (EVar "x" 2) (EVar "x" 1)) (EConst (1%Z : C ZDom)))
       (EAdd (ESub (EVar "x" 2) (EVar "x" 1)) (EConst (1%Z : C ZDom))).

Theorem C73_legal_arithmetic_never_fails_refuted :
  exists e : pexpr ZDom,
    legal ZDom e
    /\ run ZDom ord_id e = Err RuntimeError
    /\ exists p, run ZDom ord_rev e = Ok (OPoly p).
Proof.
  exists quartic. split; [simpl; lia|]. split; [vm_compute; reflexivity|].
  vm_compute. eexists. reflexivity.
Qed.
Print Assumptions C73_legal_arithmetic_never_fails_refuted.

(** When constants are tensors (the zero test never fires), no legal program raises and
    polynomial programs return polynomials with at least one term. *)
Theorem C73_tensor_programs_never_fail :
  forall (N : numdom) (so : setorder) (e : pexpr N),
    (forall c : N, isz c = false) -> legal N e ->
    exists o, run N so e = Ok o
      /\ (is_poly N e = true -> exists p, o = OPoly p /\ p <> []).
Proof.
  intros N so e T L. destruct (run_total_tensor N T so e L) as [o [H P]]. exists o. split; auto.
  intros I. rewrite I in P. destruct o as [c|p]; [destruct P|]. destruct P. eauto.
Qed.
Print Assumptions C73_tensor_programs_never_fail.

Example C73_witness : exists p, run ZTensorDom ord_id
  (EMul (EAdd (EAdd (EVar "x" 2) (EVar "x" 1)) (EConst (1%Z : C ZTensorDom)))
        (EAdd (ESub (EVar "x" 2) (EVar "x" 1)) (EConst (1%Z : C ZTensorDom)))) = Ok (OPoly p)
  /\ List.length p = 5.
Proof. vm_compute. eexists. split; reflexivity. Qed.

(** For every kind of constant: sums, negation, differences, scaling, collecting, rejecting. *)
Theorem C73_linear_operations_never_fail :
  forall (N : numdom) (so : setorder) (p q : poly N) (c : N) (x : string) (f : factor),
    built N p -> built N q ->
    (exists r, poly_add N so p q = Ok r) /\ (exists r, poly_neg N so p = Ok r)
    /\ (exists r, obj_sub N so (OPoly p) (OPoly q) = Ok (OPoly r))
    /\ (exists r, poly_add_num N so p c = Ok r) /\ (exists r, poly_mul_num N so p c = Ok r)
    /\ (exists r, poly_collect_for N so p f = Ok r) /\ (exists r, poly_reject N so p x = Ok r).
Proof.
  intros N so p q c x f Bp Bq.
  pose proof (built_wf N p Bp) as Wp. pose proof (built_wf N q Bq) as Wq.
  split; [now apply poly_add_total|]. split; [now apply poly_neg_total|].
  split. { simpl. destruct (poly_neg_total N so q Wq) as [nq Hn]. rewrite Hn. simpl.
    destruct (poly_neg_spec N so q nq Wq Hn) as [Wn _].
    destruct (poly_add_total N so p nq Wp Wn) as [r Hr]. rewrite Hr. simpl. eauto. }
  split. { destruct (poly_add_num_spec N so p c Wp) as [r [Hr _]]. eauto. }
  split; [now apply poly_mul_num_total|].
  split; [now apply poly_collect_total|now apply poly_reject_total].
Qed.
Print Assumptions C73_linear_operations_never_fail.
