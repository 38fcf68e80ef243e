(** Proofs connecting the model of exppoly.py to the specification of API programs. *)
From Coq Require Import Reals ZArith List Bool String Permutation Lia Lra.
From Verif Require Import Py ExpPolyModel ListFacts ExpPolyProofs ExpPolySpec.
Import ListNotations.

Lemma sumR_rsum l : sumR l = rsum l.
Proof. induction l; simpl; [reflexivity|]. now rewrite rsum_cons, IHl. Qed.
Lemma prodR_rprod l : prodR l = rprod l.
Proof. induction l; simpl; [reflexivity|]. now rewrite rprod_cons, IHl. Qed.

Section Proofs2.
Context (N : numdom).

Lemma mapM_mkFactor_valid xs fs :
  mapM (fun xk => mkFactor (fst xk) (snd xk)) xs = Ok fs ->
  Forall valid_factor fs /\ map fname fs = map fst xs
  /\ forall env, rprod (map (fval env) fs) = rprod (map (fun xk => env (fst xk) ^ Z.to_nat (snd xk))%R xs).
Proof.
  intros H. apply mapM_Ok in H. induction H as [|[x k] f xs fs E H IH]; simpl.
  - auto.
  - destruct IH as [A [B D]]. pose proof (mkFactor_valid _ _ _ E) as V. simpl in *.
    unfold mkFactor in E. destruct (k <? 1)%Z; [discriminate|]. injection E as <-.
    split; [auto|split]; [simpl; congruence|].
    intros env. rewrite !rprod_cons, D. reflexivity.
Qed.

Lemma mkTermSpec_spec so cf t :
  mkTermSpec N so cf = Ok t ->
  wf_term N t /\ tconst t = fst cf /\ (forall n, In n (tnames N t) -> In n (map fst (snd cf)))
  /\ forall env, tval N env t = (val (fst cf)
       * rprod (map (fun xk => env (fst xk) ^ Z.to_nat (snd xk)) (snd cf)))%R.
Proof.
  unfold mkTermSpec. intros H. apply bind_Ok in H. destruct H as [fs [H1 H2]].
  destruct (mapM_mkFactor_valid _ _ H1) as [V [E D]].
  split; [|split; [|split]].
  - eapply mkTerm_wf; eauto.
  - eapply mkTerm_const; eauto.
  - intros n Hn. rewrite <- E. eapply mkTerm_names; eauto.
  - intros env. rewrite (mkTerm_val N so env _ _ _ V H2), D. reflexivity.
Qed.

Lemma mapM_mkTermSpec so ts l :
  mapM (mkTermSpec N so) ts = Ok l ->
  Forall (wf_term N) l
  /\ (forall t n, In t l -> In n (tnames N t) -> In n (flat_map (fun cf => map fst (snd cf)) ts))
  /\ forall env, rsum (map (tval N env) l)
     = rsum (map (fun cf => (val (fst cf)
         * rprod (map (fun xk => env (fst xk) ^ Z.to_nat (snd xk)) (snd cf)))%R) ts).
Proof.
  intros H. apply mapM_Ok in H. split; [|split].
  - apply Forall_forall. intros t Ht. destruct (Forall2_In_r _ _ _ _ H Ht) as [cf [_ E]].
    apply (mkTermSpec_spec so cf t E).
  - intros t n Ht Hn. destruct (Forall2_In_r _ _ _ _ H Ht) as [cf [Hcf E]].
    apply in_flat_map. exists cf. split; auto. apply (mkTermSpec_spec so cf t E). auto.
  - intros env. f_equal. apply Forall2_map_eq. eapply Forall2_impl_In; [|exact H].
    intros cf t _ _ E. apply (mkTermSpec_spec so cf t E).
Qed.

Lemma built_wf p : built N p -> wf_poly N p.
Proof.
  induction 1.
  - eapply mkPoly_wf; [|eassumption]. apply (mapM_mkTermSpec _ _ _ H).
  - destruct (pconst_spec N so c) as [q [E [W _]]]. congruence.
  - apply (pvar_spec N so x k p H).
  - apply (poly_add_wf N so p q); auto.
  - destruct (poly_add_num_spec N so p c IHbuilt) as [q [E [W _]]]. congruence.
  - apply (poly_neg_spec N so p r IHbuilt H0).
  - apply (poly_mul_spec N so p q r IHbuilt1 IHbuilt2 H1).
  - apply (poly_mul_num_spec N so p c r IHbuilt H0).
  - apply (poly_pow_spec N so p n _ IHbuilt H0).
  - apply (poly_substitute_spec N so p x q _ IHbuilt1 IHbuilt2 H1).
  - apply (poly_collect_spec N so p f r IHbuilt H1).
  - apply (poly_reject_spec N so p x r IHbuilt H0).
Qed.

Lemma val_iter_mul (c : N) n : val (Nat.iter n (cmul c) (ofZ 1)) = (val c ^ n)%R.
Proof.
  induction n as [|n IH]; simpl; [apply val_ofZ|]. rewrite val_mul. simpl in IH. now rewrite IH.
Qed.

Lemma obj_add_spec so a b r :
  wf_obj N a -> wf_obj N b -> obj_add N so a b = Ok r ->
  wf_obj N r /\ (forall n, In n (onames N r) -> In n (onames N a) \/ In n (onames N b))
  /\ forall env, oval N env r = (oval N env a + oval N env b)%R.
Proof.
  destruct a as [c|p], b as [d|q]; simpl; intros Wa Wb H.
  - injection H as <-. simpl. split; [auto|split]; auto. intros. apply val_add.
  - destruct (poly_add_num_spec N so q c Wb) as [s [E [A [B D]]]]. rewrite E in H. simpl in H.
    injection H as <-. simpl. split; [auto|split]; auto. intros. rewrite D. ring.
  - destruct (poly_add_num_spec N so p d Wa) as [s [E [A [B D]]]]. rewrite E in H. simpl in H.
    injection H as <-. simpl. split; [auto|split]; auto.
  - apply bind_Ok in H. destruct H as [s [H1 H2]]. injection H2 as <-. simpl.
    split; [|split].
    + apply (poly_add_wf N so p q); auto.
    + intros n. now apply (poly_add_names N so).
    + intros. now apply (poly_add_val N so).
Qed.

Lemma obj_neg_spec so a r :
  wf_obj N a -> obj_neg N so a = Ok r ->
  wf_obj N r /\ (forall n, In n (onames N r) -> In n (onames N a))
  /\ forall env, oval N env r = (- oval N env a)%R.
Proof.
  destruct a as [c|p]; simpl; intros Wa H.
  - injection H as <-. simpl. split; [auto|split]; auto. intros. apply val_opp.
  - apply bind_Ok in H. destruct H as [s [H1 H2]]. injection H2 as <-. simpl.
    apply (poly_neg_spec N so); auto.
Qed.

Lemma obj_sub_spec so a b r :
  wf_obj N a -> wf_obj N b -> obj_sub N so a b = Ok r ->
  wf_obj N r /\ (forall n, In n (onames N r) -> In n (onames N a) \/ In n (onames N b))
  /\ forall env, oval N env r = (oval N env a - oval N env b)%R.
Proof.
  intros Wa Wb H.
  assert (G : forall p, a = OPoly p -> wf_obj N r /\ (forall n, In n (onames N r) -> In n (onames N a) \/ In n (onames N b))
  /\ forall env, oval N env r = (oval N env a - oval N env b)%R).
  { intros p ->. simpl in H. apply bind_Ok in H. destruct H as [nb [H1 H2]].
    destruct (obj_neg_spec so b nb Wb H1) as [A [B D]].
    destruct (obj_add_spec so (OPoly p) nb r Wa A H2) as [A' [B' D']].
    split; [auto|split].
    - intros n Hn. destruct (B' n Hn); auto.
    - intros env. rewrite D', D. simpl. ring. }
  destruct a as [c|p]; [|eauto]. destruct b as [d|q]; simpl in H.
  - injection H as <-. simpl. split; [auto|split]; auto. intros. rewrite val_add, val_opp. ring.
  - apply bind_Ok in H. destruct H as [nq [H1 H2]].
    destruct (poly_neg_spec N so q nq Wb H1) as [A [B D]].
    destruct (obj_add_spec so (OPoly nq) (ONum c) r A I H2) as [A' [B' D']].
    split; [auto|split].
    + intros n Hn. destruct (B' n Hn) as [G'|[]]; auto.
    + intros env. rewrite D'. simpl. rewrite D. ring.
Qed.

Lemma obj_mul_spec so a b r :
  wf_obj N a -> wf_obj N b -> obj_mul N so a b = Ok r ->
  wf_obj N r /\ (forall n, In n (onames N r) -> In n (onames N a) \/ In n (onames N b))
  /\ forall env, oval N env r = (oval N env a * oval N env b)%R.
Proof.
  destruct a as [c|p], b as [d|q]; simpl; intros Wa Wb H.
  - injection H as <-. simpl. split; [auto|split]; auto. intros. apply val_mul.
  - apply bind_Ok in H. destruct H as [s [H1 H2]]. injection H2 as <-.
    destruct (poly_mul_num_spec N so q c s Wb H1) as [A [B D]].
    simpl. split; [auto|split]; auto. intros. rewrite D. ring.
  - apply bind_Ok in H. destruct H as [s [H1 H2]]. injection H2 as <-.
    destruct (poly_mul_num_spec N so p d s Wa H1) as [A [B D]].
    simpl. split; [auto|split]; auto.
  - apply bind_Ok in H. destruct H as [s [H1 H2]]. injection H2 as <-. simpl.
    apply (poly_mul_spec N so); auto.
Qed.

Lemma obj_pow_spec so a n r :
  wf_obj N a -> obj_pow N so a n = Ok r ->
  wf_obj N r /\ (forall x, In x (onames N r) -> In x (onames N a))
  /\ forall env, oval N env r = (oval N env a ^ Z.to_nat n)%R.
Proof.
  destruct a as [c|p]; simpl; intros Wa H.
  - destruct (n <? 0)%Z; [discriminate|]. injection H as <-. simpl.
    split; [auto|split]; auto. intros. apply val_iter_mul.
  - destruct (poly_pow_spec N so p n r Wa H) as [A [B [_ D]]]. auto.
Qed.

Lemma rebind_upd : rebind = upd. Proof. reflexivity. Qed.

Lemma run_spec so (e : pexpr N) o :
  run N so e = Ok o ->
  wf_obj N o /\ (forall n, In n (onames N o) -> In n (fv N e))
  /\ forall env, oval N env o = den N env e.
Proof.
  revert o. induction e; intros o H; simpl in H.
  - injection H as <-. simpl. auto.
  - destruct (pconst_spec N so c) as [p [E [W [Nn V]]]]. rewrite E in H. simpl in H.
    injection H as <-. simpl. rewrite Nn. auto.
  - apply bind_Ok in H. destruct H as [p [H1 H2]]. injection H2 as <-.
    destruct (pvar_spec N so x k p H1) as [W [Nn [_ V]]]. simpl. split; [auto|split]; auto.
    intros n Hn. rewrite (Nn n Hn). auto.
  - apply bind_Ok in H. destruct H as [l [H1 H2]].
    apply bind_Ok in H2. destruct H2 as [p [H2 H3]]. injection H3 as <-.
    destruct (mapM_mkTermSpec so ts l H1) as [W [Nn V]]. simpl. split; [|split].
    + eapply mkPoly_wf; eauto.
    + intros n Hn. destruct (mkPoly_names N so _ _ n W H2 Hn) as [t [Ht Hn']]. eauto.
    + intros env. rewrite (mkPoly_val N so env _ _ W H2), V.
      symmetry. apply sumR_rsum.
  - apply bind_Ok in H. destruct H as [u [H1 H]]. apply bind_Ok in H. destruct H as [v [H2 H]].
    destruct (IHe1 u H1) as [A1 [B1 D1]], (IHe2 v H2) as [A2 [B2 D2]].
    destruct (obj_add_spec so u v o A1 A2 H) as [A [B D]]. simpl. split; [auto|split].
    + intros n Hn. apply in_app_iff. destruct (B n Hn); auto.
    + intros env. now rewrite D, D1, D2.
  - apply bind_Ok in H. destruct H as [u [H1 H]]. apply bind_Ok in H. destruct H as [v [H2 H]].
    destruct (IHe1 u H1) as [A1 [B1 D1]], (IHe2 v H2) as [A2 [B2 D2]].
    destruct (obj_sub_spec so u v o A1 A2 H) as [A [B D]]. simpl. split; [auto|split].
    + intros n Hn. apply in_app_iff. destruct (B n Hn); auto.
    + intros env. now rewrite D, D1, D2.
  - apply bind_Ok in H. destruct H as [u [H1 H]].
    destruct (IHe u H1) as [A1 [B1 D1]].
    destruct (obj_neg_spec so u o A1 H) as [A [B D]]. simpl. split; [auto|split]; auto.
    intros env. now rewrite D, D1.
  - apply bind_Ok in H. destruct H as [u [H1 H]]. apply bind_Ok in H. destruct H as [v [H2 H]].
    destruct (IHe1 u H1) as [A1 [B1 D1]], (IHe2 v H2) as [A2 [B2 D2]].
    destruct (obj_mul_spec so u v o A1 A2 H) as [A [B D]]. simpl. split; [auto|split].
    + intros n Hn. apply in_app_iff. destruct (B n Hn); auto.
    + intros env. now rewrite D, D1, D2.
  - apply bind_Ok in H. destruct H as [u [H1 H]].
    destruct (IHe u H1) as [A1 [B1 D1]].
    destruct (obj_pow_spec so u n o A1 H) as [A [B D]]. simpl. split; [auto|split]; auto.
    intros env. now rewrite D, D1.
  - apply bind_Ok in H. destruct H as [u [H1 H]]. apply bind_Ok in H. destruct H as [v [H2 H]].
    destruct (IHe1 u H1) as [A1 [B1 D1]], (IHe2 v H2) as [A2 [B2 D2]].
    destruct u as [c|p]; simpl in H; [discriminate|]. destruct v as [d|q]; [discriminate|].
    destruct (poly_substitute_spec N so p x q o A1 A2 H) as [A [B D]]. simpl.
    split; [auto|split].
    + intros n Hn. apply in_app_iff. destruct (B n Hn) as [[G1 G2]|[G1 G2]].
      * left. apply filter_In. split; [now apply B1|]. apply negb_true_iff. now apply String.eqb_neq.
      * right. now apply B2.
    + intros env. rewrite D, <- D1, <- D2. reflexivity.
Qed.

Lemma obj_eval_bound m o env :
  (forall n, In n (onames N o) -> m n = Some (env n)) ->
  obj_eval N m o = Ok (oval N env o).
Proof.
  destruct o as [c|p]; simpl; intros H; auto.
  rewrite poly_eval_bound.
  - f_equal. apply pval_ext. intros n Hn. unfold env_of. now rewrite (H n Hn).
  - intros n Hn. rewrite (H n Hn). discriminate.
Qed.

Lemma evalp_eq env (p : poly N) : evalp N env p = Ok (pval N env p).
Proof.
  unfold evalp. rewrite poly_eval_bound; [reflexivity|]. discriminate.
Qed.

(** ** Totality *)

Lemma mkPoly_nonempty so ts p : ts <> [] -> mkPoly N so ts = Ok p -> p <> [].
Proof.
  intros H E. unfold mkPoly, merge_common_terms in E. apply mapM_Ok in E.
  intros ->. inversion E as [E'|]. symmetry in E'.
  destruct ts as [|t ts]; [congruence|].
  pose proof (ord_perm so (dedup fset_eqb (map tfactors (t :: ts)))) as P.
  rewrite E' in P. apply Permutation_nil in P. discriminate.
Qed.

Section Tensor.
Hypothesis tensor : forall c : N, isz c = false.

Lemma poly_mul_total_tensor so p q :
  wf_poly N p -> wf_poly N q -> exists r, poly_mul N so p q = Ok r.
Proof.
  intros [Wp _] [Wq _]. unfold poly_mul. fold (pairs p q).
  rewrite Forall_forall in Wp, Wq.
  destruct (mapM_total (fun xy => term_mul N so (fst xy) (snd xy)) (pairs p q)) as [ts Hts].
  { intros [x y] Hxy. apply pairs_In in Hxy. simpl. apply term_mul_total; [apply Wp|apply Wq]; tauto. }
  rewrite Hts. simpl. apply mkPoly_total_tensor; auto.
  apply mapM_Ok in Hts. apply Forall_forall. intros t Ht.
  destruct (Forall2_In_r _ _ _ _ Hts Ht) as [[x y] [Hxy E]].
  apply pairs_In in Hxy. simpl in E. eapply term_mul_wf; [| |exact E]; [apply Wp|apply Wq]; tauto.
Qed.
End Tensor.

Lemma poly_mul_nonempty so p q r :
  p <> [] -> q <> [] -> poly_mul N so p q = Ok r -> r <> [].
Proof.
  intros Hp Hq H. unfold poly_mul in H. apply bind_Ok in H. destruct H as [ts [H1 H2]].
  eapply mkPoly_nonempty; [|exact H2].
  destruct p as [|x p]; [congruence|]. destruct q as [|y q]; [congruence|].
  apply mapM_Ok in H1. simpl in H1. inversion H1. discriminate.
Qed.

Lemma poly_add_nonempty so p q r : p <> [] -> poly_add N so p q = Ok r -> r <> [].
Proof.
  intros Hp H. eapply mkPoly_nonempty; [|exact H]. destruct p; [congruence|discriminate].
Qed.

Lemma pconst_nonempty so c p : pconst N so c = Ok p -> p <> [].
Proof.
  unfold pconst. intros H. apply bind_Ok in H. destruct H as [t [_ H]].
  eapply mkPoly_nonempty; [|exact H]. discriminate.
Qed.

Lemma poly_add_num_nonempty so p c r : p <> [] -> poly_add_num N so p c = Ok r -> r <> [].
Proof.
  unfold poly_add_num. destruct (cis 0 c).
  - intros Hp H; now injection H as <-.
  - intros Hp H. apply bind_Ok in H. destruct H as [q [_ H]]. eapply poly_add_nonempty; [|eassumption]; auto.
Qed.

Lemma poly_mul_num_nonempty so p c r : p <> [] -> poly_mul_num N so p c = Ok r -> r <> [].
Proof.
  unfold poly_mul_num. destruct (cis 1 c).
  - intros Hp H; now injection H as <-.
  - intros Hp H. apply bind_Ok in H. destruct H as [q [Hq H]]. 
    eapply poly_mul_nonempty; [exact Hp| |exact H].
    eapply pconst_nonempty; eauto.
Qed.

Lemma poly_neg_nonempty so p r : p <> [] -> poly_neg N so p = Ok r -> r <> [].
Proof.
  intros Hp H. unfold poly_neg in H. apply bind_Ok in H. destruct H as [ts [H1 H2]].
  eapply mkPoly_nonempty; [|exact H2]. apply mapM_Ok in H1.
  destruct p; [congruence|]. inversion H1. discriminate.
Qed.

(** Objects that are non-empty polynomials. *)
Definition npoly (o : obj N) : Prop := match o with OPoly p => wf_poly N p /\ p <> [] | ONum _ => False end.

(** Number-valued constants: multiplication by a number never fails. *)
Lemma Forall2_key_count p ts K :
  K <> [] ->
  Forall2 (fun t r : term N => tfactors r = [] \/ Permutation (tfactors r) (tfactors t)) p ts ->
  List.length (filter (fun x => fset_eqb (tfactors x) K) ts)
  <= List.length (filter (fun x => fset_eqb (tfactors x) K) p).
Proof.
  intros NK H. induction H as [|t r p ts [E|E] H IH]; simpl; auto.
  - rewrite E. destruct (fset_eqb [] K) eqn:F.
    + rewrite fset_eqb_sym in F. apply fset_eqb_nil in F. contradiction.
    + destruct (fset_eqb (tfactors t) K); simpl; lia.
  - apply fset_perm in E.
    destruct (fset_eqb (tfactors r) K) eqn:F.
    + rewrite (fset_eqb_trans _ (tfactors r)); auto; [simpl; lia|now rewrite fset_eqb_sym].
    + destruct (fset_eqb (tfactors t) K); simpl; lia.
Qed.

Lemma pconst_eq so c : pconst N so c = Ok [Term c []].
Proof.
  assert (O1 : forall A (a : A), ord so [a] = [a]).
  { intros A a. apply Permutation_length_1_inv. symmetry. apply ord_perm. }
  assert (O0 : forall A, ord so (@nil A) = []).
  { intros A. apply Permutation_nil. symmetry. apply ord_perm. }
  unfold pconst, mkTerm, merge_common_factors.
  destruct (isz c); simpl; rewrite !O0; simpl; rewrite !O0; simpl;
  unfold mkPoly, merge_common_terms; simpl; rewrite O1; reflexivity.
Qed.

Lemma poly_mul_num_total so p c : wf_poly N p -> exists r, poly_mul_num N so p c = Ok r.
Proof.
  intros Wp. unfold poly_mul_num. destruct (cis 1 c); [eauto|].
  rewrite pconst_eq. simpl. unfold poly_mul. fold (pairs p [Term c []]).
  assert (Wc : wf_term N (Term c [])) by (split; simpl; auto; split; constructor).
  assert (Ap := proj1 Wp). rewrite Forall_forall in Ap.
  destruct (mapM_total (fun xy => term_mul N so (fst xy) (snd xy)) (pairs p [Term c []])) as [ts Hts].
  { intros [x y] Hxy. apply pairs_In in Hxy. simpl. destruct Hxy as [Hx [<-|[]]].
    apply term_mul_total; auto. }
  rewrite Hts. simpl. apply mapM_Ok in Hts.
  apply mkPoly_total.
  - apply Forall_forall. intros t Ht.
    destruct (Forall2_In_r _ _ _ _ Hts Ht) as [[x y] [Hxy E]]. apply pairs_In in Hxy.
    destruct Hxy as [Hx [<-|[]]]. simpl in E. eapply term_mul_wf; [| |exact E]; auto.
  - intros K NK.
    assert (F : Forall2 (fun t r : term N => tfactors r = [] \/ Permutation (tfactors r) (tfactors t)) p ts).
    { clear - Hts Ap. unfold pairs in Hts. revert ts Hts. induction p as [|x p IH]; simpl; intros ts H.
      - inversion H; constructor.
      - inversion H as [|? r ? ts' E F]; subst. constructor.
        + simpl in E. unfold term_mul in E. simpl in E. rewrite app_nil_r in E.
          destruct (mkTerm_rebuild N so _ _ _ (proj1 (Ap x (or_introl eq_refl))) E) as [[_ G]|[_ G]]; auto.
        + apply IH; auto. intros y Hy. apply Ap; simpl; auto. }
    pose proof (Forall2_key_count p ts K NK F). pose proof (wf_poly_key_count N p K Wp NK). lia.
Qed.

Section Tensor2.
Hypothesis tensor : forall c : N, isz c = false.
Context (so : setorder).

Lemma pow_total_tensor p n :
  wf_poly N p -> p <> [] -> (1 <= n)%Z ->
  exists r, poly_pow N so p n = Ok (OPoly r) /\ wf_poly N r /\ r <> [].
Proof.
  intros W NE Hn. unfold poly_pow. destruct (n <? 0)%Z eqn:E; [apply Z.ltb_lt in E; lia|].
  destruct (Z.to_nat n) as [|k] eqn:F; [lia|].
  assert (G : forall k q, wf_poly N q -> q <> [] ->
    exists r, foldM (fun acc x => poly_mul N so acc x) (repeat p k) q = Ok r /\ wf_poly N r /\ r <> []).
  { clear k F. induction k as [|k IH]; simpl; intros q Wq NEq; [eauto|].
    destruct (poly_mul_total_tensor tensor so q p Wq W) as [r Hr]. rewrite Hr. simpl.
    apply IH; [apply (poly_mul_spec N so q p r Wq W Hr)|].
    eapply poly_mul_nonempty; [| |exact Hr]; auto. }
  destruct (G k p W NE) as [r [Hr [A B]]]. rewrite Hr. simpl. eauto.
Qed.

Lemma term_subst_total_tensor t name q :
  wf_term N t -> wf_poly N q -> q <> [] ->
  exists r, term_substitute N so t name q = Ok r /\ wf_poly N r /\ r <> [].
Proof.
  intros Wt Wq NE. unfold term_substitute.
  pose proof (wf_factors_filter (fun f => negb (String.eqb (fname f) name)) _ (proj1 Wt)) as Wf.
  destruct (mkTerm_total N so (tconst t) _ (proj2 Wf)) as [t' Ht']. rewrite Ht'. simpl.
  assert (W1 : Forall (wf_term N) [t']).
  { constructor; [|constructor]. eapply mkTerm_wf; [|exact Ht']. apply Wf. }
  destruct (mkPoly_total_tensor N so [t'] tensor W1) as [p' Hp']. rewrite Hp'. simpl.
  pose proof (mkPoly_wf N so _ _ W1 Hp') as Wp'.
  assert (NEp' : p' <> []) by (eapply mkPoly_nonempty; [|exact Hp']; discriminate).
  set (k := fold_left (fun pw f => if String.eqb (fname f) name then fpow f else pw) (tfactors t) 0).
  destruct k as [|k].
  - simpl. destruct (poly_mul_num_total so p' (ofZ 1) Wp') as [r Hr]. exists r.
    split; auto. split; [apply (poly_mul_num_spec N so _ _ _ Wp' Hr)|].
    eapply poly_mul_num_nonempty; [|eassumption]; auto.
  - destruct (pow_total_tensor q (Z.of_nat (S k)) Wq NE ltac:(lia)) as [o [Ho [A B]]].
    rewrite Ho. simpl.
    destruct (poly_mul_total_tensor tensor so p' o Wp' A) as [r Hr]. exists r.
    split; auto. split; [apply (poly_mul_spec N so _ _ _ Wp' A Hr)|].
    eapply poly_mul_nonempty; [| |exact Hr]; auto.
Qed.

Lemma subst_total_tensor p name q :
  wf_poly N p -> p <> [] -> wf_poly N q -> q <> [] ->
  exists r, poly_substitute N so p name q = Ok (OPoly r) /\ wf_poly N r /\ r <> [].
Proof.
  intros [Wp _] NEp Wq NEq. unfold poly_substitute.
  assert (G : forall p o, Forall (wf_term N) p -> (npoly o \/ (p <> [] /\ exists c, o = ONum c)) ->
     exists r, foldM (fun result t => do s <- term_substitute N so t name q; obj_add_poly N so result s) p o
        = Ok (OPoly r) /\ wf_poly N r /\ r <> []).
  { clear p Wp NEp. induction p as [|t p IH]; simpl; intros o W Ho.
    - destruct Ho as [Ho|[Ho _]]; [|congruence]. destruct o as [|r]; [destruct Ho|].
      exists r. destruct Ho. auto.
    - inversion W; subst. destruct (term_subst_total_tensor t name q H1 Wq NEq) as [s [Hs [Ws NEs]]].
      rewrite Hs. simpl. destruct o as [c|r]; simpl.
      + destruct (poly_add_num_spec N so s c Ws) as [s' [E [W' _]]]. rewrite E. simpl.
        apply IH; auto. left. simpl. split; auto. eapply poly_add_num_nonempty; [|eassumption]; auto.
      + destruct Ho as [[Wr NEr]|[_ [c Hc]]]; [|discriminate].
        destruct (poly_add_total N so r s Wr Ws) as [s' E]. rewrite E. simpl.
        apply IH; auto. left. simpl. split; [apply (poly_add_wf N so r s); auto|].
        eapply poly_add_nonempty; [|exact E]; auto. }
  apply G; auto. right. split; eauto.
Qed.

Lemma mapM_mkTermSpec_total ts :
  Forall (fun cf => Forall (fun xk => (1 <= snd xk)%Z) (snd cf)) ts ->
  exists l, mapM (mkTermSpec N so) ts = Ok l.
Proof.
  intros H. apply mapM_total. intros cf Hcf. rewrite Forall_forall in H. specialize (H cf Hcf).
  unfold mkTermSpec.
  destruct (mapM_total (fun xk => mkFactor (fst xk) (snd xk)) (snd cf)) as [fs Hfs].
  { intros [x k] Hx. rewrite Forall_forall in H. specialize (H _ Hx). simpl in H.
    unfold mkFactor. simpl. destruct (k <? 1)%Z eqn:E; [apply Z.ltb_lt in E; lia|]. eauto. }
  rewrite Hfs. simpl. apply mkTerm_total. apply (mapM_mkFactor_valid _ _ Hfs).
Qed.

Lemma run_total_tensor (e : pexpr N) :
  legal N e ->
  exists o, run N so e = Ok o
            /\ (if is_poly N e then npoly o else exists c, o = ONum c).
Proof.
  induction e; simpl; intros L.
  - eauto.
  - rewrite pconst_eq. simpl. eexists; split; [reflexivity|]. simpl. split; [|discriminate].
    destruct (pconst_spec N so c) as [p [E [W _]]]. rewrite pconst_eq in E. injection E as <-. auto.
  - destruct (pvar_total N so x k L) as [p Hp]. rewrite Hp. simpl. eexists; split; [reflexivity|].
    simpl. split; [apply (pvar_spec N so x k p Hp)|].
    unfold pvar in Hp. apply bind_Ok in Hp. destruct Hp as [f [_ Hp]].
    apply bind_Ok in Hp. destruct Hp as [t [_ Hp]]. eapply mkPoly_nonempty; [|exact Hp]. discriminate.
  - destruct L as [NE L]. destruct (mapM_mkTermSpec_total ts L) as [l Hl]. rewrite Hl. simpl.
    destruct (mapM_mkTermSpec so ts l Hl) as [W _].
    destruct (mkPoly_total_tensor N so l tensor W) as [p Hp]. rewrite Hp. simpl.
    eexists; split; [reflexivity|]. simpl. split; [eapply mkPoly_wf; eauto|].
    eapply mkPoly_nonempty; [|exact Hp]. apply mapM_Ok in Hl.
    destruct ts; [congruence|]. inversion Hl. discriminate.
  - destruct L as [L1 L2]. destruct (IHe1 L1) as [u [Hu Pu]], (IHe2 L2) as [v [Hv Pv]].
    rewrite Hu, Hv. simpl.
    destruct (is_poly N e1), (is_poly N e2); simpl; destruct u as [c|p], v as [d|q]; simpl in *;
      try (destruct Pu; discriminate); try (destruct Pv; discriminate); try tauto.
    + destruct Pu as [A1 B1], Pv as [A2 B2].
      destruct (poly_add_total N so p q A1 A2) as [r E]. rewrite E. simpl.
      eexists; split; [reflexivity|]. simpl. split; [apply (poly_add_wf N so p q); auto|].
      eapply poly_add_nonempty; [|eassumption]; auto.
    + destruct Pu as [A1 B1].
      destruct (poly_add_num_spec N so p d A1) as [r [E [W _]]]. rewrite E. simpl.
      eexists; split; [reflexivity|]. simpl. split; auto. eapply poly_add_num_nonempty; [|eassumption]; auto.
    + destruct Pv as [A1 B1].
      destruct (poly_add_num_spec N so q c A1) as [r [E [W _]]]. rewrite E. simpl.
      eexists; split; [reflexivity|]. simpl. split; auto. eapply poly_add_num_nonempty; [|eassumption]; auto.
    + eauto.
  - destruct L as [L1 L2]. destruct (IHe1 L1) as [u [Hu Pu]], (IHe2 L2) as [v [Hv Pv]].
    rewrite Hu, Hv. simpl.
    destruct (is_poly N e1), (is_poly N e2); simpl; destruct u as [c|p], v as [d|q]; simpl in *;
      try (destruct Pu; discriminate); try (destruct Pv; discriminate); try tauto.
    + destruct Pu as [A1 B1], Pv as [A2 B2].
      destruct (poly_neg_total N so q A2) as [nq E]. rewrite E. simpl.
      destruct (poly_neg_spec N so q nq A2 E) as [A3 _].
      destruct (poly_add_total N so p nq A1 A3) as [r F]. rewrite F. simpl.
      eexists; split; [reflexivity|]. simpl. split; [apply (poly_add_wf N so p nq); auto|].
      eapply poly_add_nonempty; [|exact F]; auto.
    + destruct Pu as [A1 B1].
      destruct (poly_add_num_spec N so p (copp d) A1) as [r [E [W _]]]. rewrite E. simpl.
      eexists; split; [reflexivity|]. simpl. split; auto. eapply poly_add_num_nonempty; [|eassumption]; auto.
    + destruct Pv as [A1 B1].
      destruct (poly_neg_total N so q A1) as [nq F]. rewrite F. simpl.
      destruct (poly_neg_spec N so q nq A1 F) as [A3 _].
      destruct (poly_add_num_spec N so nq c A3) as [r [E [W _]]]. rewrite E. simpl.
      eexists; split; [reflexivity|]. simpl. split; auto. eapply poly_add_num_nonempty; [|exact E].
      eapply poly_neg_nonempty; [|eassumption]; auto.
    + eauto.
  - destruct (IHe L) as [u [Hu Pu]]. rewrite Hu. simpl.
    destruct (is_poly N e); destruct u as [c|p]; simpl in *; try (destruct Pu; discriminate); try tauto.
    + destruct Pu as [A1 B1]. destruct (poly_neg_total N so p A1) as [r F]. rewrite F. simpl.
      eexists; split; [reflexivity|]. simpl. split; [apply (poly_neg_spec N so p r A1 F)|].
      eapply poly_neg_nonempty; [|eassumption]; auto.
    + eauto.
  - destruct L as [L1 L2]. destruct (IHe1 L1) as [u [Hu Pu]], (IHe2 L2) as [v [Hv Pv]].
    rewrite Hu, Hv. simpl.
    destruct (is_poly N e1), (is_poly N e2); simpl; destruct u as [c|p], v as [d|q]; simpl in *;
      try (destruct Pu; discriminate); try (destruct Pv; discriminate); try tauto.
    + destruct Pu as [A1 B1], Pv as [A2 B2].
      destruct (poly_mul_total_tensor tensor so p q A1 A2) as [r E]. rewrite E. simpl.
      eexists; split; [reflexivity|]. simpl. split; [apply (poly_mul_spec N so p q r A1 A2 E)|].
      eapply poly_mul_nonempty; [| |exact E]; auto.
    + destruct Pu as [A1 B1].
      destruct (poly_mul_num_total so p d A1) as [r E]. rewrite E. simpl.
      eexists; split; [reflexivity|]. simpl.
      split; [apply (poly_mul_num_spec N so p d r A1 E)|]. eapply poly_mul_num_nonempty; [|eassumption]; auto.
    + destruct Pv as [A1 B1].
      destruct (poly_mul_num_total so q c A1) as [r E]. rewrite E. simpl.
      eexists; split; [reflexivity|]. simpl.
      split; [apply (poly_mul_num_spec N so q c r A1 E)|]. eapply poly_mul_num_nonempty; [|eassumption]; auto.
    + eauto.
  - destruct L as [L Hn]. destruct (IHe L) as [u [Hu Pu]]. rewrite Hu. simpl.
    destruct (is_poly N e); destruct u as [c|p]; simpl in *; try (destruct Pu; discriminate); try tauto.
    + destruct Pu as [A1 B1]. destruct (pow_total_tensor p n A1 B1 Hn) as [r [F [W NE]]].
      rewrite F. eexists; split; [reflexivity|]. simpl. auto.
    + destruct (n <? 0)%Z eqn:E; [apply Z.ltb_lt in E; lia|]. eauto.
  - destruct L as [L1 [L2 [I1 I2]]]. destruct (IHe1 L1) as [u [Hu Pu]], (IHe2 L2) as [v [Hv Pv]].
    rewrite Hu, Hv. simpl. rewrite I1 in Pu. rewrite I2 in Pv.
    destruct u as [c|p]; [destruct Pu|]. destruct v as [d|q]; [destruct Pv|]. simpl in *.
    destruct Pu as [A1 B1], Pv as [A2 B2].
    destruct (subst_total_tensor p x q A1 B1 A2 B2) as [r [E [W NE]]].
    rewrite E. eexists; split; [reflexivity|]. simpl. auto.
Qed.
End Tensor2.

(** ** Collect/reject decomposition *)

Lemma decompose so p x k r :
  wf_poly N p -> poly_highest_power N p x = Ok k -> poly_reject N so p x = Ok r ->
  forall (cs : nat -> poly N),
  (forall j, 1 <= j <= k -> poly_collect_for N so p (Factor x j) = Ok (cs j)) ->
  forall env, pval N env p
    = (pval N env r + rsum (map (fun j => pval N env (cs j) * env x ^ j)%R (seq 1 k)))%R.
Proof.
  intros W Hk Hr cs Hcs env.
  destruct (poly_highest_power_spec N p x k Hk) as [_ [Hle _]].
  assert (Ap := proj1 W). rewrite Forall_forall in Ap.
  unfold pval at 1. rewrite (split_by_power N x p (tval N env) k).
  2: { intros t Ht. rewrite <- term_highest_power_spec; auto. }
  change (seq 0 (S k)) with (0 :: seq 1 k). simpl map. rewrite rsum_cons. f_equal.
  - destruct (poly_reject_spec N so p x r W Hr) as [_ [_ [_ V]]]. rewrite V. f_equal. f_equal.
    apply filter_ext_in. intros t Ht.
    destruct (term_is_function_of N t x) eqn:E; simpl.
    + apply Nat.eqb_neq. intros F. apply (powsum_zero N t x (Ap t Ht)) in F. congruence.
    + apply Nat.eqb_eq. now apply (powsum_zero N t x (Ap t Ht)).
  - f_equal. apply map_ext_in. intros j Hj. apply in_seq in Hj.
    destruct (poly_collect_spec N so p _ _ W (Hcs j ltac:(lia))) as [_ [_ [_ V]]].
    specialize (V env). unfold fval in V. simpl in V. rewrite <- V. f_equal. f_equal.
    apply filter_ext_in. intros t Ht.
    pose proof (powsum_factor N t x j (Ap t Ht) ltac:(lia)) as P.
    destruct (fmem (Factor x j) (tfactors t)) eqn:E.
    + apply Nat.eqb_eq. apply P. now apply fmem_In.
    + apply Nat.eqb_neq. intros F. apply P in F. apply fmem_In in F. congruence.
Qed.

Lemma collect_nonempty so p x k r :
  wf_poly N p -> 1 <= k -> poly_collect_for N so p (Factor x k) = Ok r ->
  (r <> [] <-> exists t, In t p /\ term_highest_power N t x = k).
Proof.
  intros W Hk H. assert (Ap := proj1 W). rewrite Forall_forall in Ap.
  unfold poly_collect_for in H. apply bind_Ok in H. destruct H as [ts [H1 H2]].
  apply mapM_Ok in H1. split.
  - intros NE. destruct r as [|u r]; [congruence|].
    unfold mkPoly, merge_common_terms in H2. apply mapM_Ok in H2.
    destruct ts as [|t ts].
    + simpl in H2. pose proof (ord_perm so (@nil (list factor))) as P.
      apply Permutation_sym, Permutation_nil in P. rewrite P in H2. inversion H2.
    + inversion H1 as [|t' ? l ? E F G]; subst. exists t'.
      assert (I : In t' (filter (fun x0 => fmem (Factor x k) (tfactors x0)) p)) by (rewrite <- G; simpl; auto).
      apply filter_In in I. destruct I as [I1 I2]. split; auto.
      rewrite term_highest_power_spec by auto.
      apply (powsum_factor N t' x k (Ap t' I1) Hk). now apply fmem_In.
  - intros [t [Ht E]]. eapply mkPoly_nonempty; [|exact H2].
    rewrite term_highest_power_spec in E by auto.
    apply (powsum_factor N t x k (Ap t Ht) Hk) in E. apply fmem_In in E.
    assert (I : In t (filter (fun x0 => fmem (Factor x k) (tfactors x0)) p)) by (apply filter_In; auto).
    destruct (Forall2_In_l _ _ _ _ H1 I) as [y [Hy _]]. intros ->. destruct Hy.
Qed.

(** ** Equality *)

Lemma poly_eqb_names p q n :
  poly_eqb N p q = true -> In n (pnames N p) -> In n (pnames N q).
Proof.
  intros H Hn. unfold poly_eqb in H. apply andb_true_iff in H. destruct H as [H1 _].
  rewrite forallb_forall in H1. unfold pnames in *. apply in_flat_map in Hn.
  destruct Hn as [t [Ht Hn]]. specialize (H1 t Ht). apply existsb_exists in H1.
  destruct H1 as [u [Hu E]]. apply in_flat_map. exists u. split; auto.
  unfold term_eqb in E. apply andb_true_iff in E. destruct E as [_ E].
  rewrite fset_eqb_iff in E. unfold tnames in *. apply in_map_iff in Hn.
  destruct Hn as [f [<- Hf]]. apply in_map. now apply E.
Qed.

Lemma poly_eqb_eval m p q :
  wf_poly N p -> wf_poly N q -> poly_eqb N p q = true -> poly_eval N m p = poly_eval N m q.
Proof.
  intros Wp Wq H.
  assert (D : (exists n, In n (pnames N p) /\ m n = None) \/ (forall n, In n (pnames N p) -> m n <> None)).
  { clear. induction (pnames N p) as [|n l IH].
    - right. intros n [].
    - destruct (m n) eqn:E.
      + destruct IH as [[k [A B]]|A]; [left; exists k; simpl; auto|].
        right. intros k [<-|Hk]; [congruence|auto].
      + left. exists n. simpl. auto. }
  destruct D as [[n [Hn Hm]]|D].
  - rewrite (poly_eval_missing N m p n), (poly_eval_missing N m q n); auto.
    eapply poly_eqb_names; eauto.
  - rewrite !poly_eval_bound; auto.
    + f_equal. now apply poly_eqb_val.
    + intros n Hn. apply D. rewrite poly_eqb_sym in H. eapply poly_eqb_names; eauto.
Qed.

(** ** Order of arguments (exact numbers) *)
Section Exact.
Hypothesis exact_eq : forall a b : N, val a = val b -> ceqb a b = true.
Hypothesis exact_z : forall a : N, val a = 0%R -> isz a = true.

Lemma foldM_term_add_exact so K ts s r :
  wf_term N s -> Forall (wf_term N) ts ->
  fset_eqb (tfactors s) K = true ->
  (forall t, In t ts -> fset_eqb (tfactors t) K = true) ->
  foldM (term_add N so) ts s = Ok r ->
  val (tconst r) = (val (tconst s) + rsum (map (fun t => val (tconst t)) ts))%R
  /\ fset_eqb (tfactors r) (if isz (tconst r) then [] else K) = true.
Proof.
  intros Ws Wts. revert s Ws. induction ts as [|t ts IH]; intros s Ws Es Ets H.
  - simpl in H. injection H as <-. split; [unfold rsum; simpl; ring|].
    destruct (isz (tconst s)) eqn:Z; auto. destruct Ws as [_ Zs]. rewrite (Zs Z). reflexivity.
  - simpl in H. apply bind_Ok in H. destruct H as [r' [H1 H2]]. inversion Wts; subst.
    pose proof (term_add_wf N so s t r' Ws H1) as Wr'.
    unfold term_add in H1. destruct (fset_eqb (tfactors s) (tfactors t)) eqn:E; [|discriminate].
    pose proof (mkTerm_const N so _ _ _ H1) as Hc.
    destruct (mkTerm_rebuild N so _ _ _ (proj1 Ws) H1) as [[Z1 Z2]|[Z1 Z2]].
    + (* cancelled: only legal if nothing follows or K is empty *)
      destruct ts as [|u ts].
      * simpl in H2. injection H2 as <-. simpl. unfold rsum; simpl. rewrite Hc, val_add.
        split; [ring|]. rewrite Z1, Z2. reflexivity.
      * assert (EK : fset_eqb (tfactors r') (tfactors u) = true).
        { simpl in H2. unfold term_add at 1 in H2.
          destruct (fset_eqb (tfactors r') (tfactors u)); [auto|discriminate]. }
        destruct (IH H4 r' Wr') as [A B]; auto.
        { eapply fset_eqb_trans; eauto. apply Ets; simpl; auto. }
        { intros v Hv. apply Ets; simpl in *; auto. }
        split; auto. rewrite A. change (map _ (t :: u :: ts)) with
          (val (tconst t) :: map (fun t0 : term N => val (tconst t0)) (u :: ts)).
        rewrite (rsum_cons (val (tconst t))), Hc, val_add. ring.
    + destruct (IH H4 r' Wr') as [A B]; auto.
      { eapply fset_eqb_trans; [|exact Es]. now apply fset_perm. }
      { intros v Hv. apply Ets; simpl; auto. }
      split; auto. rewrite A. simpl map. rewrite rsum_cons, Hc, val_add. ring.
Qed.

Lemma reduce_terms_exact so K ts r :
  Forall (wf_term N) ts -> (forall t, In t ts -> fset_eqb (tfactors t) K = true) ->
  reduce_terms N so ts = Ok r ->
  val (tconst r) = rsum (map (fun t => val (tconst t)) ts)
  /\ fset_eqb (tfactors r) (if isz (tconst r) then [] else K) = true.
Proof.
  unfold reduce_terms. destruct ts as [|t ts]; [discriminate|].
  intros W H E. inversion W; subst. simpl map. rewrite rsum_cons.
  eapply foldM_term_add_exact; eauto; simpl in *; auto.
Qed.

Lemma mkPoly_incl_exact so1 so2 ts ts' p q :
  Forall (wf_term N) ts -> Permutation ts ts' ->
  mkPoly N so1 ts = Ok p -> mkPoly N so2 ts' = Ok q ->
  forall s, In s p -> exists t, In t q /\ term_eqb N s t = true.
Proof.
  intros W P H1 H2 s Hs.
  assert (W' : Forall (wf_term N) ts') by (eapply Permutation_Forall; eauto).
  unfold mkPoly, merge_common_terms in H1, H2. apply mapM_Ok in H1. apply mapM_Ok in H2.
  destruct (Forall2_In_r _ _ _ _ H1 Hs) as [K [HK E]].
  apply (Permutation_in _ (ord_perm so1 _)) in HK. apply dedup_In_incl in HK.
  assert (HK' : In K (map tfactors ts')) by (eapply Permutation_in; [apply Permutation_map|]; eauto).
  destruct (dedup_complete fset_eqb fset_eqb_refl fset_eqb_sym fset_eqb_trans _ _ HK') as [K' [HK'' EK]].
  apply (Permutation_in _ (Permutation_sym (ord_perm so2 _))) in HK''.
  destruct (Forall2_In_l _ _ _ _ H2 HK'') as [t [Ht E']].
  exists t. split; auto.
  destruct (reduce_terms_exact so1 K _ s (filter_wf N _ ts W)
     (fun t Ht => proj2 (proj1 (filter_In _ _ _) Ht)) E) as [V1 F1].
  destruct (reduce_terms_exact so2 K' _ t (filter_wf N _ ts' W')
     (fun t Ht => proj2 (proj1 (filter_In _ _ _) Ht)) E') as [V2 F2].
  assert (V : val (tconst s) = val (tconst t)).
  { rewrite V1, V2. apply rsum_perm. apply Permutation_map.
    etransitivity; [apply filter_perm; exact P|].
    erewrite filter_ext; [reflexivity|]. intros u. cbv beta.
    destruct (fset_eqb (tfactors u) K) eqn:A, (fset_eqb (tfactors u) K') eqn:B; auto.
    - rewrite (fset_eqb_trans _ _ _ A EK) in B. discriminate.
    - rewrite fset_eqb_sym in EK. rewrite (fset_eqb_trans _ _ _ B EK) in A. discriminate. }
  unfold term_eqb. rewrite (exact_eq _ _ V). simpl.
  assert (Z : isz (tconst s) = isz (tconst t)).
  { destruct (isz (tconst s)) eqn:A, (isz (tconst t)) eqn:B; auto.
    - apply isz_val in A. rewrite V in A. apply exact_z in A. congruence.
    - apply isz_val in B. rewrite <- V in B. apply exact_z in B. congruence. }
  rewrite <- Z in F2. destruct (isz (tconst s)).
  - eapply fset_eqb_trans; eauto. now rewrite fset_eqb_sym.
  - eapply fset_eqb_trans; eauto. rewrite fset_eqb_sym in F2. eapply fset_eqb_trans; eauto.
Qed.

Lemma mkPoly_perm_exact so1 so2 ts ts' p q :
  Forall (wf_term N) ts -> Permutation ts ts' ->
  mkPoly N so1 ts = Ok p -> mkPoly N so2 ts' = Ok q -> poly_eqb N p q = true.
Proof.
  intros W P H1 H2. unfold poly_eqb. apply andb_true_iff. split; apply forallb_forall.
  - intros s Hs. apply existsb_exists. eapply mkPoly_incl_exact; [exact W|exact P|exact H1|exact H2|auto].
  - intros s Hs. apply existsb_exists.
    eapply (mkPoly_incl_exact so2 so1 ts' ts); eauto.
    + eapply Permutation_Forall; eauto.
    + now symmetry.
Qed.
End Exact.

(** ** ExpPoly *)
Lemma evale_eq env (e : exppoly N) :
  evale N env e = Ok (val (econst e) * exp (pval N env (epoly e)))%R.
Proof.
  unfold evale, exppoly_eval. fold (evalp N env (epoly e)). now rewrite evalp_eq.
Qed.

End Proofs2.
