(** Which monomials a polynomial contains, when constants are tensors (so that no term is ever
    recognised as zero). Used to show that the integration routines return. *)
From Coq Require Import Reals ZArith List Bool String Permutation Lia Lra.
From Verif Require Import Py ExpPolyModel ListFacts ExpPolyProofs ExpPolySpec ExpPolyProofs2.
Import ListNotations.

(** * Monomials as lists of factors, up to merging *)

(** Weighted degree. *)
Definition wd (w : string -> nat) (K : list factor) : nat :=
  list_sum (map (fun f => w (fname f) * fpow f) K).

Definition meq (K L : list factor) : Prop := forall w, wd w K = wd w L.

Lemma meq_refl K : meq K K. Proof. now intros w. Qed.
Lemma meq_sym K L : meq K L -> meq L K. Proof. intros H w. now rewrite H. Qed.
Lemma meq_trans K L M : meq K L -> meq L M -> meq K M. Proof. intros A B w. now rewrite A. Qed.

Lemma wd_app w K L : wd w (K ++ L) = wd w K + wd w L.
Proof. unfold wd. now rewrite map_app, list_sum_app. Qed.

Lemma wd_perm w K L : Permutation K L -> wd w K = wd w L.
Proof. intros P. unfold wd. induction P; simpl in *; lia. Qed.

Lemma meq_app K K' L L' : meq K K' -> meq L L' -> meq (K ++ L) (K' ++ L').
Proof. intros A B w. rewrite !wd_app. now rewrite A, B. Qed.

Lemma wd_powsum x K : wd (fun n => if String.eqb n x then 1 else 0) K = powsum x K.
Proof.
  unfold wd, powsum. induction K as [|f K IH]; simpl; auto.
  destruct (String.eqb (fname f) x); simpl; lia.
Qed.

Lemma meq_powsum x K L : meq K L -> powsum x K = powsum x L.
Proof. intros H. rewrite <- !wd_powsum. apply H. Qed.

Definition rem (x : string) (K : list factor) : list factor :=
  filter (fun f => negb (String.eqb (fname f) x)) K.

Lemma wd_rem w x K : wd w (rem x K) = wd (fun n => if String.eqb n x then 0 else w n) K.
Proof.
  unfold wd, rem. induction K as [|f K IH]; simpl; auto.
  destruct (String.eqb (fname f) x); simpl; lia.
Qed.

Lemma meq_rem x K L : meq K L -> meq (rem x K) (rem x L).
Proof. intros H w. rewrite !wd_rem. apply H. Qed.

(** Merging factors does not change the weighted degree. *)
Lemma rprod_pow2 w K : rprod (map (fval (fun n => (2 ^ w n)%R)) K) = (2 ^ wd w K)%R.
Proof.
  unfold wd. induction K as [|f K IH]; simpl; auto.
  rewrite rprod_cons, IH. unfold fval. rewrite <- pow_mult, pow_add. reflexivity.
Qed.

Lemma pow2_inj a b : (2 ^ a = 2 ^ b)%R -> a = b.
Proof.
  intros H. destruct (Nat.lt_trichotomy a b) as [L|[L|L]]; auto.
  - pose proof (Rlt_pow 2 a b ltac:(lra) L). lra.
  - pose proof (Rlt_pow 2 b a ltac:(lra) L). lra.
Qed.

Lemma merged_meq K : meq (merged K) K.
Proof. intros w. apply pow2_inj. rewrite <- !rprod_pow2. apply merged_val. Qed.

(** * Sets of monomials *)
Definition monos := list (list factor).
Definition mmul (a b : monos) : monos := flat_map (fun x => map (fun y => x ++ y) b) a.
Fixpoint mpow (a : monos) (n : nat) : monos :=
  match n with O => [[]] | S n' => mmul (mpow a n') a end.
Definition mcollect (x : string) (k : nat) (a : monos) : monos := map (rem x) (filter (fun K => Nat.eqb (powsum x K) k) a).
Definition mreject (x : string) (a : monos) : monos := filter (fun K => Nat.eqb (powsum x K) 0) a.
Definition msubst (x : string) (q : monos) (a : monos) : monos :=
  flat_map (fun K => mmul [rem x K] (mpow q (powsum x K))) a.

Lemma mmul_In K a b : In K (mmul a b) <-> exists x y, In x a /\ In y b /\ K = x ++ y.
Proof.
  unfold mmul. rewrite in_flat_map. split.
  - intros [x [Hx H]]. apply in_map_iff in H. destruct H as [y [<- Hy]]. eauto.
  - intros [x [y [Hx [Hy ->]]]]. exists x. split; auto. apply in_map_iff. eauto.
Qed.

Section Support.
Context (N : numdom) (so : setorder).
Hypothesis tensor : forall c : N, isz c = false.

(** [p] contains all the monomials in [lo] and no others than those in [up]. *)
Definition sup (p : poly N) (lo up : monos) : Prop :=
  (forall r, In r p -> exists K, In K up /\ meq (tfactors r) K)
  /\ (forall K, In K lo -> exists r, In r p /\ meq (tfactors r) K).

Lemma sup_wf_ext p lo up lo' up' : sup p lo up -> (forall K, In K lo' -> In K lo) -> (forall K, In K up -> In K up') -> sup p lo' up'.
Proof.
  intros [A B] H1 H2. split.
  - intros r Hr. destruct (A r Hr) as [K [HK E]]. eauto.
  - intros K HK. eauto.
Qed.

Lemma mkTerm_meq (c : N) fs t : Forall valid_factor fs -> mkTerm N so c fs = Ok t -> meq (tfactors t) fs.
Proof.
  intros V H. destruct (mkTerm_eq N so c fs V) as [l [E P]]. rewrite H in E. injection E as ->. simpl.
  rewrite tensor in P. intros w. rewrite (wd_perm w _ _ P). apply merged_meq.
Qed.

Lemma fset_meq K L : wf_factors K -> wf_factors L -> fset_eqb K L = true -> meq K L.
Proof.
  intros WK WL H w. apply wd_perm. apply NoDup_Permutation; try now apply wf_factors_NoDup.
  now apply fset_eqb_iff.
Qed.

(** The monomials of a list of terms. *)
Definition tsup (ts : list (term N)) (lo up : monos) : Prop := sup ts lo up.

Lemma mkPoly_sup ts p lo up : Forall (wf_term N) ts -> mkPoly N so ts = Ok p -> sup ts lo up -> sup p lo up.
Proof.
  intros W H [A B]. pose proof (mkPoly_wf N so ts p W H) as [Wp _].
  unfold mkPoly, merge_common_terms in H. apply mapM_Ok in H.
  rewrite Forall_forall in W, Wp.
  assert (Key : forall K r, reduce_terms N so (filter (fun x => fset_eqb (tfactors x) K) ts) = Ok r ->
            fset_eqb (tfactors r) K = true).
  { intros K r E.
    assert (W1 : Forall (wf_term N) (filter (fun x => fset_eqb (tfactors x) K) ts)) by (apply filter_wf; now apply Forall_forall).
    assert (W2 : forall t, In t (filter (fun x => fset_eqb (tfactors x) K) ts) -> fset_eqb (tfactors t) K = true).
    { intros t Ht. apply filter_In in Ht. tauto. }
    destruct (reduce_terms_key N so K _ r W1 W2 E) as [F|[F _]]; auto.
    rewrite tensor in F. discriminate. }
  split.
  - intros r Hr. destruct (Forall2_In_r _ _ _ _ H Hr) as [K [HK E]].
    apply (Permutation_in _ (ord_perm so _)) in HK. apply dedup_In_incl in HK.
    apply in_map_iff in HK. destruct HK as [t [<- Ht]].
    destruct (A t Ht) as [L [HL EL]]. exists L. split; auto. eapply meq_trans; [|exact EL].
    apply fset_meq; [apply Wp; auto|apply W; auto|]. now apply Key.
  - intros K HK. destruct (B K HK) as [t [Ht Et]].
    pose proof (term_key_count N so ts t Ht) as Cnt.
    destruct (filter (fset_eqb (tfactors t)) (ord so (dedup fset_eqb (map tfactors ts)))) as [|k l] eqn:F; [discriminate|].
    assert (Hk : In k (filter (fset_eqb (tfactors t)) (ord so (dedup fset_eqb (map tfactors ts))))) by (rewrite F; now left).
    apply filter_In in Hk. destruct Hk as [Hk Ek].
    assert (exists r, In r p /\ reduce_terms N so (filter (fun x => fset_eqb (tfactors x) k) ts) = Ok r) as [r [Hr Er]].
    { clear - H Hk. induction H as [|k' r l p E H IH]; [destruct Hk|].
      destruct Hk as [->|Hk]; [exists r; split; auto; now left|]. destruct (IH Hk) as [r' [? ?]]. exists r'. split; auto. now right. }
    exists r. split; auto. eapply meq_trans; [|exact Et].
    apply fset_meq; [apply Wp; auto|apply W; auto|].
    eapply fset_eqb_trans; [apply Key; eauto|]. now rewrite fset_eqb_sym.
Qed.

Lemma sup_app p q lp up lq uq : sup p lp up -> sup q lq uq -> sup (p ++ q) (lp ++ lq) (up ++ uq).
Proof.
  intros [A B] [A' B']. split.
  - intros r Hr. apply in_app_iff in Hr. destruct Hr as [Hr|Hr].
    + destruct (A r Hr) as [K [? ?]]. exists K. rewrite in_app_iff. auto.
    + destruct (A' r Hr) as [K [? ?]]. exists K. rewrite in_app_iff. auto.
  - intros K HK. apply in_app_iff in HK. destruct HK as [HK|HK].
    + destruct (B K HK) as [r [? ?]]. exists r. rewrite in_app_iff. auto.
    + destruct (B' K HK) as [r [? ?]]. exists r. rewrite in_app_iff. auto.
Qed.

Lemma sup_single t K : meq (tfactors t) K -> sup [t] [K] [K].
Proof.
  intros H. split.
  - intros r [<-|[]]. exists K. simpl. auto.
  - intros L [<-|[]]. exists t. simpl. auto.
Qed.

Lemma pconst_sup c p : pconst N so c = Ok p -> sup p [[]] [[]].
Proof. intros H. rewrite pconst_eq in H. injection H as <-. apply sup_single. apply meq_refl. Qed.

Lemma pvar_sup x k p : pvar N so x k = Ok p -> sup p [[Factor x (Z.to_nat k)]] [[Factor x (Z.to_nat k)]].
Proof.
  unfold pvar. intros H. apply bind_Ok in H. destruct H as [f [Hf H]]. apply bind_Ok in H. destruct H as [t [Ht H]].
  pose proof (mkFactor_valid _ _ _ Hf) as V.
  unfold mkFactor in Hf. destruct (k <? 1)%Z; [discriminate|]. injection Hf as <-.
  assert (Vs : Forall valid_factor [Factor x (Z.to_nat k)]) by (constructor; auto).
  eapply mkPoly_sup; [|exact H|].
  - constructor; [|constructor]. eapply mkTerm_wf; [|exact Ht]. auto.
  - apply sup_single. eapply mkTerm_meq; [|exact Ht]. auto.
Qed.

Lemma poly_add_sup p q r lp up lq uq :
  wf_poly N p -> wf_poly N q -> poly_add N so p q = Ok r -> sup p lp up -> sup q lq uq -> sup r (lp ++ lq) (up ++ uq).
Proof.
  intros [Wp _] [Wq _] H A B. eapply mkPoly_sup; [|exact H|now apply sup_app]. now apply Forall_app.
Qed.

(** A mapped list of terms. *)
Lemma mapM_sup (f : term N -> res (term N)) (p ts : list (term N)) lo up g :
  mapM f p = Ok ts -> sup p lo up ->
  (forall t t' K, In t p -> f t = Ok t' -> meq (tfactors t) K -> meq (tfactors t') (g K)) ->
  sup ts (map g lo) (map g up).
Proof.
  intros H [A B] Hg. apply mapM_Ok in H. split.
  - intros r Hr. destruct (Forall2_In_r _ _ _ _ H Hr) as [t [Ht E]]. destruct (A t Ht) as [K [HK EK]].
    exists (g K). split; [now apply in_map|]. eauto.
  - intros K HK. apply in_map_iff in HK. destruct HK as [L [<- HL]]. destruct (B L HL) as [t [Ht Et]].
    assert (exists t', In t' ts /\ f t = Ok t') as [t' [Ht' E']].
    { clear - H Ht. induction H as [|a b p ts E H IH]; [destruct Ht|]. destruct Ht as [->|Ht]; [exists b; simpl; auto|].
      destruct (IH Ht) as [t' [? ?]]. exists t'. simpl. auto. }
    exists t'. split; auto. eauto.
Qed.

Lemma poly_neg_sup p r lo up : wf_poly N p -> poly_neg N so p = Ok r -> sup p lo up -> sup r lo up.
Proof.
  intros [W _] H S. unfold poly_neg in H. apply bind_Ok in H. destruct H as [ts [H1 H2]].
  rewrite Forall_forall in W.
  assert (Wts : Forall (wf_term N) ts).
  { apply mapM_Ok in H1. apply Forall_forall. intros t Ht. destruct (Forall2_In_r _ _ _ _ H1 Ht) as [u [Hu E]].
    eapply mkTerm_wf; [|exact E]. apply W; auto. }
  eapply mkPoly_sup; [exact Wts|exact H2|].
  rewrite <- (map_id lo), <- (map_id up). eapply mapM_sup; [exact H1|exact S|].
  intros t t' K Ht E EK. eapply meq_trans; [|exact EK]. eapply mkTerm_meq; [|exact E]. apply W; auto.
Qed.

Lemma poly_mul_sup p q r lp up lq uq :
  wf_poly N p -> wf_poly N q -> poly_mul N so p q = Ok r -> sup p lp up -> sup q lq uq -> sup r (mmul lp lq) (mmul up uq).
Proof.
  intros [Wp _] [Wq _] H [A B] [A' B']. unfold poly_mul in H. apply bind_Ok in H. destruct H as [ts [H1 H2]].
  apply mapM_Ok in H1. rewrite Forall_forall in Wp, Wq.
  assert (V : forall x y t, In x p -> In y q -> term_mul N so x y = Ok t -> wf_term N t /\ meq (tfactors t) (tfactors x ++ tfactors y)).
  { intros x y t Hx Hy E. unfold term_mul in E.
    assert (Forall valid_factor (tfactors x ++ tfactors y)).
    { apply Forall_app. split; [apply Wp; auto|apply Wq; auto]. }
    split; [eapply mkTerm_wf; [|exact E]; auto|eapply mkTerm_meq; [|exact E]; auto]. }
  eapply mkPoly_sup; [|exact H2|].
  - apply Forall_forall. intros t Ht. destruct (Forall2_In_r _ _ _ _ H1 Ht) as [[x y] [Hxy E]].
    apply pairs_In in Hxy. apply (V x y); tauto.
  - split.
    + intros t Ht. destruct (Forall2_In_r _ _ _ _ H1 Ht) as [[x y] [Hxy E]]. apply pairs_In in Hxy. destruct Hxy as [Hx Hy].
      destruct (A x Hx) as [K [HK EK]], (A' y Hy) as [L [HL EL]]. exists (K ++ L). split.
      * apply mmul_In. eauto 6.
      * eapply meq_trans; [apply (V x y t Hx Hy E)|]. now apply meq_app.
    + intros M HM. apply mmul_In in HM. destruct HM as [K [L [HK [HL ->]]]].
      destruct (B K HK) as [x [Hx Ex]], (B' L HL) as [y [Hy Ey]].
      assert (Hp : In (x, y) (flat_map (fun x => map (fun y => (x, y)) q) p)).
      { apply pairs_In. auto. }
      assert (exists t, In t ts /\ term_mul N so x y = Ok t) as [t [Ht Et]].
      { clear - H1 Hp. remember (flat_map (fun x => map (fun y => (x, y)) q) p) as ps. clear Heqps.
        induction H1 as [|a b ps ts E H IH]; [destruct Hp|]. destruct Hp as [->|Hp]; [exists b; simpl; auto|].
        destruct (IH Hp) as [t' [? ?]]. exists t'. simpl. auto. }
      exists t. split; auto. eapply meq_trans; [apply (V x y t Hx Hy Et)|]. now apply meq_app.
Qed.

Lemma mmul_one_r a K : (exists L, In L (mmul a [[]]) /\ meq K L) <-> exists L, In L a /\ meq K L.
Proof.
  split; intros [L [HL E]].
  - apply mmul_In in HL. destruct HL as [x [y [Hx [[<-|[]] ->]]]]. rewrite app_nil_r in E. eauto.
  - exists (L ++ []). split; [|now rewrite app_nil_r]. apply mmul_In. exists L, []. simpl. auto.
Qed.

Lemma sup_mul_one p lo up : sup p (mmul lo [[]]) (mmul up [[]]) -> sup p lo up.
Proof.
  intros [A B]. split.
  - intros r Hr. apply mmul_one_r. auto.
  - intros K HK. destruct (B (K ++ [])) as [r [Hr E]].
    + apply mmul_In. exists K, []. simpl. auto.
    + rewrite app_nil_r in E. eauto.
Qed.

Lemma poly_mul_num_sup p c r lo up : wf_poly N p -> poly_mul_num N so p c = Ok r -> sup p lo up -> sup r lo up.
Proof.
  intros W H S. unfold poly_mul_num in H. destruct (cis 1 c); [injection H as <-; auto|].
  apply bind_Ok in H. destruct H as [q [Hq H]].
  destruct (pconst_spec N so c) as [q' [Eq [Wq _]]]. rewrite Hq in Eq. injection Eq as <-.
  apply sup_mul_one. eapply poly_mul_sup; [exact W|exact Wq|exact H|exact S|]. eapply pconst_sup; eauto.
Qed.

Lemma poly_add_num_sup p c r lo up : wf_poly N p -> poly_add_num N so p c = Ok r -> sup p lo up -> sup r lo ([] :: up).
Proof.
  intros W H S. unfold poly_add_num in H. destruct (cis 0 c).
  - injection H as <-. eapply sup_wf_ext; eauto. simpl; auto.
  - apply bind_Ok in H. destruct H as [q [Hq H]].
    destruct (pconst_spec N so c) as [q' [Eq [Wq _]]]. rewrite Hq in Eq. injection Eq as <-.
    eapply sup_wf_ext; [eapply poly_add_sup; [exact W|exact Wq|exact H|exact S|eapply pconst_sup; eauto]| |].
    + intros K HK. apply in_app_iff. auto.
    + intros K HK. apply in_app_iff in HK. simpl in *. destruct HK as [HK|[HK|[]]]; auto.
Qed.

Lemma mmul_assoc_in K a b c : In K (mmul (mmul a b) c) <-> In K (mmul a (mmul b c)).
Proof.
  rewrite !mmul_In. split.
  - intros [x [y [Hx [Hy ->]]]]. apply mmul_In in Hx. destruct Hx as [u [v [Hu [Hv ->]]]].
    exists u, (v ++ y). rewrite app_assoc. repeat split; auto. apply mmul_In. eauto.
  - intros [x [y [Hx [Hy ->]]]]. apply mmul_In in Hy. destruct Hy as [u [v [Hu [Hv ->]]]].
    exists (x ++ u), v. rewrite app_assoc. repeat split; auto. apply mmul_In. eauto 6.
Qed.

Lemma foldM_mul_sup p k : forall q r lp up lq uq,
  wf_poly N p -> wf_poly N q -> foldM (fun acc x => poly_mul N so acc x) (repeat p k) q = Ok r ->
  sup p lp up -> sup q lq uq -> sup r (mmul lq (mpow lp k)) (mmul uq (mpow up k)).
Proof.
  assert (S : forall a b n K, In K (mmul (mmul b a) (mpow a n)) <-> In K (mmul b (mpow a (S n)))).
  { intros a b n. revert b. induction n as [|n IH]; intros b K.
    - change (mpow a 1) with (mmul [[]] a). change (mpow a 0) with ([[]] : monos).
      rewrite mmul_assoc_in, !mmul_In. split; intros [x [y [Hx [Hy ->]]]]; exists x, y; (split; [auto|split; auto]);
        apply mmul_In in Hy; destruct Hy as [u [v [Hu [Hv ->]]]]; apply mmul_In.
      + destruct Hv as [<-|[]]. exists [], u. simpl. rewrite app_nil_r. auto.
      + destruct Hu as [<-|[]]. exists v, []. simpl. rewrite app_nil_r. auto.
    - change (mpow a (S n)) with (mmul (mpow a n) a). change (mpow a (S (S n))) with (mmul (mpow a (S n)) a).
      rewrite <- mmul_assoc_in, <- mmul_assoc_in. rewrite !mmul_In.
      split; intros [x [y [Hx [Hy ->]]]]; exists x, y; (split; [|auto]); now apply IH. }
  induction k as [|k IH]; intros q r lp up lq uq Wp Wq H Sp Sq; cbn [repeat foldM] in H.
  - injection H as <-. destruct Sq as [A B]. split.
    + intros t Ht. apply mmul_one_r. auto.
    + intros K HK. apply mmul_In in HK. destruct HK as [x [y [Hx [[<-|[]] ->]]]]. rewrite app_nil_r. auto.
  - apply bind_Ok in H. destruct H as [q' [H1 H]].
    pose proof (poly_mul_sup _ _ _ _ _ _ _ Wq Wp H1 Sq Sp) as S1.
    assert (Wq' : wf_poly N q') by apply (poly_mul_spec N so q p q' Wq Wp H1).
    pose proof (IH q' r lp up _ _ Wp Wq' H Sp S1) as S2.
    eapply sup_wf_ext; [exact S2| |]; intros K HK; now apply S.
Qed.

Lemma poly_pow_sup p k r lo up :
  wf_poly N p -> poly_pow N so p (Z.of_nat k) = Ok (OPoly r) -> sup p lo up -> sup r (mpow lo k) (mpow up k).
Proof.
  intros W H S. unfold poly_pow in H. destruct (Z.of_nat k <? 0)%Z; [discriminate|].
  rewrite Nat2Z.id in H. destruct k as [|k]; [discriminate|].
  apply bind_Ok in H. destruct H as [r' [H E]]. injection E as <-.
  pose proof (foldM_mul_sup p k p r' lo up lo up W W H S S) as G.
  assert (C : forall a n K, In K (mmul a (mpow a n)) <-> In K (mpow a (1 + n))).
  { intros a n. induction n as [|n IH]; intros K; cbn [Nat.add mpow].
    - rewrite !mmul_In. split; intros [x [y [Hx [Hy ->]]]].
      + destruct Hy as [<-|[]]. exists [], x. simpl. rewrite app_nil_r. auto.
      + destruct Hx as [<-|[]]. exists y, []. simpl. rewrite app_nil_r. auto.
    - rewrite <- mmul_assoc_in. rewrite (mmul_In K (mmul a (mpow a n))), (mmul_In K (mmul (mpow a n) a)).
      split; intros [x [y [Hx [Hy ->]]]]; exists x, y; (split; [|auto]); now apply IH. }
  eapply sup_wf_ext; [exact G| |]; intros K HK; now apply C.
Qed.

Lemma filter_valid (h : factor -> bool) K : wf_factors K -> Forall valid_factor (filter h K).
Proof. intros W. apply (wf_factors_filter h K W). Qed.

Lemma fold_power_powsum fs x : wf_factors fs ->
  fold_left (fun pw f => if String.eqb (fname f) x then fpow f else pw) fs 0 = powsum x fs.
Proof.
  intros [H _].
  assert (G : forall l k, NoDup (map fname l) ->
    fold_left (fun pw f => if String.eqb (fname f) x then fpow f else pw) l k
    = if existsb (fun f => String.eqb (fname f) x) l then powsum x l else k).
  { induction l as [|f l IH]; simpl; intros k Hl; auto. inversion Hl; subst. rewrite IH by auto. unfold powsum. simpl.
    destruct (String.eqb (fname f) x) eqn:E; simpl; auto.
    assert (Z : filter (fun y => String.eqb (fname y) x) l = []).
    { apply filter_nil. intros g Hg. apply String.eqb_neq. intros F. apply String.eqb_eq in E. apply H2. rewrite E, <- F. now apply in_map. }
    destruct (existsb (fun f0 => String.eqb (fname f0) x) l) eqn:X.
    - apply existsb_exists in X. destruct X as [g [Hg Eg]]. assert (In g []) as []. rewrite <- Z. apply filter_In. auto.
    - rewrite Z. simpl. lia. }
  rewrite G by auto. destruct (existsb (fun f => String.eqb (fname f) x) fs) eqn:E; auto.
  unfold powsum. rewrite filter_nil; auto. intros f Hf.
  destruct (String.eqb (fname f) x) eqn:F; auto. assert (existsb (fun f => String.eqb (fname f) x) fs = true); [|congruence].
  apply existsb_exists. eauto.
Qed.

Lemma term_substitute_sup t x q r lo up K :
  wf_term N t -> wf_poly N q -> term_substitute N so t x q = Ok r ->
  sup q lo up -> meq (tfactors t) K ->
  sup r (mmul [rem x K] (mpow lo (powsum x K))) (mmul [rem x K] (mpow up (powsum x K))).
Proof.
  intros Wt Wq H S EK. unfold term_substitute in H. rewrite fold_power_powsum in H by apply Wt.
  rewrite (meq_powsum x _ _ EK) in H. set (k := powsum x K) in *.
  apply bind_Ok in H. destruct H as [t' [Ht' H]]. apply bind_Ok in H. destruct H as [p' [Hp' H]].
  apply bind_Ok in H. destruct H as [o [Ho H]].
  pose proof (filter_valid (fun f => negb (String.eqb (fname f) x)) _ (proj1 Wt)) as V.
  assert (Wt' : wf_term N t') by (eapply mkTerm_wf; [|exact Ht']; exact V).
  assert (W1 : Forall (wf_term N) [t']) by (constructor; auto).
  assert (Sp' : sup p' [rem x K] [rem x K]).
  { eapply mkPoly_sup; [exact W1|exact Hp'|]. apply sup_single.
    eapply meq_trans; [eapply mkTerm_meq; [|exact Ht']; exact V|]. apply (meq_rem x _ _ EK). }
  pose proof (mkPoly_wf N so _ _ W1 Hp') as Wp'.
  destruct o as [c|o]; simpl in H.
  - assert (k = 0%nat) as ->.
    { unfold poly_pow in Ho. destruct (Z.of_nat k <? 0)%Z; [discriminate|]. rewrite Nat2Z.id in Ho.
      destruct k as [|k']; auto. apply bind_Ok in Ho. destruct Ho as [? [_ Ho]]. discriminate. }
    eapply poly_mul_num_sup in H; [|exact Wp'|exact Sp']. simpl. rewrite app_nil_r. exact H.
  - destruct (poly_pow_spec N so q _ _ Wq Ho) as [Wo _].
    eapply poly_mul_sup; [exact Wp'|exact Wo|exact H|exact Sp'|].
    eapply poly_pow_sup; [exact Wq|exact Ho|exact S].
Qed.

Definition oterms (o : obj N) : poly N := match o with ONum _ => [] | OPoly p => p end.

Lemma mpow_meq_up a b n : (forall K, In K a -> exists L, In L b /\ meq K L) ->
  forall K, In K (mpow a n) -> exists L, In L (mpow b n) /\ meq K L.
Proof.
  intros H. induction n as [|n IH]; intros K HK; simpl in *.
  - destruct HK as [<-|[]]. exists []. split; auto. apply meq_refl.
  - apply mmul_In in HK. destruct HK as [x [y [Hx [Hy ->]]]].
    destruct (IH x Hx) as [x' [Hx' Ex]], (H y Hy) as [y' [Hy' Ey]].
    exists (x' ++ y'). split; [apply mmul_In; eauto 6|now apply meq_app].
Qed.

Lemma poly_substitute_sup p x q r lo up lq uq :
  wf_poly N p -> wf_poly N q -> poly_substitute N so p x q = Ok (OPoly r) ->
  sup p lo up -> sup q lq uq -> sup r (msubst x lq lo) ([] :: msubst x uq up).
Proof.
  intros Wp Wq H [A B] Sq. unfold poly_substitute in H. destruct Wp as [Wp _]. rewrite Forall_forall in Wp.
  assert (G : forall l o r, (forall t, In t l -> wf_term N t) -> wf_obj N o ->
    foldM (fun result t => do s <- term_substitute N so t x q; obj_add_poly N so result s) l o = Ok r ->
    (* every monomial of the result comes from the accumulator, from a term, or is constant *)
    (forall u, In u (oterms r) -> (exists v, In v (oterms o) /\ meq (tfactors u) (tfactors v))
        \/ meq (tfactors u) []
        \/ exists t K, In t l /\ In K (mmul [rem x (tfactors t)] (mpow uq (powsum x (tfactors t)))) /\ meq (tfactors u) K)
    /\ (forall v, In v (oterms o) -> exists u, In u (oterms r) /\ meq (tfactors u) (tfactors v))
    /\ (forall t K, In t l -> In K (mmul [rem x (tfactors t)] (mpow lq (powsum x (tfactors t)))) ->
          exists u, In u (oterms r) /\ meq (tfactors u) K)).
  { clear A B H Wp. induction l as [|t l IH]; intros o r' W Wo H; cbn [foldM] in H.
    - injection H as <-. split; [|split].
      + intros u Hu. left. exists u. split; auto. apply meq_refl.
      + intros v Hv. exists v. split; auto. apply meq_refl.
      + intros t K [].
    - apply bind_Ok in H. destruct H as [o' [H1 H]]. apply bind_Ok in H1. destruct H1 as [s [Hs Ho']].
      pose proof (W t (or_introl eq_refl)) as Wt.
      destruct (term_substitute_spec N so t x q s Wt Wq Hs) as [Ws _].
      pose proof (term_substitute_sup t x q s lq uq _ Wt Wq Hs Sq (meq_refl _)) as Ss.
      assert (Ws' : wf_poly N s) by exact Ws.
      destruct (obj_add_poly_spec N so o s o' Wo Ws' Ho') as [Wo' _].
      destruct (IH o' r' (fun t' Ht' => W t' (or_intror Ht')) Wo' H) as [I1 [I2 I3]].
      (* one step *)
      assert (Step : (forall u, In u (oterms o') -> (exists v, In v (oterms o) /\ meq (tfactors u) (tfactors v)) \/ meq (tfactors u) []
                        \/ exists K, In K (mmul [rem x (tfactors t)] (mpow uq (powsum x (tfactors t)))) /\ meq (tfactors u) K)
                     /\ (forall v, In v (oterms o) -> exists u, In u (oterms o') /\ meq (tfactors u) (tfactors v))
                     /\ (forall K, In K (mmul [rem x (tfactors t)] (mpow lq (powsum x (tfactors t)))) -> exists u, In u (oterms o') /\ meq (tfactors u) K)).
      { destruct o as [c|po]; simpl in Ho'; apply bind_Ok in Ho'; destruct Ho' as [r0 [Hr0 E0]]; injection E0 as <-; simpl.
        - pose proof (poly_add_num_sup s c r0 _ _ Ws' Hr0 Ss) as [U L]. split; [|split].
          + intros u Hu. right. destruct (U u Hu) as [K [[<-|HK] EK]]; eauto.
          + intros v [].
          + exact L.
        - assert (So : sup po (map tfactors po) (map tfactors po)).
          { split.
            - intros u Hu. exists (tfactors u). split; [now apply in_map|apply meq_refl].
            - intros K HK. apply in_map_iff in HK. destruct HK as [u [<- Hu]]. exists u. split; auto. apply meq_refl. }
          pose proof (poly_add_sup po s r0 _ _ _ _ Wo Ws' Hr0 So Ss) as [U L]. split; [|split].
          + intros u Hu. destruct (U u Hu) as [K [HK EK]]. apply in_app_iff in HK. destruct HK as [HK|HK]; [left|right; right; eauto].
            apply in_map_iff in HK. destruct HK as [v [<- Hv]]. eauto.
          + intros v Hv. destruct (L (tfactors v)) as [u [Hu Eu]]; [apply in_app_iff; left; now apply in_map|]. eauto.
          + intros K HK. apply L. apply in_app_iff. auto. }
      destruct Step as [S1 [S2 S3]]. split; [|split].
      + intros u Hu. destruct (I1 u Hu) as [[v [Hv Ev]]|[E|[t' [K [Ht' [HK EK]]]]]].
        * destruct (S1 v Hv) as [[v' [Hv' Ev']]|[E|[K [HK EK]]]].
          -- left. exists v'. split; auto. eapply meq_trans; eauto.
          -- right. left. eapply meq_trans; eauto.
          -- right. right. exists t, K. split; [now left|]. split; auto. eapply meq_trans; eauto.
        * auto.
        * right. right. exists t', K. split; [now right|auto].
      + intros v Hv. destruct (S2 v Hv) as [u [Hu Eu]]. destruct (I2 u Hu) as [u' [Hu' Eu']].
        exists u'. split; auto. eapply meq_trans; eauto.
      + intros t' K [<-|Ht'] HK.
        * destruct (S3 K HK) as [u [Hu Eu]]. destruct (I2 u Hu) as [u' [Hu' Eu']].
          exists u'. split; auto. eapply meq_trans; eauto.
        * eauto. }
  destruct (G p (ONum (ofZ 0)) (OPoly r) Wp I H) as [G1 [_ G3]]. cbn [oterms] in G1, G3. split.
  - intros u Hu. destruct (G1 u Hu) as [[v [[] _]]|[E|[t [K [Ht [HK EK]]]]]].
    + exists []. split; [now left|auto].
    + destruct (A t Ht) as [L [HL EL]]. rewrite (meq_powsum x _ _ EL) in HK.
      apply mmul_In in HK. destruct HK as [a [b [[<-|[]] [Hb ->]]]].
      exists (rem x L ++ b). split.
      * right. unfold msubst. apply in_flat_map. exists L. split; auto. apply mmul_In. exists (rem x L), b. simpl. auto.
      * eapply meq_trans; [exact EK|]. apply meq_app; [now apply meq_rem|apply meq_refl].
  - intros K HK. unfold msubst in HK. apply in_flat_map in HK. destruct HK as [L [HL HK]].
    destruct (B L HL) as [t [Ht Et]]. apply mmul_In in HK. destruct HK as [a [b [[<-|[]] [Hb ->]]]].
    destruct (G3 t (rem x (tfactors t) ++ b) Ht) as [u [Hu Eu]].
    + rewrite (meq_powsum x _ _ Et). apply mmul_In. exists (rem x (tfactors t)), b. simpl. auto.
    + exists u. split; auto. eapply meq_trans; [exact Eu|]. apply meq_app; [now apply meq_rem|apply meq_refl].
Qed.

Lemma poly_reject_sup p x r lo up : wf_poly N p -> poly_reject N so p x = Ok r -> sup p lo up -> sup r (mreject x lo) (mreject x up).
Proof.
  intros [W _] H [A B]. unfold poly_reject in H.
  eapply mkPoly_sup; [|exact H|]; [now apply filter_wf|]. rewrite Forall_forall in W. split.
  - intros t Ht. apply filter_In in Ht. destruct Ht as [Ht F]. destruct (A t Ht) as [K [HK EK]].
    exists K. split; auto. apply filter_In. split; auto. apply Nat.eqb_eq. rewrite <- (meq_powsum x _ _ EK).
    apply powsum_zero; auto. now apply negb_true_iff.
  - intros K HK. apply filter_In in HK. destruct HK as [HK E]. apply Nat.eqb_eq in E.
    destruct (B K HK) as [t [Ht Et]]. exists t. split; auto. apply filter_In. split; auto.
    apply negb_true_iff. apply powsum_zero; auto. now rewrite (meq_powsum x _ _ Et).
Qed.

Lemma poly_collect_sup p x k r lo up :
  (1 <= k)%nat -> wf_poly N p -> poly_collect_for N so p (Factor x k) = Ok r -> sup p lo up ->
  sup r (mcollect x k lo) (mcollect x k up).
Proof.
  intros Hk [W _] H [A B]. unfold poly_collect_for in H. apply bind_Ok in H. destruct H as [ts [H1 H2]].
  rewrite Forall_forall in W.
  assert (Wf : forall t, In t (filter (fun x0 => fmem (Factor x k) (tfactors x0)) p) -> wf_term N t).
  { intros t Ht. apply filter_In in Ht. apply W. tauto. }
  assert (Wts : Forall (wf_term N) ts).
  { apply mapM_Ok in H1. apply Forall_forall. intros t Ht. destruct (Forall2_In_r _ _ _ _ H1 Ht) as [u [Hu E]].
    apply (term_collect_spec N so u (Factor x k) t (Wf u Hu) E). }
  eapply mkPoly_sup; [exact Wts|exact H2|]. unfold mcollect.
  eapply mapM_sup; [exact H1| |].
  - split.
    + intros t Ht. apply filter_In in Ht. destruct Ht as [Ht F]. destruct (A t Ht) as [K [HK EK]].
      exists K. split; auto. apply filter_In. split; auto. apply Nat.eqb_eq. rewrite <- (meq_powsum x _ _ EK).
      apply powsum_factor; auto. now apply fmem_In.
    + intros K HK. apply filter_In in HK. destruct HK as [HK E]. apply Nat.eqb_eq in E.
      destruct (B K HK) as [t [Ht Et]]. exists t. split; auto. apply filter_In. split; auto.
      apply fmem_In. apply powsum_factor; auto. now rewrite (meq_powsum x _ _ Et).
  - intros t t' K Ht E EK. destruct (term_collect_spec N so t (Factor x k) t' (Wf t Ht) E) as [_ [I [_ [_ [P _]]]]].
    eapply meq_trans; [|apply (meq_rem x _ _ EK)]. intros w. rewrite (wd_perm w _ _ P). f_equal. unfold rem.
    apply filter_ext_in. intros g Hg. f_equal.
    destruct (factor_eqb g (Factor x k)) eqn:F.
    + apply factor_eqb_eq in F. subst. simpl. now rewrite String.eqb_refl.
    + destruct (String.eqb_spec (fname g) x) as [Eg|Eg]; auto. exfalso.
      rewrite (wf_factors_same_name _ g (Factor x k) (proj1 (Wf t Ht)) Hg I Eg), factor_eqb_refl in F. discriminate.
Qed.

(** * Running programs *)

Fixpoint esup (e : pexpr N) : option monos :=
  match e with
  | ENum _ => None
  | EConst _ => Some [[]]
  | EVar x k => Some [[Factor x (Z.to_nat k)]]
  | ETerms _ => None
  | EAdd a b | ESub a b => match esup a, esup b with Some u, Some v => Some (u ++ v) | _, _ => None end
  | ENeg a => esup a
  | EMul a b => match esup a, esup b with Some u, Some v => Some (mmul u v) | _, _ => None end
  | EPow a n => match esup a with Some u => if (1 <=? n)%Z then Some (mpow u (Z.to_nat n)) else None | None => None end
  | ESubst _ _ _ => None
  end.

Lemma run_sup e o ms : run N so e = Ok o -> esup e = Some ms -> exists p, o = OPoly p /\ wf_poly N p /\ sup p ms ms.
Proof.
  revert o ms. induction e; intros o ms H E; simpl in H, E; try discriminate.
  - injection E as <-. apply bind_Ok in H. destruct H as [p [H1 H]]. injection H as <-. exists p.
    split; auto. split; [|eapply pconst_sup; eauto]. destruct (pconst_spec N so c) as [q [Eq [Wq _]]]. congruence.
  - injection E as <-. apply bind_Ok in H. destruct H as [p [H1 H]]. injection H as <-. exists p.
    split; auto. split; [|eapply pvar_sup; eauto]. apply (pvar_spec N so x k p H1).
  - destruct (esup e1) as [u|]; [|discriminate]. destruct (esup e2) as [v|]; [|discriminate]. injection E as <-.
    apply bind_Ok in H. destruct H as [a [H1 H]]. apply bind_Ok in H. destruct H as [b [H2 H]].
    destruct (IHe1 a u H1 eq_refl) as [p [-> [Wp Sp]]], (IHe2 b v H2 eq_refl) as [q [-> [Wq Sq]]].
    simpl in H. apply bind_Ok in H. destruct H as [r [H Er]]. injection Er as <-. exists r. split; auto.
    split; [eapply poly_add_wf; [| |exact H]; auto|eapply poly_add_sup; [| |exact H| |]; auto].
  - destruct (esup e1) as [u|]; [|discriminate]. destruct (esup e2) as [v|]; [|discriminate]. injection E as <-.
    apply bind_Ok in H. destruct H as [a [H1 H]]. apply bind_Ok in H. destruct H as [b [H2 H]].
    destruct (IHe1 a u H1 eq_refl) as [p [-> [Wp Sp]]], (IHe2 b v H2 eq_refl) as [q [-> [Wq Sq]]].
    simpl in H. apply bind_Ok in H. destruct H as [nb [H3 H]]. apply bind_Ok in H3. destruct H3 as [nq [H3 E3]]. injection E3 as <-.
    simpl in H. apply bind_Ok in H. destruct H as [r [H Er]]. injection Er as <-. exists r. split; auto.
    assert (Wn : wf_poly N nq) by apply (poly_neg_spec N so q nq Wq H3).
    split; [eapply poly_add_wf; [| |exact H]; auto|eapply poly_add_sup; [| |exact H| |]; auto].
    eapply poly_neg_sup; [|exact H3|]; auto.
  - apply bind_Ok in H. destruct H as [a [H1 H]]. destruct (IHe a ms H1 E) as [p [-> [Wp Sp]]].
    simpl in H. apply bind_Ok in H. destruct H as [r [H Er]]. injection Er as <-. exists r. split; auto.
    split; [apply (poly_neg_spec N so p r Wp H)|eapply poly_neg_sup; [|exact H|]; auto].
  - destruct (esup e1) as [u|]; [|discriminate]. destruct (esup e2) as [v|]; [|discriminate]. injection E as <-.
    apply bind_Ok in H. destruct H as [a [H1 H]]. apply bind_Ok in H. destruct H as [b [H2 H]].
    destruct (IHe1 a u H1 eq_refl) as [p [-> [Wp Sp]]], (IHe2 b v H2 eq_refl) as [q [-> [Wq Sq]]].
    simpl in H. apply bind_Ok in H. destruct H as [r [H Er]]. injection Er as <-. exists r. split; auto.
    split; [apply (poly_mul_spec N so p q r Wp Wq H)|eapply poly_mul_sup; [| |exact H| |]; auto].
  - destruct (esup e) as [u|]; [|discriminate]. destruct (1 <=? n)%Z eqn:Hn; [|discriminate]. injection E as <-.
    apply Z.leb_le in Hn.
    apply bind_Ok in H. destruct H as [a [H1 H]]. destruct (IHe a u H1 eq_refl) as [p [-> [Wp Sp]]].
    simpl in H. destruct o as [c|r].
    { unfold poly_pow in H. destruct (n <? 0)%Z; [discriminate|]. destruct (Z.to_nat n) eqn:F; [lia|].
      apply bind_Ok in H. destruct H as [? [_ H]]. discriminate. }
    exists r. split; auto. split; [apply (poly_pow_spec N so p n _ Wp H)|].
    rewrite <- (Z2Nat.id n) in H by lia. eapply poly_pow_sup; [|exact H|]; auto.
Qed.

(** * Consequences for the guards of the integration routines *)

Definition is_sq (x : string) (K : list factor) : Prop := meq K [Factor x 2].

(** Every monomial has total degree at most two. *)
Definition deg2 (ms : monos) : bool := forallb (fun K => wd (fun _ => 1) K <=? 2) ms.

Lemma highest_two p x lo up :
  wf_poly N p -> sup p lo up -> deg2 up = true -> In [Factor x 2] lo -> poly_highest_power N p x = Ok 2.
Proof.
  intros [W _] [A B] D S. rewrite Forall_forall in W.
  destruct (B _ S) as [t [Ht Et]].
  destruct (poly_highest_power_total N p x) as [k Hk]; [intros ->; destruct Ht|].
  destruct (poly_highest_power_spec N p x k Hk) as [_ [U [s [Hs Es]]]].
  rewrite Hk. f_equal.
  assert (L : 2 <= k).
  { specialize (U t Ht). rewrite term_highest_power_spec in U by auto. rewrite (meq_powsum x _ _ Et) in U.
    unfold powsum in U. simpl in U. rewrite String.eqb_refl in U. simpl in U. lia. }
  assert (k <= 2); [|lia].
  rewrite term_highest_power_spec in Es by auto. destruct (A s Hs) as [K [HK EK]].
  unfold deg2 in D. rewrite forallb_forall in D. specialize (D K HK). apply Nat.leb_le in D.
  rewrite (meq_powsum x _ _ EK) in Es. rewrite <- wd_powsum in Es. subst k.
  eapply Nat.le_trans; [|exact D]. clear. unfold wd. induction K as [|f K IH]; [apply Nat.le_refl|]. cbn [map list_sum fold_right].
  change (fold_right plus 0) with list_sum. destruct (String.eqb (fname f) x); lia.
Qed.

Lemma wd_split x K : wd (fun _ => 1) K = powsum x K + wd (fun _ => 1) (rem x K).
Proof.
  unfold wd, powsum, rem. induction K as [|f K IH]; [reflexivity|]. cbn [map list_sum fold_right filter].
  destruct (String.eqb (fname f) x); cbn [map negb list_sum fold_right]; change (fold_right plus 0) with list_sum; change (fold_right Nat.add 0) with list_sum in IH; lia.
Qed.

Lemma valid_deg0 K : Forall valid_factor K -> wd (fun _ => 1) K = 0 -> K = [].
Proof.
  intros V H. destruct K as [|f K]; auto. inversion V; subst. unfold wd in H. simpl in H. unfold valid_factor in H2. lia.
Qed.

Lemma collect_two_const p x r lo up :
  wf_poly N p -> sup p lo up -> deg2 up = true -> poly_collect_for N so p (Factor x 2) = Ok r -> poly_is_constant N r = true.
Proof.
  intros W S D H. destruct (poly_collect_sup p x 2 r lo up ltac:(lia) W H S) as [A _].
  destruct (poly_collect_spec N so p _ r W H) as [[Wr _] _]. rewrite Forall_forall in Wr.
  unfold poly_is_constant. apply forallb_forall. intros t Ht. unfold term_is_constant. apply Nat.eqb_eq.
  destruct (A t Ht) as [K [HK EK]]. unfold mcollect in HK. apply in_map_iff in HK. destruct HK as [L [<- HL]].
  apply filter_In in HL. destruct HL as [HL E]. apply Nat.eqb_eq in E.
  unfold deg2 in D. rewrite forallb_forall in D. specialize (D L HL). apply Nat.leb_le in D.
  rewrite (wd_split x L) in D.
  assert (Z : wd (fun _ => 1) (tfactors t) = 0) by (rewrite EK; lia).
  rewrite (valid_deg0 _ (proj2 (proj1 (Wr t Ht))) Z). reflexivity.
Qed.

Lemma const_not_function (r : poly N) y : poly_is_constant N r = true -> poly_is_function_of N r y = false.
Proof.
  intros H. unfold poly_is_constant in H. rewrite forallb_forall in H.
  destruct (poly_is_function_of N r y) eqn:E; auto. unfold poly_is_function_of in E. apply existsb_exists in E.
  destruct E as [t [Ht E]]. specialize (H t Ht). unfold term_is_constant in H. apply Nat.eqb_eq in H.
  unfold term_is_function_of in E. destruct (tfactors t); discriminate.
Qed.

End Support.
