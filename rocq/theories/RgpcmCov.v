(** The covariance matrices [compute_K_u] and [compute_K_z] of rgpcm.py. *)
From Coq Require Import Reals ZArith List Bool Lia Lra Psatz Permutation Sorted.
From Verif Require Import Py ExpPolyModel ListFacts ExpPolyIntModel ExpPolyIntProofs GpcmModel GpcmSpec GpcmInit GpcmPsd.
From Verif Require Import RgpcmModel RgpcmSpec.
Import ListNotations.
Local Open Scope R_scope.

(** * Weighted sums *)

Definition ling {A} (l : list (A * R)) (h : A -> R) : R := sum (map (fun tc => snd tc * h (fst tc)) l).

Lemma ling_cons {A} (p : A * R) l h : ling (p :: l) h = snd p * h (fst p) + ling l h.
Proof. reflexivity. Qed.

Lemma quad_tableg {A} (F : A -> A -> R) (l : list A) c :
  quad_form (map (fun a => map (F a) l) l) c = ling (combine l c) (fun a => ling (combine l c) (F a)).
Proof.
  unfold quad_form, ling. rewrite combine_map, map_map. f_equal. apply map_ext. intros [a x]. simpl. f_equal.
  rewrite combine_map, map_map. f_equal. apply map_ext. intros [b y]. simpl. ring.
Qed.

Lemma ling_ext {A} (l : list (A * R)) h h' : (forall a x, In (a, x) l -> h a = h' a) -> ling l h = ling l h'.
Proof.
  intros E. unfold ling. f_equal. apply map_ext_in. intros [a x] H. simpl. now rewrite (E a x H).
Qed.

Lemma ling_scal {A} (l : list (A * R)) k h : ling l (fun a => k * h a) = k * ling l h.
Proof. unfold ling. induction l as [|p l IH]; simpl; [ring|]. rewrite IH. ring. Qed.

Lemma ling_plus {A} (l : list (A * R)) h h' : ling l (fun a => h a + h' a) = ling l h + ling l h'.
Proof. unfold ling. induction l as [|p l IH]; simpl; [ring|]. rewrite IH. ring. Qed.

Lemma ling_perm {A} (l l' : list (A * R)) h : Permutation l l' -> ling l h = ling l' h.
Proof.
  intros P. unfold ling. induction P; simpl; auto; lra.
Qed.

Lemma ling_swap {A} (l l' : list (A * R)) (F : A -> A -> R) :
  ling l (fun a => ling l' (F a)) = ling l' (fun b => ling l (fun a => F a b)).
Proof.
  induction l as [|p l IH].
  - unfold ling at 1. simpl. symmetry. unfold ling at 1. induction l' as [|q l' IH']; simpl; auto. rewrite IH'. unfold ling. simpl. ring.
  - rewrite ling_cons, IH. rewrite <- ling_scal, <- ling_plus. apply ling_ext. intros b x _. now rewrite ling_cons.
Qed.

(** * Symmetric tables *)

Lemma table_at2g {A B} (F : A -> B -> R) (l : list A) (l' : list B) i j :
  at2 (map (fun a => map (F a) l') l) i j
  = match nth_error l i, nth_error l' j with Some a, Some b => Some (F a b) | _, _ => None end.
Proof.
  unfold at2. rewrite nth_error_map. destruct (nth_error l i) as [a|]; simpl; auto. rewrite nth_error_map.
  destruct (nth_error l' j); auto.
Qed.

Lemma table_symmetricg {A} (F : A -> A -> R) l :
  (forall a b, In a l -> In b l -> F a b = F b a) -> symmetric (map (fun a => map (F a) l) l).
Proof.
  intros H i j. rewrite !table_at2g. destruct (nth_error l i) eqn:E, (nth_error l j) eqn:E'; auto.
  f_equal. apply H; eapply nth_error_In; eauto.
Qed.

(** * Diagonal plus rank one *)

Lemma Forall_pd_sum {A} (l : list (A * R)) (al : A -> R) :
  (forall p, In p l -> 0 < al (fst p)) -> Exists (fun p => snd p <> 0) l ->
  0 < sum (map (fun p => snd p * (snd p * al (fst p))) l).
Proof.
  intros H E.
  assert (G : forall l : list (A * R), (forall p, In p l -> 0 < al (fst p)) -> 0 <= sum (map (fun p => snd p * (snd p * al (fst p))) l)).
  { clear. induction l as [|p l IH]; intros H; simpl; [lra|]. specialize (IH (fun q Hq => H q (or_intror Hq))).
    pose proof (H p (or_introl eq_refl)). nra. }
  induction E as [p l N|p l E IH]; simpl.
  - pose proof (G l (fun q Hq => H q (or_intror Hq))). pose proof (H p (or_introl eq_refl)).
    assert (0 < snd p * snd p) by nra. nra.
  - specialize (IH (fun q Hq => H q (or_intror Hq))). pose proof (H p (or_introl eq_refl)). nra.
Qed.

Section Diag.
Context {A : Type} (ix : A -> nat) (al be : A -> R).

Definition dr (p q : A) : R := (if Nat.eqb (ix p) (ix q) then al p else 0) + be p * be q.

Lemma diag_row (l : list (A * R)) p x :
  NoDup (map (fun q => ix (fst q)) l) -> In (p, x) l -> ling l (fun q => if Nat.eqb (ix p) (ix q) then al p else 0) = x * al p.
Proof.
  intros N H. induction l as [|q l IH]; [contradiction|]. rewrite ling_cons. simpl in N. inversion_clear N as [|? ? N1 N2].
  destruct H as [->|H].
  - simpl. rewrite Nat.eqb_refl. rewrite (ling_ext l _ (fun _ => 0 * 0)).
    + rewrite ling_scal. ring.
    + intros a y Ha. destruct (Nat.eqb_spec (ix p) (ix a)) as [E|]; [|ring].
      exfalso. apply N1. simpl. rewrite E. apply (in_map (fun q => ix (fst q)) l (a, y) Ha).
  - rewrite IH by auto. destruct (Nat.eqb_spec (ix p) (ix (fst q))) as [E|]; [|ring].
    exfalso. apply N1. rewrite <- E. apply (in_map (fun q => ix (fst q)) l (p, x) H).
Qed.

Lemma diag_rank1_quad (l : list (A * R)) :
  NoDup (map (fun q => ix (fst q)) l) ->
  ling l (fun p => ling l (dr p)) = sum (map (fun p => snd p * (snd p * al (fst p))) l) + ling l be ^ 2.
Proof.
  intros N. unfold dr.
  transitivity (ling l (fun p => ling l (fun q => if Nat.eqb (ix p) (ix q) then al p else 0)) + ling l (fun p => ling l be * be p)).
  - rewrite <- ling_plus. apply ling_ext. intros a x H. rewrite ling_plus. f_equal. rewrite ling_scal. ring.
  - rewrite ling_scal. f_equal; [|ring]. unfold ling at 1. f_equal. apply map_ext_in. intros [p x] H. simpl. f_equal. now apply diag_row.
Qed.

End Diag.

(** * K_z *)

Lemma K_z_alpha_pos m k : 0 < r_lam m -> r_a m < r_b m ->
  exists al, K_z_alpha m k = Ok al /\ 0 < al.
Proof.
  intros Hl Hab. unfold K_z_alpha, psd_matern_12. rewrite rdiv_ok by lra. cbn [bind].
  set (om := _ / (r_b m - r_a m)). assert (P : 0 < r_lam m ^ 2 + om ^ 2).
  { pose proof (pow2_ge_0 om). assert (0 < r_lam m ^ 2) by (apply pow_lt; auto). lra. }
  rewrite rdiv_ok by lra. cbn [bind].
  assert (Q : 0 < 2 * 1 * r_lam m / (r_lam m ^ 2 + om ^ 2)) by (apply Rdiv_lt_0_compat; lra).
  rewrite rdiv_ok by lra. eexists. split; [reflexivity|].
  assert (0 < / 2 * (r_b m - r_a m) / (2 * 1 * r_lam m / (r_lam m ^ 2 + om ^ 2))) by (apply Rdiv_lt_0_compat; lra).
  unfold cast_bool. destruct (k =? 0)%Z; lra.
Qed.

Lemma K_z_total m : 0 < r_lam m -> r_a m < r_b m ->
  exists als, mapM (K_z_alpha m) (r_ms m) = Ok als /\ List.length als = List.length (r_ms m) /\ Forall (fun x => 0 < x) als.
Proof.
  intros Hl Hab. destruct (mapM_total (K_z_alpha m) (r_ms m)) as [als H].
  { intros k _. destruct (K_z_alpha_pos m k Hl Hab) as [al [E _]]. eauto. }
  exists als. split; auto. apply mapM_Ok in H. split.
  - clear -H. induction H; simpl; congruence.
  - apply Forall_forall. intros x Hx. destruct (Forall2_In_r _ _ _ _ H Hx) as [k [_ E]].
    destruct (K_z_alpha_pos m k Hl Hab) as [al [E' P]]. congruence.
Qed.

Lemma combine_fst {A B} (l : list A) (l' : list B) : List.length l = List.length l' -> map fst (combine l l') = l.
Proof. revert l'. induction l as [|a l IH]; intros [|b l'] H; simpl in *; try discriminate; auto. f_equal. auto. Qed.
Lemma combine_snd {A B} (l : list A) (l' : list B) : List.length l = List.length l' -> map snd (combine l l') = l'.
Proof. revert l'. induction l as [|a l IH]; intros [|b l'] H; simpl in *; try discriminate; auto. f_equal. auto. Qed.

Lemma nonzero_combine {A} (l : list A) c : List.length c = List.length l ->
  Exists (fun x => x <> 0) c -> Exists (fun p : A * R => snd p <> 0) (combine l c).
Proof.
  intros H E. revert l H. induction E as [x c N|x c E IH]; intros [|a l] H; simpl in *; try discriminate.
  - now constructor.
  - apply Exists_cons_tl. apply IH. lia.
Qed.

Lemma K_z_pd m K : 0 < r_lam m -> r_a m < r_b m -> rcompute_K_z m = Ok K -> symmetric K /\ pd K.
Proof.
  intros Hl Hab H. unfold rcompute_K_z in H. destruct (K_z_total m Hl Hab) as [als [E [L P]]]. rewrite E in H. cbn [bind] in H.
  set (iks := combine (seq 0 (List.length (r_ms m))) (combine (r_ms m) als)) in H.
  assert (L1 : List.length (combine (r_ms m) als) = List.length (r_ms m)) by (rewrite combine_length; lia).
  assert (Li : List.length iks = List.length (r_ms m)) by (unfold iks; rewrite combine_length, seq_length; lia).
  assert (F1 : map fst iks = seq 0 (List.length (r_ms m))) by (apply combine_fst; rewrite seq_length; lia).
  assert (N : NoDup (map fst iks)) by (rewrite F1; apply seq_NoDup).
  set (F := dr (@fst nat (Z * R)) (fun p => snd (snd p)) (fun p => K_z_beta m (fst (snd p)))).
  injection H as <-. change (symmetric (map (fun p => map (F p) iks) iks) /\ pd (map (fun p => map (F p) iks) iks)). split.
  - apply table_symmetricg. intros p q Hp Hq. unfold F, dr. rewrite (Rmult_comm (K_z_beta _ _)). f_equal.
    destruct (Nat.eqb_spec (fst p) (fst q)) as [Epq|Npq].
    + rewrite Epq, Nat.eqb_refl. f_equal. f_equal.
      clear -N Hp Hq Epq. induction iks as [|x l IH]; [contradiction|]. simpl in N. inversion_clear N as [|? ? N1 N2].
      destruct Hp as [->|Hp], Hq as [->|Hq]; auto; exfalso; apply N1.
      * rewrite Epq. now apply in_map.
      * rewrite <- Epq. now apply in_map.
    + destruct (Nat.eqb_spec (fst q) (fst p)); congruence.
  - intros c Hc Ec. rewrite map_length in Hc. rewrite quad_tableg. unfold F. rewrite diag_rank1_quad.
    + assert (0 < sum (map (fun p => snd p * (snd p * snd (snd (fst p)))) (combine iks c))).
      { apply (Forall_pd_sum (combine iks c) (fun p : nat * (Z * R) => snd (snd p))); [|now apply nonzero_combine].
        intros [[i [k al]] x] Hp. simpl. apply in_combine_l in Hp. apply in_combine_r in Hp. apply in_combine_r in Hp.
        rewrite Forall_forall in P. auto. }
      pose proof (pow2_ge_0 (ling (combine iks c) (fun p => K_z_beta m (fst (snd p))))). lra.
    + rewrite <- map_map. rewrite combine_fst by auto. exact N.
Qed.

(** * The exponential kernel *)

Definition expk (g a b : R) : R := exp (- g * Rabs (a - b)).

Lemma expk_sym g a b : expk g a b = expk g b a.
Proof. unfold expk. now rewrite Rabs_minus_sym. Qed.

Lemma expk_chain g M s t : M >= s -> s >= t -> expk g M t = expk g M s * expk g s t.
Proof. intros. unfold expk. rewrite !Rabs_right by lra. rewrite <- exp_plus. f_equal. ring. Qed.

Definition Qk (g : R) (p : list (R * R)) : R := ling p (fun a => ling p (expk g a)).

(** Removing the largest point. *)
Lemma Qk_step g M x s y (l : list (R * R)) :
  M >= s -> (forall q, In q l -> s >= fst q) ->
  Qk g ((M, x) :: (s, y) :: l) = Qk g ((s, y + expk g M s * x) :: l) + x ^ 2 * (1 - expk g M s ^ 2).
Proof.
  intros HM Hl. unfold Qk. set (r := expk g M s).
  assert (EM : ling l (expk g M) = r * ling l (expk g s)).
  { rewrite <- ling_scal. apply ling_ext. intros a z Ha. unfold r. apply expk_chain; auto. apply (Hl (a, z) Ha). }
  assert (Es : forall a, ling l (fun b => expk g b a) = ling l (expk g a)).
  { intros a. apply ling_ext. intros b z _. apply expk_sym. }
  assert (D : forall a, expk g a a = 1) by (intros; unfold expk; rewrite Rminus_eq_0, Rabs_R0, Rmult_0_r; apply exp_0).
  rewrite !ling_cons. simpl fst; simpl snd.
  rewrite (ling_ext l (fun a => ling ((M, x) :: (s, y) :: l) (expk g a)) (fun a => x * expk g a M + (y * expk g a s + ling l (expk g a))))
    by (intros; rewrite !ling_cons; reflexivity).
  rewrite (ling_ext l (fun a => ling ((s, _) :: l) (expk g a)) (fun a => (y + r * x) * expk g a s + ling l (expk g a)))
    by (intros; rewrite !ling_cons; reflexivity).
  rewrite !ling_plus, !ling_scal, !Es, EM, !D, (expk_sym g s M). fold r. ring.
Qed.

Definition desc (p q : R * R) : Prop := fst p >= fst q.

Lemma expk_lt1 g a b : 0 < g -> a <> b -> 0 < expk g a b < 1.
Proof.
  intros Hg H. unfold expk. split; [apply exp_pos|]. rewrite <- exp_0. apply exp_increasing.
  pose proof (Rabs_pos_lt (a - b) ltac:(lra)). nra.
Qed.

Lemma expk_le1 g a b : 0 <= g -> 0 < expk g a b <= 1.
Proof.
  intros Hg. unfold expk. split; [apply exp_pos|]. rewrite <- exp_0.
  pose proof (Rabs_pos (a - b)). destruct (Req_dec (- g * Rabs (a - b)) 0) as [->|N]; [lra|]. left. apply exp_increasing. nra.
Qed.

Lemma Qk_sorted_psd g l : 0 <= g -> StronglySorted desc l -> 0 <= Qk g l.
Proof.
  intros Hg. remember (List.length l) as n eqn:En. revert l En. induction n as [|n IH]; intros [|[M x] l] En S; try discriminate.
  - unfold Qk, ling. simpl. lra.
  - destruct l as [|[s y] l].
    + unfold Qk, ling. simpl. unfold expk. rewrite Rminus_eq_0, Rabs_R0, Rmult_0_r, exp_0. nra.
    + apply StronglySorted_inv in S. destruct S as [S F]. rewrite Forall_forall in F.
      pose proof S as S'. apply StronglySorted_inv in S'. destruct S' as [S' F']. rewrite Forall_forall in F'.
      rewrite Qk_step.
      * assert (0 <= Qk g ((s, y + expk g M s * x) :: l)).
        { apply IH; [simpl in *; lia|]. constructor; auto. apply Forall_forall. intros q Hq. apply (F' q Hq). }
        pose proof (expk_le1 g M s Hg). pose proof (pow2_ge_0 x). assert (expk g M s ^ 2 <= 1) by nra. nra.
      * apply (F (s, y)). now left.
      * intros q Hq. apply (F' q Hq).
Qed.

Lemma Qk_sorted_pd g l : 0 < g -> StronglySorted desc l -> NoDup (map fst l) -> Exists (fun p => snd p <> 0) l -> 0 < Qk g l.
Proof.
  intros Hg. remember (List.length l) as n eqn:En. revert l En. induction n as [|n IH]; intros [|[M x] l] En S N E; try discriminate.
  - inversion E.
  - destruct l as [|[s y] l].
    + inversion_clear E as [? ? E'|? ? E']; [|inversion E']. unfold Qk, ling. simpl in *. unfold expk. rewrite Rminus_eq_0, Rabs_R0, Rmult_0_r, exp_0. nra.
    + apply StronglySorted_inv in S. destruct S as [S F]. rewrite Forall_forall in F.
      pose proof S as S'. apply StronglySorted_inv in S'. destruct S' as [S' F']. rewrite Forall_forall in F'.
      simpl in N. inversion_clear N as [|? ? N1 N2].
      rewrite Qk_step.
      * assert (St : StronglySorted desc ((s, y + expk g M s * x) :: l)).
        { constructor; auto. apply Forall_forall. intros q Hq. apply (F' q Hq). }
        pose proof (expk_lt1 g M s Hg ltac:(intros ->; apply N1; now left)).
        assert (expk g M s ^ 2 < 1) by nra.
        destruct (Req_dec x 0) as [->|Nx].
        -- replace (y + expk g M s * 0) with y in * by ring.
           assert (0 < Qk g ((s, y) :: l)).
           { apply IH; auto. inversion_clear E as [? ? E'|? ? E']; simpl in *; auto; now elim E'. }
           lra.
        -- assert (0 <= Qk g ((s, y + expk g M s * x) :: l)) by (apply Qk_sorted_psd; auto; lra).
           assert (0 < x ^ 2) by (replace (x ^ 2) with (x * x) by ring; nra). nra.
      * apply (F (s, y)). now left.
      * intros q Hq. apply (F' q Hq).
Qed.

Lemma sort_desc (l : list (R * R)) : exists l', Permutation l l' /\ StronglySorted desc l'.
Proof.
  induction l as [|p l [l' [P S]]]; [exists []; split; constructor|].
  assert (I : exists l'', Permutation (p :: l') l'' /\ StronglySorted desc l'').
  { clear P. induction l' as [|q l' IH].
    - exists [p]. split; [auto|]. repeat constructor.
    - apply StronglySorted_inv in S. destruct S as [S F]. destruct (Rle_lt_dec (fst q) (fst p)) as [L|L].
      + exists (p :: q :: l'). split; auto. constructor; [now constructor|]. rewrite Forall_forall in *.
        intros z [<-|Hz]; unfold desc in *; [lra|]. pose proof (F z Hz). lra.
      + destruct (IH S) as [l'' [P'' S'']]. exists (q :: l''). split.
        * rewrite perm_swap. now constructor.
        * constructor; auto. rewrite Forall_forall in *. intros z Hz. apply (Permutation_in _ (Permutation_sym P'')) in Hz.
          destruct Hz as [<-|Hz]; [unfold desc; lra|auto]. }
  destruct I as [l'' [P'' S'']]. exists l''. split; auto. rewrite P. exact P''.
Qed.

Lemma Qk_perm g l l' : Permutation l l' -> Qk g l = Qk g l'.
Proof.
  intros P. unfold Qk. rewrite (ling_perm l l' _ P). apply ling_ext. intros a x _. now apply ling_perm.
Qed.

Lemma Qk_psd g l : 0 <= g -> 0 <= Qk g l.
Proof. intros Hg. destruct (sort_desc l) as [l' [P S]]. rewrite (Qk_perm g _ _ P). now apply Qk_sorted_psd. Qed.

Lemma Qk_pd g l : 0 < g -> NoDup (map fst l) -> Exists (fun p => snd p <> 0) l -> 0 < Qk g l.
Proof.
  intros Hg N E. destruct (sort_desc l) as [l' [P S]]. rewrite (Qk_perm g _ _ P). apply Qk_sorted_pd; auto.
  - eapply Permutation_NoDup; [apply (Permutation_map fst P)|auto].
  - apply Exists_exists in E. destruct E as [p [Hp Np]]. apply Exists_exists. exists p. split; auto. eapply Permutation_in; eauto.
Qed.

Lemma quad_scale_table (F : R -> R -> R) l c k :
  quad_form (map (fun a => map (fun b => k * F a b) l) l) c = k * quad_form (map (fun a => map (F a) l) l) c.
Proof.
  rewrite !quad_tableg. rewrite <- ling_scal. apply ling_ext. intros a x _. now rewrite <- ling_scal.
Qed.
