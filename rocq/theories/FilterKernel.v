(** The kernels of the filters are covariance functions. *)
From Coq Require Import Reals ZArith List Bool String Lia Lra Psatz.
From Coquelicot Require Import Coquelicot.
From Verif Require Import Py ExpPolyModel ListFacts ExpPolySpec ExpPolyIntModel ExpPolyIntProofs.
From Verif Require Import Gauss GaussFeat GpcmModel GpcmSpec GpcmPsd GpcmPd GpcmProofs2 GpcmProps GpcmProps3 GpcmEntries RgpcmModel RgpcmSpec RgpcmCov.
Import ListNotations.
Local Open Scope R_scope.

Section Table.
Context (F : R -> R -> R) (n : nat) (t : nat -> R).
Let l := map t (seq 0 n).
Let K := map (fun a => map (F a) l) l.

Lemma table_len : List.length l = n.
Proof. unfold l. now rewrite map_length, seq_length. Qed.
Lemma table_shape : shape2 K n n.
Proof.
  split; [unfold K; rewrite map_length; apply table_len|]. apply Forall_forall. intros r Hr. apply in_map_iff in Hr.
  destruct Hr as [p [<- _]]. rewrite map_length. apply table_len.
Qed.
Lemma table_nth k : (k < n)%nat -> nth k l 0 = t k.
Proof.
  intros Hk. unfold l. rewrite (nth_indep _ 0 (t O)) by (fold l; rewrite table_len; lia). now rewrite map_nth, seq_nth by lia.
Qed.
Lemma table_get i j : (i < n)%nat -> (j < n)%nat -> get2 K i j = F (t i) (t j).
Proof.
  intros Hi Hj. unfold get2, K. rewrite (nth_indep _ [] (map (F 0) l)) by (rewrite map_length, table_len; lia).
  rewrite (map_nth (fun a => map (F a) l)). rewrite (nth_indep _ 0 (F (nth i l 0) 0)) by (rewrite map_length, table_len; lia).
  rewrite (map_nth (F (nth i l 0))). now rewrite !table_nth.
Qed.

Lemma table_quad c : quad_form K (map c (seq 0 n)) = Sum n (fun i => Sum n (fun j => c i * c j * F (t i) (t j))).
Proof.
  assert (L : List.length (map c (seq 0 n)) = n) by now rewrite map_length, seq_length.
  rewrite (quad_form_Sum K n _ table_shape L). apply Sum_ext. intros i Hi. apply Sum_ext. intros j Hj.
  rewrite table_get by auto.
  assert (E : forall k, (k < n)%nat -> nth k (map c (seq 0 n)) 0 = c k).
  { intros k Hk. rewrite (nth_indep _ 0 (c O)) by lia. now rewrite map_nth, seq_nth by lia. }
  now rewrite !E.
Qed.

Lemma table_Sum_psd c : psd K -> 0 <= Sum n (fun i => Sum n (fun j => c i * c j * F (t i) (t j))).
Proof.
  intros P. rewrite <- table_quad. apply P. rewrite map_length, seq_length. symmetry. apply table_shape.
Qed.
Lemma table_Sum_pd c : positive_definite K -> (exists i, (i < n)%nat /\ c i <> 0) ->
  0 < Sum n (fun i => Sum n (fun j => c i * c j * F (t i) (t j))).
Proof.
  intros P [i [Hi Ni]]. rewrite <- table_quad. apply P; [rewrite map_length, seq_length; symmetry; apply table_shape|].
  exists (c i). split; auto. apply in_map, in_seq. lia.
Qed.
Lemma table_nodup : (forall i j, (i < n)%nat -> (j < n)%nat -> t i = t j -> i = j) -> NoDup l.
Proof.
  intros H. unfold l. assert (G : forall s, NoDup s -> (forall i, In i s -> (i < n)%nat) -> NoDup (map t s)).
  { induction s as [|i s IH]; intros N B; cbn; constructor.
    - intros Hi. apply in_map_iff in Hi. destruct Hi as [j [E Hj]]. inversion N; subst.
      rewrite (H j i) in Hj; auto; apply B; cbn; auto.
    - inversion N; subst. apply IH; auto. intros j Hj. apply B. now right. }
  apply G; [apply seq_NoDup|]. intros i Hi. apply in_seq in Hi. lia.
Qed.
End Table.

(** ** The GPCM *)
Section G.
Context (m : gpcm) (Pg : 0 < g_gamma m) (k : R -> R -> R).
Hypothesis Hk : forall s t, k_h_kernel m s t = Ok (k s t).

Definition gwin (t : R) : R := (if g_causal m then if Rle_dec 0 t then 1 else 0 else 1) * exp (- g_alpha m * t ^ 2).

Lemma kernel_value s t : k s t = gwin s * gwin t * exp (- g_gamma m * (s - t) ^ 2).
Proof.
  pose proof (Hk s t) as H. unfold k_h_kernel in H. rewrite rdiv_ok in H by lra. cbn [bind] in H.
  assert (Q : 0 < 1 / (2 * g_gamma m)) by (apply Rdiv_lt_0_compat; lra).
  destruct (Rlt_dec (1 / (2 * g_gamma m)) 0); [lra|]. set (q := sqrt (1 / (2 * g_gamma m))) in *.
  assert (Sq : q * q = 1 / (2 * g_gamma m)) by (apply sqrt_sqrt; lra). assert (Pq : 0 < q) by (apply sqrt_lt_R0; lra).
  assert (E : exp (- ((s - t) / q) ^ 2 / 2) = exp (- g_gamma m * (s - t) ^ 2)).
  { f_equal. replace (((s - t) / q) ^ 2) with ((s - t) ^ 2 / (q * q)) by (field; lra). rewrite Sq. field. lra. }
  cbv beta zeta in H. rewrite E in H. apply (f_equal (fun r => match r with Ok x => x | Err _ => 0 end)) in H. cbv beta iota in H. rewrite <- H. unfold gwin.
  generalize (exp (- g_gamma m * (s - t) ^ 2)), (exp (- g_alpha m * s ^ 2)), (exp (- g_alpha m * t ^ 2)). intros.
  destruct (g_causal m); [destruct (Rle_dec 0 s), (Rle_dec 0 t)|]; ring.
Qed.

Lemma gk_psd n (t c : nat -> R) : 0 <= Sum n (fun i => Sum n (fun j => c i * c j * k (t i) (t j))).
Proof.
  apply table_Sum_psd. rewrite (map_ext _ (fun a => map (fun b => gwin a * gwin b * exp (- g_gamma m * (a - b) ^ 2)) (map t (seq 0 n)))).
  - apply psd_scale. apply eq_kernel_psd. lra.
  - intros a. apply map_ext. intros b. apply kernel_value.
Qed.

Lemma gk_pd n (t c : nat -> R) : g_causal m = false ->
  (forall i j, (i < n)%nat -> (j < n)%nat -> t i = t j -> i = j) -> (exists i, (i < n)%nat /\ c i <> 0) ->
  0 < Sum n (fun i => Sum n (fun j => c i * c j * k (t i) (t j))).
Proof.
  intros Hc ND. apply table_Sum_pd.
  apply (table_pd_iff k (fun t => exp (- (g_alpha m + g_gamma m) * t ^ 2)) (2 * g_gamma m)); [|lra| |].
  - intros a b. rewrite kernel_value. unfold gwin. rewrite Hc, !Rmult_1_l, <- !exp_plus. f_equal. ring.
  - intros a. apply Rgt_not_eq, exp_pos.
  - now apply table_nodup.
Qed.
End G.

(** ** Weighted exponential kernels *)
Section E.
Context (g : R) (w : R -> R) (k : R -> R -> R).
Hypothesis Hk : forall s t, k s t = w s * w t * expk g s t.

Lemma ek_scale n (t c : nat -> R) :
  Sum n (fun i => Sum n (fun j => c i * c j * k (t i) (t j)))
  = Sum n (fun i => Sum n (fun j => c i * w (t i) * (c j * w (t j)) * expk g (t i) (t j))).
Proof. apply Sum_ext. intros i _. apply Sum_ext. intros j _. rewrite Hk. ring. Qed.

Lemma ek_psd n (t c : nat -> R) : 0 <= g -> 0 <= Sum n (fun i => Sum n (fun j => c i * c j * k (t i) (t j))).
Proof.
  intros Hg. rewrite ek_scale. apply (table_Sum_psd (expk g) n t (fun i => c i * w (t i))). intros x Hx. rewrite quad_tableg. now apply Qk_psd.
Qed.

Lemma ek_pd n (t c : nat -> R) : 0 < g -> (forall i, (i < n)%nat -> w (t i) <> 0) ->
  (forall i j, (i < n)%nat -> (j < n)%nat -> t i = t j -> i = j) -> (exists i, (i < n)%nat /\ c i <> 0) ->
  0 < Sum n (fun i => Sum n (fun j => c i * c j * k (t i) (t j))).
Proof.
  intros Hg Hw ND [i [Hi Ni]]. rewrite ek_scale. apply (table_Sum_pd (expk g) n t (fun i => c i * w (t i))).
  - intros x Lx [y [Hy Ny]]. rewrite quad_tableg. rewrite map_length in Lx. apply Qk_pd; auto.
    + rewrite combine_fst by auto. now apply table_nodup.
    + apply nonzero_combine; [exact Lx|]. apply Exists_exists. eauto.
  - exists i. split; [exact Hi|]. apply Rmult_integral_contrapositive_currified; auto.
Qed.
End E.

(** ** The RGPCM *)
Definition rwin (m : rgpcm) (t : R) : R := (if Rle_dec 0 t then 1 else 0) * exp (- r_alpha m * Rabs t).

Lemma kernel_total (m : gpcm) : 0 < g_gamma m -> exists k, forall s t, k_h_kernel m s t = Ok (k s t).
Proof.
  intros Pg. exists (fun s t => match k_h_kernel m s t with Ok v => v | Err _ => 0 end). intros s t. unfold k_h_kernel.
  rewrite rdiv_ok by lra. cbn [bind]. assert (0 < 1 / (2 * g_gamma m)) by (apply Rdiv_lt_0_compat; lra).
  destruct (Rlt_dec (1 / (2 * g_gamma m)) 0); [lra|]. reflexivity.
Qed.
