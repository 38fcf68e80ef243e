(** The kernel of the modelled function given the inducing variables of the filter is strictly
    positive definite at distinct times. *)
From Coq Require Import Reals ZArith List Bool String Lia Lra Psatz.
From Coquelicot Require Import Coquelicot.
From Verif Require Import Py ExpPolyModel ListFacts ExpPolySpec ExpPolyIntModel ExpPolyIntProofs.
From Verif Require Import Gauss Gauss2 Gauss3 Fubini ExpPolyIntProps GaussDom GaussFeat GaussFeat2 GaussCausal.
From Verif Require Import GpcmModel GpcmSpec GpcmPsd GpcmPd GpcmProps GpcmProps3 GpcmFeat GpcmEntries GpcmKernel FilterKernel KernelForm.
Import ListNotations.
Local Open Scope R_scope.

Section Joint.
Context (m : gpcm) (Pg : 0 < g_gamma m) (Na : g_alpha_t m <> 0).

Lemma kh_pd n (t c : nat -> R) : (forall i j, (i < n)%nat -> (j < n)%nat -> t i = t j -> i = j) ->
  (exists i, (i < n)%nat /\ c i <> 0) -> 0 < Sum n (fun i => Sum n (fun j => c i * c j * kh m (t i) (t j))).
Proof.
  intros ND. apply table_Sum_pd.
  apply (table_pd_iff _ (fun t => g_alpha_t m * exp (- (g_alpha m + g_gamma m) * t ^ 2)) (2 * g_gamma m)); [|lra| |].
  - intros a b. unfold kh.
    replace (- g_alpha m * (a ^ 2 + b ^ 2) - g_gamma m * (a - b) ^ 2)
      with (- (g_alpha m + g_gamma m) * a ^ 2 + (- (g_alpha m + g_gamma m) * b ^ 2 + 2 * g_gamma m * (a * b))) by ring.
    rewrite !exp_plus. ring.
  - intros a E. apply Rmult_integral in E. destruct E as [E|E]; [contradiction|]. generalize (exp_pos (- (g_alpha m + g_gamma m) * a ^ 2)). lra.
  - now apply table_nodup.
Qed.

Context (nu : nat) (tu : nat -> R).
Hypothesis NDu : forall i j, (i < nu)%nat -> (j < nu)%nat -> tu i = tu j -> i = j.
Context (W : nat -> nat -> R).
Hypothesis Wsym : forall a b, (a < nu)%nat -> (b < nu)%nat -> W a b = W b a.
Hypothesis HW : forall i j, (i < nu)%nat -> (j < nu)%nat ->
  Sum nu (fun k => Sum nu (fun l => W k i * kh m (tu k) (tu l) * W l j)) = W i j.

Lemma fresh_form n (s c : nat -> R) :
  (forall i j, (i < n)%nat -> (j < n)%nat -> s i = s j -> i = j) ->
  (forall i a, (i < n)%nat -> (a < nu)%nat -> s i <> tu a) -> (exists i, (i < n)%nat /\ c i <> 0) ->
  0 < Sum n (fun p => Sum n (fun q => c p * c q *
        (kh m (s p) (s q) - Sum nu (fun a => Sum nu (fun b => W a b * (kh m (s p) (tu a) * kh m (s q) (tu b))))))).
Proof.
  intros NDs F [i0 [Hi0 Ni0]]. apply (schur_pd nu (fun a b => kh m (tu a) (tu b)) W HW). intros d.
  set (P := fun i => if lt_dec i n then s i else tu (i - n)%nat).
  set (C := fun i => if lt_dec i n then c i else d (i - n)%nat).
  assert (H : 0 < Sum (n + nu) (fun i => Sum (n + nu) (fun j => C i * C j * kh m (P i) (P j)))).
  { apply kh_pd.
    - intros i j Hi Hj. unfold P. destruct (lt_dec i n), (lt_dec j n); intros E.
      + now apply NDs.
      + exfalso. apply (F i (j - n)%nat); auto; lia.
      + exfalso. apply (F j (i - n)%nat); auto; lia.
      + assert (i - n = j - n)%nat; [|lia]. apply NDu; auto; lia.
    - exists i0. split; [lia|]. unfold C. destruct (lt_dec i0 n); [auto|lia]. }
  eapply Rlt_le_trans; [exact H|]. right. rewrite Sum_app.
  assert (P1 : forall i, (i < n)%nat -> P i = s i /\ C i = c i).
  { intros i Hi. unfold P, C. destruct (lt_dec i n); [auto|lia]. }
  assert (P2 : forall i, P (n + i)%nat = tu i /\ C (n + i)%nat = d i).
  { intros i. unfold P, C. destruct (lt_dec (n + i) n); [lia|]. replace (n + i - n)%nat with i by lia. auto. }
  set (X := Sum nu (fun a => d a * Sum n (fun p => c p * kh m (s p) (tu a)))).
  assert (E1 : Sum n (fun i => Sum (n + nu) (fun j => C i * C j * kh m (P i) (P j)))
             = Sum n (fun p => Sum n (fun q => c p * c q * kh m (s p) (s q))) + X).
  { transitivity (Sum n (fun p => Sum n (fun q => c p * c q * kh m (s p) (s q)) + Sum nu (fun a => c p * d a * kh m (s p) (tu a)))).
    - apply Sum_ext. intros i Hi. rewrite Sum_app. destruct (P1 i Hi) as [-> ->]. f_equal; apply Sum_ext; intros j Hj.
      + destruct (P1 j Hj) as [-> ->]. reflexivity.
      + destruct (P2 j) as [-> ->]. reflexivity.
    - rewrite Sum_plus. f_equal. rewrite Sum_swap. unfold X. apply Sum_ext. intros a Ha. rewrite <- Sum_scal. apply Sum_ext. intros p Hp. ring. }
  assert (E2 : Sum nu (fun i => Sum (n + nu) (fun j => C (n + i)%nat * C j * kh m (P (n + i)%nat) (P j)))
             = X + Sum nu (fun a => Sum nu (fun b => d a * d b * kh m (tu a) (tu b)))).
  { unfold X. rewrite <- Sum_plus. apply Sum_ext. intros a Ha. rewrite Sum_app. destruct (P2 a) as [-> ->]. f_equal.
    - rewrite <- Sum_scal. apply Sum_ext. intros p Hp. destruct (P1 p Hp) as [-> ->]. rewrite kh_sym. ring.
    - apply Sum_ext. intros b Hb. destruct (P2 b) as [-> ->]. reflexivity. }
  cbv beta. rewrite E1, E2. ring.
Qed.
End Joint.

Section Kernel.
Context (m : gpcm) (Pa : 0 < g_alpha m) (Pg : 0 < g_gamma m) (Na : g_alpha_t m <> 0).
Context (n nu : nat) (t tu : nat -> R) (hx : nat -> nat -> R) (ux : nat -> nat -> nat -> nat -> R).
Hypothesis Hhx : forall p q, (p < n)%nat -> (q < n)%nat ->
  is_integral (fun tau => kh m (t p - tau) (t q - tau)) m_infty (upto m (Rmin (t p) (t q))) (hx p q).
Hypothesis Hux : forall p q a b, (p < n)%nat -> (q < n)%nat -> (a < nu)%nat -> (b < nu)%nat ->
  is_integral (fun tau => kh m (t p - tau) (tu a) * kh m (tu b) (t q - tau)) m_infty (upto m (Rmin (t p) (t q))) (ux p q a b).
Context (W : nat -> nat -> R) (v : nat -> R).
Hypothesis Wsym : forall a b, (a < nu)%nat -> (b < nu)%nat -> W a b = W b a.
Hypothesis HW : forall i j, (i < nu)%nat -> (j < nu)%nat ->
  Sum nu (fun k => Sum nu (fun l => W k i * kh m (tu k) (tu l) * W l j)) = W i j.
Hypothesis NDu : forall i j, (i < nu)%nat -> (j < nu)%nat -> tu i = tu j -> i = j.
Hypothesis NDt : forall i j, (i < n)%nat -> (j < n)%nat -> t i = t j -> i = j.

Let q1 (p a : nat) (x : R) : R := kh m (t p - x) (tu a).
Let r (p q : nat) (x : R) : R :=
  kh m (t p - x) (t q - x) - Sum nu (fun a => Sum nu (fun b => W a b * (q1 p a x * q1 q b x)))
  + Sum nu (fun a => Sum nu (fun b => v a * v b * (q1 p a x * q1 q b x))).

Lemma low (k : nat) (f : nat -> R) : exists b, forall i, (i < k)%nat -> b <= f i.
Proof.
  induction k as [|k [b H]]; [exists 0; intros; lia|]. exists (Rmin b (f k)). intros i Hi.
  pose proof (Rmin_l b (f k)). pose proof (Rmin_r b (f k)).
  assert (i = k \/ (i < k)%nat) as [->|Hi'] by lia; auto. specialize (H i Hi'). lra.
Qed.

Lemma kval_pd (c : nat -> R) : (exists i, (i < n)%nat /\ c i <> 0) ->
  0 < Sum n (fun p => Sum n (fun q => c p * c q * kval nu hx ux W v p q)).
Proof.
  intros Nc.
  destruct (low n t) as [lt Hlt]. destruct (low nu (fun a => - tu a)) as [lu Hlu].
  set (x0 := Rmin 0 (lt + lu) - 1).
  assert (X0 : x0 <= 0 /\ x0 <= lt + lu - 1) by (unfold x0; pose proof (Rmin_l 0 (lt + lu)); pose proof (Rmin_r 0 (lt + lu)); lra).
  set (x1 := Rmin x0 lt).
  assert (X1 : x1 <= x0 /\ x1 <= lt) by (unfold x1; pose proof (Rmin_l x0 lt); pose proof (Rmin_r x0 lt); lra).
  assert (Rp : forall d x, 0 <= Sum n (fun p => Sum n (fun q => d p * d q * r p q x))).
  { exact (r_psd m Pa Pg n nu t tu W v Wsym HW). }
  assert (Rd : forall p q, dom1 (r p q)) by exact (r_dom1 m Pa Pg nu t tu W v).
  assert (Px : 0 < Sum n (fun p => Sum n (fun q => c p * c q * r p q x1))).
  { pose proof (fresh_form m Pg Na nu tu NDu W HW n (fun p => t p - x1) c) as F.
    assert (P : 0 < Sum n (fun p => Sum n (fun q => c p * c q *
        (kh m (t p - x1) (t q - x1) - Sum nu (fun a => Sum nu (fun b => W a b * (q1 p a x1 * q1 q b x1))))))).
    { apply F; auto.
      - intros i j Hi Hj E. apply NDt; auto. lra.
      - intros i a Hi Ha E. specialize (Hlt i Hi). specialize (Hlu a Ha). cbv beta in *. lra. }
    assert (E : Sum n (fun p => Sum n (fun q => c p * c q * r p q x1))
      = Sum n (fun p => Sum n (fun q => c p * c q *
        (kh m (t p - x1) (t q - x1) - Sum nu (fun a => Sum nu (fun b => W a b * (q1 p a x1 * q1 q b x1))))))
        + Sum n (fun p => c p * Sum nu (fun a => v a * q1 p a x1)) * Sum n (fun p => c p * Sum nu (fun a => v a * q1 p a x1))).
    { rewrite Sum_sq, <- Sum_plus. apply Sum_ext. intros p _. rewrite <- Sum_plus. apply Sum_ext. intros q _. unfold r.
      replace (c p * Sum nu (fun a => v a * q1 p a x1) * (c q * Sum nu (fun a => v a * q1 q a x1)))
        with (c p * c q * (Sum nu (fun a => v a * q1 p a x1) * Sum nu (fun a => v a * q1 q a x1))) by ring.
      rewrite Sum_prod.
      rewrite (Sum_ext nu (fun a => Sum nu (fun b => v a * v b * (q1 p a x1 * q1 q b x1))) (fun i => Sum nu (fun j => v i * q1 p i x1 * (v j * q1 q j x1)))).
      - ring.
      - intros a _. apply Sum_ext. intros b _. ring. }
    rewrite E. pose proof (Rle_0_sqr (Sum n (fun p => c p * Sum nu (fun a => v a * q1 p a x1)))) as SQ. unfold Rsqr in SQ. lra. }
  assert (D1 : dom1 (fun x => form n c (fun p q => r p q x))) by (apply (form_dom1 n r); auto).
  assert (P : 0 < form n c (fun p q => Int (upto m (Rmin (t p) (t q))) (r p q))).
  { unfold upto. destruct (g_causal m).
    - apply Rlt_le_trans with (form n c (fun p q => Int x1 (r p q))).
      + rewrite (form_Int n r) by (auto; exact I).
        apply (Int_pos (fun x => form n c (fun p q => r p q x)) x1 x1 I D1 (Rp c) Px); [lra|cbn; lra].
      + apply (causal_tail n t r (fun p q _ _ => Rd p q) Rp (count n c)); auto. intros p Hp _. specialize (Hlt p Hp). lra.
    - rewrite (form_Int n r (fun p q _ _ => Rd p q) p_infty c I). apply (Int_pos (fun x => form n c (fun p q => r p q x)) p_infty x1 I D1 (Rp c) Px); [lra|exact I]. }
  unfold form in P. eapply Rlt_le_trans; [exact P|]. right. apply Sum_ext. intros p Hp. apply Sum_ext. intros q Hq.
  now rewrite (kval_Int m Pa Pg n nu t tu hx ux Hhx Hux W v).
Qed.
End Kernel.

(** Shifting both times does not change the integrals. *)
Lemma ux_shift (m : gpcm) a b s t h v w :
  is_integral (fun tau => kh m (s - tau) a * kh m b (t - tau)) m_infty (upto m (Rmin s t)) v ->
  is_integral (fun tau => kh m (s + h - tau) a * kh m b (t + h - tau)) m_infty (upto m (Rmin (s + h) (t + h))) w -> v = w.
Proof.
  intros H H'. eapply is_integral_unique; [exact H|].
  eapply is_integral_ext; [|apply (is_integral_shift (fun tau => kh m (s + h - tau) a * kh m b (t + h - tau)) h m_infty (upto m (Rmin s t)) w)].
  - intros x. cbv beta. f_equal; f_equal; ring.
  - unfold upto in *. destruct (g_causal m); simpl lim_affine; auto.
    replace (1 * Rmin s t + h) with (Rmin (s + h) (t + h)); [exact H'|]. unfold Rmin. destruct (Rle_dec (s + h) (t + h)), (Rle_dec s t); lra.
Qed.
