(** The kernel of the modelled function given the inducing variables of the filter is positive
    semi-definite at every finite set of times. *)
From Coq Require Import Reals ZArith List Bool String Lia Lra Psatz.
From Coquelicot Require Import Coquelicot.
From Verif Require Import Py ExpPolyModel ListFacts ExpPolySpec ExpPolyIntModel ExpPolyIntProofs.
From Verif Require Import Gauss Gauss2 Gauss3 Fubini ExpPolyIntProps GaussDom GaussFeat GaussFeat2 GaussCausal.
From Verif Require Import GpcmModel GpcmSpec GpcmPsd GpcmPd GpcmProps GpcmProps3 GpcmFeat GpcmEntries.
Import ListNotations.
Local Open Scope R_scope.

Lemma fresh (l : list R) (b : R) : exists s, b <= s /\ ~ In s l.
Proof.
  assert (H : exists s, b <= s /\ forall x, In x l -> x < s).
  { induction l as [|x l [s [Hs H]]]; [exists b; split; [lra|contradiction]|].
    exists (Rmax s (x + 1)). pose proof (Rmax_l s (x + 1)). pose proof (Rmax_r s (x + 1)).
    split; [lra|]. intros y [<-|Hy]; [lra|]. specialize (H y Hy). lra. }
  destruct H as [s [Hs H]]. exists s. split; auto. intros I. specialize (H s I). lra.
Qed.

(** The filter is not determined by its values at other points. *)
Section Fresh.
Context (m : gpcm) (Pg : 0 < g_gamma m) (Na : g_alpha_t m <> 0) (nu : nat) (tu : nat -> R).
Hypothesis ND : NoDup (map tu (seq 0 nu)).
Context (W : nat -> nat -> R).
Hypothesis HW : forall i j, (i < nu)%nat -> (j < nu)%nat ->
  Sum nu (fun k => Sum nu (fun l => W k i * kh m (tu k) (tu l) * W l j)) = W i j.

Lemma fresh_var s : ~ In s (map tu (seq 0 nu)) ->
  0 < kh m s s - Sum nu (fun a => Sum nu (fun b => W a b * (kh m s (tu a) * kh m s (tu b)))).
Proof.
  intros Hs. set (l := s :: map tu (seq 0 nu)). set (K := map (fun a => map (kh m a) l) l).
  assert (L : List.length l = S nu) by (unfold l; cbn; now rewrite map_length, seq_length).
  assert (PD : positive_definite K).
  { apply (table_pd_iff _ (fun t => g_alpha_t m * exp (- (g_alpha m + g_gamma m) * t ^ 2)) (2 * g_gamma m)); [|lra| |].
    - intros a b. unfold kh.
      replace (- g_alpha m * (a ^ 2 + b ^ 2) - g_gamma m * (a - b) ^ 2)
        with (- (g_alpha m + g_gamma m) * a ^ 2 + (- (g_alpha m + g_gamma m) * b ^ 2 + 2 * g_gamma m * (a * b))) by ring.
      rewrite !exp_plus. ring.
    - intros a E. apply Rmult_integral in E. destruct E as [E|E]; [contradiction|]. generalize (exp_pos (- (g_alpha m + g_gamma m) * a ^ 2)). lra.
    - constructor; auto. }
  assert (Sh : shape2 K (S nu) (S nu)).
  { split; [unfold K; now rewrite map_length|]. apply Forall_forall. intros r Hr. apply in_map_iff in Hr.
    destruct Hr as [a [<- _]]. now rewrite map_length. }
  assert (G : forall i j, (i < S nu)%nat -> (j < S nu)%nat -> get2 K i j = kh m (nth i l 0) (nth j l 0)).
  { intros i j Hi Hj. apply at2_get2. unfold K. rewrite table_at2. now rewrite !nth_error_get by lia. }
  assert (T : forall i, (i < nu)%nat -> nth i (map tu (seq 0 nu)) 0 = tu i).
  { intros i Hi. rewrite (nth_indep _ 0 (tu O)) by (rewrite map_length, seq_length; lia). rewrite map_nth, seq_nth by lia. reflexivity. }
  set (w := fun i => Sum nu (fun c => W i c * kh m s (tu c))).
  set (c := fun i => match i with O => 1 | S i => - w i end).
  pose proof (pd_Sum K (S nu) c Sh PD) as P. assert (Q : 0 < Sum (S nu) (fun i => Sum (S nu) (fun j => c i * c j * get2 K i j))).
  { apply P. exists O. split; [lia|]. cbn. lra. }
  clear P. rewrite Sum_first in Q.
  assert (E1 : Sum (S nu) (fun j => c O * c j * get2 K 0 j) = kh m s s - Sum nu (fun j => w j * kh m s (tu j))).
  { rewrite Sum_first, G by lia. cbn [c nth l].
    replace (kh m s s - Sum nu (fun j => w j * kh m s (tu j))) with (kh m s s + Sum nu (fun j => -1 * (w j * kh m s (tu j)))) by (rewrite Sum_scal; ring).
    f_equal; [ring|]. apply Sum_ext. intros j Hj. rewrite G by lia. unfold l. cbn [nth c]. rewrite T by auto. ring. }
  assert (E2 : Sum nu (fun i => Sum (S nu) (fun j => c (S i) * c j * get2 K (S i) j))
               = Sum nu (fun i => - w i * kh m (tu i) s) + Sum nu (fun i => Sum nu (fun j => w i * w j * kh m (tu i) (tu j)))).
  { rewrite <- Sum_plus. apply Sum_ext. intros i Hi. rewrite Sum_first. f_equal.
    - rewrite G by lia. unfold l. cbn [nth c]. rewrite T by auto. ring.
    - apply Sum_ext. intros j Hj. rewrite G by lia. unfold l. cbn [nth c]. rewrite !T by auto. ring. }
  cbv beta in Q. rewrite E1, E2 in Q.
  set (q := Sum nu (fun a => Sum nu (fun b => W a b * (kh m s (tu a) * kh m s (tu b))))) in *.
  assert (F1 : Sum nu (fun j => w j * kh m s (tu j)) = q).
  { unfold q, w. apply Sum_ext. intros a Ha. rewrite <- Sum_scal_r. apply Sum_ext. intros b Hb. ring. }
  assert (F2 : Sum nu (fun i => - w i * kh m (tu i) s) = - q).
  { rewrite <- F1. replace (- Sum nu (fun j => w j * kh m s (tu j))) with (-1 * Sum nu (fun j => w j * kh m s (tu j))) by ring.
    rewrite <- Sum_scal. apply Sum_ext. intros j Hj. rewrite kh_sym. ring. }
  assert (F3 : Sum nu (fun i => Sum nu (fun j => w i * w j * kh m (tu i) (tu j))) = q).
  { transitivity (Sum nu (fun a => Sum nu (fun b => Sum nu (fun k => Sum nu (fun l => W k a * kh m (tu k) (tu l) * W l b)) * (kh m s (tu a) * kh m s (tu b))))).
    2:{ unfold q. apply Sum_ext. intros a Ha. apply Sum_ext. intros b Hb. now rewrite HW. }
    transitivity (Sum nu (fun k => Sum nu (fun l => Sum nu (fun a => Sum nu (fun b => W k a * kh m (tu k) (tu l) * W l b * (kh m s (tu a) * kh m s (tu b))))))).
    - apply Sum_ext. intros k Hk. apply Sum_ext. intros l' Hl. unfold w. rewrite Sum_prod, <- Sum_scal_r. apply Sum_ext. intros a Ha.
      rewrite <- Sum_scal_r. apply Sum_ext. intros b Hb. ring.
    - transitivity (Sum nu (fun k => Sum nu (fun a => Sum nu (fun l => Sum nu (fun b => W k a * kh m (tu k) (tu l) * W l b * (kh m s (tu a) * kh m s (tu b))))))).
      { apply Sum_ext. intros k Hk. apply Sum_swap. }
      rewrite Sum_swap. apply Sum_ext. intros a Ha.
      transitivity (Sum nu (fun k => Sum nu (fun b => Sum nu (fun l => W k a * kh m (tu k) (tu l) * W l b * (kh m s (tu a) * kh m s (tu b)))))).
      { apply Sum_ext. intros k Hk. apply Sum_swap. }
      rewrite Sum_swap. apply Sum_ext. intros b Hb. rewrite <- Sum_scal_r. apply Sum_ext. intros k Hk. now rewrite <- Sum_scal_r. }
  rewrite F1, F2, F3 in Q. lra.
Qed.
End Fresh.

Section Kernel.
Context (m : gpcm) (Pa : 0 < g_alpha m) (Pg : 0 < g_gamma m).
Context (n nu : nat) (t tu : nat -> R) (hx : nat -> nat -> R) (ux : nat -> nat -> nat -> nat -> R).
Hypothesis Hhx : forall p q, (p < n)%nat -> (q < n)%nat ->
  is_integral (fun tau => kh m (t p - tau) (t q - tau)) m_infty (upto m (Rmin (t p) (t q))) (hx p q).
Hypothesis Hux : forall p q a b, (p < n)%nat -> (q < n)%nat -> (a < nu)%nat -> (b < nu)%nat ->
  is_integral (fun tau => kh m (t p - tau) (tu a) * kh m (tu b) (t q - tau)) m_infty (upto m (Rmin (t p) (t q))) (ux p q a b).
Context (W : nat -> nat -> R) (v : nat -> R).
Hypothesis Wsym : forall a b, (a < nu)%nat -> (b < nu)%nat -> W a b = W b a.
Hypothesis HW : forall i j, (i < nu)%nat -> (j < nu)%nat ->
  Sum nu (fun k => Sum nu (fun l => W k i * kh m (tu k) (tu l) * W l j)) = W i j.

Definition kval (p q : nat) : R :=
  hx p q - Sum nu (fun a => Sum nu (fun b => W a b * ux p q a b))
  + Sum nu (fun a => Sum nu (fun b => v a * v b * ux p q a b)).

Let U p q := upto_ulim m (Rmin (t p) (t q)).
Let psi (s x : R) : R := phi m (0 - s) x.
Let D : dom2 psi := phi_dom2 m Pa Pg 0.
Let u (a : nat) (x : R) : R := phi m (tu a) x.
Let Du (a : nat) (_ : (a < nu)%nat) : dom1 (u a) := phi_dom1 m Pg (tu a).

Let q1 (p a : nat) (x : R) : R := kh m (t p - x) (tu a).
Let r (p q : nat) (x : R) : R :=
  kh m (t p - x) (t q - x) - Sum nu (fun a => Sum nu (fun b => W a b * (q1 p a x * q1 q b x)))
  + Sum nu (fun a => Sum nu (fun b => v a * v b * (q1 p a x * q1 q b x))).

Lemma kh_dom1 p q : dom1 (fun x => kh m (t p - x) (t q - x)).
Proof.
  apply (dom1_ext (fun tau => Int p_infty (fun x => phi m (t p - tau) x * phi m (t q - tau) x))).
  - intros x. now apply kh_feature.
  - apply (dom2_Int2 (fun tau x => phi m (t p - tau) x * phi m (t q - tau) x) p_infty I).
    apply dom2_mult; now apply phi_dom2.
Qed.
Lemma q1_dom1 p a : dom1 (q1 p a).
Proof.
  apply (dom1_ext (fun tau => Int p_infty (fun x => phi m (t p - tau) x * phi m (tu a) x))).
  - intros x. now apply kh_feature.
  - apply (dom2_Int2 (fun tau x => phi m (t p - tau) x * phi m (tu a) x) p_infty I).
    apply dom2_mult2; [now apply phi_dom2|now apply phi_dom1].
Qed.
Lemma qq_dom1 (Q : nat -> nat -> R) p q : dom1 (fun x => Sum nu (fun a => Sum nu (fun b => Q a b * (q1 p a x * q1 q b x)))).
Proof.
  apply (dom1_Sum nu (fun a x => Sum nu (fun b => Q a b * (q1 p a x * q1 q b x)))). intros a Ha.
  apply (dom1_Sum nu (fun b x => Q a b * (q1 p a x * q1 q b x))). intros b Hb. apply dom1_scal, dom1_mult; apply q1_dom1.
Qed.
Lemma qq_Int (Q : nat -> nat -> R) p q : (p < n)%nat -> (q < n)%nat ->
  Int (upto m (Rmin (t p) (t q))) (fun x => Sum nu (fun a => Sum nu (fun b => Q a b * (q1 p a x * q1 q b x))))
  = Sum nu (fun a => Sum nu (fun b => Q a b * ux p q a b)).
Proof.
  intros Hp Hq. rewrite (Int_Sum _ nu (fun a x => Sum nu (fun b => Q a b * (q1 p a x * q1 q b x)))); [|apply U|].
  - apply Sum_ext. intros a Ha. rewrite (Int_Sum _ nu (fun b x => Q a b * (q1 p a x * q1 q b x))); [|apply U|].
    + apply Sum_ext. intros b Hb. rewrite (Int_scal _ (U p q)) by (apply dom1_mult; apply q1_dom1). f_equal.
      apply Int_unique. eapply is_integral_ext; [|apply Hux; auto]. intros x. cbv beta. unfold q1. f_equal. apply kh_sym.
    + intros b Hb. apply dom1_scal, dom1_mult; apply q1_dom1.
  - intros a Ha. apply (dom1_Sum nu (fun b x => Q a b * (q1 p a x * q1 q b x))). intros b Hb. apply dom1_scal, dom1_mult; apply q1_dom1.
Qed.

Lemma r_dom1 p q : dom1 (r p q).
Proof.
  unfold r. apply (dom1_plus (fun x => kh m (t p - x) (t q - x) - Sum nu (fun a => Sum nu (fun b => W a b * (q1 p a x * q1 q b x))))).
  - apply dom1_minus; [apply kh_dom1|apply qq_dom1].
  - apply (qq_dom1 (fun a b => v a * v b)).
Qed.

Lemma kval_Int p q : (p < n)%nat -> (q < n)%nat -> kval p q = Int (upto m (Rmin (t p) (t q))) (r p q).
Proof.
  intros Hp Hq. unfold r.
  rewrite (Int_plus _ (U p q) (fun x => kh m (t p - x) (t q - x) - Sum nu (fun a => Sum nu (fun b => W a b * (q1 p a x * q1 q b x))))
    (fun x => Sum nu (fun a => Sum nu (fun b => v a * v b * (q1 p a x * q1 q b x))))).
  - rewrite (Int_minus _ (U p q) (fun x => kh m (t p - x) (t q - x)) (fun x => Sum nu (fun a => Sum nu (fun b => W a b * (q1 p a x * q1 q b x))))).
    + rewrite (qq_Int W), (qq_Int (fun a b => v a * v b)) by auto. unfold kval. f_equal. f_equal. symmetry. apply Int_unique. auto.
    + apply kh_dom1.
    + apply qq_dom1.
  - apply dom1_minus; [apply kh_dom1|apply qq_dom1].
  - apply (qq_dom1 (fun a b => v a * v b)).
Qed.

(** The conditional covariance of the filter has features, and so has its conditional mean. *)
Lemma r_feature p q x : r p q x =
  fcov (rpsi psi nu u W) (x - t p) (x - t q) + Sum nu (fun a => v a * q1 p a x) * Sum nu (fun a => v a * q1 q a x).
Proof.
  rewrite (fcov_residual psi D nu u Du (fun a b => kh m (tu a) (tu b)) W); auto.
  2:{ intros a b _ _. symmetry. now apply kh_feature. }
  assert (Eq : forall a i, qcov psi u a (x - t i) = q1 i a x).
  { intros a i. unfold qcov, u, psi. rewrite (kh_feature m Pg (tu a) (0 - (x - t i))). rewrite kh_sym. unfold q1. f_equal. ring. }
  assert (Ef : fcov psi (x - t p) (x - t q) = kh m (t p - x) (t q - x)).
  { unfold fcov, psi. rewrite kh_feature by auto. f_equal; ring. }
  rewrite Ef. unfold r. rewrite Sum_prod. f_equal.
  - f_equal. apply Sum_ext. intros a Ha. apply Sum_ext. intros b Hb. now rewrite !Eq.
  - apply Sum_ext. intros a Ha. apply Sum_ext. intros b Hb. ring.
Qed.

Lemma r_psd (c : nat -> R) x : 0 <= Sum n (fun p => Sum n (fun q => c p * c q * r p q x)).
Proof.
  set (F := fun y => Sum n (fun p => c p * rpsi psi nu u W (x - t p) y)).
  set (M := Sum n (fun p => c p * Sum nu (fun a => v a * q1 p a x))).
  assert (DR : dom2 (rpsi psi nu u W)) by (apply (rpsi_dom2 psi D nu u Du); auto).
  assert (E : Sum n (fun p => Sum n (fun q => c p * c q * r p q x)) = Int p_infty (fun y => F y * F y) + M * M).
  { transitivity (Sum n (fun p => Sum n (fun q => c p * c q * Int p_infty (fun y => rpsi psi nu u W (x - t p) y * rpsi psi nu u W (x - t q) y)))
                  + Sum n (fun p => Sum n (fun q => (c p * Sum nu (fun a => v a * q1 p a x)) * (c q * Sum nu (fun a => v a * q1 q a x))))).
    - rewrite <- Sum_plus. apply Sum_ext. intros p _. rewrite <- Sum_plus. apply Sum_ext. intros q _. rewrite r_feature. unfold fcov. ring.
    - f_equal.
      + rewrite (Int_ext p_infty _ (fun y => Sum n (fun p => Sum n (fun q => c p * c q * (rpsi psi nu u W (x - t p) y * rpsi psi nu u W (x - t q) y))))).
        2:{ intros y. unfold F. rewrite Sum_sq. apply Sum_ext. intros p _. apply Sum_ext. intros q _. ring. }
        assert (DD : forall p q, dom1 (fun y => rpsi psi nu u W (x - t p) y * rpsi psi nu u W (x - t q) y)).
        { intros p q. apply dom1_mult; now apply dom2_at1. }
        rewrite (Int_Sum p_infty n (fun p y => Sum n (fun q => c p * c q * (rpsi psi nu u W (x - t p) y * rpsi psi nu u W (x - t q) y)))); [|exact I|].
        * apply Sum_ext. intros p _. rewrite (Int_Sum p_infty n (fun q y => c p * c q * (rpsi psi nu u W (x - t p) y * rpsi psi nu u W (x - t q) y))); [|exact I|].
          -- apply Sum_ext. intros q _. symmetry. now apply (Int_scal p_infty I).
          -- intros q _. now apply dom1_scal.
        * intros p _. apply (dom1_Sum n (fun q y => c p * c q * (rpsi psi nu u W (x - t p) y * rpsi psi nu u W (x - t q) y))).
          intros q _. now apply dom1_scal.
      + unfold M. now rewrite Sum_sq. }
  rewrite E. pose proof (Rle_0_sqr M) as PM. unfold Rsqr in PM.
  assert (0 <= Int p_infty (fun y => F y * F y)); [|lra].
  assert (DF : dom1 F).
  { apply (dom1_Sum n (fun p y => c p * rpsi psi nu u W (x - t p) y)). intros p _. apply dom1_scal. now apply dom2_at1. }
  apply (Int_nonneg p_infty I); [now apply dom1_mult|]. intros y. exact (Rle_0_sqr (F y)).
Qed.

Lemma kval_psd (c : nat -> R) : 0 <= Sum n (fun p => Sum n (fun q => c p * c q * kval p q)).
Proof.
  assert (P : 0 <= form n c (fun p q => Int (upto m (Rmin (t p) (t q))) (r p q))).
  { unfold upto. destruct (g_causal m).
    - apply (causal_psd n t r); [intros; apply r_dom1|apply r_psd].
    - apply (whole_psd n r); [intros; apply r_dom1|apply r_psd|exact I]. }
  unfold form in P. eapply Rle_trans; [exact P|]. right. apply Sum_ext. intros p Hp. apply Sum_ext. intros q Hq.
  now rewrite kval_Int.
Qed.

Lemma kval_sym p q : (p < n)%nat -> (q < n)%nat -> kval p q = kval q p.
Proof.
  intros Hp Hq. rewrite !kval_Int by auto. rewrite (Rmin_comm (t q)). apply Int_ext. intros x. unfold r. rewrite kh_sym. f_equal; [f_equal|].
  - rewrite Sum_swap. apply Sum_ext. intros a Ha. apply Sum_ext. intros b Hb. rewrite (Wsym b a) by auto. ring.
  - rewrite Sum_swap. apply Sum_ext. intros a Ha. apply Sum_ext. intros b Hb. ring.
Qed.

Lemma mean_sq p x : Sum nu (fun a => Sum nu (fun b => v a * v b * (q1 p a x * q1 p b x)))
  = Sum nu (fun a => v a * q1 p a x) * Sum nu (fun a => v a * q1 p a x).
Proof. rewrite Sum_sq. apply Sum_ext. intros a Ha. apply Sum_ext. intros b Hb. ring. Qed.
Lemma r_nonneg p x : 0 <= r p p x.
Proof.
  rewrite r_feature. apply Rplus_le_le_0_compat; [|apply Rle_0_sqr].
  assert (DR : dom2 (rpsi psi nu u W)) by (apply (rpsi_dom2 psi D nu u Du); auto).
  unfold fcov. apply (Int_nonneg p_infty I); [apply dom1_mult; now apply dom2_at1|]. intros y. apply Rle_0_sqr.
Qed.

(** Strictly positive variances. *)
Lemma kval_pos p : (p < n)%nat -> g_alpha_t m <> 0 -> NoDup (map tu (seq 0 nu)) -> 0 < kval p p.
Proof.
  intros Hp Na ND. destruct (fresh (map tu (seq 0 nu)) (Rmax 0 (t p))) as [s [Hs Fs]].
  pose proof (Rmax_l 0 (t p)) as B1. pose proof (Rmax_r 0 (t p)) as B2.
  rewrite kval_Int by auto. rewrite Rmin_left by lra. 
  apply (Int_pos _ _ (t p - s)); [| |apply r_nonneg| |lra|].
  - apply upto_ulim.
  - apply r_dom1.
  - unfold r. rewrite mean_sq. pose proof (Rle_0_sqr (Sum nu (fun a => v a * q1 p a (t p - s)))) as SQ. unfold Rsqr in SQ.
    assert (Es : t p - (t p - s) = s) by ring. unfold q1 in *. rewrite Es in *.
    pose proof (fresh_var m Pg Na nu tu ND W HW s Fs) as V. lra.
  - unfold upto. destruct (g_causal m); cbn [Rbar_le]; [lra|exact I].
Qed.
End Kernel.
