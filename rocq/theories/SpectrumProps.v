(** The properties C123 and C124: the spectra and the samples that the experiments show. *)
From Coq Require Import Reals ZArith List Bool Lra Lia Sorting.Sorted.
From Coquelicot Require Import Coquelicot.
From Verif Require Import Py ListFacts ExpPolyIntProofs UtilModel RgpcmModel Gauss Gauss2 PaperModel PaperSpec PaperProofs SpectrumProofs.
Import ListNotations.
Local Open Scope R_scope.

Lemma log10_pow x : 0 < x -> Rpower 10 (log10 x) = x.
Proof.
  intros Hx. unfold Rpower, log10. pose proof ln10_pos. replace (ln x / ln 10 * ln 10) with (ln x) by (field; lra). now apply exp_ln.
Qed.
Lemma pow_log10 x : log10 (Rpower 10 x) = x.
Proof. unfold log10, Rpower. rewrite ln_exp. pose proof ln10_pos. field. lra. Qed.

(** * C123 *)

Theorem C123_spectrum :
  forall (m : rgpcm) (f : R), 0 < r_lam m -> 0 < r_alpha m -> r_alpha_t m <> 0 ->
    (* the covariance function of the signal under the prior, as the model computes it *)
    exists k : R -> R, (forall t tau, rcompute_i_hx m (Some (t + tau)) (Some t) = Ok (k tau))
      (* has the power spectral density S, *)
      /\ exists S, is_integral (fun tau => k tau * cos (2 * PI * f * tau)) m_infty p_infty S
          /\ is_integral (fun tau => k tau * sin (2 * PI * f * tau)) m_infty p_infty 0
          (* which is what the script shows, in decibels *)
          /\ 0 < S /\ vix_spectrum (r_lam m) (r_alpha m) (r_alpha_t m) f = 10 * log10 S.
Proof.
  intros m f Hl Ha Ht. set (c := r_alpha_t m ^ 2 / (2 * r_alpha m)).
  assert (P2 : 0 < r_alpha_t m ^ 2) by nra. assert (Pc : 0 < c) by (apply Rdiv_lt_0_compat; lra).
  exists (fun tau => c * exp (- r_lam m * Rabs tau)). split.
  - intros t tau. unfold rcompute_i_hx. rewrite rdiv_ok by lra. cbn [bind]. f_equal. replace (t + tau - t) with tau by ring. unfold c. field. lra.
  - set (w := 2 * PI * f). set (s := 2 * r_lam m / (r_lam m ^ 2 + w ^ 2)).
    assert (D : 0 < r_lam m ^ 2 + w ^ 2) by nra. assert (Ps : 0 < s) by (apply Rdiv_lt_0_compat; lra).
    exists (c * s). split; [|split; [|split]].
    + eapply is_integral_ext; [|apply is_integral_scal, (fourier_cos (r_lam m) w Hl)]. intros x. cbv beta. ring.
    + replace 0 with (c * 0) at 1 by ring.
      eapply is_integral_ext; [|apply is_integral_scal, (fourier_sin (r_lam m) w Hl)]. intros x. cbv beta. ring.
    + now apply Rmult_lt_0_compat.
    + unfold vix_spectrum, log10. fold w. fold s. fold c. rewrite (Rmult_comm s c). unfold Rdiv. ring.
Qed.
Print Assumptions C123_spectrum.

(** The two components that are shown multiply to the spectrum: they are the parts of filter and
    excitation up to one constant that does not depend on the frequency. *)
Theorem C123_decomposition :
  exists c, 0 < c /\ forall (lam alpha alpha_t f : R), 0 < lam -> 0 < alpha -> alpha_t <> 0 ->
    exists S, 0 < S /\ vix_spectrum lam alpha alpha_t f = 10 * log10 S
      /\ (forall p, 0 < p -> let d := vix_decomposition lam alpha alpha_t f (10 * log10 p) in
            fst d + snd d = 10 * log10 p
            /\ fst d = 10 * log10 (p / S / c) /\ snd d = 10 * log10 (S * c)
            /\ Rpower 10 (fst d / 10) * Rpower 10 (snd d / 10) = p)
      (* the order of the bounds is kept *)
      /\ (forall v v', v <= v' -> fst (vix_decomposition lam alpha alpha_t f v) <= fst (vix_decomposition lam alpha alpha_t f v')).
Proof.
  set (c := Rpower 10 (75 / 100)). assert (Pc : 0 < c) by apply exp_pos. exists c. split; auto.
  intros lam alpha alpha_t f Hl Ha Ht. destruct (C123_spectrum (RGPCM 1 alpha alpha_t lam 0 0 0 0%Z [] 0%Z 0%Z [] 0 0) f) as [k [_ [S [_ [_ [PS E]]]]]]; auto.
  cbn [r_lam r_alpha r_alpha_t] in E. exists S. split; auto. split; auto. split.
  - intros p Hp d. pose proof ln10_pos.
    assert (L : log10 c = 75 / 100) by apply pow_log10.
    assert (A : fst d = 10 * log10 (p / S / c)).
    { unfold d, vix_decomposition. cbn [fst]. rewrite E. 
      assert (log10 (p / S / c) = log10 p - log10 S - log10 c).
      { unfold log10. rewrite !ln_div; auto; [field; lra|]. now apply Rdiv_lt_0_compat. }
      rewrite H0, L. lra. }
    assert (B : snd d = 10 * log10 (S * c)).
    { unfold d, vix_decomposition. cbn [snd]. rewrite E.
      assert (log10 (S * c) = log10 S + log10 c). { unfold log10. rewrite ln_mult; auto. field. lra. }
      rewrite H0, L. lra. }
    split; [unfold d, vix_decomposition; cbn [fst snd]; lra|]. split; auto. split; auto.
    rewrite A, B. replace (10 * log10 (p / S / c) / 10) with (log10 (p / S / c)) by field. replace (10 * log10 (S * c) / 10) with (log10 (S * c)) by field.
    rewrite !log10_pow; [field; lra| |]; repeat apply Rdiv_lt_0_compat || apply Rmult_lt_0_compat; auto.
  - intros v v' Hv. unfold vix_decomposition. cbn [fst]. lra.
Qed.
Print Assumptions C123_decomposition.

(** At frequency zero, for the unit prior of the constructor and [lam = 1]: 10 log10 2. *)
Example C123_witness : vix_spectrum 1 (1 / 2) 1 0 = 10 * log10 2
  /\ snd (vix_decomposition 1 (1 / 2) 1 0 0) = 10 * log10 2 + 15 / 2.
Proof.
  assert (E : vix_spectrum 1 (1 / 2) 1 0 = 10 * log10 2).
  { unfold vix_spectrum, log10. replace (2 * 1 / (1 ^ 2 + (2 * PI * 0) ^ 2) * (1 ^ 2 / (2 * (1 / 2)))) with 2; [unfold Rdiv; ring|field; lra]. }
  split; auto. unfold vix_decomposition. cbn [snd]. now rewrite E.
Qed.

(** * C124 *)

Lemma decibels_back ps : (forall v, In v ps -> 0 < v) ->
  map (fun p => Rpower 10 (p / 10)) (sm_all_samples (summarise_samples ps true)) = ps.
Proof.
  intros H. unfold summarise_samples. cbn [sm_all_samples]. rewrite map_map. induction ps as [|p ps IH]; auto. cbn [map]. f_equal.
  - replace (10 * log10 p / 10) with (log10 p) by field. apply log10_pow, H. now left.
  - apply IH. intros; apply H; now right.
Qed.

Lemma np_sum_le (f g : R -> R) l : (forall v, In v l -> f v <= g v) -> np_sum (map f l) <= np_sum (map g l).
Proof.
  induction l as [|x l IH]; intros H; simpl; [lra|]. apply Rplus_le_compat; [apply H; now left|apply IH; intros; apply H; now right].
Qed.
Lemma np_sum_affine a b l : np_sum (map (fun x => a * x + b) l) = a * np_sum l + INR (length l) * b.
Proof. induction l as [|x l IH]; [simpl; ring|]. cbn [map np_sum fold_right length]. change (fold_right Rplus 0) with np_sum. rewrite IH, S_INR. ring. Qed.

(** Statistics are taken of powers, not of decibels: what is shown is what [summarise_samples] gives,
    and the mean of decibels would never be larger. *)
Theorem C124_decibels :
  forall ps : list R, ps <> [] -> (forall v, In v ps -> 0 < v) ->
    let saved := sm_all_samples (summarise_samples ps true) in
    (forall stat, apply_to_psd saved stat = 10 * log10 (stat ps))
    /\ apply_to_psd saved np_mean = sm_mean (summarise_samples ps true)
    /\ (forall q, apply_to_psd saved (fun l => np_quantile l q) = 10 * log10 (np_quantile ps q))
    /\ apply_to_psd saved (fun l => np_quantile l (32 / 100)) = err_68_lower (summarise_samples ps true)
    /\ np_mean saved <= apply_to_psd saved np_mean.
Proof.
  intros ps Np Pp saved.
  assert (A : forall stat, apply_to_psd saved stat = 10 * log10 (stat ps)).
  { intros stat. unfold apply_to_psd, saved. rewrite decibels_back by auto. unfold log10, Rdiv. ring. }
  split; auto. split; [rewrite A; reflexivity|]. split; [intros; apply A|]. split; [rewrite A; reflexivity|].
  rewrite A. pose proof (mean_pos ps Np Pp) as Pm. set (mu := np_mean ps) in *. pose proof ln10_pos.
  assert (Pn : 0 < INR (length ps)) by (apply lt_0_INR; destruct ps; [easy|simpl; lia]).
  unfold saved, summarise_samples. cbn [sm_all_samples]. unfold np_mean. rewrite map_length.
  apply Rmult_le_reg_r with (INR (length ps)); auto. unfold Rdiv. rewrite Rmult_assoc, Rinv_l, Rmult_1_r by lra.
  set (a := 10 / ln 10 / mu). 
  eapply Rle_trans; [apply (np_sum_le _ (fun x => a * x + (10 * log10 mu - a * mu)))|].
  - intros v Hv. pose proof (Pp v Hv) as Pv.
    assert (ln v <= ln mu + (v / mu - 1)).
    { assert (ln (v / mu) <= v / mu - 1).
      { assert (0 < v / mu) by now apply Rdiv_lt_0_compat. pose proof (exp_ineq1_le (ln (v / mu))). rewrite exp_ln in H1 by auto. lra. }
      rewrite ln_div in H0 by auto. lra. }
    unfold log10. assert (0 < / ln 10) by (apply Rinv_0_lt_compat; lra).
    replace (a * v + (10 * (ln mu / ln 10) - a * mu)) with (10 * ((ln mu + (v / mu - 1)) / ln 10)) by (unfold a; field; lra).
    unfold Rdiv at 1 2. apply Rmult_le_compat_l; [lra|]. apply Rmult_le_compat_r; lra.
  - rewrite np_sum_affine. assert (np_sum ps = mu * INR (length ps)) by (unfold mu, np_mean; field; lra). rewrite H0. lra.
Qed.
Print Assumptions C124_decibels.

Lemma removelast_rev_cons {A} (x : A) l : removelast (rev (x :: l)) = rev l.
Proof. simpl. apply removelast_last. Qed.

Lemma sorted_snoc (z : R) l : StronglySorted Rlt l -> List.Forall (fun b => b < z) l -> StronglySorted Rlt (l ++ [z]).
Proof.
  induction l as [|b l IH]; intros S F; simpl; [repeat constructor|]. inversion S; inversion F; subst.
  constructor; auto. apply Forall_app. split; auto.
Qed.

(** The plots show an even function: at [x] and at [-x] the values of the same sample. *)
Theorem C124_even :
  forall (x k : list R), x <> [] -> length k = length x -> hd 0 x = 0 ->
    let n := length x in let X := extract_x x in let K := extract_samples k in
    length X = (2 * n - 1)%nat /\ length K = length X
    /\ (forall i, (i < n)%nat -> nth (n - 1 + i) X 0 = nth i x 0 /\ nth (n - 1 - i) X 0 = - nth i x 0
          /\ nth (n - 1 + i) K 0 = nth i k 0 /\ nth (n - 1 - i) K 0 = nth i k 0)
    (* and a grid remains a grid *)
    /\ (StronglySorted Rlt x -> StronglySorted Rlt X).
Proof.
  intros x k Nx L H n X K. destruct x as [|x0 x]; [easy|]. destruct k as [|k0 k]; [discriminate|]. simpl in H. subst x0.
  assert (EX : X = map Ropp (rev x) ++ 0 :: x) by (unfold X, extract_x; now rewrite removelast_rev_cons).
  assert (EK : K = rev k ++ k0 :: k) by (unfold K, extract_samples; now rewrite removelast_rev_cons).
  assert (Ln : n = S (length x)) by reflexivity. simpl in L. injection L as L.
  split; [rewrite EX, app_length, map_length, rev_length; simpl; lia|].
  split; [rewrite EX, EK, !app_length, map_length, !rev_length; simpl; lia|]. split.
  - intros i Hi.
    assert (G : forall (l : list R) a, length l = length x -> nth (n - 1 + i) (rev l ++ a :: l) 0 = nth i (a :: l) 0
        /\ nth (n - 1 - i) (rev l ++ a :: l) 0 = nth i (a :: l) 0).
    { intros l a Hl. split.
      - rewrite app_nth2; rewrite rev_length; [|lia]. f_equal. lia.
      - destruct i as [|i].
        + rewrite app_nth2; rewrite rev_length; [|lia]. replace (n - 1 - 0 - length l)%nat with 0%nat by lia. reflexivity.
        + rewrite app_nth1 by (rewrite rev_length; lia). rewrite rev_nth by lia. cbn [nth]. f_equal. lia. }
    destruct (G k k0 L) as [A B]. rewrite EK. split; [|split; [|split; auto]].
    + rewrite EX, app_nth2; rewrite map_length, rev_length; [|lia]. f_equal. lia.
    + destruct i as [|i].
      * rewrite EX, app_nth2; rewrite map_length, rev_length; [|lia]. replace (n - 1 - 0 - length x)%nat with 0%nat by lia. simpl. ring.
      * rewrite EX, app_nth1 by (rewrite map_length, rev_length; lia).
        rewrite nth_indep with (d' := - 0) by (rewrite map_length, rev_length; lia).
        rewrite map_nth, rev_nth by lia. cbn [nth]. do 2 f_equal. lia.
  - intros S. rewrite EX. inversion S as [|? ? Sx F]; subst. clear - Sx F.
    assert (Sr : forall l, StronglySorted Rlt l -> StronglySorted Rlt (map Ropp (rev l))).
    { induction l as [|a l IH]; intros Hl; [constructor|]. inversion Hl; subst. simpl. rewrite map_app. simpl.
      apply sorted_snoc; auto. apply Forall_map, Forall_rev. eapply Forall_impl; [|exact H2]. intros b Hb. lra. }
    assert (Mid : forall l', StronglySorted Rlt l' -> List.Forall (fun b => b < 0) l' -> StronglySorted Rlt (l' ++ 0 :: x)).
    { induction l' as [|b l' IH]; intros S' F'; simpl; [now constructor|]. inversion S'; inversion F'; subst. constructor; auto.
      apply Forall_app. split; auto. constructor; auto. eapply Forall_impl; [|exact F]. intros c Hc. lra. }
    apply Mid; auto. apply Forall_map, Forall_rev. eapply Forall_impl; [|exact F]. intros b Hb. lra.
Qed.
Print Assumptions C124_even.

(** The data of smk.py have a stationary kernel, which is what the predictions are compared with. *)
Theorem C124_smk :
  forall x y, smk_kernel x y = cos (PI * (x - y)) * exp (- (x - y) ^ 2 / 2)
    /\ smk_kernel x y = smk_kernel (x - y) 0 /\ smk_kernel x y = smk_kernel y x
    /\ smk_kernel x x = 1 /\ Rabs (smk_kernel x y) <= 1.
Proof.
  assert (E : forall x y, smk_kernel x y = cos (PI * (x - y)) * exp (- (x - y) ^ 2 / 2)).
  { intros x y. unfold smk_kernel, fun_mul, EQ. replace (PI * (x - y)) with (PI * x - PI * y) by ring. rewrite cos_minus. ring. }
  intros x y. split; auto. split; [rewrite !E; now rewrite Rminus_0_r|]. split.
  { rewrite !E. replace (PI * (x - y)) with (- (PI * (y - x))) by ring. rewrite cos_neg. replace ((x - y) ^ 2) with ((y - x) ^ 2) by ring. reflexivity. }
  split.
  - rewrite E. replace (PI * (x - x)) with 0 by ring. replace (- (x - x) ^ 2 / 2) with 0 by field. rewrite cos_0, exp_0. ring.
  - rewrite E, Rabs_mult. assert (Rabs (cos (PI * (x - y))) <= 1) by (apply Rabs_le, COS_bound).
    pose proof (exp_pos (- (x - y) ^ 2 / 2)). assert (exp (- (x - y) ^ 2 / 2) <= 1) by (rewrite <- exp_0; apply Gauss.exp_le; pose proof (pow2_ge_0 (x - y)); lra).
    rewrite (Rabs_right (exp _)) by lra. pose proof (Rabs_pos (cos (PI * (x - y)))). nra.
Qed.
Print Assumptions C124_smk.

Example C124_witness :
  let ps := [1; 100] in
  ps <> [] /\ (forall v, In v ps -> 0 < v)
  (* the mean in decibels would be 10 instead of 10 log10 50.5 *)
  /\ np_mean (sm_all_samples (summarise_samples ps true)) = 10 /\ apply_to_psd (sm_all_samples (summarise_samples ps true)) np_mean > 10
  /\ extract_x [0; 1; 2] = [-2; -1; 0; 1; 2] /\ extract_samples [5; 6; 7] = [7; 6; 5; 6; 7]
  /\ smk_kernel 1 0 = - exp (- 1 / 2).
Proof.
  intros ps. pose proof ln10_pos. assert (P : forall v, In v ps -> 0 < v) by (intros v [<-|[<-|[]]]; lra).
  assert (N : ps <> []) by discriminate.
  assert (L1 : log10 1 = 0) by (unfold log10; rewrite ln_1; field; lra).
  assert (L100 : log10 100 = 2). { unfold log10. replace 100 with (10 * 10) by ring. rewrite ln_mult by lra. field. lra. }
  split; auto. split; auto. split; [|split; [|split; [|split]]].
  - unfold summarise_samples, ps. cbn [sm_all_samples map]. rewrite L1, L100. unfold np_mean. simpl. field.
  - destruct (C124_decibels ps N P) as [A _]. rewrite A.
    assert (1 < log10 (np_mean ps)); [|lra]. replace 1 with (log10 10) by (unfold log10; field; lra).
    unfold log10. apply Rmult_lt_compat_r; [apply Rinv_0_lt_compat; lra|]. apply ln_increasing; [lra|]. unfold np_mean, ps. simpl. lra.
  - unfold extract_x. simpl. repeat f_equal; ring.
  - reflexivity.
  - destruct (C124_smk 1 0) as [E _]. rewrite E. replace (PI * (1 - 0)) with PI by ring. rewrite cos_PI. 
    replace (- (1 - 0) ^ 2 / 2) with (- 1 / 2) by field. ring.
Qed.
