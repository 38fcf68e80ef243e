(** The property C121: the crude-oil experiment reports in the unit of the data. *)
From Coq Require Import Reals ZArith List Bool Lra Lia.
From Verif Require Import Py UtilModel UtilSpec UtilProofs UtilProofs2 PaperModel PaperSpec PaperProofs.
Import ListNotations.
Local Open Scope R_scope.

Lemma std_shift a l : l <> [] -> np_std (map (fun v => v + a) l) = np_std l /\ np_mean (map (fun v => v + a) l) = np_mean l + a.
Proof.
  intros Nl. assert (M : np_mean (map (fun v => v + a) l) = np_mean l + a).
  { unfold np_mean. rewrite map_length. assert (np_sum (map (fun v => v + a) l) = np_sum l + INR (length l) * a) as ->.
    - clear. induction l as [|x l IH]; [simpl; ring|]. change (x + a + np_sum (map (fun v => v + a) l) = x + np_sum l + INR (S (length l)) * a).
      rewrite IH, S_INR. ring.
    - field. destruct l; [easy|]. apply not_0_INR. simpl. lia. }
  split; auto. unfold np_std. rewrite M, map_map. do 2 f_equal. apply map_ext. intros x. ring.
Qed.

(** The predictions of the signal are in the unit of the data: the mean and the variance that are
    reported are those of the signals in that unit, for any signals with the predicted mean and
    variance; and the training data are plotted as they are. *)
Theorem C121_predictions :
  forall (n : normaliser), 0 < no_scale n ->
    (forall fs, fs <> [] -> untransform_moments n (np_mean fs, np_std fs ^ 2)
       = (np_mean (map (untransform n) fs), np_std (map (untransform n) fs) ^ 2))
    /\ (forall y, untransform n (transform n y) = y)
    /\ (forall y, transform n (untransform n y) = y).
Proof.
  intros n Hn. split; [|split].
  - intros fs Nf. unfold untransform_moments. simpl fst. simpl snd.
    replace (map (untransform n) fs) with (map (fun v => v + no_mean n) (map (fun v => no_scale n * v) fs)).
    2:{ rewrite map_map. apply map_ext. intros v. unfold untransform. ring. }
    destruct (std_shift (no_mean n) (map (fun v => no_scale n * v) fs)) as [A B]; [now destruct fs|].
    rewrite A, B, mean_sc, std_sc by lra. f_equal; ring.
  - intros y. unfold untransform, transform. field. lra.
  - intros y. unfold untransform, transform. field. lra.
Qed.
Print Assumptions C121_predictions.

(** What the unit of the data does to kernels and spectra: the estimate of the power spectral
    density is in the squared unit of the signal. *)
Theorem C121_spectrum :
  forall s t k n_zero freqs psd, 0 < s -> nth 0 k 0 <> 0 ->
    estimate_psd t k n_zero false = Ok (freqs, psd) ->
    estimate_psd t (in_data_unit s k) n_zero false = Ok (freqs, in_data_unit s psd).
Proof. intros s t k n fr p Hs. apply estimate_psd_sc. now apply pow_lt. Qed.
Print Assumptions C121_spectrum.

(** Neither the kernel nor the power spectral density is, but for data with standard deviation one. *)
Theorem C121_reports_refuted :
  forall (n : normaliser) ks ps, 0 < no_scale n -> no_scale n <> 1 ->
    ps <> [] -> (forall v, In v ps -> 0 < v) ->
    (np_mean ks <> 0 -> fst (crude_kernel n (summarise_samples ks false)) <> fst (kernel_report (no_scale n) ks))
    /\ (np_std ks <> 0 -> snd (crude_kernel n (summarise_samples ks false)) <> snd (kernel_report (no_scale n) ks))
    /\ (let '(m, l, u) := crude_psd n (summarise_samples ps true) in
        let '(m', l', u') := psd_report (no_scale n) ps in m <> m' /\ l <> l' /\ u <> u').
Proof.
  intros n ks ps Hs Ns Np Pp. set (s := no_scale n) in *. assert (S2 : 0 < s ^ 2) by now apply pow_lt.
  unfold crude_kernel, kernel_report, crude_psd, psd_report, summarise_samples, in_data_unit. fold s. cbn [fst snd sm_mean sm_var err_95_lower err_95_upper].
  rewrite !mean_sc, std_sc by lra. split; [|split].
  - intros M E. apply Ns. assert (np_mean ks * s * (s - 1) = 0) by (ring_simplify; ring_simplify in E; lra).
    apply Rmult_integral in H. destruct H as [H|H]; [|lra]. apply Rmult_integral in H. destruct H; lra.
  - intros M E. set (d := np_std ks) in *. apply Ns. clearbody d.
    assert (Z : (d * s) * (d * s) * ((s - 1) * (s + 1)) = 0) by (ring_simplify; ring_simplify in E; lra).
    apply Rmult_integral in Z. destruct Z as [Z|Z].
    + apply Rsqr_0_uniq in Z. apply Rmult_integral in Z. destruct Z; lra.
    + apply Rmult_integral in Z. destruct Z; lra.
  - assert (D : 20 * ln s <> 20 * log10 s).
    { intros E. apply Ns, ln_log10; auto. apply Rmult_eq_reg_l with 20; lra. }
    rewrite !quantile_sc by auto. rewrite !log10_sq; auto; try (apply quantile_pos; auto; lra); try (now apply mean_pos).
    repeat split; intros E; apply D; lra.
Qed.
Print Assumptions C121_reports_refuted.

(** What is true: everything for data with standard deviation one; otherwise the kernel that is
    reported has the right shape (it is the right one over the standard deviation, and its
    standard deviation too), and so have the spectrum and its band, which are all off by the
    same number of decibels. *)
Theorem C121_reports_partial :
  forall (n : normaliser) ks ps, 0 < no_scale n -> ps <> [] -> (forall v, In v ps -> 0 < v) ->
    let s := no_scale n in
    crude_kernel n (summarise_samples ks false) = (fst (kernel_report s ks) / s, snd (kernel_report s ks) / s ^ 2)
    /\ (let '(m', l', u') := psd_report s ps in let off := 20 * (ln s - log10 s) in
        crude_psd n (summarise_samples ps true) = (m' + off, l' + off, u' + off))
    /\ (s = 1 -> crude_kernel n (summarise_samples ks false) = kernel_report s ks
                /\ crude_psd n (summarise_samples ps true) = psd_report s ps).
Proof.
  intros n ks ps Hs Np Pp s.
  assert (S2 : 0 < s ^ 2) by now apply pow_lt.
  assert (A : crude_kernel n (summarise_samples ks false) = (fst (kernel_report s ks) / s, snd (kernel_report s ks) / s ^ 2)).
  { unfold crude_kernel, kernel_report, summarise_samples, in_data_unit. fold s. cbn [fst snd sm_mean sm_var].
    rewrite mean_sc, std_sc by lra. f_equal; field; unfold s; lra. }
  assert (B : let '(m', l', u') := psd_report s ps in let off := 20 * (ln s - log10 s) in
        crude_psd n (summarise_samples ps true) = (m' + off, l' + off, u' + off)).
  { unfold crude_psd, psd_report, summarise_samples, in_data_unit. fold s. cbn [sm_mean err_95_lower err_95_upper].
    rewrite mean_sc, !quantile_sc by auto. rewrite !log10_sq; auto; try (apply quantile_pos; auto; lra); try (now apply mean_pos).
    apply f_equal2; [apply f_equal2|]; ring. }
  split; [exact A|split; [exact B|]]. intros E. split.
  - rewrite A, E. destruct (kernel_report 1 ks) as [a b]. simpl. f_equal; field.
  - destruct (psd_report s ps) as [[a b] d]. cbv zeta in B. rewrite B, (proj2 (ln_log10 s Hs) E). apply f_equal2; [apply f_equal2|]; ring.
Qed.
Print Assumptions C121_reports_partial.

(** Non-vacuity: prices with standard deviation five, and two samples of the kernel at lag zero. *)
Example C121_witness :
  let n := Normaliser 95 5 in
  (0 < no_scale n /\ no_scale n <> 1) /\ ([1; 3] <> [] /\ forall v, In v [1; 3] -> 0 < v) /\ np_mean [1; 3] = 2 /\ np_std [1; 3] = 1
  /\ crude_kernel n (summarise_samples [1; 3] false) = (10, 25) /\ kernel_report (no_scale n) [1; 3] = (50, 625)
  /\ exists freqs psd, estimate_psd [0; 1] [1; 0] 0 false = Ok (freqs, psd).
Proof.
  intros n. assert (M : np_mean [1; 3] = 2) by (unfold np_mean; simpl; field).
  assert (S : np_std [1; 3] = 1).
  { unfold np_std. rewrite M. unfold np_mean. simpl. replace (_ / _) with 1 by field. apply sqrt_1. }
  split; [subst n; cbn [no_scale]; split; lra|]. split; [split; [discriminate|]; intros v [<-|[<-|[]]]; lra|]. split; auto. split; auto. split; [|split].
  - unfold crude_kernel, summarise_samples. cbn [sm_mean sm_var n no_scale]. rewrite M, S. f_equal; ring.
  - unfold kernel_report, in_data_unit. subst n. cbn [no_scale]. rewrite mean_sc, std_sc, M, S by lra. f_equal; ring.
  - unfold estimate_psd. destruct (Req_EM_T 0 0); [|lra]. cbn [app repeat]. do 2 eexists. reflexivity.
Qed.
