(** The property C132: the comparison of the schemes measures every predicted kernel against the kernel
    that made its data, lag by lag. *)
From Coq Require Import Reals ZArith List Bool String Lra Lia Arith.
From Verif Require Import Py UtilModel GpcmModel KernelCompareModel.
Import ListNotations.
Local Open Scope R_scope.
Local Open Scope string_scope.

(** Specification: lag number [i]; the average and the population variance of numbers; what is compared
    at lag number [i]; and the lags up to [until]. *)
Definition lag (i : nat) : R := 4 * INR i / 199.
Definition lags : list R := map lag (seq 0 200).
Definition total (l : list R) : R := fold_right Rplus 0 l.
Definition average (l : list R) : R := total l / INR (List.length l).
Definition spread (l : list R) : R := average (map (fun x => (x - average l) * (x - average l)) l).
Definition values_at (j : job) (scheme : string) (i : nat) : list R := map (fun k => nth i k 0) (j_samples j scheme lags).
Definition lags_until (until : R) : list nat := filter (fun i => if Rle_dec (lag i) until then true else false) (seq 0 200).

Lemma lags_eq : linspace 0 4 200 = Ok lags.
Proof.
  unfold linspace. change (200 <? 0)%Z with false. cbv iota. f_equal. change (Z.to_nat 200) with 200%nat.
  unfold lags. apply map_ext. intros i. unfold lag. destruct (Nat.eqb_spec i 0) as [->|_]; cbn [INR]; lra.
Qed.

Lemma load_same fs p c : load (save fs p c) p = Ok c.
Proof. unfold load, save. cbn. unfold path_eqb. now destruct (list_eq_dec string_dec p p). Qed.
Lemma load_other fs p q c : p <> q -> load (save fs p c) q = load fs q.
Proof. intros N. unfold load, save. cbn. unfold path_eqb. now destruct (list_eq_dec string_dec p q). Qed.

Lemma run_job_other t_k fs j a p : a <> j_slug j -> load (run_job t_k fs j) (a :: p) = load fs (a :: p).
Proof.
  intros N. unfold run_job. cbn [fold_left]. unfold run_scheme, predict_kernel.
  rewrite !load_other; try reflexivity; intros E; injection E; intros; subst; now apply N.
Qed.
Lemma run_jobs_other t_k jobs : forall fs a p, ~ In a (map j_slug jobs) ->
  load (fold_left (run_job t_k) jobs fs) (a :: p) = load fs (a :: p).
Proof.
  induction jobs as [|j jobs IH]; intros fs a p N; [reflexivity|]. cbn [fold_left]. rewrite IH.
  - apply run_job_other. intros ->. apply N. now left.
  - intros I. apply N. now right.
Qed.
Lemma run_job_data t_k fs j : load (run_job t_k fs j) [j_slug j; "data.pickle"] = Ok (DataFile (map (fun x => j_kernel j x 0) t_k)).
Proof.
  unfold run_job. cbn [fold_left]. unfold run_scheme, predict_kernel.
  do 8 (rewrite load_other by discriminate). apply load_same.
Qed.
Lemma run_job_pred t_k fs j scheme : In scheme ["mean-field"; "structured"] ->
  load (run_job t_k fs j) [j_slug j; scheme; j_model j; "k_pred.pickle"]
  = Ok (let '(x, m, v) := predict_kernel j scheme t_k in KernelFile x m v).
Proof.
  intros I. unfold run_job. cbn [fold_left]. unfold run_scheme, predict_kernel.
  destruct I as [<-|[<-|[]]].
  - do 4 (rewrite load_other by discriminate). apply load_same.
  - apply load_same.
Qed.

Lemma comparison_loads jobs j scheme :
  NoDup (map j_slug jobs) -> In j jobs -> In scheme ["mean-field"; "structured"] ->
  exists fs, comparison jobs = Ok fs
    /\ load fs [j_slug j; "data.pickle"] = Ok (DataFile (map (fun x => j_kernel j x 0) lags))
    /\ load fs [j_slug j; scheme; j_model j; "k_pred.pickle"]
       = Ok (let '(x, m, v) := predict_kernel j scheme lags in KernelFile x m v).
Proof.
  intros N I Hs. unfold comparison. rewrite lags_eq. cbn [bind]. eexists. split; [reflexivity|].
  generalize (@nil (list string * content)).
  induction jobs as [|a jobs IH]; intros fs; [destruct I|]. cbn [fold_left map] in *.
  inversion N as [|? ? N1 N2]; subst. destruct I as [->|I]; [|now apply IH].
  rewrite !run_jobs_other by exact N1. split; [apply run_job_data|now apply run_job_pred].
Qed.

Lemma mask_map (b : R -> bool) (f : nat -> R) (g : nat -> R) l :
  mask (map b (map g l)) (map f l) = Ok (map f (filter (fun i => b (g i)) l)).
Proof.
  unfold mask. rewrite !map_length, Nat.eqb_refl. f_equal.
  induction l as [|i l IH]; [reflexivity|]. cbn. destruct (b (g i)); cbn; now rewrite IH.
Qed.

Lemma total_sum l : np_sum l = total l.
Proof. unfold total, np_sum. reflexivity || (induction l; cbn; congruence). Qed.
Lemma mean_average l : np_mean l = average l.
Proof. unfold np_mean, average. now rewrite total_sum. Qed.
Lemma total_nonneg l : (forall x, In x l -> 0 <= x) -> 0 <= total l.
Proof.
  induction l as [|x l IH]; intros P; cbn; [lra|]. assert (0 <= x) by (apply P; now left).
  assert (0 <= total l) by (apply IH; intros; apply P; now right). unfold total in *. lra.
Qed.
Lemma spread_nonneg l : 0 <= spread l.
Proof.
  unfold spread. generalize (average l). intros a. unfold average.
  assert (T : 0 <= total (map (fun x => (x - a) * (x - a)) l)).
  { apply total_nonneg. intros y I. apply in_map_iff in I. destruct I as (x & <- & _). apply Rle_0_sqr. }
  destruct l as [|x l]; [cbn in *; unfold Rdiv; lra|].
  apply Rmult_le_pos; [exact T|]. apply Rlt_le, Rinv_0_lt_compat. apply lt_0_INR. cbn [map List.length]. lia.
Qed.
Lemma std_spread l : np_std l * np_std l = spread l.
Proof.
  change (sqrt (spread l) * sqrt (spread l) = spread l). apply sqrt_sqrt, spread_nonneg.
Qed.

Lemma analysis_loaded smll rmse fs j scheme until :
  load fs [j_slug j; "data.pickle"] = Ok (DataFile (map (fun x => j_kernel j x 0) lags)) ->
  load fs [j_slug j; scheme; j_model j; "k_pred.pickle"] = Ok (let '(x, m, v) := predict_kernel j scheme lags in KernelFile x m v) ->
  let I := lags_until until in
  let means := map (fun i => average (values_at j scheme i)) I in
  let vars := map (fun i => spread (values_at j scheme i)) I in
  let truths := map (fun i => j_kernel j (lag i) 0) I in
  kernel_analysis smll rmse fs (j_slug j) scheme (j_model j) "rmse" until = Ok (rmse means truths)
  /\ kernel_analysis smll rmse fs (j_slug j) scheme (j_model j) "smll" until = Ok (smll means vars truths)
  /\ forall metric, metric <> "rmse" -> metric <> "smll" ->
       kernel_analysis smll rmse fs (j_slug j) scheme (j_model j) metric until = Err ValueError.
Proof.
  intros E1 E2 I means vars truths.
  set (b := fun x => if Rle_dec x until then true else false).
  assert (L : List.length lags = 200%nat) by (unfold lags; now rewrite map_length, seq_length).
  assert (M : map (fun i => sm_mean (summarise_samples (map (fun k => nth i k 0) (j_samples j scheme lags)) false)) (seq 0 200)
              = map (fun i => average (values_at j scheme i)) (seq 0 200)).
  { apply map_ext. intros i. cbn [sm_mean summarise_samples]. apply mean_average. }
  assert (V : map (fun i => sm_var (summarise_samples (map (fun k => nth i k 0) (j_samples j scheme lags)) false)) (seq 0 200)
              = map (fun i => spread (values_at j scheme i)) (seq 0 200)).
  { apply map_ext. intros i. cbn [sm_var summarise_samples]. apply std_spread. }
  unfold predict_kernel in E2. cbv zeta in E2. rewrite L, M, V in E2. cbv iota in E2.
  assert (Mm : mask (map b lags) (map (fun i => average (values_at j scheme i)) (seq 0 200)) = Ok means) by apply mask_map.
  assert (Mv : mask (map b lags) (map (fun i => spread (values_at j scheme i)) (seq 0 200)) = Ok vars) by apply mask_map.
  assert (Mt : mask (map b lags) (map (fun x => j_kernel j x 0) lags) = Ok truths).
  { unfold lags at 2. rewrite map_map. apply mask_map. }
  clear M V L.
  unfold kernel_analysis. rewrite E1, E2. cbn [bind]. fold b.
  generalize dependent (map b lags). intros inds Mm Mv Mt.
  split; [|split].
  - change (String.eqb "rmse" "smll") with false. change (String.eqb "rmse" "rmse") with true. cbv iota.
    rewrite Mm, Mt. reflexivity.
  - change (String.eqb "smll" "smll") with true. cbv iota. rewrite Mm, Mv, Mt. reflexivity.
  - intros metric N1 N2. apply String.eqb_neq in N1, N2. now rewrite N1, N2.
Qed.

Section Props.
Variable smll : list R -> list R -> list R -> R.
Variable rmse : list R -> list R -> R.

(** C132: whatever the models sample and whatever the metrics are, the RMSE and the SMLL that are reported for
    a kernel, a scheme and a model are those of the averages (and variances) of the samples of that model
    with that scheme at the lags up to [until], against the kernel of the data at the same lags. *)
Theorem C132_analysis :
  forall jobs j scheme until,
    NoDup (map j_slug jobs) -> In j jobs -> In scheme ["mean-field"; "structured"] ->
    exists fs, comparison jobs = Ok fs
      /\ let I := lags_until until in
         let means := map (fun i => average (values_at j scheme i)) I in
         let vars := map (fun i => spread (values_at j scheme i)) I in
         let truths := map (fun i => j_kernel j (lag i) 0) I in
         kernel_analysis smll rmse fs (j_slug j) scheme (j_model j) "rmse" until = Ok (rmse means truths)
         /\ kernel_analysis smll rmse fs (j_slug j) scheme (j_model j) "smll" until = Ok (smll means vars truths)
         /\ forall metric, metric <> "rmse" -> metric <> "smll" ->
              kernel_analysis smll rmse fs (j_slug j) scheme (j_model j) metric until = Err ValueError.
Proof.
  intros jobs j scheme until N I Hs. destruct (comparison_loads jobs j scheme N I Hs) as (fs & E & E1 & E2).
  exists fs. split; [exact E|]. now apply analysis_loaded.
Qed.

(** Up to four, which is what the report uses, nothing is left out. *)
Theorem C132_all_lags : forall until, 4 <= until -> lags_until until = seq 0 200.
Proof.
  intros u H. unfold lags_until.
  assert (G : forall l, (forall i, In i l -> (i < 200)%nat) -> filter (fun i => if Rle_dec (lag i) u then true else false) l = l).
  { induction l as [|i l IH]; intros P; [reflexivity|]. cbn [filter].
    destruct (Rle_dec (lag i) u) as [_|F]; [f_equal; apply IH; intros; apply P; now right|].
    exfalso. apply F. unfold lag. assert (B : (i <= 199)%nat) by (specialize (P i (or_introl eq_refl)); lia).
    apply le_INR in B. replace (INR 199) with 199 in B by (rewrite INR_IZR_INZ; reflexivity). lra. }
  apply G. intros i Hi. apply in_seq in Hi. lia.
Qed.

(** The report is complete exactly if the files of the third kernel have the name that it looks for; it
    raises otherwise. *)
Theorem C132_report :
  forall j1 j2 j3,
    j_slug j1 = "eq" -> j_model j1 = "gpcm" -> j_slug j2 = "ceq-1" -> j_model j2 = "cgpcm" -> j_model j3 = "rgpcm" ->
    j_slug j3 <> "eq" -> j_slug j3 <> "ceq-1" ->
    exists fs, comparison [j1; j2; j3] = Ok fs
      /\ (let row j :=
             let all scheme f := map (fun i => f (values_at j scheme i)) (seq 0 200) in
             let truths := map (fun i => j_kernel j (lag i) 0) (seq 0 200) in
             [smll (all "mean-field" average) (all "mean-field" spread) truths;
              smll (all "structured" average) (all "structured" spread) truths;
              rmse (all "mean-field" average) truths; rmse (all "structured" average) truths] in
           j_slug j3 = "matern12" -> report_rows smll rmse fs = Ok [row j1; row j2; row j3])
      /\ (j_slug j3 <> "matern12" -> exists e, report_rows smll rmse fs = Err e).
Proof.
  intros j1 j2 j3 S1 M1 S2 M2 M3 N1 N2.
  assert (N : NoDup (map j_slug [j1; j2; j3])).
  { cbn [map]. rewrite S1, S2. repeat constructor; cbn; intuition congruence. }
  assert (A := fun j scheme Hj Hs => C132_analysis [j1; j2; j3] j scheme 4 N Hj Hs).
  cbv zeta in A. rewrite C132_all_lags in A by lra.
  destruct (comparison [j1; j2; j3]) as [fs|e] eqn:E.
  2:{ destruct (A j1 "structured" (or_introl eq_refl) (or_intror (or_introl eq_refl))) as (fs & F & _). discriminate. }
  exists fs. split; [reflexivity|].
  assert (B : forall j, In j [j1; j2; j3] -> forall scheme, In scheme ["mean-field"; "structured"] ->
     kernel_analysis smll rmse fs (j_slug j) scheme (j_model j) "rmse" 4
       = Ok (rmse (map (fun i => average (values_at j scheme i)) (seq 0 200)) (map (fun i => j_kernel j (lag i) 0) (seq 0 200)))
     /\ kernel_analysis smll rmse fs (j_slug j) scheme (j_model j) "smll" 4
       = Ok (smll (map (fun i => average (values_at j scheme i)) (seq 0 200)) (map (fun i => spread (values_at j scheme i)) (seq 0 200))
                  (map (fun i => j_kernel j (lag i) 0) (seq 0 200)))).
  { intros j Hj scheme Hs. destruct (A j scheme Hj Hs) as (fs' & F & F1 & F2 & _).
    assert (fs' = fs) by congruence. subst. now split. }
  clear A. generalize dependent (seq 0 200). intros I200 B.
  assert (MF : In "mean-field" ["mean-field"; "structured"]) by now left.
  assert (ST : In "structured" ["mean-field"; "structured"]) by (right; now left).
  assert (R1 := B j1 (or_introl eq_refl)). assert (R2 := B j2 (or_intror (or_introl eq_refl))).
  assert (R3 := B j3 (or_intror (or_intror (or_introl eq_refl)))).
  rewrite S1, M1 in R1. rewrite S2, M2 in R2. rewrite M3 in R3.
  split.
  - intros row S3. rewrite S3 in R3. unfold report_rows. cbn [mapM].
    rewrite (proj1 (R1 _ MF)), (proj1 (R1 _ ST)), (proj2 (R1 _ MF)), (proj2 (R1 _ ST)).
    rewrite (proj1 (R2 _ MF)), (proj1 (R2 _ ST)), (proj2 (R2 _ MF)), (proj2 (R2 _ ST)).
    rewrite (proj1 (R3 _ MF)), (proj1 (R3 _ ST)), (proj2 (R3 _ MF)), (proj2 (R3 _ ST)).
    reflexivity.
  - intros S3. exists KeyError. unfold report_rows. cbn [mapM].
    rewrite (proj1 (R1 _ MF)), (proj1 (R1 _ ST)), (proj2 (R1 _ MF)), (proj2 (R1 _ ST)).
    rewrite (proj1 (R2 _ MF)), (proj1 (R2 _ ST)), (proj2 (R2 _ MF)), (proj2 (R2 _ ST)).
    unfold comparison in E. rewrite lags_eq in E. cbn [bind] in E.
    assert (F : load fs ["matern12"; "data.pickle"] = Err KeyError).
    { replace fs with (fold_left (run_job lags) [j1; j2; j3] []) by congruence.
      rewrite run_jobs_other; [reflexivity|]. cbn [map]. rewrite S1, S2. cbn. intuition congruence. }
    cbn [bind]. unfold kernel_analysis at 1. rewrite F. reflexivity.
Qed.
End Props.
Print Assumptions C132_analysis.
Print Assumptions C132_all_lags.
Print Assumptions C132_report.

(** Not vacuous: three kernels, and two samples of each at any lags. *)
Example C132_witness :
  let j s m := Job s (fun x y => exp (- (x - y) * (x - y))) m (fun _ t => [map (fun x => x) t; map (fun x => 2 * x) t]) in
  NoDup (map j_slug [j "eq" "gpcm"; j "ceq-1" "cgpcm"; j "matern12" "rgpcm"])
  /\ average (values_at (j "eq" "gpcm") "structured" 1) = 6 / 199
  /\ j_slug (j "exp" "rgpcm") <> "matern12".
Proof.
  cbv zeta. split; [|split].
  - cbn. repeat constructor; cbn; intuition congruence.
  - unfold values_at. cbn [j_samples map]. unfold lags. change (seq 0 200) with (0 :: 1 :: seq 2 198)%nat. cbn [map nth].
    unfold average, total, lag. cbn [fold_right List.length INR]. lra.
  - discriminate.
Qed.
