(** Model of [AbstractGPCM.sample_kernel], [predict_kernel] and [predict_psd] of gpcm/model.py.

    [us] are the samples of the whitened inducing variables that the approximation draws, and
    [i_hx], [I_ux] stand for [compute_i_hx] and [compute_I_ux]. *)
From Coq Require Import Reals ZArith List.
From mathcomp Require Import all_ssreflect all_algebra.
From Verif Require Import Py RMat GpcmModel UtilModel ApproxModel.
Set Implicit Arguments.
Unset Strict Implicit.
Unset Printing Implicit Defensive.
Local Open Scope ring_scope.
Delimit Scope R_scope with Re.

Section Kernel.
Variable chol : forall n, 'M[R]_n -> 'M[R]_n.
Variable nu : nat.
Variables (K_u : 'M[R]_nu) (i_hx : R -> R -> R) (I_ux : R -> R -> 'M[R]_nu).

(** model.py 113-114 and 137-138: the times, and the default for them. *)
Definition times_or (upper : R) (num : Z) (t_k : option (seq R)) : res (seq R) :=
  if t_k is Some t then Ok t else linspace 0%Re upper num.

(** approx.py 537-549 and 663-675: [sample_kernel] of both approximations: one row for each
    sample.  [B.stack] of no arguments raises. *)
Definition sample_kernels (t_k : seq R) (us : seq 'cV[R]_nu) : res (seq (seq R)) :=
  let n := size t_k in
  let times (i : 'I_n) := nth 0%Re t_k i in
  if us is [::] then Err ValueError
  else Ok [seq [seq sample_kernel chol K_u i_hx I_ux times u i ord0 | i <- enum 'I_n] | u <- us].

(** model.py 119-120: the mean of [ks[:, 0]], which is printed. *)
Definition mean_variance (ks : seq (seq R)) : R := np_mean [seq nth 0%Re k 0 | k <- ks].

(** model.py 100-122: [sample_kernel]; also returns what it prints. *)
Definition model_sample_kernel (extent : R) (t_k : option (seq R)) (us : seq 'cV[R]_nu)
    : res (seq R * seq (seq R) * R) :=
  bind (times_or extent 300 t_k) (fun t_k =>
  bind (sample_kernels t_k us) (fun ks =>
  if t_k is [::] then Err IndexError else Ok (t_k, ks, mean_variance ks))).

(** model.py 86-98: [predict_kernel]. *)
Definition predict_kernel (extent : R) (t_k : option (seq R)) (us : seq 'cV[R]_nu)
    : res (seq R * seq summary) :=
  bind (model_sample_kernel extent t_k us) (fun '(t_k, ks, _) =>
  Ok (t_k, [seq summarise_samples [seq nth 0%Re k i | k <- ks] false | i <- iota 0 (size t_k)])).

(** numpy: [10 * log10(x)]; [None] stands for [nan] and [-inf]. *)
Definition decibel (x : R) : option R := if Rlt_dec 0 x then Some (10 * log10 x)%Re else None.

(** util.py 43-78: [summarise_samples(..., db=True)] at one input, with the values that are not
    numbers: the mean, the six quantiles (68%, 95% and 99%) and all samples.  The variance is
    modelled in UtilModel. *)
Definition decibel_report (samples : seq R) : option R * seq (option R) * seq (option R) :=
  (decibel (np_mean samples),
   [seq decibel (np_quantile samples q) | q <- [:: 32 / 100; 1 - 32 / 100; 25 / 1000; 1 - 25 / 1000; 15 / 10000; 1 - 15 / 10000]%Re],
   [seq decibel v | v <- samples]).

(** model.py 124-146: [predict_psd]: the frequencies, the sampled power spectral densities
    before the transform and what is reported at every frequency; [n_zero] is the argument of
    [estimate_psd]. *)
Definition predict_psd_with (n_zero : nat) (extent : R) (t_k : option (seq R)) (us : seq 'cV[R]_nu)
    : res (seq R * seq (seq R) * seq (option R * seq (option R) * seq (option R))) :=
  bind (times_or (2 * extent)%Re 1000 t_k) (fun t_k =>
  bind (model_sample_kernel extent (Some t_k) us) (fun '(t_k, ks, _) =>
  bind (mapM (fun k => estimate_psd t_k k n_zero false) ks) (fun fp =>
  let freqs := if fp is (f, _) :: _ then f else [::] in
  let psds := [seq p.2 | p <- fp] in
  Ok (freqs, psds, [seq decibel_report [seq nth 0%Re p i | p <- psds] | i <- iota 0 (size freqs)])))).

(** util.py 81: the default of [n_zero], which model.py 143 does not override. *)
Definition predict_psd := predict_psd_with 2000.
End Kernel.
