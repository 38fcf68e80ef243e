(** Model of /repo/experiments/paper/comparison.py, which fits models and saves their predictions, and of
    /repo/experiments/paper/comparison_process.py 13-34, which loads them and compares the predicted kernels
    with the true ones.  Numbers are exact reals.  Fitting, conditioning and sampling are a function from the
    scheme and the lags to the samples of the kernel; they are modelled elsewhere. *)
From Coq Require Import Reals ZArith List Bool String.
From Verif Require Import Py UtilModel GpcmModel.
Import ListNotations.
Local Open Scope R_scope.
Local Open Scope string_scope.

(** What is saved.  The data, the model, the ELBO and the prediction of the function have no further
    contents here, except for the true kernel. *)
Inductive content :=
| DataFile (k : list R)
| KernelFile (t mean var : list R)
| OtherFile.

(** The files of a working directory, the last written first. *)
Definition files := list (list string * content).
Definition path_eqb (p q : list string) : bool := if list_eq_dec string_dec p q then true else false.
(** [wd.save]. *)
Definition save (fs : files) (p : list string) (c : content) : files := (p, c) :: fs.
(** [wd.load]; a missing file raises ([FileNotFoundError] in Python). *)
Definition load (fs : files) (p : list string) : res content :=
  match find (fun e => path_eqb (fst e) p) fs with Some e => Ok (snd e) | None => Err KeyError end.

(** comparison.py 25-61: an entry of the list that is run over: [slugify(str(kernel))], the kernel,
    [slugify(model.name)], and the samples of the kernel of the fitted and conditioned model for a scheme,
    at given lags. *)
Record job := Job {
  j_slug : string;
  j_kernel : R -> R -> R;
  j_model : string;
  j_samples : string -> list R -> list (list R) }.

(** model.py 86-121: [predict_kernel(t_k)]: the lags, and the means and variances at the lags. *)
Definition predict_kernel (j : job) (scheme : string) (t_k : list R) : list R * list R * list R :=
  let ks := j_samples j scheme t_k in
  let at_lag i := summarise_samples (map (fun k => nth i k 0) ks) false in
  (t_k, map (fun i => sm_mean (at_lag i)) (seq 0 (List.length t_k)),
        map (fun i => sm_var (at_lag i)) (seq 0 (List.length t_k))).

(** comparison.py 79-94: one scheme. *)
Definition run_scheme (t_k : list R) (j : job) (fs : files) (scheme : string) : files :=
  let pre f := [j_slug j; scheme; j_model j; f] in
  let '(x, mean, var) := predict_kernel j scheme t_k in
  let fs := save fs (pre "model.pickle") OtherFile in
  let fs := save fs (pre "elbo.pickle") OtherFile in
  let fs := save fs (pre "f_pred.pickle") OtherFile in
  save fs (pre "k_pred.pickle") (KernelFile x mean var).

(** comparison.py 62-78: one entry. *)
Definition run_job (t_k : list R) (fs : files) (j : job) : files :=
  let fs := save fs [j_slug j; "data.pickle"] (DataFile (map (fun x => j_kernel j x 0) t_k)) in
  fold_left (run_scheme t_k j) ["mean-field"; "structured"] fs.

(** comparison.py 17 and 25: the experiment. *)
Definition comparison (jobs : list job) : res files :=
  do t_k <- linspace 0 4 200;
  Ok (fold_left (run_job t_k) jobs []).

(** NumPy: [l[inds]] for a vector of Booleans. *)
Definition mask (inds : list bool) (l : list R) : res (list R) :=
  if Nat.eqb (List.length inds) (List.length l) then Ok (map snd (filter fst (combine inds l))) else Err IndexError.

Section Metrics.
(** [wbml.metric.smll] and [wbml.metric.rmse]. *)
Variable smll : list R -> list R -> list R -> R.
Variable rmse : list R -> list R -> R.

(** comparison_process.py 13-23. *)
Definition kernel_analysis (fs : files) (data scheme model metric : string) (until : R) : res R :=
  do d <- load fs [data; "data.pickle"];
  do p <- load fs [data; scheme; model; "k_pred.pickle"];
  match d, p with
  | DataFile k, KernelFile t mean var =>
      let inds := map (fun x => if Rle_dec x until then true else false) t in
      if String.eqb metric "smll" then
        do m <- mask inds mean; do v <- mask inds var; do k <- mask inds k; Ok (smll m v k)
      else if String.eqb metric "rmse" then
        do m <- mask inds mean; do k <- mask inds k; Ok (rmse m k)
      else Err ValueError
  | _, _ => Err TypeError
  end.

(** comparison_process.py 26-34: the rows that are printed, for [(model, kernel)]: SMLL and RMSE, each for the
    mean-field and for the structured scheme. *)
Definition report_rows (fs : files) : res (list (list R)) :=
  mapM (fun '(model, kernel) =>
          mapM (fun '(metric, scheme) => kernel_analysis fs kernel scheme model metric 4)
               [("smll", "mean-field"); ("smll", "structured"); ("rmse", "mean-field"); ("rmse", "structured")])
       [("gpcm", "eq"); ("cgpcm", "ceq-1"); ("rgpcm", "matern12")].
End Metrics.
