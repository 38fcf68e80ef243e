(** Model of the spectra that /repo/experiments/experiment.py 502-570 plots beside the predicted ones. *)
From Coq Require Import Reals List.
From Verif Require Import Py UtilModel.
Import ListNotations.
Local Open Scope R_scope.

(** experiment.py 508-513: the curve labelled "True".  [pred_x] is [pred.x] of [model.predict_psd()],
    the frequencies of the prediction; [k] is the true kernel, and [.mat[0, :]] its first row. *)
Definition true_psd_panel (pred_x : list R) (k : R -> R -> R) : res (list R * list R) :=
  match pred_x with
  | [] => Err IndexError
  | x0 :: _ => estimate_psd pred_x (map (k x0) pred_x) 2000 true
  end.

(** experiment.py 516-519: the curve labelled "Autocorrelation". *)
Definition data_psd_panel (t y : list R) : res (list R * list R) :=
  match t with
  | [] => Err IndexError
  | t0 :: _ =>
      let t_ac := map (fun s => s - t0) t in
      do k_ac <- autocorr y None true false;
      estimate_psd t_ac k_ac 2000 true
  end.

(** experiment.py 448-449: the true kernel in the panel of kernels; [pred_x] is [pred.x] of
    [model.predict_kernel()], the lags of the prediction. *)
Definition true_kernel_panel (pred_x : list R) (k : R -> R -> R) : res (list (R * R)) :=
  match pred_x with
  | [] => Err IndexError
  | x0 :: _ => Ok (combine pred_x (map (k x0) pred_x))
  end.
