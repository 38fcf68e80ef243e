(** Model of the options and the analyses of /repo/experiments/experiment.py. *)
From Coq Require Import Reals ZArith List Bool.
From Verif Require Import Py RgpcmModel.
Import ListNotations.
Local Open Scope R_scope.

(** * Options *)

(** The parsed arguments that concern training, experiment.py:43-46: [--iters] without a default and the flag
    [--fix-hypers]. *)
Record options := Options { o_iters : option Z; o_fix_hypers : bool }.

(** The keyword arguments given to [fit], if they are given. *)
Record fit_kw := FitKw { kw_iters : option Z; kw_optimise_hypers : option bool }.

(** [run], experiment.py:109-118: options that are not truthy are not passed on; [fix_hypers] is negated. *)
Definition train_config (o : options) : fit_kw :=
  let iters := match o_iters o with Some n => if (n =? 0)%Z then None else Some n | None => None end in
  let fix_hypers := if o_fix_hypers o then Some true else None in
  FitKw iters (match fix_hypers with Some b => Some (negb b) | None => None end).

(** [fit(t, y, **kw)], approx.py:741, 786: the values that [fit] works with, for its defaults. *)
Definition fit_args (default_iters : Z) (kw : fit_kw) : Z * bool :=
  (match kw_iters kw with Some n => n | None => default_iters end,
   match kw_optimise_hypers kw with Some b => b | None => true end).

(** * Spacing of the data *)

(** [np.diff]. *)
Fixpoint diff (l : list R) : list R :=
  match l with
  | x :: (y :: _) as l' => (y - x) :: diff l'
  | _ => []
  end.

(** [max] of a sequence, which raises if it is empty. *)
Definition py_max (l : list R) : res R :=
  match l with
  | [] => Err ValueError
  | x :: l' => Ok (fold_left Rmax l' x)
  end.

(** experiment.py:389: [max(abs(diff(diff(t)))) / max(abs(t)) < 5e-2]. A quotient by zero is a NaN or infinite, and no
    such number is less than another. *)
Definition equally_spaced (t : list R) : res bool :=
  do num <- py_max (map Rabs (diff (diff t)));
  do den <- py_max (map Rabs t);
  if Req_EM_T den 0 then Ok false
  else Ok (if Rlt_dec (num / den) (5 / 100) then true else false).

(** * The error lines of the predictions *)

(** experiment.py:399-420: at one time, for the variance and the noise of the model, the half width
    of the two bands and the half width of the dashed lines. *)
Record bands := Bands { narrow : R; wide : R; dashed : R }.
Definition error_lines (var noise : R) : bands :=
  let std := sqrt var in
  Bands std (2 * std) (2 * sqrt (noise + std ^ 2)).

(** * The Fourier features *)

(** Positions of a list at which a test holds, [np.where]. *)
Definition where_ (test : Z -> bool) (l : list Z) : list nat :=
  filter (fun i => test (nth i l 0%Z)) (seq 0 (List.length l)).

(** experiment.py:587-594: the points of the panel of cosine features, a frequency and an index each. *)
Definition cosine_panel (m : rgpcm) : list (R * nat) :=
  let inds := where_ (fun k => k =? 0)%Z (r_ms m) ++ where_ (fun k => k <=? r_m_max m)%Z (r_ms m) in
  map (fun i => (IZR (nth i (r_ms m) 0%Z) / (r_b m - r_a m), i)) inds.

(** experiment.py:604-611: the points of the panel of sine features. *)
Definition sine_panel (m : rgpcm) : list (R * nat) :=
  let inds := where_ (fun k => k =? 0)%Z (r_ms m) ++ where_ (fun k => r_m_max m <? k)%Z (r_ms m) in
  map (fun i => (IZR (Z.max (nth i (r_ms m) 0%Z - r_m_max m) 0) / (r_b m - r_a m), i)) inds.
