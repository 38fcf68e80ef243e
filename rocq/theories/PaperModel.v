(** Model of the scripts of /repo/experiments/paper: how they split data, change units and analyse
    predictions.

    Times of the data are whole microseconds, as those of Python's [datetime] are. *)
From Coq Require Import Reals ZArith List Bool.
From Verif Require Import Py UtilModel.
Import ListNotations.
Local Open Scope R_scope.

(** * Units: crude_oil.py *)

(** probmods' [Normaliser], whose source is not in the repository: the mean and the standard
    deviation of the data of the first call of [transform]. *)
Record normaliser := Normaliser { no_mean : R; no_scale : R }.
Definition fit_normaliser (y : list R) : normaliser := Normaliser (np_mean y) (np_std y).
Definition transform (n : normaliser) (y : R) : R := (y - no_mean n) / no_scale n.
Definition untransform (n : normaliser) (y : R) : R := y * no_scale n + no_mean n.
(** [untransform] of a tuple with means and variances. *)
Definition untransform_moments (n : normaliser) (p : R * R) : R * R :=
  (fst p * no_scale n + no_mean n, snd p * no_scale n ^ 2).

(** crude_oil.py 104-110: the report on the kernel, at one lag. *)
Definition crude_kernel (n : normaliser) (s : summary) : R * R :=
  (sm_mean s * no_scale n, sm_var s * no_scale n ^ 2).

(** crude_oil.py 111-118: the report on the power spectral density, at one frequency; [B.log] is
    the natural logarithm. *)
Definition crude_psd (n : normaliser) (s : summary) : R * R * R :=
  (sm_mean s + 20 * ln (no_scale n), err_95_lower s + 20 * ln (no_scale n), err_95_upper s + 20 * ln (no_scale n)).

(** * Splits of the data: crude_oil.py and vix_forecast.py *)

Definition day : Z := (24 * 60 * 60 * 10 ^ 6)%Z.
Definition week : Z := (7 * day)%Z.
(** [timedelta.days], which rounds down. *)
Definition days (d : Z) : R := IZR (d / day).

(** An observation: its time since 1 January of the year (crude_oil.py) or of 2000
    (vix_forecast.py), and its value. *)
Notation obs := (Z * R)%type (only parsing).

(** crude_oil.py 42-54: the loop over the weeks, which marks the test points. *)
Definition test_weeks : list Z := filter (fun i => (i mod 2 =? 1)%Z) (map (fun i => Z.of_nat i) (seq 26 (53 - 26))).
Definition test_inds (ts : Z) : bool :=
  fold_left (fun acc i => acc || ((i * week <=? ts) && ((i + 1) * week >? ts))%Z) test_weeks false.

(** crude_oil.py 34-38 and 55-64: the data of the year, which has [len] days, and the split. *)
Record crude := Crude {
  cr_t : list R;
  cr_train : list (R * R);
  cr_test : list (R * R);
  cr_normaliser : normaliser;
  cr_y_train : list R }.
Definition crude_split (len : Z) (data : list (Z * R)) : crude :=
  let data := filter (fun o => ((0 <=? fst o) && (fst o <? len * day))%Z) data in
  let point o := (days (fst o), snd o) in
  let train := map point (filter (fun o => negb (test_inds (fst o))) data) in
  let test := map point (filter (fun o => test_inds (fst o)) data) in
  let n := fit_normaliser (map snd train) in
  Crude (map (fun o => days (fst o)) data) train test n (map (transform n) (map snd train)).

(** Python: [datetime(year, 1, 1)], in days since 1 January 2000, for the Gregorian calendar. *)
Definition leap_days (y : Z) : Z := (y / 4 - y / 100 + y / 400)%Z.
Definition jan1 (year : Z) : Z := (365 * (year - 2000) + (leap_days (year - 1) - leap_days 1999))%Z.
(** Python: [weekday()]; Monday is 0, and 1 January 2000 was a Saturday. *)
Definition weekday (d : Z) : Z := ((d + 5) mod 7)%Z.

(** vix_forecast.py 21-26: [first_monday]; the loop runs with [fuel]. *)
Fixpoint next_monday (fuel : nat) (d : Z) : option Z :=
  if (weekday d =? 0)%Z then Some d
  else match fuel with O => None | S fuel => next_monday fuel (d + 1)%Z end.
Definition first_monday (year : Z) : option Z := next_monday 7 (jan1 year).

(** vix_forecast.py 29-36: [get_data]: days since the reference and logarithms. *)
Definition get_data (data : list (Z * R)) (lower upper : Z) : list (R * R) :=
  map (fun o => (days (fst o), ln (snd o)))
    (filter (fun o => ((lower <=? fst o) && (fst o <? upper))%Z) data).

(** The times minus a reference. *)
Definition count_from (r : R) (l : list (R * R)) : list (R * R) := map (fun p => (fst p - r, snd p)) l.
(** The time of the first point; [t[0]] of an empty array raises. *)
Definition first_time (l : list (R * R)) : res R := match l with [] => Err IndexError | p :: _ => Ok (fst p) end.

(** vix_forecast.py 40-41: the training data, given the two first Mondays [m15] and [m16] (days). *)
Definition vix_train (data : list (Z * R)) (m15 m16 : Z) : res (list (R * R)) :=
  let l := get_data data (m15 * day) (m16 * day) in
  do r <- first_time l; Ok (count_from r l).

(** vix_forecast.py 44-57: the data to condition on and the test data of number [i]; the order of
    the two subtractions is that of the code. *)
Definition vix_test (data : list (Z * R)) (m16 : Z) (i : Z) : res (list (R * R) * list (R * R)) :=
  let l1 := get_data data (m16 * day + i * week) (m16 * day + (i + 4) * week) in
  let l2 := get_data data (m16 * day + (i + 4) * week) (m16 * day + (i + 5) * week) in
  do r <- first_time l1;
  let l2 := count_from r l2 in
  do r <- first_time l1;
  let l1 := count_from r l1 in
  Ok (l1, l2).

Definition vix_tests (data : list (Z * R)) (m16 : Z) : res (list (list (R * R) * list (R * R))) :=
  mapM (vix_test data m16) (map Z.of_nat (seq 0 100)).

(** * Spectra: vix_analyse.py and priors.py *)

(** vix_analyse.py 95-97: the spectrum of the excitation in decibels. *)
Definition vix_spectrum (lam alpha alpha_t f : R) : R :=
  let s := 2 * lam / (lam ^ 2 + (2 * PI * f) ^ 2) in
  let s := s * (alpha_t ^ 2 / (2 * alpha)) in
  10 * ln s / ln 10.
(** vix_analyse.py 123-133: the two components that are plotted, for the value [v] of the mean or
    of an end of the error band. *)
Definition vix_decomposition (lam alpha alpha_t f v : R) : R * R :=
  let s := vix_spectrum lam alpha alpha_t f in
  (v - s - 15 / 2, s + 15 / 2).

(** priors.py 31-37: [_extract_samples], for the inputs and for one sample. *)
Definition extract_x (x : list R) : list R := map Ropp (removelast (rev x)) ++ x.
Definition extract_samples (k : list R) : list R := removelast (rev k) ++ k.

(** priors.py 74-76: [apply_to_psd], for the samples at one frequency. *)
Definition apply_to_psd (psds : list R) (f : list R -> R) : R :=
  let raw := map (fun p => Rpower 10 (p / 10)) psds in
  10 * ln (f raw) / ln 10.

(** * Kernels: smk.py *)

(** stheno: the product of a function and a kernel is [f(x) k(x, y) f(y)]. *)
Definition fun_mul (f : R -> R) (k : R -> R -> R) (x y : R) : R := f x * k x y * f y.
(** stheno: [EQ()]. *)
Definition EQ (x y : R) : R := exp (- (x - y) ^ 2 / 2).
(** smk.py 37: the kernel of the data. *)
Definition smk_kernel (x y : R) : R :=
  fun_mul (fun x => sin (PI * x)) EQ x y + fun_mul (fun x => cos (PI * x)) EQ x y.
