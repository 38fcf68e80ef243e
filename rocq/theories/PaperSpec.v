(** Specification for the scripts of /repo/experiments/paper (C121 to C124). *)
From Coq Require Import Reals ZArith List Bool.
From Verif Require Import UtilModel PaperModel.
Import ListNotations.
Local Open Scope R_scope.

(** If [f] has the covariances [k], then [a + s f] has the covariances [s^2 k], and so the power
    spectral density [s^2] times that of [f]. *)
Definition in_data_unit (s : R) (k : list R) : list R := map (fun v => s ^ 2 * v) k.

(** What should be reported on the kernel at one lag, given the samples [ks] of the normalised
    kernel there: the mean and the variance of the kernel of the data. *)
Definition kernel_report (s : R) (ks : list R) : R * R :=
  (np_mean (in_data_unit s ks), np_std (in_data_unit s ks) ^ 2).

(** And on the power spectral density at one frequency: the mean and the 95% band, in decibels. *)
Definition psd_report (s : R) (ps : list R) : R * R * R :=
  (10 * log10 (np_mean (in_data_unit s ps)),
   10 * log10 (np_quantile (in_data_unit s ps) (25 / 1000)),
   10 * log10 (np_quantile (in_data_unit s ps) (1 - 25 / 1000))).

(** An observation of the crude-oil data is a test point: it lies in one of the weeks 27, 29, ..., 51
    after 1 January. *)
Definition in_test_week (ts : Z) : Prop :=
  exists i : Z, (13 <= i <= 25 /\ (2 * i + 1) * week <= ts < (2 * i + 2) * week)%Z.

(** Two data sets that are the same but for the values of the test points. *)
Definition same_but_test_values (d d' : list (Z * R)) : Prop :=
  Forall2 (fun o o' => fst o = fst o' /\ (~ in_test_week (fst o) -> snd o = snd o')) d d'.

(** The observations in a period, and the points that a model sees: days since a reference, and
    logarithms. *)
Definition window (data : list (Z * R)) (lower upper : Z) : list (Z * R) :=
  filter (fun o => ((lower <=? fst o) && (fst o <? upper))%Z) data.
Definition points (reference : R) (obs : list (Z * R)) : list (R * R) :=
  map (fun o => (days (fst o) - reference, ln (snd o))) obs.

(** The same history up to a moment. *)
Definition same_before (moment : Z) (d d' : list (Z * R)) : Prop :=
  filter (fun o => (fst o <? moment)%Z) d = filter (fun o => (fst o <? moment)%Z) d'.
