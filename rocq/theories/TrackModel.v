(** Model of how the scripts of /repo/experiments/paper measure and compare: the class [Tracker] and
    the callbacks of compare_inference.py, the comparison of vix_forecast_process.py and the
    aggregation of crude_oil_aggregate.py.

    The calls of [time.time()] are part of the events: every event carries what the clock shows.
    Numbers are exact reals. *)
From Coq Require Import Reals ZArith List Bool.
From Verif Require Import Py UtilModel.
Import ListNotations.
Local Open Scope R_scope.

(** compare_inference.py 15-21: the state of a [Tracker]; [tr_open] are the [start] of the contexts
    of [with] blocks that have not ended, innermost first. *)
Record tracker := Tracker {
  tr_ref : R;
  tr_times : list R;
  tr_values : list R;
  tr_open : list R }.
Definition new_tracker (now : R) : tracker := Tracker now [] [] [].

(** What can happen to a tracker, with the reading of the clock. *)
Inductive event := ETrack (now value : R) | EEnter (now : R) | EExit (now : R).

(** compare_inference.py 23-27 [track], 31-32 [__enter__] and 34-36 [__exit__].  Unwrapping a traced
    value ([primal]) is not modelled. *)
Definition step (s : tracker) (e : event) : tracker :=
  match e with
  | ETrack now v => Tracker (tr_ref s) (tr_times s ++ [now - tr_ref s]) (tr_values s ++ [v]) (tr_open s)
  | EEnter now => Tracker (tr_ref s) (tr_times s) (tr_values s) (now :: tr_open s)
  | EExit now =>
      match tr_open s with
      | [] => s
      | start :: rest => Tracker (tr_ref s + (now - start)) (tr_times s) (tr_values s) rest
      end
  end.
Definition run (s : tracker) (es : list event) : tracker := fold_left step es s.

(** compare_inference.py 40-43: [get_xy]; [self.times[start]] raises if there is no such element. *)
Definition get_xy (s : tracker) (start : nat) : res (list R * list R) :=
  match nth_error (tr_times s) start with
  | None => Err IndexError
  | Some r => Ok (map (fun x => x - r) (skipn start (tr_times s)), skipn start (tr_values s))
  end.

(** compare_inference.py 187-202 and 223-243: the callbacks see [vs], one value per call, and track
    some of them; [count] is the global variable before the next call, initially one. *)
Fixpoint tracked {A} (count : Z) (vs : list A) : list A :=
  match vs with
  | [] => []
  | v :: vs =>
      let count := (count + 1)%Z in
      if ((count <? 20) || (count mod 5 =? 0))%Z then v :: tracked count vs else tracked count vs
  end.

(** NumPy: [np.maximum.accumulate], used in compare_inference.py 271-272. *)
Fixpoint accumulate_from (best : R) (l : list R) : list R :=
  match l with [] => [] | x :: l => Rmax best x :: accumulate_from (Rmax best x) l end.
Definition accumulate (l : list R) : list R :=
  match l with [] => [] | x :: l => x :: accumulate_from x l end.

(** vix_forecast_process.py 49-56: [compare]: the mean of the differences, its standard error, and
    the p-value; [cdf] is [st.norm.cdf].  Division by a zero standard error gives [nan] there, and
    an exception here. *)
Definition compare (cdf : R -> R) (values1 values2 : list R) : R * R * res R :=
  let diff := map (fun p => fst p - snd p) (combine values1 values2) in
  let mean := np_mean diff in
  let std := np_std diff / sqrt (INR (length diff)) in
  (mean, std, do q <- (if Req_EM_T std 0 then Err ZeroDivisionError else Ok (- Rabs mean / std)); Ok (cdf q)).

(** crude_oil_aggregate.py 33 and 35: the difference that is reported. *)
Definition aggregate (values1 values2 : list R) : R := np_mean values1 - np_mean values2.
