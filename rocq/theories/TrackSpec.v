(** Specification for C125 and C126: what a stopwatch with pauses shows. *)
From Coq Require Import Reals List.
From Verif Require Import TrackModel.
Import ListNotations.
Local Open Scope R_scope.

(** A run as it appears from outside: measurements, and pauses from one time to another. *)
Inductive happening := Measure (now value : R) | Pause (from to : R).

(** The clock readings in order. *)
Definition readings (h : list happening) : list R :=
  flat_map (fun e => match e with Measure now _ => [now] | Pause a b => [a; b] end) h.

(** The total duration of the pauses. *)
Definition paused (h : list happening) : R :=
  fold_right (fun e s => match e with Measure _ _ => s | Pause a b => (b - a) + s end) 0 h.

(** The calls of the tracker that belong to a run. *)
Definition calls (h : list happening) : list event :=
  flat_map (fun e => match e with Measure now v => [ETrack now v] | Pause a b => [EEnter a; EExit b] end) h.

(** What was measured. *)
Definition measured (h : list happening) : list R :=
  flat_map (fun e => match e with Measure _ v => [v] | Pause _ _ => [] end) h.

(** The times at which something was measured, with the time of pauses before it taken out. *)
Fixpoint working_times (ref gone : R) (h : list happening) : list R :=
  match h with
  | [] => []
  | Measure now _ :: h => (now - ref - gone) :: working_times ref gone h
  | Pause a b :: h => working_times ref (gone + (b - a)) h
  end.

(** The largest of the first values. *)
Definition is_max (m : R) (l : list R) : Prop := In m l /\ forall x, In x l -> x <= m.

(** What is used of the normal distribution function. *)
Definition symmetric_cdf (cdf : R -> R) : Prop :=
  (forall x y, x < y -> cdf x < cdf y) /\ forall x, cdf (- x) = 1 - cdf x.
