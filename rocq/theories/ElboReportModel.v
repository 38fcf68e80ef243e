(** Model of the ELBOs that /repo/experiments/experiment.py 343-348 reports, and of the two overloads of
    [elbo] in /repo/gpcm/approx.py, with the global random state and the variables of all models.
    Coordinate ascent and the values of the bounds are arbitrary functions here; they are modelled in
    ApproxModel.v and EvidenceModel.v.  There is one global random state: all models use the same
    data type. *)
From Coq Require Import List Bool Arith.
Import ListNotations.

Section ElboReport.
Variables Params Data State Value : Type.
(** approx.py 296-356: [_fit_mean_field_ca]. *)
Variable fit_ca : Params -> Data -> Params.
(** [Structured.elbo_collapsed_z]: draws random numbers. *)
Variable collapsed_z : Params -> Data -> State -> State * Value.
(** approx.py 603-632: the value of the mean-field bound. *)
Variable mean_field_bound : Params -> Data -> Value.
(** The scheme of a model: whether it is structured.  Models are objects, named by numbers. *)
Variable structured : nat -> bool.

(** The variables of all models, and the global random state. *)
Record world := World { w_params : nat -> Params; w_state : State }.

Definition set_params (w : world) (i : nat) (p : Params) : world :=
  World (fun j => if Nat.eqb j i then p else w_params w j) (w_state w).
(** [B.global_random_state] and [B.set_global_random_state]. *)
Definition set_state (w : world) (s : State) : world := World (w_params w) s.

(** approx.py 398-419 and 584-632: [elbo(state, t, y)], which gives back the state and the ELBO. *)
Definition elbo_from (i : nat) (d : Data) (s : State) (w : world) : world * (State * Value) :=
  if structured i then
    let w := set_params w i (fit_ca (w_params w i) d) in
    (w, collapsed_z (w_params w i) d s)
  else (w, (s, mean_field_bound (w_params w i) d)).

(** approx.py 421-426 and 634-639: [elbo(t, y)]. *)
Definition elbo (i : nat) (d : Data) (w : world) : world * Value :=
  let state := w_state w in
  let '(w, (state, e)) := elbo_from i d state w in
  (set_state w state, e).

(** experiment.py 344-348: the loop over the models; the values that are printed, in order. *)
Definition analyse_elbos (models : list nat) (d : Data) (w : world) : world * list Value :=
  fold_left (fun '(w, printed) i =>
               let '(w, (state, e)) := elbo_from i d (w_state w) w in
               (set_state w state, printed ++ [e])) models (w, []).
End ElboReport.
