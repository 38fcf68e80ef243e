(** Specification for [min_phase]: the response of a filter at the frequencies [k / n]. *)
From Coq Require Import Reals List.
From Verif Require Import UtilSpec.
Import ListNotations.
Local Open Scope R_scope.

(** Response of the filter [h] at frequency [k] out of [n = length h]: the real and imaginary parts
    of the sum over [j] of [h_j exp(- 2 pi i j k / n)]. *)
Definition response_re (h : list R) (k : nat) : R :=
  total (length h) (fun j => nth j h 0 * cos (2 * PI * INR j * INR k / INR (length h))).
Definition response_im (h : list R) (k : nat) : R :=
  - total (length h) (fun j => nth j h 0 * sin (2 * PI * INR j * INR k / INR (length h))).

(** Squared gain. *)
Definition gain2 (h : list R) (k : nat) : R := response_re h k ^ 2 + response_im h k ^ 2.
Definition same_gains (g h : list R) : Prop :=
  length g = length h /\ forall k, (k < length h)%nat -> gain2 g k = gain2 h k.

(** A filter has minimum phase (on the grid of frequencies) when its response is the exponential of
    the response of a causal sequence: one that vanishes at the negative times, the upper half of
    the indices. *)
Definition causal (c : list R) : Prop :=
  forall j, (j < length c)%nat -> (length c < 2 * j)%nat -> nth j c 0 = 0.
Definition minimum_phase (g : list R) : Prop :=
  exists c, length c = length g /\ causal c /\
  forall k, (k < length g)%nat ->
    response_re g k = exp (response_re c k) * cos (response_im c k) /\
    response_im g k = exp (response_re c k) * sin (response_im c k).

(** Energy of a filter; its autocorrelation at lag [d], and the circular one. *)
Definition energy (h : list R) : R := total (length h) (fun j => nth j h 0 ^ 2).
Definition autocorrelation (h : list R) (d : nat) : R :=
  total (length h - d) (fun j => nth j h 0 * nth (j + d) h 0).
Definition circular_autocorrelation (h : list R) (d : nat) : R :=
  total (length h) (fun j => nth j h 0 * nth ((j + d) mod length h) h 0).
