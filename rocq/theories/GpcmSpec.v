(** Specification vocabulary for the GPCM: the kernels as functions of real times, indexing,
    quadratic forms, evenly spaced grids. *)
From Coq Require Import Reals ZArith List.
From Coquelicot Require Import Coquelicot.
From Verif Require Import GpcmModel.
Import ListNotations.
Local Open Scope R_scope.

(** The prior kernel of the filter and the inter-domain covariance. *)
Definition kh (m : gpcm) (t1 t2 : R) : R :=
  g_alpha_t m ^ 2 * exp (- g_alpha m * (t1 ^ 2 + t2 ^ 2) - g_gamma m * (t1 - t2) ^ 2).
Definition kxs (m : gpcm) (t1 t2 : R) : R := g_omega_t m * exp (- g_omega m * (t1 - t2) ^ 2).

(** Filters of the causal model look only at the past of [t]. *)
Definition upto (m : gpcm) (t : R) : Rbar := if g_causal m then Finite t else p_infty.

(** Decays away from the numerical floor 1e-30 of the safe square root. [alpha + 2 gamma] is
    twice the decay of the length scale that the user gives. *)
Definition moderate (x : R) : Prop := / 10 ^ 12 <= x <= 10 ^ 12.
Definition moderate_filter (m : gpcm) : Prop :=
  moderate (g_alpha m) /\ moderate (g_alpha m + 2 * g_gamma m).
Definition moderate_model (m : gpcm) : Prop := moderate_filter m /\ moderate (g_omega m).

(** Entries of nested lists. *)
Definition at2 {A} (T : list (list A)) (i j : nat) : option A :=
  match nth_error T i with Some r => nth_error r j | None => None end.
Definition at3 {A} (T : list (list (list A))) (i j k : nat) : option A :=
  match nth_error T i with Some r => at2 r j k | None => None end.
Definition at4 {A} (T : list (list (list (list A)))) (i j k l : nat) : option A :=
  match nth_error T i with Some r => at3 r j k l | None => None end.

(** [shape2 T a b]: an [a] by [b] matrix; likewise for more axes. *)
Definition shape2 {A} (T : list (list A)) (a b : nat) : Prop :=
  List.length T = a /\ List.Forall (fun r => List.length r = b) T.
Definition shape3 {A} (T : list (list (list A))) (a b c : nat) : Prop :=
  List.length T = a /\ List.Forall (fun r => shape2 r b c) T.
Definition shape4 {A} (T : list (list (list (list A)))) (a b c d : nat) : Prop :=
  List.length T = a /\ List.Forall (fun r => shape3 r b c d) T.

Fixpoint sum (l : list R) : R := match l with [] => 0 | x :: l' => x + sum l' end.

(** The quadratic form of a matrix given by rows, and positive semi-definiteness. *)
Definition quad_form (K : list (list R)) (c : list R) : R :=
  sum (map (fun rc => snd rc * sum (map (fun kc => fst kc * snd kc) (combine (fst rc) c))) (combine K c)).
Definition psd (K : list (list R)) : Prop :=
  forall c, List.length c = List.length K -> 0 <= quad_form K c.
Definition symmetric (K : list (list R)) : Prop := forall i j, at2 K i j = at2 K j i.

(** [l] consists of [n] evenly spaced points that start at [a], with spacing [d]. *)
Definition grid (l : list R) (a d : R) (n : nat) : Prop :=
  List.length l = n /\ forall i x, nth_error l i = Some x -> x = a + INR i * d.
