(** Specification for the property that the unit and the origin of time do not matter to the
    GPCM: its arguments and its attributes on another clock, as in [UnitSpec].

    Models nothing of /repo. *)
From Coq Require Import Reals ZArith List.
From Verif Require Import Py GpcmModel UnitSpec.
Import ListNotations.
Local Open Scope R_scope.

Section Clock.
Variables c d : R.

(** A decay of a squared exponential is a rate squared. *)
Definition decay (x : R) : R := x / c ^ 2.

(** The arguments of [GPCM] and [CGPCM]. The inducing points of the filter are durations. *)
Definition gclock_args (a : gpcm_args) : gpcm_args :=
  GPCMArgs (a_causal a) (a_noise a) (option_map decay (a_alpha a)) (option_map (root_rate c) (a_alpha_t a))
    (option_map (duration c) (a_window a)) (option_map decay (a_gamma a)) (option_map (duration c) (a_scale a))
    (option_map decay (a_omega a)) (a_n_u a) (a_n_u_cap a) (option_map (map (duration c)) (a_t_u a))
    (a_n_z a) (a_n_z_cap a) (option_map (map (time c d)) (a_t_z a)) (a_extend_t_z a)
    (option_map (map (time c d)) (a_t a)).

(** A constructed model. *)
Definition gclock (m : gpcm) : gpcm :=
  GPCM (g_causal m) (g_noise m) (decay (g_alpha m)) (root_rate c (g_alpha_t m)) (decay (g_gamma m))
    (duration c (g_extent m)) (g_n_u m) (map (duration c) (g_t_u m)) (g_n_z m) (map (time c d) (g_t_z m))
    (decay (g_omega m)) (root_rate c (g_omega_t m)).
End Clock.
