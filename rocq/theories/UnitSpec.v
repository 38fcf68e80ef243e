(** Specification for the properties that the unit and the origin of time do not matter: what
    the arguments of the constructors and the constructed models are on another clock.

    A time [t] on the old clock is the time [c * t + d] on the new one; a duration is
    multiplied by [c] and a rate divided by it.  Models nothing of /repo. *)
From Coq Require Import Reals ZArith List.
From Verif Require Import Py GpcmModel RgpcmModel.
Import ListNotations.
Local Open Scope R_scope.

Section Clock.
Variables c d : R.

Definition time (t : R) : R := c * t + d.
Definition duration (x : R) : R := c * x.
Definition rate (x : R) : R := x / c.
(** The square root of a rate. *)
Definition root_rate (x : R) : R := x / sqrt c.

(** The arguments of [RGPCM]. The inducing points of the filter are durations. *)
Definition rclock_args (a : rgpcm_args) : rgpcm_args :=
  RGPCMArgs (ra_noise a) (option_map rate (ra_alpha a)) (option_map root_rate (ra_alpha_t a))
    (option_map duration (ra_window a)) (option_map rate (ra_lam a)) (option_map rate (ra_gamma a))
    (option_map root_rate (ra_gamma_t a)) (option_map time (ra_a a)) (option_map time (ra_b a)) (ra_m_max a)
    (ra_m_max_cap a) (ra_n_z a) (option_map duration (ra_scale a)) (ra_ms a) (ra_n_u a) (ra_n_u_cap a)
    (option_map (map duration) (ra_t_u a)) (option_map (map time) (ra_t a)).

(** A constructed RGPCM. *)
Definition rclock (m : rgpcm) : rgpcm :=
  RGPCM (r_noise m) (rate (r_alpha m)) (root_rate (r_alpha_t m)) (rate (r_lam m)) (duration (r_extent m))
    (time (r_a m)) (time (r_b m)) (r_m_max m) (r_ms m) (r_n_z m) (r_n_u m) (map duration (r_t_u m))
    (rate (r_gamma m)) (root_rate (r_gamma_t m)).

(** The values of its learnable parameters. *)
Definition rclock_params (p : rparams) : rparams :=
  RParams (p_noise p) (rate (p_alpha p)) (root_rate (p_alpha_t p)) (rate (p_lam p)) (p_gamma_factor p)
    (map duration (p_t_u p)).
End Clock.

(** The result of a call on the other clock: the same exception or the translated result. *)
Definition on_clock {A B} (f : A -> B) (r : res A) : res B :=
  match r with Ok x => Ok (f x) | Err e => Err e end.
