(** Specification: the same model with the signal measured in another unit, of which one old unit
    has [c].  The filter is the response of the signal, so its scaling is multiplied by [c], and
    the variance of the noise by the square of [c].  Models nothing of /repo. *)
From Coq Require Import Reals ZArith List.
From Verif Require Import Py GpcmModel RgpcmModel.
Local Open Scope R_scope.

Section Loud.
Variable c : R.
Definition loud_gpcm (m : gpcm) : gpcm :=
  GPCM (g_causal m) (c * c * g_noise m) (g_alpha m) (c * g_alpha_t m) (g_gamma m) (g_extent m) (g_n_u m) (g_t_u m)
    (g_n_z m) (g_t_z m) (g_omega m) (g_omega_t m).
Definition loud_rgpcm (m : rgpcm) : rgpcm :=
  RGPCM (c * c * r_noise m) (r_alpha m) (c * r_alpha_t m) (r_lam m) (r_extent m) (r_a m) (r_b m) (r_m_max m) (r_ms m)
    (r_n_z m) (r_n_u m) (r_t_u m) (r_gamma m) (r_gamma_t m).
End Loud.

(** The arguments of the constructors. *)
Definition loud_args (c : R) (a : gpcm_args) : gpcm_args :=
  GPCMArgs (a_causal a) (c * c * a_noise a) (a_alpha a) (option_map (Rmult c) (a_alpha_t a)) (a_window a) (a_gamma a) (a_scale a)
    (a_omega a) (a_n_u a) (a_n_u_cap a) (a_t_u a) (a_n_z a) (a_n_z_cap a) (a_t_z a) (a_extend_t_z a) (a_t a).
Definition rloud_args (c : R) (a : rgpcm_args) : rgpcm_args :=
  RGPCMArgs (c * c * ra_noise a) (ra_alpha a) (option_map (Rmult c) (ra_alpha_t a)) (ra_window a) (ra_lam a) (ra_gamma a)
    (ra_gamma_t a) (ra_a a) (ra_b a) (ra_m_max a) (ra_m_max_cap a) (ra_n_z a) (ra_scale a) (ra_ms a) (ra_n_u a) (ra_n_u_cap a)
    (ra_t_u a) (ra_t a).
