(** Specification: models that differ in their inducing points only.  Models nothing of /repo. *)
From Coq Require Import Reals ZArith List.
From Verif Require Import GpcmModel RgpcmModel.

(** The GPCM [m] with the inducing points [tu] for the filter and [tz] for the excitation. *)
Definition with_points (m : gpcm) (tu tz : list R) : gpcm :=
  GPCM (g_causal m) (g_noise m) (g_alpha m) (g_alpha_t m) (g_gamma m) (g_extent m) (g_n_u m) tu (g_n_z m) tz
       (g_omega m) (g_omega_t m).

(** The RGPCM [m] with the inducing points [tu] for the filter and the frequencies [ms] for the
    excitation. *)
Definition with_features (m : rgpcm) (tu : list R) (ms : list Z) : rgpcm :=
  RGPCM (r_noise m) (r_alpha m) (r_alpha_t m) (r_lam m) (r_extent m) (r_a m) (r_b m) (r_m_max m) ms (r_n_z m)
    (r_n_u m) tu (r_gamma m) (r_gamma_t m).
