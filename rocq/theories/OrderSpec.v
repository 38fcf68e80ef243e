(** Specification for the property that the order of the observations does not matter. *)
From Coq Require Import Reals List.
From mathcomp Require Import all_ssreflect all_algebra.
From Verif Require Import RMat NormalModel ApproxModel GpcmModel RgpcmModel.
Set Implicit Arguments.
Unset Strict Implicit.
Unset Printing Implicit Defensive.

(** A data set is a list of pairs of a time and an observation. *)
Definition times (data : list (R * R)) : list R := List.map fst data.
Definition observed (data : list (R * R)) : 'I_(List.length (times data)) -> R :=
  fun i => List.nth i (List.map snd data) R0.

(** The integrals at two points agree. *)
Definition same_point n n' nu nz (D : integrals n nu nz) (i : 'I_n) (D' : integrals n' nu nz) (i' : 'I_n') : Prop :=
  ig_hx D i = ig_hx D' i' /\ ig_ux D = ig_ux D' /\ ig_hz D i = ig_hz D' i' /\ ig_uz D i = ig_uz D' i'.

(** The same observations in another order. *)
Definition same_observations n n' nu nz (D : integrals n nu nz) (y : 'I_n -> R)
    (D' : integrals n' nu nz) (y' : 'I_n' -> R) : Prop :=
  ig_ux D = ig_ux D'
  /\ exists s : 'I_n' -> 'I_n, bijective s /\ forall i, same_point D (s i) D' i /\ y' i = y (s i).

(** The arguments of the constructors with the times [t]. *)
Definition with_t (a : gpcm_args) (t : list R) : gpcm_args :=
  GPCMArgs (a_causal a) (a_noise a) (a_alpha a) (a_alpha_t a) (a_window a) (a_gamma a) (a_scale a) (a_omega a)
    (a_n_u a) (a_n_u_cap a) (a_t_u a) (a_n_z a) (a_n_z_cap a) (a_t_z a) (a_extend_t_z a) (Some t).
Definition rwith_t (a : rgpcm_args) (t : list R) : rgpcm_args :=
  RGPCMArgs (ra_noise a) (ra_alpha a) (ra_alpha_t a) (ra_window a) (ra_lam a) (ra_gamma a) (ra_gamma_t a) (ra_a a)
    (ra_b a) (ra_m_max a) (ra_m_max_cap a) (ra_n_z a) (ra_scale a) (ra_ms a) (ra_n_u a) (ra_n_u_cap a) (ra_t_u a) (Some t).
