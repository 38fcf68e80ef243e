(** Model of how [__prior__] (gpcm.py 268-288, rgpcm.py 191-219) declares the learnable
    parameters, without the kernel matrices and the approximation, which follow in
    model.py 40-70. *)
From Coq Require Import Reals ZArith List Bool.
From Verif Require Import Py ExpPolyIntModel GpcmModel RgpcmModel.
Import ListNotations.
Local Open Scope R_scope.

(** varz: a variable is stored as the image of its initial value under an inverse transform, and
    its value is the transform of what is stored.  [B.log] outside its domain is NaN or an
    infinity, with which nothing can be trained: an error here. *)
Definition finite_log (x : R) : res R := if Rlt_dec 0 x then Ok (ln x) else Err ValueError.

(** varz: [Vars.positive(init)]: the value after the declaration. *)
Definition ps_positive (init : R) : res R :=
  do latent <- finite_log init; Ok (exp latent).

(** varz: [Vars.bounded(init, lower, upper)]. *)
Definition ps_bounded (init lower upper : R) : res R :=
  do a <- finite_log (upper - init);
  do b <- finite_log (init - lower);
  Ok (lower + (upper - lower) / (1 + exp (a - b))).

(** The switches that the constructors store, gpcm.py 112-115, rgpcm.py 91-94. *)
Record fixes := Fixes { fix_noise : bool; fix_window : bool; fix_scale : bool }.

Definition learn (fixed : bool) (x : R) : res R := if fixed then Ok x else ps_positive x.

(** [GPCM.__prior__], gpcm.py 268-288, when the variables are first created.  [Vars.unbounded]
    keeps its initial value. *)
Definition gpcm_prior (fx : fixes) (m : gpcm) : res gpcm :=
  do noise <- learn (fix_noise fx) (g_noise m);
  do alpha <- learn (fix_window fx) (g_alpha m);
  do alpha_t <- ps_positive (g_alpha_t m);
  do gamma <- learn (fix_scale fx) (g_gamma m);
  do omega <- ps_positive (g_omega m);
  let omega_t := g_omega_t m in
  do lo <- lmin (g_t_u m);
  do hi <- lmax (g_t_u m);
  do t_u <- mapM (fun u => ps_bounded u (lo * (3 / 2)) (hi * (3 / 2))) (g_t_u m);
  let t_z := g_t_z m in
  Ok (GPCM (g_causal m) noise alpha alpha_t gamma (g_extent m) (g_n_u m) t_u (g_n_z m) t_z omega omega_t).

(** [RGPCM.__prior__], rgpcm.py 191-219, when the variables are first created. *)
Definition rgpcm_prior (fx : fixes) (m : rgpcm) : res rgpcm :=
  do gamma_factor_init <- rdiv (r_alpha m) (r_gamma m);
  do noise <- learn (fix_noise fx) (r_noise m);
  do alpha <- learn (fix_window fx) (r_alpha m);
  do alpha_t <- ps_positive (r_alpha_t m);
  do lam <- learn (fix_scale fx) (r_lam m);
  do gamma_factor <- ps_bounded gamma_factor_init 1 (10 ^ 4);
  do gamma <- rdiv alpha gamma_factor;
  do hi <- lmax (r_t_u m);
  do t_u <- mapM (fun u => ps_bounded u (- / 10 ^ 4) (hi * (3 / 2))) (r_t_u m);
  Ok (RGPCM noise alpha alpha_t lam (r_extent m) (r_a m) (r_b m) (r_m_max m) (r_ms m) (r_n_z m) (r_n_u m) t_u gamma (r_gamma_t m)).
