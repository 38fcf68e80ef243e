(** The property C106: the unit and the origin of time do not matter to the RGPCM. *)
From Coq Require Import Reals ZArith List Lra.
From mathcomp Require Import all_ssreflect all_algebra.
From Verif Require Import Py ExpPolyIntModel RMat NormalModel ApproxModel GpcmModel GpcmBridge RgpcmModel RgpcmBridge RgpcmWell RgpcmEndProps.
From Verif Require Import UnitSpec UnitProofs.
Set Implicit Arguments.
Unset Strict Implicit.
Unset Printing Implicit Defensive.
Delimit Scope R_scope with Re.

(** All that the approximations get to see of a model, of the times of the data and of the
    times of the predictions. *)
Record session := Session {
  s_n : nat; s_new : nat; s_nu : nat; s_nz : nat;
  s_gp : gp s_nu s_nz;
  s_data : integrals s_n s_nu s_nz;
  s_pred : integrals s_new s_nu s_nz }.

Definition rsession (argsort : list Z -> list nat) (m : rgpcm) (t t' : list R) : res session :=
  bind (rgpcm_gp m) (fun G => bind (rgpcm_integrals argsort m t) (fun D => bind (rgpcm_integrals argsort m t') (fun P =>
  Ok (Session G D P)))).

(** On another clock the constructor makes the same model or raises the same exception, and so
    does learning. *)
Theorem C106_constructor :
  forall c d, (0 < c)%Re ->
    (forall a, new_rgpcm (rclock_args c d a) = on_clock (rclock c d) (new_rgpcm a))
    /\ (forall m, gamma_factor_init (rclock c d m) = gamma_factor_init m)
    /\ (forall m p, rprior (rclock c d m) (rclock_params c p) = on_clock (rclock c d) (rprior m p)).
Proof. by move=> c d Hc; split=> [a|]; [exact: new_clock|split=> [m|m p]; [exact: factor_clock|exact: prior_clock]]. Qed.
Print Assumptions C106_constructor.

(** All matrices and the prior of the filter are the same on another clock.  The times of
    [rcompute_I_ux4] are lags. *)
Theorem C106_matrices :
  forall c d, (0 < c)%Re -> forall (argsort : list Z -> list nat) (m : rgpcm),
    let m' := rclock c d m in
    rcompute_K_u m' = rcompute_K_u m
    /\ rcompute_K_z m' = rcompute_K_z m
    /\ (forall t1 t2, rcompute_i_hx m' (Some (time c d t1)) (Some (time c d t2)) = rcompute_i_hx m (Some t1) (Some t2))
    /\ rcompute_I_ux m' = rcompute_I_ux m
    /\ (forall t1 t2, rcompute_I_ux4 m' (option_map (List.map (duration c)) t1) (option_map (List.map (duration c)) t2) = rcompute_I_ux4 m t1 t2)
    /\ (forall t, rcompute_I_hz argsort m' (List.map (time c d) t) = rcompute_I_hz argsort m t)
    /\ (forall t, rcompute_I_uz argsort m' (List.map (time c d) t) = rcompute_I_uz argsort m t)
    /\ (forall t1 t2, rk_h_kernel m' (duration c t1) (duration c t2) = rk_h_kernel m t1 t2).
Proof.
  move=> c d Hc argsort m m'.
  split; first exact: K_u_clock. split; first exact: K_z_clock. split; first by move=> t1 t2; exact: i_hx_clock.
  split; first exact: I_ux_clock. split; first by move=> t1 t2; exact: I_ux4_clock.
  split; first by move=> t; exact: I_hz_clock. split; first by move=> t; exact: I_uz_clock.
  by move=> t1 t2; exact: k_h_clock.
Qed.
Print Assumptions C106_matrices.

(** From the constructor on: with all times, durations and rates on another clock the
    approximations get to see exactly the same, so every fit and every prediction is the same. *)
Theorem C106_rgpcm :
  forall c d, (0 < c)%Re -> forall (argsort : list Z -> list nat) (a : rgpcm_args) (t t' : list R),
    bind (new_rgpcm (rclock_args c d a)) (fun m => rsession argsort m (List.map (time c d) t) (List.map (time c d) t'))
    = bind (new_rgpcm a) (fun m => rsession argsort m t t').
Proof.
  move=> c d Hc argsort a t t'; rewrite (new_clock c d Hc); case: (new_rgpcm a) => [m|e] //=.
  rewrite /rsession /rgpcm_gp /rgpcm_integrals.
  have Hx s : mapM (fun s => rcompute_i_hx (rclock c d m) (Some s) (Some s)) (List.map (time c d) s)
            = mapM (fun s => rcompute_i_hx m (Some s) (Some s)) s.
    by rewrite mapM_map; apply: mapM_ext => x; exact: i_hx_clock.
  rewrite !Hx !K_z_clock // !K_u_clock // !I_ux_clock // !I_hz_clock // !I_uz_clock //.
  have Eu : List.length (r_t_u (rclock c d m)) = List.length (r_t_u m) by rewrite /= List.map_length.
  have Et s : List.length (List.map (time c d) s) = List.length s by rewrite List.map_length.
  move: (List.length (r_t_u (rclock c d m))) (List.length (List.map (time c d) t)) (List.length (List.map (time c d) t')) Eu (Et t) (Et t').
  by move=> nu n n' -> -> ->.
Qed.
Print Assumptions C106_rgpcm.

(** Non-vacuity: minutes instead of hours on a clock that is ten minutes ahead, for the default
    model, which is well posed. *)
Example C106_witness : (0 < 60)%Re
  /\ (exists m, new_rgpcm (rclock_args 60 10 (rdefault_args 1 1 [:: 0%Re; 5%Re])) = Ok (rclock 60 10 m)
      /\ well_rgpcm m /\ in_support m [:: 0%Re; 5%Re])
  /\ rclock_args 60 10 (rdefault_args 1 1 [:: 0%Re; 5%Re]) = rdefault_args (60 * 1) (60 * 1) [:: (60 * 0 + 10)%Re; (60 * 5 + 10)%Re].
Proof.
  split; first lra; split; last by [].
  have [m [E H]] := C99_witness; exists m; split=> //.
  by rewrite new_clock ?E //; lra.
Qed.
