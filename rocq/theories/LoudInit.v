(** The constructors with the signal in another unit. *)
From Coq Require Import Reals ZArith List.
From Verif Require Import Py ExpPolyIntModel GpcmModel RgpcmModel UnitSpec LoudSpec.
Local Open Scope R_scope.

Section Init.
Variable c : R.
Lemma new_loud a : a_alpha_t a <> None -> new_gpcm (loud_args c a) = on_clock (loud_gpcm c) (new_gpcm a).
Proof.
  intros H. destruct (a_alpha_t a) as [x|] eqn:E; [clear H|now elim H].
  assert (Ea : forall al, init_alpha_t a al = Ok x) by (intros; unfold init_alpha_t; now rewrite E).
  assert (Ea' : forall al, init_alpha_t (loud_args c a) al = Ok (c * x)) by (intros; unfold init_alpha_t; cbn [loud_args a_alpha_t]; now rewrite E).
  unfold new_gpcm.
  change (init_alpha (loud_args c a)) with (init_alpha a). destruct (init_alpha a) as [al|]; [|reflexivity]. cbn [bind].
  rewrite Ea, Ea'. cbn [bind].
  change (init_gamma (loud_args c a)) with (init_gamma a). destruct (init_gamma a al) as [ga|]; [|reflexivity]. cbn [bind].
  destruct (factor_to_scale al) as [fs|]; [|reflexivity]. cbn [bind]. cbv zeta.
  change (init_t_u (loud_args c a)) with (init_t_u a). destruct (init_t_u a al) as [nu|]; [|reflexivity]. cbn [bind].
  change (init_t_z (loud_args c a)) with (init_t_z a). destruct (init_t_z a) as [nz0|]; [|reflexivity]. cbn [bind].
  change (extend_t_z (loud_args c a)) with (extend_t_z a). destruct (extend_t_z a al nz0) as [nz|]; [|reflexivity]. cbn [bind].
  change (init_omega (loud_args c a)) with (init_omega a). destruct (init_omega a (snd nz)) as [om|]; [|reflexivity]. cbn [bind].
  destruct (quartic_root (2 * om / PI)) as [omt|]; reflexivity.
Qed.
Lemma rnew_loud a : ra_alpha_t a <> None -> new_rgpcm (rloud_args c a) = on_clock (loud_rgpcm c) (new_rgpcm a).
Proof.
  intros H. destruct (ra_alpha_t a) as [x|] eqn:E; [clear H|now elim H].
  assert (Ea : forall al, rinit_alpha_t a al = Ok x) by (intros; unfold rinit_alpha_t; now rewrite E).
  assert (Ea' : forall al, rinit_alpha_t (rloud_args c a) al = Ok (c * x)) by (intros; unfold rinit_alpha_t; cbn [rloud_args ra_alpha_t]; now rewrite E).
  unfold new_rgpcm.
  change (rinit_alpha (rloud_args c a)) with (rinit_alpha a). destruct (rinit_alpha a) as [al|]; [|reflexivity]. cbn [bind].
  rewrite Ea, Ea'. cbn [bind].
  change (rinit_lam (rloud_args c a)) with (rinit_lam a). destruct (rinit_lam a) as [lam|]; [|reflexivity]. cbn [bind].
  destruct (rdiv 4 al) as [ex|]; [|reflexivity]. cbn [bind].
  change (rinit_t_u (rloud_args c a)) with (rinit_t_u a). destruct (rinit_t_u a al) as [nu|]; [|reflexivity]. cbn [bind].
  change (rinit_a (rloud_args c a)) with (rinit_a a). destruct (rinit_a a (snd nu)) as [lo|]; [|reflexivity]. cbn [bind].
  change (rinit_b (rloud_args c a)) with (rinit_b a). destruct (rinit_b a) as [hi|]; [|reflexivity]. cbn [bind].
  change (rinit_m_max (rloud_args c a)) with (rinit_m_max a). destruct (rinit_m_max a lo hi) as [mm|]; [|reflexivity]. cbn [bind].
  cbv zeta. change (rinit_ms (rloud_args c a)) with (rinit_ms a).
  change (rinit_gamma (rloud_args c a)) with (rinit_gamma a). destruct (rinit_gamma a (snd nu)) as [ga|]; [|reflexivity]. cbn [bind].
  change (rinit_gamma_t (rloud_args c a)) with (rinit_gamma_t a). destruct (rinit_gamma_t a ga) as [gt|]; reflexivity.
Qed.
End Init.

(** A model whose scaling the constructor chose is the model for which the scaling is given. *)
Definition with_alpha_t (a : gpcm_args) (x : R) : gpcm_args :=
  GPCMArgs (a_causal a) (a_noise a) (a_alpha a) (Some x) (a_window a) (a_gamma a) (a_scale a)
    (a_omega a) (a_n_u a) (a_n_u_cap a) (a_t_u a) (a_n_z a) (a_n_z_cap a) (a_t_z a) (a_extend_t_z a) (a_t a).
Lemma given_same a m : new_gpcm a = Ok m -> new_gpcm (with_alpha_t a (g_alpha_t m)) = Ok m.
Proof.
  unfold new_gpcm.
  change (init_alpha (with_alpha_t a (g_alpha_t m))) with (init_alpha a). destruct (init_alpha a) as [al|]; [|discriminate]. cbn [bind].
  change (init_alpha_t (with_alpha_t a (g_alpha_t m)) al) with (@Ok R (g_alpha_t m)). destruct (init_alpha_t a al) as [x|]; [|discriminate]. cbn [bind].
  change (init_gamma (with_alpha_t a (g_alpha_t m))) with (init_gamma a). destruct (init_gamma a al) as [ga|]; [|discriminate]. cbn [bind].
  destruct (factor_to_scale al) as [fs|]; [|discriminate]. cbn [bind]. cbv zeta.
  change (init_t_u (with_alpha_t a (g_alpha_t m))) with (init_t_u a). destruct (init_t_u a al) as [nu|]; [|discriminate]. cbn [bind].
  change (init_t_z (with_alpha_t a (g_alpha_t m))) with (init_t_z a). destruct (init_t_z a) as [nz0|]; [|discriminate]. cbn [bind].
  change (extend_t_z (with_alpha_t a (g_alpha_t m))) with (extend_t_z a). destruct (extend_t_z a al nz0) as [nz|]; [|discriminate]. cbn [bind].
  change (init_omega (with_alpha_t a (g_alpha_t m))) with (init_omega a). destruct (init_omega a (snd nz)) as [om|]; [|discriminate]. cbn [bind].
  destruct (quartic_root (2 * om / PI)) as [omt|]; [|discriminate]. cbn [bind]. intros H. injection H as <-. reflexivity.
Qed.
