(** Proofs that the constructor of the GPCM does not mind the unit and the origin of time. *)
From Coq Require Import Reals ZArith List Bool Lra Lia.
From Verif Require Import Py ExpPolyIntModel GpcmModel UnitSpec UnitProofs GpcmUnitSpec.
Import ListNotations.
Local Open Scope R_scope.

Section Clock.
Variables c d : R.
Hypothesis Hc : 0 < c.

Let c0 : c <> 0. Proof. lra. Qed.
Let cc : 0 < c ^ 2. Proof. now apply pow_lt. Qed.
Let cc0 : c ^ 2 <> 0. Proof. lra. Qed.
Notation decay := (decay c).
Notation root_rate := (root_rate c).
Notation duration := (duration c).
Notation time := (time c d).

Lemma scale_clock s : scale_to_factor (duration s) = on_clock decay (scale_to_factor s).
Proof.
  unfold scale_to_factor. rewrite (rdiv_clock (PI / 2) (2 * s ^ 2) _ _ (c ^ 2) 1); [|auto|ring|unfold UnitSpec.duration; ring].
  destruct (rdiv _ _); simpl; [|reflexivity]. f_equal. unfold GpcmUnitSpec.decay. now field.
Qed.

Lemma decay_neg x : decay x < 0 <-> x < 0.
Proof.
  unfold GpcmUnitSpec.decay. assert (P : 0 < / c ^ 2) by now apply Rinv_0_lt_compat. unfold Rdiv. split; intros H; nra.
Qed.

Lemma factor_scale_clock f : factor_to_scale (decay f) = on_clock duration (factor_to_scale f).
Proof.
  unfold factor_to_scale. pose proof (decay_neg f) as D.
  destruct (Rlt_dec (decay f) 0) as [L|L], (Rlt_dec f 0) as [L'|L']; simpl; try reflexivity; try tauto.
  assert (E : sqrt (4 * decay f / PI) = / c * sqrt (4 * f / PI)).
  { unfold GpcmUnitSpec.decay. replace (4 * (f / c ^ 2) / PI) with (4 * f / PI / c ^ 2) by (unfold Rdiv; ring).
    rewrite sqrt_div_alt by auto. rewrite sqrt_pow2 by lra. unfold Rdiv. ring. }
  rewrite E. rewrite (rdiv_clock 1 (sqrt (4 * f / PI)) 1 _ (/ c) 1); [|now apply Rinv_neq_0_compat|ring|reflexivity].
  destruct (rdiv _ _); simpl; [|reflexivity]. f_equal. unfold UnitSpec.duration. now field.
Qed.

Lemma quartic_clock k x : 0 < k -> quartic_root (k * decay x / PI) = on_clock root_rate (quartic_root (k * x / PI)).
Proof.
  intros Hk. unfold quartic_root. pose proof PI_RGT_0 as Pi.
  replace (k * decay x / PI) with (decay (k * x / PI)) by (unfold GpcmUnitSpec.decay, Rdiv; ring).
  pose proof (decay_neg (k * x / PI)) as D.
  destruct (Rlt_dec (decay (k * x / PI)) 0) as [L|L], (Rlt_dec (k * x / PI) 0) as [L'|L']; simpl; try reflexivity; try tauto.
  f_equal. unfold GpcmUnitSpec.decay, UnitSpec.root_rate. rewrite sqrt_div_alt by auto. rewrite sqrt_pow2 by lra.
  now apply sqrt_div_alt.
Qed.

Lemma linspace_affine f a b n : (forall i, f (a + i * ((b - a) / (IZR n - 1))) = f a + i * ((f b - f a) / (IZR n - 1))) ->
  linspace (f a) (f b) n = on_clock (map f) (linspace a b n).
Proof.
  intros H. unfold linspace. destruct (n <? 0)%Z; simpl; [reflexivity|]. f_equal. rewrite map_map. apply map_ext. intros i.
  destruct (Nat.eqb i 0); [reflexivity|]. now rewrite H.
Qed.
Lemma linspace_duration a b n : linspace (duration a) (duration b) n = on_clock (map duration) (linspace a b n).
Proof. apply linspace_affine. intros i. unfold UnitSpec.duration, Rdiv. ring. Qed.
Lemma linspace_time a b n : linspace (time a) (time b) n = on_clock (map time) (linspace a b n).
Proof. apply linspace_affine. intros i. unfold UnitSpec.time, Rdiv. ring. Qed.

(** * The constructor *)
Notation on2 f := (on_clock (fun p : Z * list R => (fst p, map f (snd p)))).

Lemma ginit_alpha_clock a : init_alpha (gclock_args c d a) = on_clock decay (init_alpha a).
Proof.
  unfold init_alpha. simpl. destruct (a_alpha a); simpl; [reflexivity|]. destruct (a_window a) as [w|]; simpl; [|reflexivity].
  apply scale_clock.
Qed.
Lemma ginit_alpha_t_clock a x : init_alpha_t (gclock_args c d a) (decay x) = on_clock root_rate (init_alpha_t a x).
Proof. unfold init_alpha_t. simpl. destruct (a_alpha_t a); simpl; [reflexivity|]. destruct (a_causal a); apply quartic_clock; lra. Qed.
Lemma ginit_gamma_clock a x : init_gamma (gclock_args c d a) (decay x) = on_clock decay (init_gamma a x).
Proof.
  unfold init_gamma. simpl. destruct (a_gamma a); simpl; [reflexivity|]. destruct (a_scale a) as [s|]; simpl; [|reflexivity].
  rewrite scale_clock. destruct (scale_to_factor s); simpl; [|reflexivity]. f_equal. unfold GpcmUnitSpec.decay, Rdiv. ring.
Qed.

Lemma ginit_t_u_clock a x : init_t_u (gclock_args c d a) (decay x) = on2 duration (init_t_u a x).
Proof.
  unfold init_t_u. simpl. destruct (a_t_u a) as [l|]; simpl; [now rewrite map_length|].
  rewrite factor_scale_clock. destruct (factor_to_scale x) as [fs|]; simpl; [|reflexivity].
  replace (match a_n_u a with
    | Some n => Ok n
    | None => bind (given (option_map duration (a_window a))) (fun w => bind (given (option_map duration (a_scale a))) (fun s =>
        bind (rdiv (2 * 2 * w) s) (fun q => Ok (if (iceil q >? a_n_u_cap a)%Z then a_n_u_cap a else iceil q))))
    end) with (match a_n_u a with
    | Some n => Ok n
    | None => bind (given (a_window a)) (fun w => bind (given (a_scale a)) (fun s =>
        bind (rdiv (2 * 2 * w) s) (fun q => Ok (if (iceil q >? a_n_u_cap a)%Z then a_n_u_cap a else iceil q))))
    end).
  2:{ destruct (a_n_u a); [reflexivity|]. destruct (a_window a) as [w|]; simpl; [|reflexivity]. destruct (a_scale a) as [s|]; simpl; [|reflexivity].
      rewrite (rdiv_same (2 * 2 * w) s (2 * 2 * duration w) (duration s) c); [reflexivity|auto|unfold UnitSpec.duration; ring|reflexivity]. }
  destruct (match a_n_u a with Some n => Ok n | None => _ end) as [n|]; simpl; [|reflexivity].
  replace (2 * duration fs) with (duration (2 * fs)) by (unfold UnitSpec.duration; ring).
  destruct (a_causal a).
  - rewrite (rdiv_clock (2 * fs) (IZR n - 1) _ _ 1 c); [|lra|reflexivity|ring].
    destruct (rdiv (2 * fs) _) as [dt|]; simpl; [|reflexivity].
    replace (-2 * (c / 1 * dt)) with (duration (-2 * dt)) by (unfold UnitSpec.duration; field).
    rewrite linspace_duration. destruct (linspace _ _ _); reflexivity.
  - replace (- duration (2 * fs)) with (duration (- (2 * fs))) by (unfold UnitSpec.duration; ring).
    rewrite linspace_duration. destruct (linspace _ _ _); reflexivity.
Qed.

Lemma ginit_t_z_clock a : init_t_z (gclock_args c d a) = on2 time (init_t_z a).
Proof.
  unfold init_t_z. simpl. destruct (a_t_z a) as [l|]; simpl; [now rewrite map_length|].
  destruct (a_t a) as [t|]; simpl; [|reflexivity]. rewrite !lmin_time, !lmax_time by auto.
  destruct (a_n_z a) as [n|]; simpl.
  - destruct (lmin t) as [lo|]; simpl; [|reflexivity]. destruct (lmax t) as [hi|]; simpl; [|reflexivity].
    rewrite linspace_time. destruct (linspace lo hi n); reflexivity.
  - destruct (lmax t) as [hi|]; simpl; [|reflexivity]. destruct (lmin t) as [lo|]; simpl; [|reflexivity].
    destruct (a_scale a) as [s|]; simpl; [|reflexivity].
    rewrite (rdiv_same (2 * (hi - lo)) s _ (duration s) c); [|auto|unfold UnitSpec.time; ring|reflexivity].
    destruct (rdiv _ s) as [q|]; simpl; [|reflexivity].
    rewrite linspace_time. destruct (linspace lo hi _); reflexivity.
Qed.

Lemma gextend_clock a x nt : extend_t_z (gclock_args c d a) (decay x) (fst nt, map time (snd nt)) = on2 time (extend_t_z a x nt).
Proof.
  destruct nt as [n l]. unfold extend_t_z. simpl. destruct (a_extend_t_z a); [|reflexivity].
  rewrite factor_scale_clock. destruct (factor_to_scale x) as [fs|]; simpl; [|reflexivity].
  destruct (a_t a) as [t|]; simpl; [|reflexivity]. rewrite !lmin_time, !lmax_time by auto.
  destruct (lmax t) as [hi|]; simpl; [|reflexivity]. destruct (lmin t) as [lo|]; simpl; [|reflexivity].
  rewrite (rdiv_clock (hi - lo) (IZR n - 1) _ _ 1 c); [|lra|unfold UnitSpec.time; ring|ring].
  destruct (rdiv (hi - lo) _) as [dt|]; simpl; [|reflexivity].
  rewrite (rdiv_same (2 * fs) dt _ _ c); [|auto|unfold UnitSpec.duration; ring|field].
  destruct (rdiv (2 * fs) dt) as [q|]; simpl; [|reflexivity].
  replace (time lo - IZR (iceil q) * (c / 1 * dt)) with (time (lo - IZR (iceil q) * dt)) by (unfold UnitSpec.time; field).
  replace (time hi + IZR (iceil q) * (c / 1 * dt)) with (time (hi + IZR (iceil q) * dt)) by (unfold UnitSpec.time; field).
  rewrite !linspace_time. destruct (a_causal a); [destruct (linspace _ _ _)|destruct (linspace _ _ _)]; reflexivity.
Qed.

Lemma ginit_omega_clock a l : init_omega (gclock_args c d a) (map time l) = on_clock decay (init_omega a l).
Proof.
  unfold init_omega. simpl. destruct (a_omega a); simpl; [reflexivity|].
  rewrite !item_map. destruct (item l 1) as [z1|]; simpl; [|reflexivity]. destruct (item l 0) as [z0|]; simpl; [|reflexivity].
  replace (/ 2 * (time z1 - time z0)) with (duration (/ 2 * (z1 - z0))) by (unfold UnitSpec.time, UnitSpec.duration; ring).
  apply scale_clock.
Qed.

Lemma new_gclock a : new_gpcm (gclock_args c d a) = on_clock (gclock c d) (new_gpcm a).
Proof.
  unfold new_gpcm.
  rewrite ginit_alpha_clock. destruct (init_alpha a) as [al|]; simpl; [|reflexivity].
  rewrite ginit_alpha_t_clock. destruct (init_alpha_t a al); simpl; [|reflexivity].
  rewrite ginit_gamma_clock. destruct (init_gamma a al); simpl; [|reflexivity].
  rewrite factor_scale_clock. destruct (factor_to_scale al) as [fs|]; simpl; [|reflexivity].
  rewrite ginit_t_u_clock. destruct (init_t_u a al) as [[n l]|]; simpl; [|reflexivity].
  rewrite ginit_t_z_clock. destruct (init_t_z a) as [[n' l']|]; simpl; [|reflexivity].
  pose proof (gextend_clock a al (n', l')) as X. simpl in X. rewrite X. destruct (extend_t_z a al (n', l')) as [[nz z]|]; simpl; [|reflexivity].
  rewrite ginit_omega_clock. destruct (init_omega a z) as [om|]; simpl; [|reflexivity].
  rewrite quartic_clock by lra. destruct (quartic_root _); simpl; [|reflexivity].
  unfold gclock. simpl. do 2 f_equal. unfold UnitSpec.duration. ring.
Qed.
End Clock.
