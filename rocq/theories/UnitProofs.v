(** Proofs that the unit and the origin of time do not matter to the RGPCM. *)
From Coq Require Import Reals ZArith List Bool Lra Lia.
From Verif Require Import Py ExpPolyIntModel GpcmModel RgpcmModel UnitSpec.
Import ListNotations.
Local Open Scope R_scope.

Lemma on_clock_id {A} (r : res A) f : (forall x, f x = x) -> on_clock f r = r.
Proof. intros H; destruct r; simpl; [now rewrite H|reflexivity]. Qed.

Lemma rdiv_clock x y x' y' k k' : k <> 0 -> x' = k' * x -> y' = k * y -> rdiv x' y' = on_clock (Rmult (k' / k)) (rdiv x y).
Proof.
  intros Hk -> ->. unfold rdiv.
  destruct (Reqb y 0) eqn:E.
  - apply Reqb_eq in E. subst y. rewrite Rmult_0_r. replace (Reqb 0 0) with true; [reflexivity|symmetry; now apply Reqb_eq].
  - assert (y <> 0) by (intros ->; rewrite (proj2 (Reqb_eq 0 0) eq_refl) in E; discriminate).
    destruct (Reqb (k * y) 0) eqn:E'; [apply Reqb_eq in E'; apply Rmult_integral in E'; tauto|].
    simpl. f_equal. now field.
Qed.

Lemma rdiv_same x y x' y' k : k <> 0 -> x' = k * x -> y' = k * y -> rdiv x' y' = rdiv x y.
Proof.
  intros Hk Ex Ey. rewrite (rdiv_clock x y x' y' k k Hk Ex Ey). apply on_clock_id. intros. field. auto.
Qed.

Lemma mapM_ext {A B} (f g : A -> res B) l : (forall x, f x = g x) -> mapM f l = mapM g l.
Proof. intros H; induction l as [|x l IH]; simpl; [reflexivity|]. now rewrite H, IH. Qed.

Lemma mapM_map {A B C} (f : B -> res C) (g : A -> B) l : mapM f (map g l) = mapM (fun x => f (g x)) l.
Proof. induction l as [|x l IH]; simpl; [reflexivity|]. now rewrite IH. Qed.

Section Clock.
Variables c d : R.
Hypothesis Hc : 0 < c.

Let c0 : c <> 0. Proof. lra. Qed.
Let s0 : 0 < sqrt c. Proof. now apply sqrt_lt_R0. Qed.
Let s1 : sqrt c <> 0. Proof. lra. Qed.
Let ss : sqrt c * sqrt c = c. Proof. apply sqrt_sqrt. lra. Qed.
Let ss2 : sqrt c ^ 2 = c. Proof. rewrite <- ss at 2. ring. Qed.
Notation rate := (rate c).
Notation root_rate := (root_rate c).
Notation duration := (duration c).
Notation time := (time c d).
Notation rclock := (rclock c d).

Lemma ic0 : / c <> 0. Proof. now apply Rinv_neq_0_compat. Qed.

Lemma root_rate2 x : root_rate x ^ 2 = x ^ 2 / c.
Proof. unfold UnitSpec.root_rate. rewrite <- ss2 at 2. now field. Qed.

Lemma Rabs_c x : Rabs (c * x) = c * Rabs x.
Proof. rewrite Rabs_mult, (Rabs_right c); lra. Qed.

Lemma Rmin_c x y : Rmin (c * x) (c * y) = c * Rmin x y.
Proof. symmetry. apply RmaxRmult || idtac. unfold Rmin. destruct (Rle_dec (c * x) (c * y)), (Rle_dec x y); try reflexivity; nra. Qed.

Lemma Rmin_aff x y : Rmin (time x) (time y) = time (Rmin x y).
Proof. unfold UnitSpec.time, Rmin. destruct (Rle_dec _ _), (Rle_dec x y); try reflexivity; nra. Qed.
Lemma Rmax_aff x y : Rmax (time x) (time y) = time (Rmax x y).
Proof. unfold UnitSpec.time, Rmax. destruct (Rle_dec _ _), (Rle_dec x y); try reflexivity; nra. Qed.
Lemma Rmax_dur x y : Rmax (duration x) (duration y) = duration (Rmax x y).
Proof. unfold UnitSpec.duration, Rmax. destruct (Rle_dec _ _), (Rle_dec x y); try reflexivity; nra. Qed.

Lemma fold_map (op : R -> R -> R) f l x : (forall x y, op (f x) (f y) = f (op x y)) ->
  fold_left op (map f l) (f x) = f (fold_left op l x).
Proof. intros H. revert x. induction l as [|y l IH]; intros x; simpl; [reflexivity|]. now rewrite H, IH. Qed.

Lemma lmin_time l : lmin (map time l) = on_clock time (lmin l).
Proof. destruct l as [|x l]; simpl; [reflexivity|]. now rewrite (fold_map _ _ _ _ Rmin_aff). Qed.
Lemma lmax_time l : lmax (map time l) = on_clock time (lmax l).
Proof. destruct l as [|x l]; simpl; [reflexivity|]. now rewrite (fold_map _ _ _ _ Rmax_aff). Qed.
Lemma lmax_dur l : lmax (map duration l) = on_clock duration (lmax l).
Proof. destruct l as [|x l]; simpl; [reflexivity|]. now rewrite (fold_map _ _ _ _ Rmax_dur). Qed.

Lemma item_map f l i : item (map f l) i = on_clock f (item l i).
Proof. unfold item. rewrite nth_error_map. destruct (nth_error l i); reflexivity. Qed.

Lemma linspace_dur x n : linspace 0 (c * x) n = on_clock (map duration) (linspace 0 x n).
Proof.
  unfold linspace. destruct (n <? 0)%Z; simpl; [reflexivity|]. f_equal. rewrite map_map. apply map_ext. intros i.
  unfold UnitSpec.duration. destruct (Nat.eqb i 0); unfold Rdiv; ring.
Qed.

Lemma np_sqrt_rate x : np_sqrt (2 * rate x) = on_clock root_rate (np_sqrt (2 * x)).
Proof.
  unfold np_sqrt, UnitSpec.rate, UnitSpec.root_rate.
  assert (P : 0 < / c) by now apply Rinv_0_lt_compat.
  destruct (Rlt_dec (2 * (x / c)) 0) as [L|L], (Rlt_dec (2 * x) 0) as [L'|L']; simpl; try reflexivity.
  - exfalso. apply L'. unfold Rdiv in L. nra.
  - exfalso. apply L. unfold Rdiv. nra.
  - f_equal. replace (2 * (x / c)) with (2 * x / c) by (unfold Rdiv; ring). apply sqrt_div_alt. exact Hc.
Qed.

(** * The constructor *)

Lemma alpha_clock a : rinit_alpha (rclock_args c d a) = on_clock rate (rinit_alpha a).
Proof.
  unfold rinit_alpha. simpl. destruct (ra_alpha a); simpl; [reflexivity|]. destruct (ra_window a) as [w|]; simpl; [|reflexivity].
  rewrite (rdiv_clock 1 w 1 (duration w) c 1); [|auto|ring|reflexivity].
  destruct (rdiv 1 w); simpl; [|reflexivity]. f_equal. unfold UnitSpec.rate, Rdiv. ring.
Qed.

Lemma alpha_t_clock a x : rinit_alpha_t (rclock_args c d a) (rate x) = on_clock root_rate (rinit_alpha_t a x).
Proof. unfold rinit_alpha_t. simpl. destruct (ra_alpha_t a); simpl; [reflexivity|]. apply np_sqrt_rate. Qed.

Lemma lam_clock a : rinit_lam (rclock_args c d a) = on_clock rate (rinit_lam a).
Proof.
  unfold rinit_lam. simpl. destruct (ra_lam a); simpl; [reflexivity|]. destruct (ra_scale a) as [w|]; simpl; [|reflexivity].
  rewrite (rdiv_clock 1 w 1 (duration w) c 1); [|auto|ring|reflexivity].
  destruct (rdiv 1 w); simpl; [|reflexivity]. f_equal. unfold UnitSpec.rate, Rdiv. ring.
Qed.

Lemma rdiv_rate x al : rdiv x (rate al) = on_clock duration (rdiv x al).
Proof.
  rewrite (rdiv_clock x al x (rate al) (/ c) 1); [|apply ic0|ring|unfold UnitSpec.rate, Rdiv; ring].
  destruct (rdiv x al); simpl; [|reflexivity]. f_equal. unfold UnitSpec.duration. now field.
Qed.

Lemma t_u_clock a al : rinit_t_u (rclock_args c d a) (rate al) = on_clock (fun p => (fst p, map duration (snd p))) (rinit_t_u a al).
Proof.
  unfold rinit_t_u. simpl. destruct (ra_t_u a) as [l|]; simpl; [now rewrite map_length|].
  rewrite rdiv_rate. destruct (rdiv PI al) as [mx|e]; simpl; [|reflexivity].
  destruct (ra_n_u a) as [n|]; simpl.
  - change (duration mx) with (c * mx). rewrite linspace_dur. destruct (linspace 0 mx n); reflexivity.
  - destruct (ra_window a) as [w|]; simpl; [|reflexivity]. destruct (ra_scale a) as [s|]; simpl; [|reflexivity].
    rewrite (rdiv_same (2 * 2 * w) s (2 * 2 * duration w) (duration s) c); [|auto|unfold UnitSpec.duration; ring|reflexivity].
    destruct (rdiv (2 * 2 * w) s) as [q|e]; simpl; [|reflexivity].
    change (duration mx) with (c * mx). rewrite linspace_dur. destruct (linspace 0 mx _); reflexivity.
Qed.

Lemma a_clock a l : rinit_a (rclock_args c d a) (map duration l) = on_clock time (rinit_a a l).
Proof.
  unfold rinit_a. simpl. destruct (ra_a a); simpl; [reflexivity|]. destruct (ra_t a) as [t|]; simpl; [|reflexivity].
  rewrite lmin_time, lmax_dur. destruct (lmin t); simpl; [|reflexivity]. destruct (lmax l); simpl; [|reflexivity].
  f_equal. unfold UnitSpec.time, UnitSpec.duration. ring.
Qed.

Lemma b_clock a : rinit_b (rclock_args c d a) = on_clock time (rinit_b a).
Proof.
  unfold rinit_b. simpl. destruct (ra_b a); simpl; [reflexivity|]. destruct (ra_t a) as [t|]; simpl; [|reflexivity].
  apply lmax_time.
Qed.

Lemma m_max_clock a lo hi : rinit_m_max (rclock_args c d a) (time lo) (time hi) = rinit_m_max a lo hi.
Proof.
  unfold rinit_m_max. simpl. destruct (ra_m_max a); [reflexivity|]. destruct (ra_n_z a); [reflexivity|].
  destruct (ra_scale a) as [s|]; simpl; [|reflexivity].
  rewrite (rdiv_clock 1 s 1 (duration s) c 1); [|auto|ring|reflexivity].
  destruct (rdiv 1 s) as [f|]; simpl; [|reflexivity].
  replace (1 / c * f * (time hi - time lo)) with (f * (hi - lo)); [reflexivity|]. unfold UnitSpec.time. now field.
Qed.

Lemma gamma_clock a l : rinit_gamma (rclock_args c d a) (map duration l) = on_clock rate (rinit_gamma a l).
Proof.
  unfold rinit_gamma. simpl. destruct (ra_gamma a); simpl; [reflexivity|].
  rewrite !item_map. destruct (item l 1) as [u1|]; simpl; [|reflexivity]. destruct (item l 0) as [u0|]; simpl; [|reflexivity].
  rewrite (rdiv_clock 1 (2 * (u1 - u0)) 1 _ c 1); [|auto|ring|unfold UnitSpec.duration; ring].
  destruct (rdiv 1 _); simpl; [|reflexivity]. f_equal. unfold UnitSpec.rate, Rdiv. ring.
Qed.

Lemma gamma_t_clock a x : rinit_gamma_t (rclock_args c d a) (rate x) = on_clock root_rate (rinit_gamma_t a x).
Proof. unfold rinit_gamma_t. simpl. destruct (ra_gamma_t a); simpl; [reflexivity|]. apply np_sqrt_rate. Qed.

Lemma new_clock a : new_rgpcm (rclock_args c d a) = on_clock rclock (new_rgpcm a).
Proof.
  unfold new_rgpcm.
  rewrite alpha_clock. destruct (rinit_alpha a) as [al|]; simpl; [|reflexivity].
  rewrite alpha_t_clock. destruct (rinit_alpha_t a al); simpl; [|reflexivity].
  rewrite lam_clock. destruct (rinit_lam a); simpl; [|reflexivity].
  rewrite rdiv_rate. destruct (rdiv 4 al); simpl; [|reflexivity].
  rewrite t_u_clock. destruct (rinit_t_u a al) as [[n l]|]; simpl; [|reflexivity].
  rewrite a_clock. destruct (rinit_a a l) as [lo|]; simpl; [|reflexivity].
  rewrite b_clock. destruct (rinit_b a) as [hi|]; simpl; [|reflexivity].
  rewrite m_max_clock. destruct (rinit_m_max a lo hi) as [mm|]; simpl; [|reflexivity].
  rewrite gamma_clock. destruct (rinit_gamma a l) as [ga|]; simpl; [|reflexivity].
  rewrite gamma_t_clock. destruct (rinit_gamma_t a ga); simpl; [|reflexivity].
  unfold UnitSpec.rclock. simpl. do 2 f_equal.
  unfold UnitSpec.rate. replace (al / c / (3 / 2)) with (/ c * (al / (3 / 2))) by (now field).
  replace (ga / c) with (/ c * ga) by (unfold Rdiv; ring).
  assert (P : 0 < / c) by now apply Rinv_0_lt_compat.
  unfold Rmin. destruct (Rle_dec (/ c * ga) _), (Rle_dec ga (al / (3 / 2))); unfold Rdiv; try ring; nra.
Qed.

Lemma prior_clock m p : rprior (rclock m) (rclock_params c p) = on_clock rclock (rprior m p).
Proof.
  unfold rprior. simpl.
  rewrite (rdiv_clock (p_alpha p) (p_gamma_factor p) _ _ 1 (/ c)); [|lra|unfold UnitSpec.rate, Rdiv; ring|ring].
  destruct (rdiv (p_alpha p) _) as [g|]; simpl; [|reflexivity]. unfold UnitSpec.rclock. simpl. do 2 f_equal.
  unfold UnitSpec.rate. now field.
Qed.

Lemma factor_clock m : gamma_factor_init (rclock m) = gamma_factor_init m.
Proof. unfold gamma_factor_init. apply (rdiv_same _ _ _ _ (/ c)); [apply ic0| |]; simpl; unfold UnitSpec.rate, Rdiv; ring. Qed.

(** * Matrices *)

Lemma K_u_clock m : rcompute_K_u (rclock m) = rcompute_K_u m.
Proof.
  unfold rcompute_K_u. cbn [r_gamma_t r_gamma r_t_u UnitSpec.rclock].
  rewrite (rdiv_same (r_gamma_t m ^ 2) (2 * r_gamma m) _ _ (/ c)); [|apply ic0|rewrite root_rate2; unfold Rdiv; ring|unfold UnitSpec.rate, Rdiv; ring].
  destruct (rdiv _ _) as [q|]; simpl; [|reflexivity]. f_equal.
  rewrite map_map. apply map_ext. intros t1. rewrite map_map. apply map_ext. intros t2.
  f_equal. f_equal. unfold UnitSpec.duration, UnitSpec.rate. rewrite <- Rmult_minus_distr_l, Rabs_c. now field.
Qed.

Lemma omega_clock m h : rdiv (2 * PI * h) (r_b (rclock m) - r_a (rclock m)) = on_clock rate (rdiv (2 * PI * h) (r_b m - r_a m)).
Proof.
  rewrite (rdiv_clock (2 * PI * h) (r_b m - r_a m) _ _ c 1); [|auto|ring|simpl; unfold UnitSpec.time; ring].
  destruct (rdiv _ _); simpl; [|reflexivity]. f_equal. unfold UnitSpec.rate, Rdiv. ring.
Qed.

Lemma K_z_alpha_clock m k : K_z_alpha (rclock m) k = K_z_alpha m k.
Proof.
  unfold K_z_alpha. change (r_m_max (rclock m)) with (r_m_max m). rewrite omega_clock.
  destruct (rdiv _ _) as [om|]; simpl; [|reflexivity]. unfold psd_matern_12.
  rewrite (rdiv_clock (2 * 1 * r_lam m) (r_lam m ^ 2 + om ^ 2) _ _ (/ c ^ 2) (/ c));
    [|apply Rinv_neq_0_compat, pow_nonzero; auto|unfold UnitSpec.rate, Rdiv; ring|unfold UnitSpec.rate; field; auto].
  destruct (rdiv _ _) as [ps|]; simpl; [|reflexivity].
  rewrite (rdiv_same (/ 2 * (r_b m - r_a m)) ps _ _ c); [reflexivity|auto|unfold UnitSpec.time; ring|now field].
Qed.

Lemma K_z_clock m : rcompute_K_z (rclock m) = rcompute_K_z m.
Proof.
  unfold rcompute_K_z. cbn [r_ms UnitSpec.rclock]. rewrite (mapM_ext _ (K_z_alpha m)); [reflexivity|]. apply K_z_alpha_clock.
Qed.

Lemma i_hx_clock m t1 t2 : rcompute_i_hx (rclock m) (Some (time t1)) (Some (time t2)) = rcompute_i_hx m (Some t1) (Some t2).
Proof.
  unfold rcompute_i_hx. cbn [r_alpha r_alpha_t r_lam UnitSpec.rclock].
  rewrite (rdiv_same (r_alpha_t m ^ 2 / 2) (r_alpha m) _ _ (/ c)); [|apply ic0|rewrite root_rate2; unfold Rdiv; ring|unfold UnitSpec.rate, Rdiv; ring].
  destruct (rdiv _ _) as [q|]; simpl; [|reflexivity]. f_equal. f_equal. f_equal.
  unfold UnitSpec.time, UnitSpec.rate. replace (c * t1 + d - (c * t2 + d)) with (c * (t1 - t2)) by ring. rewrite Rabs_c. now field.
Qed.

Lemma sign_c x : sign (c * x) = sign x.
Proof.
  unfold sign. destruct (Rlt_dec 0 (c * x)), (Rlt_dec 0 x), (Rlt_dec (c * x) 0), (Rlt_dec x 0); try reflexivity; exfalso; nra.
Qed.

Lemma abcd_clock x y p q : integral_abcd (c * x) (c * y) (rate p) (rate q) = on_clock (Rmult (c ^ 2)) (integral_abcd x y p q).
Proof.
  unfold integral_abcd. rewrite sign_c.
  replace (if Rle_dec 0 (c * x * (c * y)) then 1 else 0) with (if Rle_dec 0 (x * y) then 1 else 0).
  2: { assert (E : c * x * (c * y) = c * c * (x * y)) by ring. assert (0 < c * c) by nra.
       destruct (Rle_dec 0 (x * y)), (Rle_dec 0 (c * x * (c * y))); try reflexivity; exfalso; nra. }
  rewrite (rdiv_same (sign x * q) p _ _ (/ c)); [|apply ic0|unfold UnitSpec.rate, Rdiv; ring|unfold UnitSpec.rate, Rdiv; ring].
  destruct (rdiv _ _) as [r|]; simpl; [|reflexivity].
  rewrite !Rabs_c, Rmin_c.
  replace (Rabs (c * x - c * y)) with (c * Rabs (x - y)) by (rewrite <- Rabs_c; f_equal; ring).
  unfold UnitSpec.rate.
  replace (2 * (p / c) * sign x * (c * Rmin (Rabs x) (Rabs y))) with (2 * p * sign x * Rmin (Rabs x) (Rabs y)) by (now field).
  replace (p / c * (c * x) - q / c * (c * Rabs x)) with (p * x - q * Rabs x) by (now field).
  replace (p / c * (c * y) - q / c * (c * Rabs y)) with (p * y - q * Rabs y) by (now field).
  replace (p / c * (c * x + c * y) - q / c * (c * Rabs (x - y))) with (p * (x + y) - q * Rabs (x - y)) by (now field).
  rewrite (rdiv_clock ((if Rle_dec 0 (x * y) then 1 else 0) * (r * (1 - exp (2 * p * sign x * Rmin (Rabs x) (Rabs y)))) +
     (1 - exp (p * x - q * Rabs x) - exp (p * y - q * Rabs y) + exp (p * (x + y) - q * Rabs (x - y)))) (p ^ 2 - q ^ 2) _ _ (/ c ^ 2) 1);
    [|apply Rinv_neq_0_compat, pow_nonzero; auto|ring|field; auto].
  simpl. destruct (rdiv _ _) as [v|]; simpl; [|reflexivity]. f_equal. field. auto.
Qed.

Lemma abcd_lu_clock a1 a2 b1 b2 p q : integral_abcd_lu (c * a1) (c * a2) (c * b1) (c * b2) (rate p) (rate q)
  = on_clock (Rmult (c ^ 2)) (integral_abcd_lu a1 a2 b1 b2 p q).
Proof.
  unfold integral_abcd_lu. rewrite !abcd_clock.
  destruct (integral_abcd a2 b2 p q); simpl; [|reflexivity]. destruct (integral_abcd a1 b1 p q); simpl; [|reflexivity].
  destruct (integral_abcd a2 b1 p q); simpl; [|reflexivity]. destruct (integral_abcd a1 b2 p q); simpl; [|reflexivity].
  f_equal. ring.
Qed.

Lemma I_ux_elem_clock m t1 t2 u1 u2 : I_ux_elem (rclock m) (duration t1) (duration t2) (duration u1) (duration u2) = I_ux_elem m t1 t2 u1 u2.
Proof.
  unfold I_ux_elem. cbn [r_alpha r_alpha_t r_lam r_gamma r_gamma_t UnitSpec.rclock].
  unfold UnitSpec.duration.
  replace (- (c * t1)) with (c * - t1) by ring. replace (- (c * t2)) with (c * - t2) by ring.
  replace (c * u2 - c * t1) with (c * (u2 - t1)) by ring. replace (c * u1 - c * t2) with (c * (u1 - t2)) by ring.
  replace (rate (r_gamma m) - rate (r_alpha m)) with (rate (r_gamma m - r_alpha m)) by (unfold UnitSpec.rate, Rdiv; ring).
  rewrite abcd_lu_clock. destruct (integral_abcd_lu _ _ _ _ _ _) as [x|]; simpl; [|reflexivity]. f_equal.
  change (root_rate (r_alpha_t m) * (root_rate (r_alpha_t m) * 1)) with (root_rate (r_alpha_t m) ^ 2).
  change (root_rate (r_gamma_t m) * (root_rate (r_gamma_t m) * 1)) with (root_rate (r_gamma_t m) ^ 2).
  rewrite !root_rate2. unfold UnitSpec.rate.
  replace (- (r_gamma m / c) * (c * u1 + c * u2) + (r_gamma m - r_alpha m) / c * (c * t1 + c * t2))
    with (- r_gamma m * (u1 + u2) + (r_gamma m - r_alpha m) * (t1 + t2)) by (now field).
  field. auto.
Qed.

Lemma I_ux4_clock m t1 t2 :
  rcompute_I_ux4 (rclock m) (option_map (map duration) t1) (option_map (map duration) t2) = rcompute_I_ux4 m t1 t2.
Proof.
  unfold rcompute_I_ux4. cbn [r_t_u UnitSpec.rclock].
  assert (D : forall o, (match option_map (map duration) o with Some t => t | None => [0] end) = map duration (match o with Some t => t | None => [0] end)).
  { intros [t|]; [reflexivity|]. simpl. unfold UnitSpec.duration. now rewrite Rmult_0_r. }
  rewrite !D, mapM_map. apply mapM_ext. intros x1. rewrite mapM_map. apply mapM_ext. intros x2.
  rewrite mapM_map. apply mapM_ext. intros u1. rewrite mapM_map. apply mapM_ext. intros u2. apply I_ux_elem_clock.
Qed.

Lemma I_ux_clock m : rcompute_I_ux (rclock m) = rcompute_I_ux m.
Proof. unfold rcompute_I_ux. now rewrite <- (I_ux4_clock m None None). Qed.

Lemma cos_clock m n t : I_hx_0_cos (rclock m) n (time t) = I_hx_0_cos m n t.
Proof.
  unfold I_hx_0_cos. rewrite omega_clock. destruct (rdiv _ _) as [om|]; simpl; [|reflexivity].
  change (root_rate (r_alpha_t m) * (root_rate (r_alpha_t m) * 1)) with (root_rate (r_alpha_t m) ^ 2).
  rewrite root_rate2.
  rewrite (rdiv_clock (r_alpha_t m ^ 2) (4 * r_alpha m ^ 2 + om ^ 2) _ _ (/ c ^ 2) (/ c));
    [|apply Rinv_neq_0_compat, pow_nonzero; auto|unfold Rdiv; ring|unfold UnitSpec.rate; field; auto].
  rewrite (rdiv_same (r_alpha_t m ^ 2) (2 * (r_alpha m + r_lam m)) (r_alpha_t m ^ 2 / c) (2 * (rate (r_alpha m) + rate (r_lam m))) (/ c));
    [|apply ic0|unfold Rdiv; ring|unfold UnitSpec.rate, Rdiv; ring].
  simpl. destruct (rdiv _ (4 * _ + _)) as [c1|]; simpl; [|reflexivity].
  destruct (rdiv _ (2 * (_ + _))) as [c2|]; simpl; [|reflexivity]. f_equal. unfold UnitSpec.rate, UnitSpec.time.
  replace (c * t + d - (c * r_a m + d)) with (c * (t - r_a m)) by ring.
  replace (om / c * (c * (t - r_a m))) with (om * (t - r_a m)) by (now field).
  replace (-2 * (r_alpha m / c) * (c * (t - r_a m))) with (-2 * r_alpha m * (t - r_a m)) by (now field).
  field. auto.
Qed.

Lemma sin_clock m n t : I_hx_0_sin (rclock m) n (time t) = I_hx_0_sin m n t.
Proof.
  unfold I_hx_0_sin. change (r_m_max (rclock m)) with (r_m_max m).
  rewrite omega_clock. destruct (rdiv _ _) as [om|]; simpl; [|reflexivity].
  change (root_rate (r_alpha_t m) * (root_rate (r_alpha_t m) * 1)) with (root_rate (r_alpha_t m) ^ 2).
  rewrite root_rate2.
  rewrite (rdiv_clock (r_alpha_t m ^ 2) (4 * r_alpha m ^ 2 + om ^ 2) _ _ (/ c ^ 2) (/ c));
    [|apply Rinv_neq_0_compat, pow_nonzero; auto|unfold Rdiv; ring|unfold UnitSpec.rate; field; auto].
  simpl. destruct (rdiv _ (4 * _ + _)) as [c1|]; simpl; [|reflexivity]. f_equal. unfold UnitSpec.rate, UnitSpec.time.
  replace (c * t + d - (c * r_a m + d)) with (c * (t - r_a m)) by ring.
  replace (om / c * (c * (t - r_a m))) with (om * (t - r_a m)) by (now field).
  replace (-2 * (r_alpha m / c) * (c * (t - r_a m))) with (-2 * r_alpha m * (t - r_a m)) by (now field).
  field. auto.
Qed.

Lemma bind_ext {A B} (r : res A) (f g : A -> res B) : (forall x, f x = g x) -> bind r f = bind r g.
Proof. intros H; destruct r; simpl; auto. Qed.

Lemma table_ext {A} (f g : A -> A -> res R) rows cols : (forall i j, f i j = g i j) -> table f rows cols = table g rows cols.
Proof. intros H. unfold table. apply mapM_ext. intros i. apply mapM_ext. auto. Qed.

Lemma bind_eq {A B} (r r' : res A) (f g : A -> res B) : r = r' -> (forall x, f x = g x) -> bind r f = bind r' g.
Proof. intros ->. apply bind_ext. Qed.

Section Sorted.
Variable argsort : list Z -> list nat.

Lemma I_hz_at_clock m t : I_hz_at argsort (rclock m) (time t) = I_hz_at argsort m t.
Proof.
  unfold I_hz_at. change (r_ms (rclock m)) with (r_ms m). change (r_m_max (rclock m)) with (r_m_max m).
  apply bind_ext; intros inv. apply bind_ext; intros ms. cbv zeta.
  apply bind_eq; [apply table_ext; intros i j; now rewrite !cos_clock|intros x1].
  apply bind_eq; [apply table_ext; intros i j; now rewrite !cos_clock|intros x2].
  apply bind_eq; [apply table_ext; intros i j; now rewrite !sin_clock|intros x3].
  apply bind_eq; [apply table_ext; intros i j; now rewrite !sin_clock|intros x4].
  reflexivity.
Qed.

Lemma I_hz_clock m t : rcompute_I_hz argsort (rclock m) (map time t) = rcompute_I_hz argsort m t.
Proof. unfold rcompute_I_hz. rewrite mapM_map. apply mapM_ext. apply I_hz_at_clock. Qed.

Lemma lu0_clock m l u : integral_lu0 (rclock m) (time l) (time u) = on_clock duration (integral_lu0 m l u).
Proof.
  unfold integral_lu0. cbn [r_alpha r_gamma UnitSpec.rclock].
  replace (rate (r_alpha m) - rate (r_gamma m)) with (rate (r_alpha m - r_gamma m)) by (unfold UnitSpec.rate, Rdiv; ring).
  rewrite rdiv_rate. destruct (rdiv _ _) as [q|]; simpl; [|reflexivity]. f_equal. unfold UnitSpec.duration, UnitSpec.rate, UnitSpec.time.
  replace ((r_alpha m - r_gamma m) / c * (c * l + d - (c * u + d))) with ((r_alpha m - r_gamma m) * (l - u)) by (now field). ring.
Qed.

Lemma leq_clock m l u k : integral_luk_leq_M (rclock m) (time l) (time u) k = on_clock duration (integral_luk_leq_M m l u k).
Proof.
  unfold integral_luk_leq_M. rewrite omega_clock. destruct (rdiv _ _) as [om|]; simpl; [|reflexivity].
  replace (rate (r_alpha m) - rate (r_gamma m)) with (rate (r_alpha m - r_gamma m)) by (unfold UnitSpec.rate, Rdiv; ring).
  set (ag := r_alpha m - r_gamma m).
  rewrite (rdiv_clock 1 (ag ^ 2 + om ^ 2) _ _ (/ c ^ 2) 1);
    [|apply Rinv_neq_0_compat, pow_nonzero; auto|ring|unfold UnitSpec.rate; field; auto].
  simpl. destruct (rdiv 1 _) as [q|]; simpl; [|reflexivity]. f_equal. unfold UnitSpec.rate, UnitSpec.time, UnitSpec.duration.
  replace (c * u + d - (c * r_a m + d)) with (c * (u - r_a m)) by ring.
  replace (c * l + d - (c * r_a m + d)) with (c * (l - r_a m)) by ring.
  replace (om / c * (c * (u - r_a m))) with (om * (u - r_a m)) by (now field).
  replace (om / c * (c * (l - r_a m))) with (om * (l - r_a m)) by (now field).
  replace (ag / c * (c * l + d - (c * u + d))) with (ag * (l - u)) by (now field).
  field. auto.
Qed.

Lemma g_clock m l u k : integral_luk_g_M (rclock m) (time l) (time u) k = on_clock duration (integral_luk_g_M m l u k).
Proof.
  unfold integral_luk_g_M. change (r_m_max (rclock m)) with (r_m_max m).
  rewrite omega_clock. destruct (rdiv _ _) as [om|]; simpl; [|reflexivity].
  replace (rate (r_alpha m) - rate (r_gamma m)) with (rate (r_alpha m - r_gamma m)) by (unfold UnitSpec.rate, Rdiv; ring).
  set (ag := r_alpha m - r_gamma m).
  rewrite (rdiv_clock (-1) (ag ^ 2 + om ^ 2) _ _ (/ c ^ 2) 1);
    [|apply Rinv_neq_0_compat, pow_nonzero; auto|ring|unfold UnitSpec.rate; field; auto].
  simpl. destruct (rdiv (-1) _) as [q|]; simpl; [|reflexivity]. f_equal. unfold UnitSpec.rate, UnitSpec.time, UnitSpec.duration.
  replace (c * u + d - (c * r_a m + d)) with (c * (u - r_a m)) by ring.
  replace (c * l + d - (c * r_a m + d)) with (c * (l - r_a m)) by ring.
  replace (om / c * (c * (u - r_a m))) with (om * (u - r_a m)) by (now field).
  replace (om / c * (c * (l - r_a m))) with (om * (l - r_a m)) by (now field).
  replace (ag / c * (c * l + d - (c * u + d))) with (ag * (l - u)) by (now field).
  field. auto.
Qed.

Lemma mapM_clock {A B C} (f : A -> res B) (g : B -> C) l : mapM (fun x => on_clock g (f x)) l = on_clock (map g) (mapM f l).
Proof.
  induction l as [|x l IH]; simpl; [reflexivity|]. rewrite IH. destruct (f x); simpl; [|reflexivity].
  destruct (mapM f l); reflexivity.
Qed.

Lemma take_clock {A B} (f : A -> B) l idx : take (map f l) idx = on_clock (map f) (take l idx).
Proof.
  unfold take. rewrite <- mapM_clock. apply mapM_ext. intros i. unfold py_item. rewrite map_length.
  cbv zeta. match goal with |- context [if (?j <? 0)%Z then Err _ else _] => destruct (j <? 0)%Z end; [reflexivity|].
  rewrite nth_error_map. destruct (nth_error l _); reflexivity.
Qed.

Lemma I_uz_at_clock m t u : I_uz_at argsort (rclock m) (time t) (duration u) = I_uz_at argsort m t u.
Proof.
  unfold I_uz_at. cbn [r_ms r_m_max r_alpha_t r_gamma_t r_gamma UnitSpec.rclock].
  apply bind_ext; intros inv. apply bind_ext; intros ms. cbv zeta.
  replace (time t - duration u) with (time (t - u)) by (unfold UnitSpec.time, UnitSpec.duration; ring).
  rewrite lu0_clock.
  rewrite (mapM_ext _ (fun k => on_clock duration (integral_luk_leq_M m (t - u) t k)) (filter (fun k => (0 <? k)%Z && (k <=? r_m_max m)%Z) ms)) by (intros; apply leq_clock).
  rewrite (mapM_ext _ (fun k => on_clock duration (integral_luk_g_M m (t - u) t k)) (filter (fun k => (k >? r_m_max m)%Z) ms)) by (intros; apply g_clock).
  rewrite !mapM_clock.
  assert (Z0 : mapM (fun k => do x <- on_clock duration (integral_lu0 m (t - u) t); Ok (x + IZR k)) (filter (fun k => (k =? 0)%Z) ms)
     = on_clock (map duration) (mapM (fun k => do x <- integral_lu0 m (t - u) t; Ok (x + IZR k)) (filter (fun k => (k =? 0)%Z) ms))).
  { rewrite <- mapM_clock. clear. induction ms as [|k ms IH]; simpl; [reflexivity|].
    destruct (k =? 0)%Z eqn:E; [|exact IH]. apply Z.eqb_eq in E. subst k. simpl. rewrite IH.
    destruct (integral_lu0 m (t - u) t) as [x|]; simpl; [|reflexivity].
    replace (duration x + 0) with (duration (x + 0)) by (unfold UnitSpec.duration; ring). reflexivity. }
  rewrite Z0. clear Z0. destruct (mapM _ (filter (fun k => (k =? 0)%Z) ms)) as [l0|]; simpl; [|reflexivity].
  destruct (mapM _ (filter (fun k => (0 <? k)%Z && (k <=? r_m_max m)%Z) ms)) as [l1|]; simpl; [|reflexivity].
  destruct (mapM _ (filter (fun k => (k >? r_m_max m)%Z) ms)) as [l2|]; simpl; [|reflexivity].
  rewrite <- !map_app, take_clock. destruct (take _ inv) as [r|]; simpl; [|reflexivity]. f_equal.
  rewrite map_map. apply map_ext. intros x. unfold UnitSpec.root_rate, UnitSpec.rate, UnitSpec.duration.
  replace (- (r_gamma m / c) * (c * u)) with (- r_gamma m * u) by (now field).
  replace (r_alpha_t m / sqrt c * (r_gamma_t m / sqrt c)) with (r_alpha_t m * r_gamma_t m / (sqrt c * sqrt c)) by (now field).
  rewrite ss. now field.
Qed.

Lemma I_uz_clock m t : rcompute_I_uz argsort (rclock m) (map time t) = rcompute_I_uz argsort m t.
Proof.
  unfold rcompute_I_uz. rewrite mapM_map. apply mapM_ext. intros x. cbn [r_t_u UnitSpec.rclock].
  rewrite mapM_map. apply mapM_ext. intros u. apply I_uz_at_clock.
Qed.
End Sorted.

Lemma k_h_clock m t1 t2 : rk_h_kernel (rclock m) (duration t1) (duration t2) = rk_h_kernel m t1 t2.
Proof.
  unfold rk_h_kernel. cbn [r_lam r_alpha UnitSpec.rclock]. rewrite rdiv_rate.
  destruct (rdiv 1 (r_lam m)) as [s|]; simpl; [|reflexivity].
  rewrite (rdiv_same (Rabs (t1 - t2)) s _ _ c); [|auto| |reflexivity].
  2: { unfold UnitSpec.duration. rewrite <- Rmult_minus_distr_l. apply Rabs_c. }
  destruct (rdiv _ s) as [q|]; simpl; [|reflexivity]. f_equal. unfold UnitSpec.rate, UnitSpec.duration. rewrite !Rabs_c.
  replace (- (r_alpha m / c) * (c * Rabs t1)) with (- r_alpha m * Rabs t1) by (now field).
  replace (- (r_alpha m / c) * (c * Rabs t2)) with (- r_alpha m * Rabs t2) by (now field).
  assert (S : forall t, (if Rle_dec 0 (c * t) then 1 else 0) = (if Rle_dec 0 t then 1 else 0)).
  { intros t. destruct (Rle_dec 0 (c * t)), (Rle_dec 0 t); try reflexivity; exfalso; nra. }
  now rewrite !S.
Qed.
End Clock.
