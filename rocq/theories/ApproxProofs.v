(** Proofs about the model of approx.py. *)
From Coq Require Import Reals Lra Psatz String.
From mathcomp Require Import all_ssreflect all_algebra.
From Verif Require Import Py RMat RChol RTac NormalModel NormalSpec NormalProofs ApproxModel ApproxSpec.
Set Implicit Arguments.
Unset Strict Implicit.
Unset Printing Implicit Defensive.
Import GRing.Theory.
Local Open Scope ring_scope.
Delimit Scope R_scope with Re.

Section Approx.
Variable chol : forall n, 'M[R]_n -> 'M[R]_n.
Hypothesis Hc : chol_ok chol.

Lemma INR_scale n a b (M : 'M[R]_(a, b)) : INR n *: M = \sum_(i < n) M.
Proof. by rewrite INRE sumr_const card_ord scaler_nat. Qed.

(** * Summed and per-point terms *)

Section Terms.
Variables (n nu nz : nat) (m : gp nu nz) (ig : integrals n nu nz) (y : 'I_n -> R).
Let ts := construct_terms chol m ig y.

Definition A_at i := ts_I_ux ts - ts_K_z_squeezed ts i.
Definition B_at i := ts_I_hz ts i - ts_K_u_squeezed ts i.
Definition c_at i : R := (ts_I_hx ts i
            - sum_mul (K_u_inv chol m) (ts_I_ux ts)
            - sum_mul (K_z_inv chol m) (ts_I_hz ts i)
            + sum_mul (K_u_inv chol m) (ts_K_z_squeezed ts i))%Re.

Lemma A_sumE : ts_A_sum ts = \sum_i A_at i.
Proof. by rewrite /A_at /ts /= INR_scale -sumrB. Qed.
Lemma B_sumE : ts_B_sum ts = \sum_i B_at i.
Proof. by rewrite /B_at /ts /= -sumrB. Qed.
Lemma c_sumE : ts_c_sum ts = \sum_i c_at i.
Proof.
  rewrite /c_at /ts /= INR_scale !sum_mul_sumr.
  rewrite -[LHS]/(\sum_i ig_hx ig i - \sum_(i < n) sum_mul (K_u_inv chol m) (ig_ux ig)
     - \sum_i sum_mul (K_z_inv chol m) (ig_hz ig i) + \sum_i sum_mul (K_u_inv chol m)
        (ig_uz ig i *m K_z_inv chol m *m (ig_uz ig i)^T)).
  by rewrite -!sumrB -big_split.
Qed.

Lemma mx11_dot (u : 'cV[R]_nu) (M : 'M[R]_(nu, nz)) (z : 'cV[R]_nz) :
  (u^T *m M *m z) ord0 ord0 = dot u (M *m z).
Proof. by rewrite -mulmxA dotE mxE eqxx mulr1n. Qed.

Lemma quad_aux (y2 a b f c y0 m1 : R) :
  (y2 + a + b + f + c - 2 * (y0 * m1) = y2 - 2 * y0 * m1 + (a + b + c + f))%Re.
Proof. ring. Qed.

(** The quadratic of the ELBO is the sum of the per-point quadratics. *)
Lemma quadratic_sum u u2 z z2 :
  (\sum_i (y i * y i) + sum_mul (ts_A_sum ts) u2 + sum_mul (ts_B_sum ts) z2
   + \sum_i sum_mul (ts_I_uz ts i *m z2 *m (ts_I_uz ts i)^T)%R u2
   + ts_c_sum ts - 2 * sum_mul u (ts_I_uz_sum ts *m z)%R)%Re =
  \sum_i (y i * y i - 2 * y i * (predict_moments chol m ts u u2 z z2 i).1
           + (predict_moments chol m ts u u2 z z2 i).2)%Re.
Proof.
  rewrite A_sumE B_sumE c_sumE !sum_mul_suml.
  have -> : sum_mul u (ts_I_uz_sum ts *m z) = \sum_i y i * dot u (ts_I_uz ts i *m z).
    rewrite sum_mul_col /= mulmx_suml /dot.
    rewrite (eq_bigr (fun k => \sum_i u k 0 * (y i * (ig_uz ig i *m z) k 0))); last first.
      move=> k _; rewrite summxE mulr_sumr; apply: eq_bigr => i _.
      by rewrite -scalemxAl mxE.
    rewrite exchange_big; apply: eq_bigr => i _ /=; rewrite mulr_sumr.
    by apply: eq_bigr => k _; rewrite mulrCA.
  have -> : (2 * \sum_i y i * dot u (ts_I_uz ts i *m z)%R)%Re =
            \sum_i (2 * (y i * dot u (ts_I_uz ts i *m z)%R))%Re.
    by rewrite -mulr_sumr.
  rewrite -[LHS]/(\sum_i (y i * y i) + \sum_i sum_mul (A_at i) u2 + \sum_i sum_mul (B_at i) z2
     + \sum_i sum_mul (ts_I_uz ts i *m z2 *m (ts_I_uz ts i)^T) u2 + \sum_i c_at i
     - \sum_i (2 * (y i * dot u (ts_I_uz ts i *m z)%R))%Re).
  rewrite -!big_split /= -sumrB; apply: eq_bigr => i _.
  rewrite mx11_dot (sum_mulC u2); exact: quad_aux.
Qed.
End Terms.

(** * Quadratic forms of the log-density and of the divergence *)

Lemma logpdf_nat n (p : natnormal n) x : spd (nn_prec p) ->
  logpdf chol p x = (1 / 2 * (ln (\det (nn_prec p)) - INR n * ln (2 * PI)
    - dot x (nn_prec p *m x) + 2 * dot x (nn_lam p)
    - dot (nn_lam p) (invmx (nn_prec p) *m nn_lam p)))%Re.
Proof.
  move=> Hp; have U := spd_unit Hp; rewrite /logpdf logdetE // meanE // sum_mul_col.
  rewrite mulmxBr mulKVmx // dotC dotDr dotNr !dotDl !dotNl opprB.
  have -> : dot (invmx (nn_prec p) *m nn_lam p) (nn_prec p *m x) = dot x (nn_lam p).
    by rewrite dot_mx (proj1 Hp) mulKVmx // dotC.
  rewrite (dotC (invmx _ *m _)).
  rfield.
Qed.

Lemma det_inv_ln n (P Q : 'M[R]_n) : spd P -> spd Q ->
  ln (\det (invmx P) / \det (invmx Q))%Re = (ln (\det Q) - ln (\det P))%Re.
Proof.
  move=> HP HQ; have PP := spd_det_gt0 HP; have PQ := spd_det_gt0 HQ.
  have NP := Rneq0 PP; have NQ := Rneq0 PQ.
  rewrite !det_inv (RinvE (elimN eqP NP)) (RinvE (elimN eqP NQ)) /Rdiv Rinv_inv.
  rewrite ln_mult //; last exact: Rinv_0_lt_compat.
  rewrite ln_Rinv //; move: (ln _) (ln _) => a b; ring.
Qed.

Lemma kl_nat n (p q : natnormal n) : spd (nn_prec p) -> spd (nn_prec q) ->
  kl chol p q = (1 / 2 * (sum_mul (nn_prec q) (m2 chol p) - 2 * dot (nn_lam q) (mean chol p)
    + dot (nn_lam q) (invmx (nn_prec q) *m nn_lam q)
    - ln (\det (nn_prec q)) + ln (\det (nn_prec p)) - INR n))%Re.
Proof.
  move=> Hp Hq; have U := spd_unit Hq; rewrite klE // /gaussian_kl invmxK det_inv_ln // -[in LHS](meanE Hc Hp).
  rewrite m2E // sum_mulDr sum_mul_outer (sum_mulE (nn_prec q)) (proj1 Hq).
  rewrite mulmxBr mulKVmx // !dotDl !dotDr !dotNl !dotNr.
  have -> : dot (invmx (nn_prec q) *m nn_lam q) (nn_prec q *m mean chol p) = dot (nn_lam q) (mean chol p).
    by rewrite dot_mx (proj1 Hq) mulKVmx.
  rewrite (dotC (invmx _ *m _)) (dotC (mean chol p) (nn_lam q)).
  rfield.
Qed.

(** * The exact conditional *)

Lemma sum_mul_outer_sum n a b (I : 'I_n -> 'M[R]_(a, b)) (x : 'cV[R]_b) (w : 'cV[R]_a) :
  dot w ((\sum_i ((I i *m x) *m (I i *m x)^T)) *m w) = \sum_i dot w (I i *m x) * dot w (I i *m x).
Proof.
  rewrite -sum_mul_outer sum_mul_suml; apply: eq_bigr => i _.
  rewrite sum_mulC sum_mul_outer -mulmxA dotE mul_mx_scalar dotZr (dotC (I i *m x)).
  by rewrite mulrC; congr (_ * _); rewrite dotC.
Qed.

Section Conditional.
Variables (n nu nz : nat) (m : gp nu nz) (ig : integrals n nu nz) (y : 'I_n -> R).
Hypotheses (HKu : spd (K_u m)) (HKz : spd (K_z m)).
Let ts := construct_terms chol m ig y.

Lemma predict_moments_spec u z i :
  predict_moments chol m ts u (u *m u^T) z (z *m z^T) i = (f_mean ig u z i, f_m2 m ig u z i).
Proof.
  rewrite /predict_moments /f_mean /f_m2 /ts /= /K_u_inv /K_z_inv !pd_invE //.
  rewrite !sum_mul_outer !sum_mulE (symm_inv (proj1 HKu)) (symm_inv (proj1 HKz)) mx11_dot.
  congr (_, _).
  have -> : \tr ((u *m u^T)^T *m (ig_uz ig i *m (z *m z^T) *m (ig_uz ig i)^T)) =
     dot u (ig_uz ig i *m z) * dot u (ig_uz ig i *m z).
    rewrite -sum_mulE sum_mulC sum_mul_outer -!mulmxA (mulmxA (z^T)).
    have -> : z^T *m (ig_uz ig i)^T *m u = (dot u (ig_uz ig i *m z))%:M.
      by rewrite -trmx_mul dotE dotC.
    by rewrite mul_mx_scalar -scalemxAr dotZr.
  rewrite /f_mean; rfield.
Qed.

Lemma expected_log_lik_quad u z :
  expected_log_lik m ig y u z = (- (1 / 2) * INR n * ln (2 * PI * noise m)
   - 1 / (2 * noise m) * (\sum_i (y i * y i) + dot u (ts_A_sum ts *m u) + dot z (ts_B_sum ts *m z)
        + \sum_i (dot u (ig_uz ig i *m z) * dot u (ig_uz ig i *m z))%Re
        + ts_c_sum ts - 2 * dot u (ts_I_uz_sum ts *m z)))%Re.
Proof.
  have Q := quadratic_sum m ig y u (u *m u^T) z (z *m z^T); rewrite -/ts in Q.
  have E1 : forall i, sum_mul (ts_I_uz ts i *m (z *m z^T) *m (ts_I_uz ts i)^T) (u *m u^T) =
      (dot u (ig_uz ig i *m z) * dot u (ig_uz ig i *m z))%Re.
    move=> i; rewrite sum_mul_outer -!mulmxA (mulmxA (z^T)).
    have -> : z^T *m (ig_uz ig i)^T *m u = (dot u (ig_uz ig i *m z))%:M.
      by rewrite -trmx_mul dotE dotC.
    by rewrite mul_mx_scalar -scalemxAr dotZr.
  have -> : (\sum_i (y i * y i) + dot u (ts_A_sum ts *m u) + dot z (ts_B_sum ts *m z)
        + \sum_i (dot u (ig_uz ig i *m z) * dot u (ig_uz ig i *m z))%Re
        + ts_c_sum ts - 2 * dot u (ts_I_uz_sum ts *m z))%Re =
     \sum_i (y i * y i - 2 * y i * f_mean ig u z i + f_m2 m ig u z i)%Re.
    move: Q; rewrite (eq_bigr _ (fun i _ => E1 i)) !sum_mul_outer sum_mul_col => ->.
    by apply: eq_bigr => i _; rewrite predict_moments_spec.
  rewrite /expected_log_lik.
  transitivity (\sum_i ((- (1 / 2) * ln (2 * PI * noise m))%Re - (1 / (2 * noise m))%Re *
     (y i * y i - 2 * y i * f_mean ig u z i + f_m2 m ig u z i)%Re)).
    by apply: eq_bigr.
  rewrite sumrB sumr_const card_ord -mulr_natr -INRE -mulr_sumr; rring.
Qed.

(** C44: the exact conditional of z and its normaliser. *)
Lemma log_Z_u_exact u z : noise m <> R0 -> spd (nn_prec (q_z_optimal m ts u)) ->
  (expected_log_lik m ig y u z + logpdf chol (NatNormal 0 (K_z m)) z)%Re =
  (log_Z_u chol m ts u + logpdf chol (q_z_optimal m ts u) z)%Re.
Proof.
  move=> Hn HP; rewrite !logpdf_nat // expected_log_lik_quad /log_Z_u !logdetE // iqfE //.
  rewrite sum_mul_col dot0l dot0r -[nn_prec (NatNormal 0 (K_z m))]/(K_z m) -[ts_y ts]/y.
  set D := dot (nn_lam _) _; set LP := ln (\det (nn_prec (q_z_optimal m ts u))).
  have -> : dot z (nn_prec (q_z_optimal m ts u) *m z) =
     (dot z (K_z m *m z) + / noise m * (dot z (ts_B_sum ts *m z)
       + \sum_i (dot u (ig_uz ig i *m z) * dot u (ig_uz ig i *m z))%Re))%Re.
    rewrite /= mulmxDl dotDr -scalemxAl dotZr mulmxDl dotDr sum_mul_outer_sum.
    congr (_ + _ * (_ + _)); apply: eq_bigr => i _.
    by rewrite dot_mx trmxK dotC.
  have -> : dot z (nn_lam (q_z_optimal m ts u)) = (/ noise m * dot u (ts_I_uz_sum ts *m z))%Re.
    by rewrite /= dotZr dot_mx trmxK dotC.
  move: D LP => D LP; rfield; exact: Hn.
Qed.
End Conditional.

(** * Coordinate ascent *)

Lemma m2_symm n (p : natnormal n) : spd (nn_prec p) -> symm (m2 chol p).
Proof.
  move=> H; rewrite m2E //; rewrite /symm linearD /= trmx_mul trmxK; congr (_ + _).
  exact: symm_inv (proj1 H).
Qed.
Lemma m2_psd n (p : natnormal n) : spd (nn_prec p) -> psd (m2 chol p).
Proof.
  move=> H; rewrite m2E //; apply: psd_add; last exact: psd_outer.
  exact: spd_psd (spd_inv H).
Qed.

Lemma q_optimal_m2_spd n a b (s : R) (A : 'M[R]_a) (I : 'I_n -> 'M[R]_(a, b)) I_sum K x x2 :
  Rlt 0 s -> spd K -> psd A -> psd x2 -> spd (nn_prec (q_optimal_m2 s A I I_sum K x x2)).
Proof.
  move=> Hs HK HA Hx; apply: spd_add => //; apply: psd_scale.
    exact: Rlt_le (Rinv_0_lt_compat _ Hs).
  by apply: psd_add => //; apply: psd_sum => i; apply: psd_conj.
Qed.
Lemma q_optimal_spd n a b (s : R) (A : 'M[R]_a) (I : 'I_n -> 'M[R]_(a, b)) I_sum K x :
  Rlt 0 s -> spd K -> psd A -> spd (nn_prec (q_optimal s A I I_sum K x)).
Proof.
  move=> Hs HK HA; apply: spd_add => //; apply: psd_scale.
    exact: Rlt_le (Rinv_0_lt_compat _ Hs).
  by apply: psd_add => //; apply: psd_sum => i; apply: psd_outer.
Qed.

Section Ascent.
Variables (n nu nz : nat) (m : gp nu nz) (ts : terms n nu nz).
Hypotheses (HKu : spd (K_u m)) (HKz : spd (K_z m)) (Hn : Rlt 0 (noise m)).
Hypotheses (HA : psd (ts_A_sum ts)) (HB : psd (ts_B_sum ts)).

Let pu : natnormal nu := NatNormal 0 (K_u m).
Let pz : natnormal nz := NatNormal 0 (K_z m).
Let f := q_u_optimal_mean_field chol m ts.
Let g := q_z_optimal_mean_field chol m ts.

Lemma f_spd qz : spd (nn_prec qz) -> spd (nn_prec (f qz)).
Proof. by move=> H; apply: q_optimal_m2_spd => //; exact: m2_psd. Qed.
Lemma g_spd qu : spd (nn_prec qu) -> spd (nn_prec (g qu)).
Proof. by move=> H; apply: q_optimal_m2_spd => //; exact: m2_psd. Qed.

Lemma tr4 a b (I : 'M[R]_(a, b)) (x : 'M[R]_b) (w : 'M[R]_a) : symm x ->
  sum_mul (I *m x *m I^T) w = sum_mul x (I^T *m w *m I).
Proof.
  move=> Hx; rewrite !sum_mulE !trmx_mul trmxK Hx -!mulmxA [LHS]mxtrace_mulC.
  by rewrite -!mulmxA.
Qed.

Definition G_u (qz : natnormal nz) : R :=
  (- (1 / 2) * INR n * ln (2 * PI * noise m)
   + (- (1 / 2) / noise m) * (\sum_i (ts_y ts i * ts_y ts i) + sum_mul (ts_B_sum ts) (m2 chol qz)
      + ts_c_sum ts) - kl chol qz pz
   + 1 / 2 * (ln (\det (K_u m)) - ln (\det (nn_prec (f qz)))
      + dot (nn_lam (f qz)) (invmx (nn_prec (f qz)) *m nn_lam (f qz))))%Re.

Lemma elbo_gap_u qu qz : spd (nn_prec qu) -> spd (nn_prec qz) ->
  elbo_at chol m ts pu pz qu qz = (G_u qz - kl chol qu (f qz))%Re.
Proof.
  move=> Hu Hz; have Hf := f_spd Hz.
  rewrite /elbo_at /G_u [kl chol qu pu]kl_nat // [kl chol qu (f qz)]kl_nat //.
  set D := dot _ (invmx (nn_prec (f qz)) *m _); set LP := ln (\det (nn_prec (f qz))).
  rewrite /= !dot0l /f /q_u_optimal_mean_field /= sum_mulDl sum_mulZl sum_mulDl sum_mul_suml dotZl.
  rewrite sum_mul_col (dotC (mean chol qu)).
  have N : noise m <> R0 by move=> E; move: Hn; rewrite E; exact: Rlt_irrefl.
  move: D LP => D LP; rfield; exact: N.
Qed.

Definition G_z (qu : natnormal nu) : R :=
  (- (1 / 2) * INR n * ln (2 * PI * noise m)
   + (- (1 / 2) / noise m) * (\sum_i (ts_y ts i * ts_y ts i) + sum_mul (ts_A_sum ts) (m2 chol qu)
      + ts_c_sum ts) - kl chol qu pu
   + 1 / 2 * (ln (\det (K_z m)) - ln (\det (nn_prec (g qu)))
      + dot (nn_lam (g qu)) (invmx (nn_prec (g qu)) *m nn_lam (g qu))))%Re.

Lemma elbo_gap_z qu qz : spd (nn_prec qu) -> spd (nn_prec qz) ->
  elbo_at chol m ts pu pz qu qz = (G_z qu - kl chol qz (g qu))%Re.
Proof.
  move=> Hu Hz; have Hg := g_spd Hu.
  rewrite /elbo_at /G_z [kl chol qz pz]kl_nat // [kl chol qz (g qu)]kl_nat //.
  set D := dot _ (invmx (nn_prec (g qu)) *m _); set LP := ln (\det (nn_prec (g qu))).
  rewrite /= !dot0l /g /q_z_optimal_mean_field /= sum_mulDl sum_mulZl sum_mulDl sum_mul_suml dotZl.
  rewrite sum_mul_col dot_mx.
  have -> : \sum_i sum_mul (ts_I_uz ts i *m m2 chol qz *m (ts_I_uz ts i)^T) (m2 chol qu) =
     \sum_i sum_mul ((ts_I_uz ts i)^T *m m2 chol qu *m (ts_I_uz ts i)^T^T) (m2 chol qz).
    by apply: eq_bigr => i _; rewrite tr4; [rewrite trmxK sum_mulC|exact: m2_symm].
  have N : noise m <> R0 by move=> E; move: Hn; rewrite E; exact: Rlt_irrefl.
  move: D LP => D LP; rfield; exact: N.
Qed.

Lemma gap_le (a k : R) : Rle 0 k -> Rle (a - k)%Re a.
Proof. by move=> H; lra. Qed.
Lemma gap_eq (a k : R) : (a - k)%Re = a -> k = R0.
Proof. by move=> H; lra. Qed.

Lemma elbo_opt_u qz : spd (nn_prec qz) -> elbo_at chol m ts pu pz (f qz) qz = G_u qz.
Proof. by move=> H; rewrite elbo_gap_u ?kl_refl //; [exact: Rminus_0_r|exact: f_spd|exact: f_spd]. Qed.
Lemma elbo_opt_z qu : spd (nn_prec qu) -> elbo_at chol m ts pu pz qu (g qu) = G_z qu.
Proof. by move=> H; rewrite elbo_gap_z ?kl_refl //; [exact: Rminus_0_r|exact: g_spd|exact: g_spd]. Qed.

Lemma opt_u_max qu qz : spd (nn_prec qu) -> spd (nn_prec qz) ->
  Rle (elbo_at chol m ts pu pz qu qz) (elbo_at chol m ts pu pz (f qz) qz)
  /\ (elbo_at chol m ts pu pz qu qz = elbo_at chol m ts pu pz (f qz) qz <-> qu = f qz).
Proof.
  move=> Hu Hz; rewrite elbo_opt_u // elbo_gap_u //.
  split; first by apply: gap_le; apply: kl_ge0 => //; exact: f_spd.
  split; last by move=> ->; rewrite kl_refl ?Rminus_0_r //; exact: f_spd.
  by move/gap_eq; apply: kl_eq0 => //; exact: f_spd.
Qed.
Lemma opt_z_max qu qz : spd (nn_prec qu) -> spd (nn_prec qz) ->
  Rle (elbo_at chol m ts pu pz qu qz) (elbo_at chol m ts pu pz qu (g qu))
  /\ (elbo_at chol m ts pu pz qu qz = elbo_at chol m ts pu pz qu (g qu) <-> qz = g qu).
Proof.
  move=> Hu Hz; rewrite elbo_opt_z // elbo_gap_z //.
  split; first by apply: gap_le; apply: kl_ge0 => //; exact: g_spd.
  split; last by move=> ->; rewrite kl_refl ?Rminus_0_r //; exact: g_spd.
  by move/gap_eq; apply: kl_eq0 => //; exact: g_spd.
Qed.
End Ascent.
End Approx.
