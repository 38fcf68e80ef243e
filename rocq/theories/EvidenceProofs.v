(** Proofs about densities, moments and evidence lower bounds as integrals. *)
From Coq Require Import Reals Lra Psatz.
From mathcomp Require Import all_ssreflect all_algebra.
From Verif Require Import RMat RChol RTac NormalModel NormalSpec NormalProofs ApproxModel ApproxSpec ApproxProofs ApproxProofs2
  IntegralSpec GaussN Tame TameMat EvidenceModel.
Set Implicit Arguments.
Unset Strict Implicit.
Unset Printing Implicit Defensive.
Import GRing.Theory.
Local Open Scope ring_scope.
Delimit Scope R_scope with Re.

Section Chol.
Variable chol : forall n, 'M[R]_n -> 'M[R]_n.
Hypothesis Hc : chol_ok chol.

(** * Moments of a normal distribution *)

Lemma quad_mean n (p : natnormal n) (A : 'M[R]_n) : spd (nn_prec p) ->
  sum_mul A (m2 chol p) = (dot (mean chol p) (A *m mean chol p)%R + \tr (A *m var chol p)%R)%Re.
Proof.
  move=> H; rewrite m2E // varE // sum_mulDr sum_mul_outer sum_mulE addrC; congr (_ + _).
  by rewrite -mxtrace_tr trmx_mul trmxK (symm_inv (proj1 H)) mxtrace_mulC.
Qed.

Lemma integral_quad n (p : natnormal n) (F : 'cV[R]_n -> R) c a A : spd (nn_prec p) ->
  (forall x, F x = (c + dot a x + dot x (A *m x)%R)%Re) ->
  integral (fun x => (exp (logpdf chol p x) * F x)%Re) (c + dot a (mean chol p) + sum_mul A (m2 chol p))%Re.
Proof.
  move=> H HF; rewrite quad_mean // -Rplus_assoc varE //.
  apply: integral_ext (integral_gauss (mean chol p) c a A (spd_inv H)) => x.
  by rewrite HF logpdfE // meanE.
Qed.

Lemma integral_const n (p : natnormal n) (c : R) : spd (nn_prec p) ->
  integral (fun x => (exp (logpdf chol p x) * c)%Re) c.
Proof.
  move=> H; have := integral_quad (p := p) (F := fun _ => c) (c := c) (a := 0) (A := 0) H.
  rewrite dot0l sum_mul0l; rnorm; rewrite !Rplus_0_r; apply=> x.
  by rewrite mul0mx dot0l dot0r; rnorm; rewrite !Rplus_0_r.
Qed.

Lemma integral_dens n (p : natnormal n) : spd (nn_prec p) -> integral (fun x => exp (logpdf chol p x)) 1%Re.
Proof.
  by move=> H; apply: integral_ext (integral_const 1%Re H) => x; rewrite Rmult_1_r.
Qed.

Lemma kl_integral n (p q : natnormal n) : spd (nn_prec p) -> spd (nn_prec q) ->
  integral (fun x => (exp (logpdf chol p x) * (logpdf chol p x - logpdf chol q x))%Re) (kl chol p q).
Proof.
  move=> Hp Hq.
  pose c := (1 / 2 * (ln (\det (nn_prec p)) - dot (nn_lam p) (invmx (nn_prec p) *m nn_lam p)%R
    - ln (\det (nn_prec q)) + dot (nn_lam q) (invmx (nn_prec q) *m nn_lam q)%R))%Re.
  have E x : (logpdf chol p x - logpdf chol q x)%Re =
     (c + dot (nn_lam p - nn_lam q)%R x + dot x ((1 / 2)%Re *: (nn_prec q - nn_prec p) *m x)%R)%Re.
    rewrite !logpdf_nat // /c dotDl dotNl -scalemxAl dotZr mulmxBl dotDr dotNr (dotC x (nn_lam p)) (dotC x (nn_lam q)).
    rfield.
  have := integral_quad Hp E.
  set v := (c + _ + _)%Re; have -> // : v = kl chol p q.
  rewrite /v kl_nat // /c sum_mulZl sum_mulDl sum_mulNl dotDl dotNl.
  have -> : sum_mul (nn_prec p) (m2 chol p) = (dot (nn_lam p) (mean chol p) + INR n)%Re.
    rewrite quad_mean // varE // mulmxV ?spd_unit // mxtrace1 -INRE meanE // mulKVmx ?spd_unit //.
    by rewrite (dotC (invmx _ *m _)).
  have -> : dot (nn_lam p) (invmx (nn_prec p) *m nn_lam p) = dot (nn_lam p) (mean chol p) by rewrite meanE.
  rfield.
Qed.

(** * The ELBO as an integral *)

Section Model.
Variables (n nu nz : nat) (m : gp nu nz) (ig : integrals n nu nz) (y : 'I_n -> R).
Hypothesis WP : well_posed m ig.
Let ts := construct_terms chol m ig y.

Lemma HKu : spd (K_u m). Proof. by case: WP. Qed.
Lemma HKz : spd (K_z m). Proof. by case: WP => _ []. Qed.
Lemma Hnoise : Rlt 0 (noise m). Proof. by case: WP => _ [_ []]. Qed.
Lemma noise0 : noise m <> R0. Proof. by have := Hnoise => H E; rewrite E in H; exact: Rlt_irrefl H. Qed.

Definition sq_y : R := \sum_i (y i * y i).

(** The expected log-likelihood is a quadratic polynomial in z. *)
Lemma ell_z u z : expected_log_lik m ig y u z =
  ((- (1 / 2) * INR n * ln (2 * PI * noise m) - 1 / (2 * noise m) * (sq_y + dot u (ts_A_sum ts *m u) + ts_c_sum ts))
   + dot ((/ noise m)%Re *: ((ts_I_uz_sum ts)^T *m u))%R z
   + dot z (((- (1 / (2 * noise m)))%Re *: (ts_B_sum ts + \sum_i (((ig_uz ig i)^T *m u) *m ((ig_uz ig i)^T *m u)^T))) *m z)%R)%Re.
Proof.
  have SO : dot z ((\sum_i (((ig_uz ig i)^T *m u) *m ((ig_uz ig i)^T *m u)^T)) *m z) =
     \sum_i dot z ((ig_uz ig i)^T *m u) * dot z ((ig_uz ig i)^T *m u) := sum_mul_outer_sum (fun i => (ig_uz ig i)^T) u z.
  rewrite (expected_log_lik_quad Hc ig y HKu HKz) -/ts -/sq_y dotZl -scalemxAl dotZr (mulmxDl (ts_B_sum ts)) (dotDr z) SO.
  have -> : \sum_i dot z ((ig_uz ig i)^T *m u) * dot z ((ig_uz ig i)^T *m u) =
     \sum_i (dot u (ig_uz ig i *m z) * dot u (ig_uz ig i *m z))%Re.
    by apply: eq_bigr => i _; rewrite dot_mx trmxK dotC.
  have -> : dot ((ts_I_uz_sum ts)^T *m u) z = dot u (ts_I_uz_sum ts *m z) by rewrite dot_mx.
  move: noise0 => N0; rfield; exact: N0.
Qed.

Definition ell_u (qz : natnormal nz) (u : 'cV[R]_nu) : R :=
  ((- (1 / 2) * INR n * ln (2 * PI * noise m) - 1 / (2 * noise m) * (sq_y + dot u (ts_A_sum ts *m u) + ts_c_sum ts))
   + dot ((/ noise m)%Re *: ((ts_I_uz_sum ts)^T *m u))%R (mean chol qz)
   + sum_mul ((- (1 / (2 * noise m)))%Re *: (ts_B_sum ts + \sum_i (((ig_uz ig i)^T *m u) *m ((ig_uz ig i)^T *m u)^T)))%R (m2 chol qz))%Re.

Lemma ell_u_integral qz u : spd (nn_prec qz) ->
  integral (fun z => (exp (logpdf chol qz z) * expected_log_lik m ig y u z)%Re) (ell_u qz u).
Proof. by move=> H; exact: integral_quad (ell_z u). Qed.

Lemma ell_uE qz u : spd (nn_prec qz) -> ell_u qz u =
  ((- (1 / 2) * INR n * ln (2 * PI * noise m) - 1 / (2 * noise m) * (sq_y + ts_c_sum ts + sum_mul (ts_B_sum ts) (m2 chol qz)))
   + dot ((/ noise m)%Re *: (ts_I_uz_sum ts *m mean chol qz))%R u
   + dot u (((- (1 / (2 * noise m)))%Re *: (ts_A_sum ts + \sum_i (ig_uz ig i *m m2 chol qz *m (ig_uz ig i)^T))) *m u)%R)%Re.
Proof.
  move=> H; rewrite /ell_u !dotZl sum_mulZl (sum_mulDl (ts_B_sum ts)) -scalemxAl dotZr (mulmxDl (ts_A_sum ts)) (dotDr u).
  have -> : dot ((ts_I_uz_sum ts)^T *m u) (mean chol qz) = dot (ts_I_uz_sum ts *m mean chol qz) u.
    by rewrite -dot_mx dotC.
  have -> : sum_mul (\sum_i ((ig_uz ig i)^T *m u *m ((ig_uz ig i)^T *m u)^T)) (m2 chol qz) =
     dot u ((\sum_i (ig_uz ig i *m m2 chol qz *m (ig_uz ig i)^T)) *m u).
    rewrite -sum_mul_outer sum_mul_suml sum_mul_suml; apply: eq_bigr => i _.
    by rewrite sum_mulC !sum_mul_outer -!mulmxA (dot_mx (ig_uz ig i)).
  move: noise0 => N0; rfield; exact: N0.
Qed.

Definition ell_qq (qu : natnormal nu) (qz : natnormal nz) : R :=
  ((- (1 / 2) * INR n * ln (2 * PI * noise m) - 1 / (2 * noise m) * (sq_y + ts_c_sum ts + sum_mul (ts_B_sum ts) (m2 chol qz)))
   + dot ((/ noise m)%Re *: (ts_I_uz_sum ts *m mean chol qz))%R (mean chol qu)
   + sum_mul ((- (1 / (2 * noise m)))%Re *: (ts_A_sum ts + \sum_i (ig_uz ig i *m m2 chol qz *m (ig_uz ig i)^T)))%R (m2 chol qu))%Re.

Lemma ell_qq_integral qu qz : spd (nn_prec qu) -> spd (nn_prec qz) ->
  integral (fun u => (exp (logpdf chol qu u) * ell_u qz u)%Re) (ell_qq qu qz).
Proof. by move=> Hu Hz; apply: integral_quad => // u; exact: ell_uE. Qed.

Lemma elbo_ell pu pz qu qz : elbo_at chol m ts pu pz qu qz = (ell_qq qu qz - kl chol qu pu - kl chol qz pz)%Re.
Proof.
  rewrite /elbo_at /ell_qq; congr (_ - _ - _)%Re.
  rewrite -[ts_y ts]/y -/sq_y -[ts_I_uz ts]/(ig_uz ig) sum_mul_col dotZl sum_mulZl (sum_mulDl (ts_A_sum ts)) sum_mul_suml (dotC (mean chol qu)).
  move: noise0 => N0; rfield; exact: N0.
Qed.

(** * Existence of the evidence *)

Lemma HA : psd (ts_A_sum ts). Proof. exact: A_sum_psd. Qed.
Lemma HB : psd (ts_B_sum ts). Proof. exact: B_sum_psd. Qed.

Definition ell_max : R := (- (1 / 2) * INR n * ln (2 * PI * noise m) - 1 / (2 * noise m) * ts_c_sum ts)%Re.

Lemma ell_le u z : Rle (expected_log_lik m ig y u z) ell_max.
Proof.
  rewrite (expected_log_lik_quad Hc ig y HKu HKz) -/ts /ell_max.
  have -> : dot u (ts_I_uz_sum ts *m z) = \sum_i y i * dot u (ig_uz ig i *m z).
    rewrite /= mulmx_suml; elim: (index_enum _) => [|i s IH]; first by rewrite !big_nil dot0r.
    by rewrite !big_cons dotDr IH -scalemxAl dotZr.
  have a0 := proj2 HA u; have b0 := proj2 HB z.
  have S : Rle 0 (\sum_i (y i - dot u (ig_uz ig i *m z))%Re * (y i - dot u (ig_uz ig i *m z))%Re).
    by apply: sumR_ge0 => i _; exact: Rle_0_sqr.
  have E : \sum_i (y i - dot u (ig_uz ig i *m z))%Re * (y i - dot u (ig_uz ig i *m z))%Re =
     ((\sum_i (y i * y i))%R + (\sum_i (dot u (ig_uz ig i *m z)%R * dot u (ig_uz ig i *m z)%R)%Re)%R
      - 2 * (\sum_i y i * dot u (ig_uz ig i *m z))%R)%Re.
    transitivity (\sum_i (y i * y i + (dot u (ig_uz ig i *m z)%R * dot u (ig_uz ig i *m z)%R)%Re - 2%Re * (y i * dot u (ig_uz ig i *m z)))).
      by apply: eq_bigr => i _ /=; rring.
    by rewrite sumrB big_split -mulr_sumr.
  rewrite E in S.
  have i0 : Rlt 0 (1 / (2 * noise m))%Re.
    by have := Hnoise => N; apply: Rdiv_lt_0_compat; lra.
  move: a0 b0 S i0; rewrite -[@dot nu u _]/(dot u (ts_A_sum ts *m u)).
  move: (dot u _) (dot z _) (\sum_i _) (\sum_i _) (\sum_i _) (ts_c_sum ts) (1 / _)%Re => a b c d e f g ha hb hs hg.
  nra.
Qed.

Lemma logpdf_below k (p : natnormal k) : spd (nn_prec p) ->
  exists c a, Rlt 0 a /\ forall x, Rle (logpdf chol p x) (c - a * dot x x)%Re.
Proof.
  move=> H; have [b [Hb B]] := spd_below H.
  exists (1 / 2 * (ln (\det (nn_prec p)) - INR k * ln (2 * PI) - dot (nn_lam p) (invmx (nn_prec p) *m nn_lam p)%R)
    + dot (nn_lam p) (nn_lam p) / b)%Re, (b / 4)%Re.
  split; first lra.
  move=> x; rewrite logpdf_nat //.
  have b2 : Rlt 0 (b / 2) by lra.
  have Y := dot_young x (nn_lam p) b2.
  have Q := B x; move: Y Q.
  have -> : (dot (nn_lam p) (nn_lam p) / (2 * (b / 2)) = dot (nn_lam p) (nn_lam p) / b)%Re by field; lra.
  lra.
Qed.

Lemma tame_logpdf k j (p : natnormal k) (f : 'cV[R]_j -> 'cV[R]_k) : spd (nn_prec p) -> (forall i, tame (fun x => f x i 0)) ->
  tame (fun x => logpdf chol p (f x)).
Proof.
  move=> H T; apply: tame_ext (fun x => esym (logpdf_nat Hc (f x) H)) _.
  apply: tame_scal; apply: tame_sub; last exact: tame_const.
  apply: tame_add; last by apply: tame_scal; apply: tame_dot => // i; exact: tame_const.
  apply: tame_sub; first by apply: tame_sub; exact: tame_const.
  apply: tame_dot => // i; apply: (tame_mulmx (f := fun _ => nn_prec p)) => i' j'; first exact: tame_const.
  by rewrite ord1.
Qed.

Lemma tame_mulc k l j (A : 'M[R]_(k, l)) (f : 'cV[R]_j -> 'cV[R]_l) : (forall i, tame (fun x => f x i 0)) ->
  forall i, tame (fun x => (A *m f x) i 0).
Proof. by move=> T i; apply: (tame_mulmx (f := fun _ => A)) => i' j'; [exact: tame_const|rewrite ord1]. Qed.

Lemma tame_ell j (f : 'cV[R]_j -> 'cV[R]_nu) (g : 'cV[R]_j -> 'cV[R]_nz) : (forall i, tame (fun x => f x i 0)) -> (forall i, tame (fun x => g x i 0)) ->
  tame (fun x => expected_log_lik m ig y (f x) (g x)).
Proof.
  move=> Tf Tg; apply: tame_ext (fun x => esym (expected_log_lik_quad Hc ig y HKu HKz (f x) (g x))) _.
  apply: tame_sub; first exact: tame_const.
  apply: tame_scal; apply: tame_sub; last first.
    by apply: tame_scal; apply: tame_dot => // i; exact: tame_mulc.
  apply: tame_add; last exact: tame_const.
  apply: tame_add; last first.
    apply: (tame_sum (P := fun i x => (dot (f x) (ig_uz ig i *m g x) * dot (f x) (ig_uz ig i *m g x))%Re)) => i.
    by apply: tame_mul; apply: tame_dot => // k; exact: tame_mulc.
  apply: tame_add; first apply: tame_add; first exact: tame_const.
    by apply: tame_dot => // i; exact: tame_mulc.
  by apply: tame_dot => // i; exact: tame_mulc.
Qed.

Section Priors.
Variables (pu : natnormal nu) (pz : natnormal nz).
Hypotheses (Hpu : spd (nn_prec pu)) (Hpz : spd (nn_prec pz)).

Definition log_joint u z : R := (expected_log_lik m ig y u z + logpdf chol pu u + logpdf chol pz z)%Re.

Lemma nice_joint : nice (fun p : 'cV[R]_(nu + nz) => exp (log_joint (usubmx p) (dsubmx p))).
Proof.
  have [c1 [a1 [Ha1 B1]]] := logpdf_below Hpu; have [c2 [a2 [Ha2 B2]]] := logpdf_below Hpz.
  have Tu (i : 'I_nu) : tame (fun p : 'cV[R]_(nu + nz) => usubmx p i 0).
    by apply: tame_ext (tame_coord (lshift nz i)) => x; rewrite mxE.
  have Tz (i : 'I_nz) : tame (fun p : 'cV[R]_(nu + nz) => dsubmx p i 0).
    by apply: tame_ext (tame_coord (rshift nu i)) => x; rewrite mxE.
  apply: (nice_exp (c := (ell_max + c1 + c2)%Re) (a := Rmin a1 a2)).
  - by apply: tame_add; [apply: tame_add; [exact: tame_ell|exact: tame_logpdf]|exact: tame_logpdf].
  - exact: Rmin_pos.
  move=> p; rewrite /log_joint.
  have := ell_le (usubmx p) (dsubmx p); have := B1 (usubmx p); have := B2 (dsubmx p).
  have -> : dot p p = (dot (usubmx p) (usubmx p) + dot (dsubmx p) (dsubmx p))%Re by rewrite -{1 2}(vsubmxK p) dot_col_mx.
  have := dot_ge0 (usubmx p); have := dot_ge0 (dsubmx p); have := Rmin_l a1 a2; have := Rmin_r a1 a2.
  move: (Rmin a1 a2) (dot _ _) (dot _ _) => r d e h1 h2 h3 h4 h5 h6 h7; nra.
Qed.

(** The marginal of u. *)
Lemma evidence_exists : exists h Z, (forall u, integral (fun z => exp (log_joint u z)) (h u)) /\ nice h /\ integral h Z.
Proof.
  have [h [H N]] := nice_integral_par nice_joint; have [Z HZ] := nice_integral N.
  exists h, Z; split=> // u; apply: integral_ext (H u) => z; by rewrite col_mxKu col_mxKd.
Qed.

End Priors.

(** * Lower bounds *)

(** Jensen's inequality: the average of [F] under [q] is at most the logarithm of the average of
    its exponential. *)
Lemma jensen k (q : natnormal k) (F G : 'cV[R]_k -> R) (e V : R) : spd (nn_prec q) ->
  (forall x, Rle (exp (logpdf chol q x) * exp (F x))%Re (G x)) ->
  integral (fun x => (exp (logpdf chol q x) * F x)%Re) e -> integral G V -> Rle (exp e) V.
Proof.
  move=> Hq EG I J.
  have I2 := integral_scal (exp e) (integral_plus I (integral_const (1 - e)%Re Hq)).
  have := integral_le _ I2 J.
  have -> : (exp e * (e + (1 - e)) = exp e)%Re by ring.
  apply=> x; apply: Rle_trans (EG x).
  have -> : exp (F x) = (exp e * exp (F x - e))%Re by rewrite -exp_plus; congr exp; ring.
  have T := exp_ineq1_le (F x - e)%Re; have := exp_pos (logpdf chol q x); have := exp_pos e.
  move: (exp (logpdf _ _ _)) T => a; move: (exp (F x - e)) (exp e) => b c T Hcc Ha.
  have : Rle 0 (a * c * (b - (1 + (F x - e))))%Re.
    by apply: Rmult_le_pos; [apply: Rmult_le_pos; lra|lra].
  lra.
Qed.

(** The mean-field bound for arbitrary priors. *)
Lemma mean_field_bound pu pz qu qz h Z : spd (nn_prec pu) -> spd (nn_prec pz) -> spd (nn_prec qu) -> spd (nn_prec qz) ->
  (forall u, integral (fun z => exp (log_joint pu pz u z)) (h u)) -> integral h Z ->
  Rle (exp (elbo_at chol m ts pu pz qu qz)) Z.
Proof.
  move=> Hpu Hpz Hqu Hqz Hh HZ.
  pose g u := (ell_u qz u + (logpdf chol pu u + -1 * kl chol qz pz))%Re.
  have low u : Rle (exp (g u)) (h u).
    have I := integral_plus (ell_u_integral u Hqz) (integral_plus (integral_const (logpdf chol pu u) Hqz) (integral_scal (-1)%Re (kl_integral Hqz Hpz))).
    apply: (@jensen _ qz (fun z => (expected_log_lik m ig y u z + (logpdf chol pu u + -1 * (logpdf chol qz z - logpdf chol pz z)))%Re) _ _ _ Hqz _ _ (Hh u)).
      move=> z; rewrite -exp_plus /log_joint; right; congr exp; ring.
    apply: integral_ext I => z; ring.
  rewrite elbo_ell //.
  have I := integral_plus (ell_qq_integral Hqu Hqz) (integral_plus (integral_scal (-1)%Re (kl_integral Hqu Hpu)) (integral_const (- kl chol qz pz)%Re Hqu)).
  have E : (ell_qq qu qz - kl chol qu pu - kl chol qz pz = ell_qq qu qz + (-1 * kl chol qu pu + - kl chol qz pz))%Re by ring.
  rewrite E.
  apply: (@jensen _ qu (fun u => (g u - logpdf chol qu u)%Re) h _ _ Hqu _ _ HZ).
    move=> u; apply: Rle_trans (low u); rewrite -exp_plus; right; congr exp; ring.
  apply: integral_ext I => u; rewrite /g; ring.
Qed.

(** * The structured bound *)

Let K0u : natnormal nu := NatNormal 0 (K_u m).
Let K0z : natnormal nz := NatNormal 0 (K_z m).

Lemma q_z_spd u : spd (nn_prec (q_z_optimal m ts u)).
Proof. apply: q_optimal_spd; [exact: Hnoise|exact: HKz|exact: HB]. Qed.

Lemma joint_split pu u z : log_joint pu K0z u z = ((log_Z_u chol m ts u + logpdf chol pu u) + logpdf chol (q_z_optimal m ts u) z)%Re.
Proof.
  rewrite /log_joint; have := log_Z_u_exact Hc HKu HKz z noise0 (q_z_spd u); rewrite -/ts -/K0z => H; lra.
Qed.

Lemma integral_Z pu u : integral (fun z => exp (log_joint pu K0z u z)) (exp (log_Z_u chol m ts u + logpdf chol pu u)).
Proof.
  have I := integral_scal (exp (log_Z_u chol m ts u + logpdf chol pu u)) (integral_dens (q_z_spd u)).
  by rewrite Rmult_1_r in I; apply: integral_ext I => z; rewrite joint_split !exp_plus.
Qed.

Lemma integral_Z0 u : integral (fun z => exp (expected_log_lik m ig y u z + logpdf chol K0z z)) (exp (log_Z_u chol m ts u)).
Proof.
  have I := integral_scal (exp (log_Z_u chol m ts u)) (integral_dens (q_z_spd u)).
  rewrite Rmult_1_r in I; apply: integral_ext I => z; rewrite -exp_plus.
  by rewrite (log_Z_u_exact Hc HKu HKz z noise0 (q_z_spd u)).
Qed.

(** Given u, no posterior of z beats the optimal one. *)
Lemma ell_u_le qz u : spd (nn_prec qz) -> Rle (ell_u qz u - kl chol qz K0z)%Re (log_Z_u chol m ts u).
Proof.
  move=> Hqz.
  have K := kl_integral Hqz (HKz : spd (nn_prec K0z)).
  have I := integral_plus (ell_u_integral u Hqz) (integral_scal (-1)%Re K).
  have H : Rle (exp (ell_u qz u + -1 * kl chol qz K0z)) (exp (log_Z_u chol m ts u)).
    apply: (@jensen _ qz (fun z => (expected_log_lik m ig y u z + -1 * (logpdf chol qz z - logpdf chol K0z z))%Re) _ _ _ Hqz _ _ (integral_Z0 u)).
      move=> z; rewrite -exp_plus; right; congr exp; ring.
    apply: integral_ext I => z; ring.
  case: (Rle_lt_dec (ell_u qz u - kl chol qz K0z)%Re (log_Z_u chol m ts u)) => // L.
  have : Rlt (exp (log_Z_u chol m ts u)) (exp (ell_u qz u + -1 * kl chol qz K0z)) by apply: exp_increasing; lra.
  lra.
Qed.

Lemma tame_log_Z : tame (fun u => log_Z_u chol m ts u).
Proof.
  pose P u := nn_prec (q_z_optimal m ts u).
  have [b [Hb B]] := spd_below HKz.
  have co (i : 'I_nu) : tame (fun u : 'cV[R]_nu => u i 0) by exact: tame_coord.
  have Tl i : tame (fun u => nn_lam (q_z_optimal m ts u) i 0).
    apply: (tame_ext (P := fun u => ((/ noise m) * ((ts_I_uz_sum ts)^T *m u)%R i ord0)%Re)); first by move=> u; rewrite /= [in RHS]mxE.
    by apply: tame_scal; exact: tame_mulc.
  have TP i j : tame (fun u => P u i j).
    apply: (tame_ext (P := fun u => (K_z m i j + / noise m * (ts_B_sum ts i j + \sum_k (((ig_uz ig k)^T *m u)%R i ord0 * ((ig_uz ig k)^T *m u)%R j ord0)%Re))%Re)).
      move=> u; rewrite /P /= !mxE; congr (_ + _ * (_ + _))%Re.
      rewrite summxE; apply: eq_bigr => k _; rewrite !mxE big_ord1; congr (_ * _); by rewrite !mxE.
    apply: tame_add; first exact: tame_const.
    apply: tame_scal; apply: tame_add; first exact: tame_const.
    apply: (tame_sum (P := fun k u => (((ig_uz ig k)^T *m u)%R i ord0 * ((ig_uz ig k)^T *m u)%R j ord0)%Re)) => k.
    by apply: tame_mul; exact: tame_mulc.
  have PB u x : Rle (b * dot x x)%Re (dot x (P u *m x)).
    apply: Rle_trans (B x) _; rewrite /P /= mulmxDl dotDr.
    have : Rle 0 (dot x (((/ noise m)%Re *: (ts_B_sum ts + \sum_i (((ig_uz ig i)^T *m u) *m ((ig_uz ig i)^T *m u)^T))) *m x)).
      apply: (proj2 (psd_scale _ (psd_add HB (psd_sum (fun i => psd_outer _))))).
      by left; apply: Rinv_0_lt_compat; exact: Hnoise.
    move=> H; rewrite -[X in Rle X _]Rplus_0_r; exact: Rplus_le_compat_l.
  have E u : log_Z_u chol m ts u = (1 / 2 * (- INR n * ln (2 * PI * noise m)
     - (sq_y + dot u (ts_A_sum ts *m u) + ts_c_sum ts) * / noise m
     + ln (\det (K_z m)) - ln (\det (P u)) + dot (nn_lam (q_z_optimal m ts u)) (invmx (P u) *m nn_lam (q_z_optimal m ts u))%R))%Re.
    by rewrite /log_Z_u (logdetE Hc HKz) (logdetE Hc (q_z_spd u)) (iqfE Hc _ (q_z_spd u)) sum_mul_col.
  apply: tame_ext (fun u => esym (E u)) _.
  apply: tame_scal; apply: tame_add; last first.
    apply: tame_dot => // i; apply: tame_mulmx => i' j'; last by rewrite ord1.
    exact: (tame_inv q_z_spd Hb PB TP).
  apply: tame_sub; last exact: (tame_logdet q_z_spd Hb PB TP).
  apply: tame_add; last exact: tame_const.
  apply: tame_sub; first exact: tame_const.
  apply: tame_mul; last exact: tame_const.
  apply: tame_add; last exact: tame_const.
  apply: tame_add; first exact: tame_const.
  by apply: tame_dot => // i; exact: tame_mulc.
Qed.

Lemma structured_exists qu : spd (nn_prec qu) -> exists e, integral (fun u => (exp (logpdf chol qu u) * log_Z_u chol m ts u)%Re) e.
Proof.
  move=> Hq; apply: nice_integral; apply: nice_tame tame_log_Z.
  have [c [a [Ha B]]] := logpdf_below Hq.
  apply: (nice_exp (c := c) (a := a)) => //.
  by apply: (tame_logpdf (f := id)) => // i; exact: tame_coord.
Qed.

Lemma structured_bounds qu qz e pu Z : spd (nn_prec pu) -> spd (nn_prec qu) -> spd (nn_prec qz) ->
  integral (fun u => (exp (logpdf chol qu u) * log_Z_u chol m ts u)%Re) e ->
  integral (fun u => exp (log_Z_u chol m ts u + logpdf chol pu u)) Z ->
  Rle (elbo_at chol m ts pu K0z qu qz) (e - kl chol qu pu)%Re /\ Rle (exp (e - kl chol qu pu)) Z.
Proof.
  move=> Hpu Hqu Hqz I J; split.
    rewrite elbo_ell //.
    have I1 := integral_plus (ell_qq_integral Hqu Hqz) (integral_const (- kl chol qz K0z)%Re Hqu).
    have H := integral_le _ I1 I.
    have : Rle (ell_qq qu qz + - kl chol qz K0z)%Re e; last lra.
    apply: H => u.
    have T := ell_u_le u Hqz; have := exp_pos (logpdf chol qu u).
    move: (exp _) T => a T Ha; rewrite -Rmult_plus_distr_l; apply: Rmult_le_compat_l; lra.
  have I1 := integral_plus I (integral_scal (-1)%Re (kl_integral Hqu Hpu)).
  have E : (e - kl chol qu pu = e + -1 * kl chol qu pu)%Re by ring.
  rewrite E.
  apply: (@jensen _ qu (fun u => (log_Z_u chol m ts u + -1 * (logpdf chol qu u - logpdf chol pu u))%Re) _ _ _ Hqu _ _ J).
    move=> u; rewrite -exp_plus; right; congr exp; ring.
  apply: integral_ext I1 => u; ring.
Qed.
End Model.
End Chol.
