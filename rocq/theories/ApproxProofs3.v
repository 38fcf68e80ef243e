(** Further proofs about the model of approx.py: averages of the kernel approximation, the
    mirrored conditional, predictive variances and the conditional moments. *)
From Coq Require Import Reals Lra Psatz String.
From mathcomp Require Import all_ssreflect all_algebra.
From Verif Require Import Py RMat RChol RTac NormalModel NormalSpec NormalProofs ApproxModel ApproxSpec ApproxProofs ApproxProofs2.
Set Implicit Arguments.
Unset Strict Implicit.
Unset Printing Implicit Defensive.
Import GRing.Theory.
Local Open Scope ring_scope.
Delimit Scope R_scope with Re.

(** * Averages of quadratic forms *)

Lemma E_quad Omega (E : expectation Omega) n (u : Omega -> 'cV[R]_n) (M S : 'M[R]_n) :
  (forall i j, E (fun w => (u w i ord0 * u w j ord0)%Re) = S i j) -> symm S ->
  E (fun w => dot (u w) (M *m u w)) = \tr (M *m S).
Proof.
  move=> H HS.
  rewrite (_ : E _ = E (fun w => \sum_(ij : 'I_n * 'I_n) Rmult (M ij.1 ij.2) (Rmult (u w ij.1 ord0) (u w ij.2 ord0)))).
    rewrite E_sum -(pair_bigA _ (fun i j => E (fun w => Rmult (M i j) (Rmult (u w i ord0) (u w j ord0))))) /=.
    rewrite /mxtrace; apply: eq_bigr => i _; rewrite mxE; apply: eq_bigr => j _.
    by rewrite E_scale H -[in LHS]HS mxE.
  apply: E_ext => w; rewrite /dot -(pair_bigA _ (fun i j => Rmult (M i j) (Rmult (u w i ord0) (u w j ord0)))) /=.
  apply: eq_bigr => i _; rewrite mxE mulr_sumr; apply: eq_bigr => j _.
  by rewrite mulrCA.
Qed.

Lemma moments_second Omega (E : expectation Omega) n (u : Omega -> 'cV[R]_n) S :
  has_moments E u 0 S -> forall i j, E (fun w => (u w i ord0 * u w j ord0)%Re) = S i j.
Proof.
  move=> [_ H] i j; have := H i j ord0 ord0; rewrite eqxx => <-.
  by apply: E_ext => w; rewrite !mxE !Rminus_0_r.
Qed.

Section Approx3.
Variable chol : forall n, 'M[R]_n -> 'M[R]_n.
Hypothesis Hc : chol_ok chol.

Section Kernel.
Variables (nu a b : nat) (Ku : 'M[R]_nu) (i_hx : R -> R -> R) (I_ux : R -> R -> 'M[R]_nu).
Hypothesis HK : spd Ku.

Lemma avg_aux (x y : R) : (x - y + y = x)%Re.
Proof. ring. Qed.

Lemma kernel_approx_avg Omega (E : expectation Omega) (u : Omega -> 'cV[R]_nu)
    (t1 : 'I_a -> R) (t2 : 'I_b -> R) p q :
  (forall i j, E (fun w => (u w i ord0 * u w j ord0)%Re) = Ku i j) ->
  E (fun w => kernel_approx chol Ku i_hx I_ux t1 t2 (u w) p q) = i_hx (t1 p) (t2 q).
Proof.
  move=> H; rewrite (E_ext E (fun w => kernel_approxE Hc i_hx I_ux HK t1 t2 (u w) p q)) E_add E_const.
  rewrite (_ : E _ = \tr (invmx Ku *m I_ux (t1 p) (t2 q))); first exact: avg_aux.
  set I := I_ux _ _; have SK := symm_inv (proj1 HK); have U := spd_unit HK.
  rewrite (_ : E _ = E (fun w => dot (u w) ((invmx Ku *m I *m invmx Ku) *m u w))); last first.
    by apply: E_ext => w; rewrite dot_mxl SK !mulmxA.
  rewrite (E_quad _ H); last by case: HK.
  by rewrite mulmxKV.
Qed.

Lemma sample_kernelE (t_k : 'I_a -> R) (u : 'cV[R]_nu) p :
  sample_kernel chol Ku i_hx I_ux t_k u p ord0 =
  (i_hx (t_k p) 0 - \tr (invmx Ku *m I_ux (t_k p) 0)%R + dot u (I_ux (t_k p) 0%Re *m u))%Re.
Proof. by rewrite /sample_kernel kernel_approxE // mulKmx // spd_unit. Qed.

Lemma sample_kernel_avg Omega (E : expectation Omega) (u : Omega -> 'cV[R]_nu) (t_k : 'I_a -> R) p :
  (forall i j, E (fun w => (u w i ord0 * u w j ord0)%Re) = invmx Ku i j) ->
  E (fun w => sample_kernel chol Ku i_hx I_ux t_k (u w) p ord0) = i_hx (t_k p) 0.
Proof.
  move=> H; rewrite (E_ext E (fun w => sample_kernelE t_k (u w) p)) E_add E_const.
  rewrite (E_quad _ H); last by apply: symm_inv; case: HK.
  rewrite [\tr (I_ux _ _ *m _)]mxtrace_mulC; exact: avg_aux.
Qed.

Lemma kernel_approx_sym (t1 : 'I_a -> R) (t2 : 'I_b -> R) u :
  (forall s t, i_hx s t = i_hx t s) -> (forall s t, I_ux t s = (I_ux s t)^T) ->
  kernel_approx chol Ku i_hx I_ux t2 t1 u = (kernel_approx chol Ku i_hx I_ux t1 t2 u)^T.
Proof.
  move=> H1 H2; apply/matrixP => q p; rewrite [RHS]mxE !(kernel_approxE Hc _ _ HK).
  rewrite (H1 (t2 q)) (H2 (t1 p) (t2 q)); set I := I_ux _ _; set v := _ *m u.
  have -> : dot v (I^T *m v) = dot v (I *m v) by rewrite dot_mx trmxK dotC.
  congr (_ - _ + _)%Re.
  by rewrite -mxtrace_tr trmx_mul trmxK mxtrace_mulC (symm_inv (proj1 HK)).
Qed.
End Kernel.

(** * The mirrored conditional *)

Section Mirror.
Variables (n nu nz : nat) (m : gp nu nz) (ig : integrals n nu nz) (y : 'I_n -> R).
Hypotheses (HKu : spd (K_u m)) (HKz : spd (K_z m)).
Let ts := construct_terms chol m ig y.

Definition log_Z_z (z : 'cV[R]_nz) : R :=
  let q := q_u_optimal m ts z in
  (1 / 2 * (- INR n * ln (2 * PI * noise m)
            - (\sum_i (y i * y i) + dot z (ts_B_sum ts *m z) + ts_c_sum ts) / noise m
            + ln (\det (K_u m)) - ln (\det (nn_prec q))
            + dot (nn_lam q) (invmx (nn_prec q) *m nn_lam q)))%Re.

Lemma log_Z_z_exact u z : noise m <> R0 -> spd (nn_prec (q_u_optimal m ts z)) ->
  (expected_log_lik m ig y u z + logpdf chol (NatNormal 0 (K_u m)) u)%Re =
  (log_Z_z z + logpdf chol (q_u_optimal m ts z) u)%Re.
Proof.
  move=> Hn HP; rewrite !logpdf_nat // (expected_log_lik_quad Hc) // /log_Z_z.
  rewrite dot0l dot0r -[nn_prec (NatNormal 0 (K_u m))]/(K_u m) -/ts.
  set D := dot (nn_lam _) _; set LP := ln (\det (nn_prec (q_u_optimal m ts z))).
  have -> : dot u (nn_prec (q_u_optimal m ts z) *m u) =
     (dot u (K_u m *m u) + / noise m * (dot u (ts_A_sum ts *m u)
       + \sum_i (dot u (ig_uz ig i *m z) * dot u (ig_uz ig i *m z))%Re))%Re.
    by rewrite /= mulmxDl dotDr -scalemxAl dotZr mulmxDl dotDr sum_mul_outer_sum.
  have -> : dot u (nn_lam (q_u_optimal m ts z)) = (/ noise m * dot u (ts_I_uz_sum ts *m z))%Re.
    by rewrite /= dotZr.
  move: D LP => D LP; rfield; exact: Hn.
Qed.
End Mirror.

(** * Predictive variances *)

Lemma cs_aux (p q x : R) (k : R) : (0 < k)%Re -> (p * p <= k * q)%Re ->
  ((p + x) * (p + x) <= (k + 1) * (q + x * x))%Re.
Proof.
  move=> Hk H.
  have H2 : (0 <= Rsqr (p - k * x))%Re by exact: Rle_0_sqr.
  have E : ((k + 1) * (q + x * x) - (p + x) * (p + x) = k * q - p * p + / k * Rsqr (p - k * x) + / k * (k * q - p * p))%Re.
    by rewrite /Rsqr; field; lra.
  have H3 : (0 <= / k * Rsqr (p - k * x))%Re.
    by apply: Rmult_le_pos => //; apply: Rlt_le; apply: Rinv_0_lt_compat.
  have H4 : (0 <= / k * (k * q - p * p))%Re.
    by apply: Rmult_le_pos; [apply: Rlt_le; apply: Rinv_0_lt_compat | lra].
  lra.
Qed.
Lemma cs0_aux (x : R) : ((0 + x) * (0 + x) <= 1 * (0 + x * x))%Re.
Proof. lra. Qed.

(** Cauchy-Schwarz for lists. *)
Lemma sum_sq_le (T : Type) (f : T -> R) (l : seq T) :
  ((\sum_(x <- l) f x) * (\sum_(x <- l) f x) <= INR (size l) * \sum_(x <- l) (f x * f x))%Re.
Proof.
  elim: l => [|x l IH].
    rewrite !big_nil /=; have -> : (0 : R) = 0%Re by []; lra.
  rewrite !big_cons; case: l IH => [|a l] IH.
    rewrite !big_nil [INR _]/= !addr0; exact: Req_le (esym (Rmult_1_l _)).
  rewrite [size (x :: _)]/= S_INR ![f x + _]addrC ![f x * f x + _]addrC; apply: cs_aux; last exact: IH.
  exact: (lt_0_INR _ (PeanoNat.Nat.lt_0_succ _)).
Qed.

Lemma mean_sq_aux (k a b : R) : (0 < k)%Re -> (a * a <= k * b)%Re -> (a / k * (a / k) <= b / k)%Re.
Proof.
  move=> Hk H; have -> : (a / k * (a / k) = (a * a) / k / k)%Re by field; lra.
  have -> : (b / k = (k * b) / k / k)%Re by field; lra.
  have I : (0 <= / k)%Re by apply: Rlt_le; apply: Rinv_0_lt_compat.
  by apply: Rmult_le_compat_r => //; apply: Rmult_le_compat_r.
Qed.

Lemma mean_sq_le (T : Type) (f g : T -> R) (l : seq T) : (0 < size l)%N ->
  (forall x, (f x * f x <= g x)%Re) ->
  ((\sum_(x <- l) f x) / INR (size l) * ((\sum_(x <- l) f x) / INR (size l)) <=
   (\sum_(x <- l) g x) / INR (size l))%Re.
Proof.
  move=> Hl H; apply: mean_sq_aux; first by apply: lt_0_INR; apply/ltP.
  apply: Rle_trans (sum_sq_le f l) _; apply: Rmult_le_compat_l; first exact: pos_INR.
  elim: l {Hl} => [|x l IH]; first by rewrite !big_nil; exact: Rle_refl.
  by rewrite !big_cons; apply: Rplus_le_compat.
Qed.

Lemma sum_mul_psd_spd n (P Q : 'M[R]_n) : psd P -> spd Q -> (0 <= sum_mul P Q)%Re.
Proof.
  move=> HP HQ; have [_ [_ <-]] := some_chol_ok HQ; set L := some_chol Q.
  rewrite sum_mulE mulmxA mxtrace_mulC mulmxA -[P^T]/(P^T) (proj1 HP).
  apply: sumR_ge0 => i _.
  have -> : (L^T *m P *m L) i i = dot (col i L) (P *m col i L).
    rewrite -mulmxA /dot mxE; apply: eq_bigr => k _; rewrite !mxE; congr (_ * _).
    by apply: eq_bigr => j _; rewrite !mxE.
  exact: (proj2 HP).
Qed.
Lemma sum_mul_psd_outer n (P : 'M[R]_n) (x : 'cV[R]_n) : psd P -> (0 <= sum_mul P (x *m x^T))%Re.
Proof. by move=> HP; rewrite sum_mul_outer; exact: (proj2 HP). Qed.

(** A matrix of second moments around the mean: its product sums with PSD matrices are not
    negative. *)
Definition dual_psd n (S : 'M[R]_n) : Prop := forall P, psd P -> (0 <= sum_mul P S)%Re.
Lemma dual_psd_spd n (S : 'M[R]_n) : spd S -> dual_psd S.
Proof. by move=> HS P HP; exact: sum_mul_psd_spd. Qed.
Lemma dual_psd0 n : dual_psd (0 : 'M[R]_n).
Proof. by move=> P _; rewrite sum_mul0r; exact: Rle_refl. Qed.

Lemma var_aux (au bz c a b d e m1 : R) : (0 <= au)%Re -> (0 <= bz)%Re -> (0 <= c)%Re ->
  (0 <= a)%Re -> (0 <= b)%Re -> (0 <= d)%Re -> e = (m1 * m1)%Re ->
  (m1 * m1 <= au + bz + c + (a + b + (d + e)))%Re.
Proof. move=> *; lra. Qed.

Section Var.
Variables (n nu nz : nat) (m : gp nu nz) (ig : integrals n nu nz) (y : 'I_n -> R).
Hypotheses (WP : well_posed m ig) (RN : residual_nonneg m ig).
Let ts := construct_terms chol m ig y.

Lemma c_at_ge0 i : (0 <= c_at chol m ig y i)%Re.
Proof.
  have [HKu [HKz _]] := WP; have := RN i; rewrite /c_at /= /K_u_inv /K_z_inv !pd_invE //.
  by rewrite !sum_mulE (symm_inv (proj1 HKu)) (symm_inv (proj1 HKz)).
Qed.

Lemma predict_moments_var (u : 'cV[R]_nu) Su (z : 'cV[R]_nz) Sz i :
  dual_psd Su -> psd Sz -> dual_psd Sz ->
  let mm := predict_moments chol m ts u (Su + u *m u^T) z (Sz + z *m z^T) i in
  (mm.1 * mm.1 <= mm.2)%Re.
Proof.
  move=> Hu Hz Hz'; have [HKu [HKz [Hn [S1 [S2 J]]]]] := WP.
  have PA := A_at_psd Hc y WP i; have PB := B_at_psd Hc y WP i; have Pc := c_at_ge0 i.
  set I := ig_uz ig i; set u2 := Su + _; set z2 := Sz + _.
  have -> : predict_moments chol m ts u u2 z z2 i =
     (dot u (I *m z), (sum_mul (A_at chol m ig y i) u2 + sum_mul (B_at chol m ig y i) z2
        + c_at chol m ig y i + sum_mul u2 (I *m z2 *m I^T)%R)%Re).
    by rewrite /predict_moments mx11_dot.
  cbv zeta; rewrite [fst _]/= [snd _]/= /u2 /z2 {u2 z2}.
  rewrite [X in (_ <= _ + X)%Re](_ : _ = (sum_mul Su (I *m Sz *m I^T)%R + sum_mul Su ((I *m z) *m (I *m z)^T)%R
     + (sum_mul (I *m Sz *m I^T)%R (u *m u^T)%R + sum_mul ((I *m z) *m (I *m z)^T)%R (u *m u^T)%R))%Re); last first.
    rewrite sum_mulDl mulmxDr mulmxDl !sum_mulDr.
    have -> : I *m (z *m z^T) *m I^T = I *m z *m (I *m z)^T by rewrite trmx_mul !mulmxA.
    by rewrite ![sum_mul (u *m u^T) _]sum_mulC.
  apply: var_aux.
  - rewrite sum_mulDr; apply: Rplus_le_le_0_compat; [exact: Hu | exact: sum_mul_psd_outer].
  - rewrite sum_mulDr; apply: Rplus_le_le_0_compat; [exact: Hz' | exact: sum_mul_psd_outer].
  - exact: Pc.
  - by rewrite sum_mulC; apply: Hu; apply: psd_conj.
  - by rewrite sum_mulC; apply: Hu; apply: psd_outer.
  - by apply: sum_mul_psd_outer; apply: psd_conj.
  - rewrite sum_mul_outer -mulmxA.
    have -> : (I *m z)^T *m u = (dot u (I *m z))%:M by rewrite dotE dotC.
    by rewrite mul_mx_scalar dotZr.
Qed.
End Var.

(** * The conditional moments *)

Section Conv.
Variables (V W : lmodType R) (cov : V -> W -> R).
Hypothesis HB : bilinear_cov cov.

Lemma cov_Dl P P' Q : cov (P + P') Q = cov P Q + cov P' Q.
Proof. by have := proj1 HB 1 P P' Q; rewrite scale1r => ->; rewrite Rmult_1_l. Qed.
Lemma cov_Dr P Q Q' : cov P (Q + Q') = cov P Q + cov P Q'.
Proof. by have := proj2 HB 1 P Q Q'; rewrite scale1r => ->; rewrite Rmult_1_l. Qed.
Lemma cov_0l Q : cov 0 Q = 0.
Proof. have := cov_Dl 0 0 Q; rewrite addr0 => H; by apply: (@addrI _ (cov 0 Q)); rewrite addr0 -H. Qed.
Lemma cov_0r P : cov P 0 = 0.
Proof. have := cov_Dr P 0 0; rewrite addr0 => H; by apply: (@addrI _ (cov P 0)); rewrite addr0 -H. Qed.
Lemma cov_Zl a P Q : cov (a *: P) Q = a * cov P Q.
Proof. by have := proj1 HB a P 0 Q; rewrite addr0 cov_0l => ->; rewrite Rplus_0_r. Qed.
Lemma cov_Zr a P Q : cov P (a *: Q) = a * cov P Q.
Proof. by have := proj2 HB a P Q 0; rewrite addr0 cov_0r => ->; rewrite Rplus_0_r. Qed.
Lemma cov_suml (T : finType) (F : T -> V) Q : cov (\sum_i F i) Q = \sum_i cov (F i) Q.
Proof. by elim/big_rec2: _ => [|i x v _ <-]; rewrite ?cov_0l ?cov_Dl. Qed.
Lemma cov_sumr (T : finType) (F : T -> W) P : cov P (\sum_i F i) = \sum_i cov P (F i).
Proof. by elim/big_rec2: _ => [|i x v _ <-]; rewrite ?cov_0r ?cov_Dr. Qed.

Lemma given_comb (E : lmodType R) p (k : E) (kk : 'I_p -> 'I_p -> E) K x :
  given k kk K x = k + \sum_a \sum_b (x *m x^T - invmx K) a b *: kk a b.
Proof.
  rewrite /given -addrA; congr (_ + _).
  rewrite addrC -sumrB; apply: eq_bigr => a _; rewrite -sumrB; apply: eq_bigr => b _.
  by rewrite -scalerBl !mxE big_ord1 !mxE.
Qed.

Section Moments.
Variables (n nu nz : nat) (m : gp nu nz) (ig : integrals n nu nz) (i : 'I_n).
Variables (k_h : V) (ku : 'I_nu -> 'I_nu -> V) (k_x : W) (kz : 'I_nz -> 'I_nz -> W).
Hypothesis Hhx : cov k_h k_x = ig_hx ig i.
Hypothesis Hux : forall a b, cov (ku a b) k_x = ig_ux ig a b.
Hypothesis Hhz : forall k l, cov k_h (kz k l) = ig_hz ig i k l.
Hypothesis Huz : forall a b k l, cov (ku a b) (kz k l) = (ig_uz ig i a k * ig_uz ig i b l)%Re.

Lemma cov_comb (C : 'M[R]_nu) (D : 'M[R]_nz) :
  cov (k_h + \sum_a \sum_b C a b *: ku a b) (k_x + \sum_k \sum_l D k l *: kz k l) =
  ig_hx ig i + sum_mul C (ig_ux ig) + sum_mul D (ig_hz ig i) + sum_mul C (ig_uz ig i *m D *m (ig_uz ig i)^T).
Proof.
  rewrite cov_Dl !cov_Dr Hhx -!addrA; congr (_ + _); rewrite addrCA; congr (_ + (_ + _)).
  - rewrite cov_suml /sum_mul; apply: eq_bigr => a _; rewrite cov_suml; apply: eq_bigr => b _.
    by rewrite cov_Zl Hux.
  - rewrite cov_sumr /sum_mul; apply: eq_bigr => a _; rewrite cov_sumr; apply: eq_bigr => b _.
    by rewrite cov_Zr Hhz.
  - rewrite cov_suml /sum_mul; apply: eq_bigr => a _; rewrite cov_suml; apply: eq_bigr => b _.
    rewrite cov_Zl cov_sumr; congr (_ * _); rewrite mxE.
    transitivity (\sum_k \sum_l D k l * (ig_uz ig i a k * ig_uz ig i b l)).
      apply: eq_bigr => k _; rewrite cov_sumr; apply: eq_bigr => l _; by rewrite cov_Zr Huz.
    rewrite exchange_big; apply: eq_bigr => l _; rewrite !mxE mulr_suml.
    by apply: eq_bigr => k _; rewrite mulrA; congr (_ * _); exact: mulrC.
Qed.

Lemma f_m2_conv u z : spd (K_u m) -> spd (K_z m) ->
  cov (given k_h ku (K_u m) u) (given k_x kz (K_z m) z) = f_m2 m ig u z i.
Proof.
  move=> HKu HKz; rewrite !given_comb cov_comb /f_m2 /f_mean.
  have SU := symm_inv (proj1 HKu); have SZ := symm_inv (proj1 HKz).
  set I := ig_uz ig i.
  have -> : I *m (z *m z^T - invmx (K_z m)) *m I^T = (I *m z) *m (I *m z)^T - I *m invmx (K_z m) *m I^T.
    by rewrite mulmxBr mulmxBl trmx_mul !mulmxA.
  rewrite !sum_mulDl !sum_mulNl !sum_mulDr !sum_mulNr.
  rewrite ![sum_mul (u *m u^T) _]sum_mulC ![sum_mul (z *m z^T) _]sum_mulC !sum_mul_outer.
  rewrite (sum_mulE (invmx (K_u m)) (ig_ux ig)) (sum_mulE (invmx (K_z m))) (sum_mulE (invmx (K_u m)) (I *m _ *m _)) SU SZ.
  have -> : dot u (I *m z *m (I *m z)^T *m u) = dot u (I *m z) * dot u (I *m z).
    rewrite -mulmxA; have -> : (I *m z)^T *m u = (dot u (I *m z))%:M by rewrite dotE dotC.
    by rewrite mul_mx_scalar dotZr.
  have -> : dot (I *m z) (invmx (K_u m) *m (I *m z)) = dot z (I^T *m invmx (K_u m) *m I *m z).
    by rewrite dot_mxl !mulmxA.
  rewrite !mulmxBl !dotDr !dotNr; rring.
Qed.
End Moments.
End Conv.

End Approx3.
