(** Proofs that the choice of a basis of inducing variables does not matter to the approximations. *)
From Coq Require Import Reals Lra String FunctionalExtensionality.
From mathcomp Require Import all_ssreflect all_algebra.
From Verif Require Import Py RMat RChol NormalModel NormalSpec NormalProofs RTac ApproxModel ApproxSpec ApproxProofs ApproxProofs2 EvidenceModel BasisSpec.
Set Implicit Arguments.
Unset Strict Implicit.
Unset Printing Implicit Defensive.
Import GRing.Theory.
Local Open Scope ring_scope.
Delimit Scope R_scope with Re.

Section One.
Variable chol : forall n, 'M[R]_n -> 'M[R]_n.
Hypothesis Hc : chol_ok chol.
Variables (k : nat) (T : 'M[R]_k).
Hypothesis UT : T \in unitmx.

Lemma TV : T *m invmx T = 1%:M. Proof. exact: mulmxV. Qed.
Lemma VT : invmx T *m T = 1%:M. Proof. exact: mulVmx. Qed.
Lemma tTV : (invmx T)^T *m T^T = 1%:M. Proof. by rewrite -trmx_mul TV trmx1. Qed.
Lemma tVT : T^T *m (invmx T)^T = 1%:M. Proof. by rewrite -trmx_mul VT trmx1. Qed.
Lemma TKl l (M : 'M[R]_(k, l)) : T^T *m ((invmx T)^T *m M) = M. Proof. by rewrite mulmxA tVT mul1mx. Qed.
Lemma TKr l (M : 'M[R]_(l, k)) : M *m invmx T *m T = M. Proof. by rewrite -mulmxA VT mulmx1. Qed.
Lemma TKr' l (M : 'M[R]_(l, k)) : M *m T^T *m (invmx T)^T = M. Proof. by rewrite -mulmxA tVT mulmx1. Qed.

Lemma spd_b (A : 'M[R]_k) : spd A -> spd (T *m A *m T^T).
Proof.
  move=> [sA pA]; split; first by rewrite /symm !trmx_mul trmxK sA mulmxA.
  move=> x nx; rewrite -!mulmxA dot_mx; apply: pA => E; apply: nx.
  by rewrite -[x]mul1mx -tTV -mulmxA E mulmx0.
Qed.

Lemma inv_b (A : 'M[R]_k) : A \in unitmx -> invmx (T *m A *m T^T) = (invmx T)^T *m invmx A *m invmx T.
Proof.
  move=> UA; rewrite !invmxM ?unitmx_mul ?unitmx_tr ?UT ?UA //.
  by rewrite trmx_inv mulmxA.
Qed.

Lemma pd_inv_b (A : 'M[R]_k) : spd A -> pd_inv chol (T *m A *m T^T) = (invmx T)^T *m pd_inv chol A *m invmx T.
Proof. by move=> H; rewrite !pd_invE //; [rewrite inv_b //; exact: spd_unit|exact: spd_b]. Qed.

Lemma mean_b (p : natnormal k) : spd (nn_prec p) -> mean chol (basis_q T p) = dual T (mean chol p).
Proof.
  move=> H; rewrite !(meanE Hc) //; last exact: spd_b.
  by rewrite /= inv_b ?spd_unit // /dual !mulmxA TKr.
Qed.

Lemma var_b (p : natnormal k) : spd (nn_prec p) -> var chol (basis_q T p) = (invmx T)^T *m var chol p *m invmx T.
Proof. exact: pd_inv_b. Qed.

Lemma m2_b (p : natnormal k) : spd (nn_prec p) -> m2 chol (basis_q T p) = (invmx T)^T *m m2 chol p *m invmx T.
Proof.
  move=> H; rewrite !(m2E Hc) //; last exact: spd_b.
  rewrite mean_b //= inv_b ?spd_unit // mulmxDr mulmxDl; congr (_ + _).
  by rewrite /dual trmx_mul trmxK !mulmxA.
Qed.

Lemma sample_b num (p : natnormal k) (e : 'M[R]_(k, num)) : spd (nn_prec p) ->
  sample chol (basis_q T p) (T *m e) = dual T (sample chol p e).
Proof.
  move=> H; rewrite /sample !(cholsolveE Hc) //; last exact: spd_b.
  rewrite /= inv_b ?spd_unit // /dual -!mulmxA; congr (_ *m (_ *m _)).
  have -> : T *m e + \matrix_(i, j) (T *m nn_lam p) i 0 = T *m (e + \matrix_(i, j) nn_lam p i 0).
    rewrite mulmxDr; congr (_ + _); apply/matrixP=> i j; rewrite !mxE; apply: eq_bigr => l _; by rewrite !mxE.
  by rewrite mulKmx.
Qed.

Lemma sum_mul_b (A M : 'M[R]_k) : sum_mul (T *m A *m T^T) ((invmx T)^T *m M *m invmx T) = sum_mul A M.
Proof.
  rewrite !sum_mulE !trmx_mul trmxK -!mulmxA TKl !mulmxA mxtrace_mulC !mulmxA VT mul1mx.
  by [].
Qed.
Lemma sum_mul_b' (A M : 'M[R]_k) : sum_mul ((invmx T)^T *m M *m invmx T) (T *m A *m T^T) = sum_mul M A.
Proof. by rewrite sum_mulC sum_mul_b sum_mulC. Qed.

Lemma dot_b (x y : 'cV[R]_k) (A : 'M[R]_k) : dot (dual T x) (T *m A *m T^T *m dual T y) = dot x (A *m y).
Proof. by rewrite /dual -!mulmxA TKl !dot_mxl trmxK mulmxA VT mul1mx. Qed.

Lemma det_b (A : 'M[R]_k) : \det (T *m A *m T^T) = \det T * \det T * \det A.
Proof. by rewrite !det_mulmx det_tr mulrAC. Qed.

Lemma detT_neq0 : \det T != 0. Proof. by rewrite -unitfE -unitmxE. Qed.

Lemma Rabs_sq (x : R) : (Rabs x * Rabs x = x * x)%Re.
Proof. by rewrite -Rabs_mult; apply: Rabs_pos_eq; exact: Rle_0_sqr. Qed.
Lemma logdet_b (A : 'M[R]_k) : spd A -> logdet chol (T *m A *m T^T) = (2 * ln (Rabs (\det T)) + logdet chol A)%Re.
Proof.
  move=> H; rewrite !(logdetE Hc) //; last exact: spd_b.
  have D := spd_det_gt0 H; have N := detT_neq0; have P : (0 < Rabs (\det T))%Re by apply: Rabs_pos_lt; exact/eqP.
  rewrite det_b; have -> : \det T * \det T * \det A = (Rabs (\det T) * Rabs (\det T) * \det A)%Re by rewrite Rabs_sq.
  rewrite ln_mult //; last exact: Rmult_lt_0_compat.
  by rewrite ln_mult //; lra.
Qed.

Lemma ratio_b (d a b : R) : d <> 0%Re -> b <> 0%Re -> (d * d * a / (d * d * b) = a / b)%Re.
Proof. by move=> ? ?; field. Qed.

Lemma kl_b (p q : natnormal k) : spd (nn_prec p) -> spd (nn_prec q) -> kl chol (basis_q T p) (basis_q T q) = kl chol p q.
Proof.
  move=> Hp Hq; have Up := spd_unit Hp; have Uq := spd_unit Hq.
  rewrite !(klE Hc) //; try exact: spd_b.
  have E (r : natnormal k) : nn_prec r \in unitmx -> invmx (nn_prec (basis_q T r)) *m nn_lam (basis_q T r) = dual T (invmx (nn_prec r) *m nn_lam r).
    by move=> U; rewrite /= inv_b // /dual !mulmxA TKr.
  rewrite !E // /gaussian_kl !double_inv.
  have -> : \tr (nn_prec (basis_q T q) *m invmx (nn_prec (basis_q T p))) = \tr (nn_prec q *m invmx (nn_prec p)).
    by rewrite /= inv_b // -!mulmxA TKl mxtrace_mulC -!mulmxA VT mulmx1.
  have -> : (\det (invmx (nn_prec (basis_q T p))) / \det (invmx (nn_prec (basis_q T q))) = \det (invmx (nn_prec p)) / \det (invmx (nn_prec q)))%Re.
    have D (A : 'M[R]_k) : A \in unitmx -> \det (invmx (T *m A *m T^T)) = \det (invmx T) * \det (invmx T) * \det (invmx A).
      by move=> U; rewrite inv_b // !det_mulmx det_tr mulrAC.
    have N (A : 'M[R]_k) : A \in unitmx -> \det (invmx A) <> 0%Re by move=> U; apply/eqP; rewrite -unitfE -unitmxE unitmx_inv.
    by rewrite [nn_prec (basis_q T p)]/= [nn_prec (basis_q T q)]/= !D //; apply: ratio_b; exact: N.
  have -> : dual T (invmx (nn_prec q) *m nn_lam q) - dual T (invmx (nn_prec p) *m nn_lam p)
    = dual T (invmx (nn_prec q) *m nn_lam q - invmx (nn_prec p) *m nn_lam p) by rewrite /dual mulmxBr.
  by rewrite [nn_prec (basis_q T q)]/= dot_b.
Qed.

Lemma iqf_b (A : 'M[R]_k) b : spd A -> iqf chol (T *m A *m T^T) (T *m b) = iqf chol A b.
Proof.
  move=> H; rewrite !(iqfE Hc) //; last exact: spd_b.
  by rewrite inv_b ?spd_unit // !dot_mxl -!mulmxA TKl mulKmx.
Qed.

Lemma logpdf_aux (a l c q : R) : (- (1 / 2) * (- (2 * l + a) + c + q) = - (1 / 2) * (- a + c + q) + l)%Re.
Proof. field. Qed.
Lemma logpdf_b (p : natnormal k) x : spd (nn_prec p) -> logpdf chol (basis_q T p) (dual T x) = (logpdf chol p x + ln (Rabs (\det T)))%Re.
Proof.
  move=> H; rewrite /logpdf mean_b // [nn_prec _]/= logdet_b //.
  have -> : dual T x - dual T (mean chol p) = dual T (x - mean chol p) by rewrite /dual mulmxBr.
  have -> : sum_mul (T *m nn_prec p *m T^T *m dual T (x - mean chol p)) (dual T (x - mean chol p))
     = sum_mul (nn_prec p *m (x - mean chol p)) (x - mean chol p).
    by rewrite sum_mulC !sum_mul_col dot_b dotC.
  exact: logpdf_aux.
Qed.
End One.

Section Two.
Variable chol : forall n, 'M[R]_n -> 'M[R]_n.
Hypothesis Hc : chol_ok chol.
Variables (nu nz : nat) (T : 'M[R]_nu) (S : 'M[R]_nz).
Hypotheses (UT : T \in unitmx) (US : S \in unitmx).

Definition bts n (ts : terms n nu nz) : terms n nu nz :=
  Terms (ts_I_hx ts) (T *m ts_I_ux ts *m T^T) (fun i => S *m ts_I_hz ts i *m S^T) (fun i => T *m ts_I_uz ts i *m S^T)
  (fun i => S *m ts_K_u_squeezed ts i *m S^T) (fun i => T *m ts_K_z_squeezed ts i *m T^T)
  (T *m ts_A_sum ts *m T^T) (S *m ts_B_sum ts *m S^T) (ts_c_sum ts) (ts_y ts) (T *m ts_I_uz_sum ts *m S^T).

Lemma sumTT n a b (A : 'M[R]_a) (B : 'M[R]_b) (F : 'I_n -> 'M[R]_(a, b)) : \sum_i (A *m F i *m B) = A *m (\sum_i F i) *m B.
Proof. by rewrite mulmx_sumr mulmx_suml. Qed.

Section Terms.
Variables (n : nat) (m : gp nu nz) (ig : integrals n nu nz) (y : 'I_n -> R).
Hypotheses (Ku : spd (K_u m)) (Kz : spd (K_z m)).
Notation m' := (basis_gp T S m).

Lemma K_u_inv_b : K_u_inv chol m' = (invmx T)^T *m K_u_inv chol m *m invmx T.
Proof. exact: pd_inv_b. Qed.
Lemma K_z_inv_b : K_z_inv chol m' = (invmx S)^T *m K_z_inv chol m *m invmx S.
Proof. exact: pd_inv_b. Qed.

Lemma terms_b : construct_terms chol m' (basis_integrals T S ig) y = bts (construct_terms chol m ig y).
Proof.
  have E1 i : (T *m ig_uz ig i *m S^T)^T *m K_u_inv chol m' *m (T *m ig_uz ig i *m S^T)
    = S *m ((ig_uz ig i)^T *m K_u_inv chol m *m ig_uz ig i) *m S^T.
    by rewrite K_u_inv_b !trmx_mul trmxK !mulmxA TKr' // TKr.
  have E2 i : (T *m ig_uz ig i *m S^T) *m K_z_inv chol m' *m (T *m ig_uz ig i *m S^T)^T
    = T *m (ig_uz ig i *m K_z_inv chol m *m (ig_uz ig i)^T) *m T^T.
    by rewrite K_z_inv_b !trmx_mul trmxK !mulmxA TKr' // TKr.
  rewrite /bts /construct_terms; cbn [ts_I_hx ts_I_ux ts_I_hz ts_I_uz ts_K_u_squeezed ts_K_z_squeezed ts_A_sum ts_B_sum ts_c_sum ts_y ts_I_uz_sum ig_hx ig_ux ig_hz ig_uz basis_integrals].
  have F1 := functional_extensionality _ _ E1. have F2 := functional_extensionality _ _ E2.
  have Z1 (a : R) : a *: (T *m ig_ux ig *m T^T) = T *m (a *: ig_ux ig) *m T^T by rewrite scalemxAl scalemxAr.
  rewrite F1 F2; congr Terms.
  - rewrite Z1 mulmxBr mulmxBl; congr (_ - _); rewrite -sumTT; apply: eq_bigr => i _; exact: E2.
  - rewrite sumTT mulmxBr mulmxBl; congr (_ - _); rewrite -sumTT; apply: eq_bigr => i _; exact: E1.
  - have C : \sum_i sum_mul (K_u_inv chol m') ((T *m ig_uz ig i *m S^T) *m K_z_inv chol m' *m (T *m ig_uz ig i *m S^T)^T)
      = \sum_i sum_mul (K_u_inv chol m) (ig_uz ig i *m K_z_inv chol m *m (ig_uz ig i)^T).
      by apply: eq_bigr => i _; rewrite E2 K_u_inv_b sum_mul_b'.
    by rewrite C K_u_inv_b K_z_inv_b Z1 sumTT !sum_mul_b'.
  - rewrite -sumTT; apply: eq_bigr => i _; by rewrite scalemxAl scalemxAr.
Qed.
End Terms.

Section Use.
Variables (n : nat) (m : gp nu nz) (ts : terms n nu nz).
Hypotheses (Ku : spd (K_u m)) (Kz : spd (K_z m)).
Notation m' := (basis_gp T S m).
Notation ts1 := (bts ts).

Lemma bq_aux a (W : 'M[R]_a) (K A B : 'M[R]_a) (c : R) :
  W *m (K + c *: (A + B)) *m W^T = W *m K *m W^T + c *: (W *m A *m W^T + W *m B *m W^T).
Proof. by rewrite !mulmxDr !mulmxDl -scalemxAr -scalemxAl !mulmxDr !mulmxDl. Qed.

Lemma q_u_b z : q_u_optimal m' ts1 (dual S z) = basis_q T (q_u_optimal m ts z).
Proof.
  rewrite /q_u_optimal /q_optimal /basis_q; cbn [nn_lam nn_prec ts_A_sum ts_I_uz ts_I_uz_sum bts noise K_u basis_gp]; congr NatNormal.
    by rewrite /dual -scalemxAr -!mulmxA TKl.
  rewrite bq_aux -sumTT; congr (_ + _ *: (_ + _)); apply: eq_bigr => i _.
  by rewrite /dual -!mulmxA !TKl // !trmx_mul -!mulmxA.
Qed.
Lemma q_z_b u : q_z_optimal m' ts1 (dual T u) = basis_q S (q_z_optimal m ts u).
Proof.
  rewrite /q_z_optimal /q_optimal /basis_q; cbn [nn_lam nn_prec ts_B_sum ts_I_uz ts_I_uz_sum bts noise K_z basis_gp]; congr NatNormal.
    by rewrite /dual -scalemxAr !trmx_mul trmxK -!mulmxA TKl.
  rewrite bq_aux -sumTT; congr (_ + _ *: (_ + _)); apply: eq_bigr => i _.
  by rewrite /dual !trmx_mul !trmxK -!mulmxA !TKl // !mulmxA TKr.
Qed.
Lemma q_u_mf_b qz : spd (nn_prec qz) -> q_u_optimal_mean_field chol m' ts1 (basis_q S qz) = basis_q T (q_u_optimal_mean_field chol m ts qz).
Proof.
  move=> H; rewrite /q_u_optimal_mean_field /q_optimal_m2 mean_b // m2_b // /basis_q; cbn [nn_lam nn_prec ts_A_sum ts_I_uz ts_I_uz_sum bts noise K_u basis_gp]; congr NatNormal.
    by rewrite /dual -scalemxAr -!mulmxA TKl.
  rewrite bq_aux -sumTT; congr (_ + _ *: (_ + _)); apply: eq_bigr => i _.
  by rewrite !trmx_mul trmxK !mulmxA TKr' // TKr.
Qed.
Lemma q_z_mf_b qu : spd (nn_prec qu) -> q_z_optimal_mean_field chol m' ts1 (basis_q T qu) = basis_q S (q_z_optimal_mean_field chol m ts qu).
Proof.
  move=> H; rewrite /q_z_optimal_mean_field /q_optimal_m2 mean_b // m2_b // /basis_q; cbn [nn_lam nn_prec ts_B_sum ts_I_uz ts_I_uz_sum bts noise K_z basis_gp]; congr NatNormal.
    by rewrite /dual -scalemxAr !trmx_mul trmxK -!mulmxA TKl.
  rewrite bq_aux -sumTT; congr (_ + _ *: (_ + _)); apply: eq_bigr => i _.
  by rewrite !trmx_mul !trmxK !mulmxA TKr' // TKr.
Qed.

Lemma moments_b u u2 z z2 i :
  predict_moments chol m' ts1 (dual T u) ((invmx T)^T *m u2 *m invmx T) (dual S z) ((invmx S)^T *m z2 *m invmx S) i
  = predict_moments chol m ts u u2 z z2 i.
Proof.
  rewrite /predict_moments K_u_inv_b // K_z_inv_b //.
  cbn [ts_I_hx ts_I_ux ts_I_hz ts_I_uz ts_K_u_squeezed ts_K_z_squeezed bts]; congr pair.
    by rewrite /dual trmx_mul trmxK !mulmxA TKr // -!mulmxA TKl.
  have E : T *m ts_I_uz ts i *m S^T *m ((invmx S)^T *m z2 *m invmx S) *m (T *m ts_I_uz ts i *m S^T)^T
    = T *m (ts_I_uz ts i *m z2 *m (ts_I_uz ts i)^T) *m T^T.
    by rewrite !trmx_mul trmxK !mulmxA TKr' // TKr.
  by rewrite -!mulmxBl -!mulmxBr !sum_mul_b // E !sum_mul_b'.
Qed.

Lemma elbo_at_b pu pz qu qz : spd (nn_prec pu) -> spd (nn_prec qu) -> spd (nn_prec pz) -> spd (nn_prec qz) ->
  elbo_at chol m' ts1 (basis_q T pu) (basis_q S pz) (basis_q T qu) (basis_q S qz) = elbo_at chol m ts pu pz qu qz.
Proof.
  move=> Hp Hq Hpz Hqz; rewrite /elbo_at !kl_b // !m2_b // !mean_b //.
  cbn [ts_y ts_A_sum ts_B_sum ts_c_sum ts_I_uz ts_I_uz_sum bts noise basis_gp].
  rewrite !sum_mul_b //.
  have -> : \sum_i sum_mul (T *m ts_I_uz ts i *m S^T *m ((invmx S)^T *m m2 chol qz *m invmx S) *m (T *m ts_I_uz ts i *m S^T)^T) ((invmx T)^T *m m2 chol qu *m invmx T) =
            \sum_i sum_mul (ts_I_uz ts i *m m2 chol qz *m (ts_I_uz ts i)^T) (m2 chol qu).
    apply: eq_bigr => i _; rewrite -[RHS](sum_mul_b UT); congr (sum_mul _ _).
    by rewrite !trmx_mul trmxK !mulmxA TKr' // TKr.
  have -> : sum_mul (dual T (mean chol qu)) (T *m ts_I_uz_sum ts *m S^T *m dual S (mean chol qz)) = sum_mul (mean chol qu) (ts_I_uz_sum ts *m mean chol qz).
    by rewrite !sum_mul_col /dual -!mulmxA TKl // !dot_mxl trmxK mulKmx.
  by [].
Qed.

Lemma log_Z_u_b u (Hq : forall u, spd (nn_prec (q_z_optimal m ts u))) : log_Z_u chol m' ts1 (dual T u) = log_Z_u chol m ts u.
Proof.
  rewrite /log_Z_u q_z_b; cbn [ts_y ts_A_sum ts_c_sum bts noise K_z basis_gp].
  have -> : sum_mul (dual T u) (T *m ts_A_sum ts *m T^T *m dual T u) = sum_mul u (ts_A_sum ts *m u) by rewrite !sum_mul_col dot_b.
  cbn [basis_q nn_prec nn_lam]; rewrite (iqf_b Hc US _ (Hq u)) (logdet_b Hc US Kz) (logdet_b Hc US (Hq u)); set a := logdet _ _; set b := logdet _ _; set c := iqf _ _ _; lra.
Qed.
End Use.

Lemma basis_q0 k (W K : 'M[R]_k) : basis_q W (NatNormal 0 K) = NatNormal 0 (W *m K *m W^T).
Proof. by rewrite /basis_q /= mulmx0. Qed.
Lemma p_u_b (m : gp nu nz) ap : p_u (basis_gp T S m) (basis_state T S ap) = basis_q T (p_u m ap).
Proof. by rewrite /p_u /=; case: (ap_i ap) => [|i] //; rewrite basis_q0. Qed.
Lemma p_z_b (m : gp nu nz) ap : p_z (basis_gp T S m) (basis_state T S ap) = basis_q S (p_z m ap).
Proof. by rewrite /p_z /=; case: (ap_i ap) => [|i] //; rewrite basis_q0. Qed.

Lemma set_qs_b (ap : approx nu nz) qu qz :
  set_q_z (set_q_u (basis_state T S ap) (basis_q T qu)) (basis_q S qz) = basis_state T S (set_q_z (set_q_u ap qu) qz).
Proof.
  rewrite /set_q_z /set_q_u /basis_state /=; congr Approx; apply: functional_extensionality => i; by case: (i == ap_i ap).
Qed.

Section States.
Variables (n : nat) (m : gp nu nz) (ts : terms n nu nz) (ap : approx nu nz).
Hypotheses (Ku : spd (K_u m)) (Kz : spd (K_z m)).
Hypotheses (Hu : forall i, proper (ap_qs_u ap i)) (Hz : forall i, proper (ap_qs_z ap i)).
Hypothesis Hf : forall q, spd (nn_prec q) -> spd (nn_prec (q_u_optimal_mean_field chol m ts q)).
Hypothesis Hg : forall q, spd (nn_prec q) -> spd (nn_prec (q_z_optimal_mean_field chol m ts q)).
Notation m' := (basis_gp T S m).
Notation ts1 := (bts ts).
Notation ap' := (basis_state T S ap).

Lemma p_u_ok : proper (p_u m ap). Proof. by rewrite /p_u; case: (ap_i ap). Qed.
Lemma p_z_ok : proper (p_z m ap). Proof. by rewrite /p_z; case: (ap_i ap). Qed.

Lemma predict_mf_b i : predict_mean_field chol m' ts1 ap' i = predict_mean_field chol m ts ap i.
Proof.
  have P := p_u_ok; have Q := p_z_ok.
  by rewrite /predict_mean_field p_u_b p_z_b !mean_b // !m2_b // moments_b.
Qed.

Lemma elbo_b co : elbo chol m' ts1 ap' co = elbo chol m ts ap co.
Proof.
  have P := p_u_ok; have Pz := p_z_ok; have Q : proper (q_u ap) by exact: Hu. have Qz : proper (q_z ap) by exact: Hz.
  have E qu qz : proper qu -> proper qz -> elbo_at chol m' ts1 (p_u m' ap') (p_z m' ap') (basis_q T qu) (basis_q S qz) = elbo_at chol m ts (p_u m ap) (p_z m ap) qu qz.
    by move=> A B; rewrite p_u_b p_z_b; exact: elbo_at_b.
  have Ez : q_z_optimal_mean_field chol m' ts1 (q_u ap') = basis_q S (q_z_optimal_mean_field chol m ts (q_u ap)) by exact: q_z_mf_b.
  have Eu : q_u_optimal_mean_field chol m' ts1 (q_z ap') = basis_q T (q_u_optimal_mean_field chol m ts (q_z ap)) by exact: q_u_mf_b.
  have E1 := E _ _ Q Qz; have E2 := E _ _ Q (Hg Q); have E3 := E _ _ (Hf Qz) Qz.
  rewrite -Ez in E2; rewrite -Eu in E3.
  by rewrite /elbo -E1 -E2 -E3.
Qed.

Lemma collapsed_z_b (Hq : forall u, spd (nn_prec (q_z_optimal m ts u))) us :
  elbo_collapsed_z chol m' ts1 ap' [seq dual T u | u <- us] = elbo_collapsed_z chol m ts ap us.
Proof.
  have P := p_u_ok; have Q : proper (q_u ap) by exact: Hu.
  rewrite /elbo_collapsed_z; have -> : [seq log_Z_u chol m' ts1 u | u <- [seq dual T u | u <- us]] = [seq log_Z_u chol m ts u | u <- us].
    by rewrite -map_comp; apply: eq_map => u /=; exact: log_Z_u_b.
  rewrite p_u_b -[q_u ap']/(basis_q T (q_u ap)) kl_b //.
Qed.
End States.

Lemma structured_b n n' (m : gp nu nz) (tsd : terms n nu nz) (ts : terms n' nu nz) us i : spd (K_u m) -> spd (K_z m) ->
  (forall u, spd (nn_prec (q_z_optimal m tsd u))) ->
  predict_structured chol (basis_gp T S m) (bts tsd) (bts ts) [seq dual T u | u <- us] i = predict_structured chol m tsd ts us i.
Proof.
  move=> Ku Kz Hq; rewrite /predict_structured size_map !big_map.
  have E u : predict_moments chol (basis_gp T S m) (bts ts) (dual T u) ((dual T u) *m (dual T u)^T)
      (mean chol (q_z_optimal (basis_gp T S m) (bts tsd) (dual T u))) (m2 chol (q_z_optimal (basis_gp T S m) (bts tsd) (dual T u))) i
    = predict_moments chol m ts u (u *m u^T) (mean chol (q_z_optimal m tsd u)) (m2 chol (q_z_optimal m tsd u)) i.
    rewrite q_z_b mean_b // m2_b // -(moments_b ts Ku Kz); congr predict_moments.
    by rewrite /dual trmx_mul trmxK !mulmxA.
  have E1 : \sum_(u <- us) (predict_moments chol (basis_gp T S m) (bts ts) (dual T u) ((dual T u) *m (dual T u)^T)
      (mean chol (q_z_optimal (basis_gp T S m) (bts tsd) (dual T u))) (m2 chol (q_z_optimal (basis_gp T S m) (bts tsd) (dual T u))) i).1
    = \sum_(u <- us) (predict_moments chol m ts u (u *m u^T) (mean chol (q_z_optimal m tsd u)) (m2 chol (q_z_optimal m tsd u)) i).1.
    by apply: eq_bigr => u _; rewrite E.
  have E2 : \sum_(u <- us) (predict_moments chol (basis_gp T S m) (bts ts) (dual T u) ((dual T u) *m (dual T u)^T)
      (mean chol (q_z_optimal (basis_gp T S m) (bts tsd) (dual T u))) (m2 chol (q_z_optimal (basis_gp T S m) (bts tsd) (dual T u))) i).2
    = \sum_(u <- us) (predict_moments chol m ts u (u *m u^T) (mean chol (q_z_optimal m tsd u)) (m2 chol (q_z_optimal m tsd u)) i).2.
    by apply: eq_bigr => u _; rewrite E.
  by rewrite E1 E2.
Qed.

Lemma kernel_b a (Ku : 'M[R]_nu) i_hx I_ux (tk : 'I_a -> R) u : spd Ku ->
  sample_kernel chol (T *m Ku *m T^T) i_hx (fun t1 t2 => T *m I_ux t1 t2 *m T^T) tk (dual T u) = sample_kernel chol Ku i_hx I_ux tk u.
Proof.
  move=> H; apply/matrixP=> p q; rewrite /sample_kernel !(kernel_approxE Hc) //; last exact: spd_b.
  have U := spd_unit H.
  have -> : invmx (T *m Ku *m T^T) *m (T *m Ku *m T^T *m dual T u) = dual T u.
    by rewrite mulKmx // spd_unit //; exact: spd_b.
  rewrite dot_b // mulKmx // inv_b //; congr (_ - _ + _)%Re.
  by rewrite -!mulmxA (mulmxA (invmx T)) VT // mul1mx mxtrace_mulC -!mulmxA tVT // mulmx1.
Qed.

Lemma gibbs_b n (m : gp nu nz) (ts : terms n nu nz) (Hq : forall z, spd (nn_prec (q_u_optimal m ts z))) (Hq' : forall u, spd (nn_prec (q_z_optimal m ts u))) es u z :
  gibbs chol (basis_gp T S m) (bts ts) [seq (T *m e.1, S *m e.2) | e <- es] (dual T u) (dual S z) =
  (dual T (gibbs chol m ts es u z).1, dual S (gibbs chol m ts es u z).2).
Proof.
  elim: es u z => [|e es IH] u z //=; rewrite q_u_b sample_b // q_z_b sample_b //.
Qed.

Lemma elbo_gibbs_aux (a b c : R) : (a + (b + c) = a + b + c)%Re. Proof. ring. Qed.
Lemma elbo_gibbs_b n (m : gp nu nz) (ts : terms n nu nz) (ap : approx nu nz)
  (Hq : forall z, spd (nn_prec (q_u_optimal m ts z))) (Hq' : forall u, spd (nn_prec (q_z_optimal m ts u))) es u z :
  spd (K_u m) -> spd (K_z m) -> (forall i, proper (ap_qs_u ap i)) ->
  elbo_gibbs chol (basis_gp T S m) (bts ts) (basis_state T S ap) [seq (T *m e.1, S *m e.2) | e <- es] (dual T u) (dual S z) =
  let r := elbo_gibbs chol m ts ap es u z in ((r.1.1 + ln (Rabs (\det T)))%Re, dual T r.1.2, dual S r.2).
Proof.
  move=> Ku Kz Hu; rewrite /elbo_gibbs gibbs_b //; cbn [fst snd].
  rewrite log_Z_u_b // p_u_b logpdf_b //; last exact: p_u_ok.
  by rewrite elbo_gibbs_aux.
Qed.

(** Coordinate ascent, if the stopping criterion does not depend on the basis. *)
Hypothesis rms_T : forall l (x y : 'M[R]_(nu, l)), rms (T *m x) (T *m y) = rms x y.
Hypothesis rms_S : forall l (x y : 'M[R]_(nz, l)), rms (S *m x) (S *m y) = rms x y.
Hypothesis rms_T' : forall l (x y : 'M[R]_(l, nu)), rms (x *m T^T) (y *m T^T) = rms x y.
Hypothesis rms_S' : forall l (x y : 'M[R]_(l, nz)), rms (x *m S^T) (y *m S^T) = rms x y.

Lemma diff_b qu qz lu lz : diff (basis_q T qu) (basis_q S qz) (basis_q T lu) (basis_q S lz) = diff qu qz lu lz.
Proof. by rewrite /diff /= !rms_T' !rms_S' !rms_T !rms_S. Qed.

Lemma ca_b n (m : gp nu nz) (ts : terms n nu nz)
    (Hf : forall q, spd (nn_prec q) -> spd (nn_prec (q_u_optimal_mean_field chol m ts q)))
    (Hg : forall q, spd (nn_prec q) -> spd (nn_prec (q_z_optimal_mean_field chol m ts q))) k qu qz : spd (nn_prec qu) -> spd (nn_prec qz) ->
  ca_loop chol (basis_gp T S m) (bts ts) k (basis_q T qu) (basis_q S qz)
  = let r := ca_loop chol m ts k qu qz in (basis_pair T S r.1, [seq basis_pair T S q | q <- r.2]).
Proof.
  elim: k qu qz => [|k IH] qu qz Hu Hz //; cbn [ca_loop].
  rewrite (q_u_mf_b _ _ Hz) (q_z_mf_b _ _ (Hf _ Hz)).
  set qu1 := q_u_optimal_mean_field chol m ts qz; set qz1 := q_z_optimal_mean_field chol m ts qu1.
  have H1 : spd (nn_prec qu1) by exact: Hf. have H2 : spd (nn_prec qz1) by exact: Hg.
  rewrite diff_b; case: (Rlt_dec (diff qu1 qz1 qu qz) _) => ?; first by [].
  by rewrite IH.
Qed.

Lemma fit_b n (m : gp nu nz) (ts : terms n nu nz) (ap : approx nu nz)
    (Hf : forall q, spd (nn_prec q) -> spd (nn_prec (q_u_optimal_mean_field chol m ts q)))
    (Hg : forall q, spd (nn_prec q) -> spd (nn_prec (q_z_optimal_mean_field chol m ts q))) k : spd (nn_prec (q_u ap)) -> spd (nn_prec (q_z ap)) ->
  fit_mean_field_ca chol (basis_gp T S m) (bts ts) k (basis_state T S ap)
  = let r := fit_mean_field_ca chol m ts k ap in (basis_state T S r.1, [seq basis_pair T S q | q <- r.2]).
Proof.
  move=> Hu Hz; rewrite /fit_mean_field_ca -[q_u (basis_state T S ap)]/(basis_q T (q_u ap)) -[q_z (basis_state T S ap)]/(basis_q S (q_z ap)).
  by rewrite ca_b //; cbn [fst snd basis_pair]; rewrite set_qs_b.
Qed.
End Two.
