(** C93, C94, C95: the prediction of the filter. *)
From Coq Require Import Reals Lra Psatz List.
From Coq Require Classical_Prop.
From mathcomp Require Import all_ssreflect all_algebra.
From Verif Require Import Py RMat RChol RTac NormalModel NormalSpec NormalProofs SampleProofs ApproxProofs3.
From Verif Require Import ExpPolyIntModel ExpPolyIntProofs GpcmModel RgpcmModel GpcmGood GpcmBridge GpcmWell GpcmKernelPsd UtilModel MinPhaseModel.
From Verif Require Import ApproxModel ApproxProofs GpcmEndProps ExpPolyModel ExpPolyIntProps FilterModel FilterSpec FilterProofs.
From Verif Require RgpcmProps GaussFeat GpcmInit GpcmProps GpcmProps2 FilterKernel RgpcmCov GpcmSpec GpcmEntries UtilSpec MinPhaseSpec MinPhaseProps UtilProps2.
Set Implicit Arguments.
Unset Strict Implicit.
Unset Printing Implicit Defensive.
Import GRing.Theory.
Local Open Scope ring_scope.
Delimit Scope R_scope with Re.

(** * Existence of draws *)
Section Draws.
Variable N : nat.
Definition uniform_E (f : 'I_N.+1 * bool -> R) : R :=
  (/ INR (2 * N.+1) * (\sum_(i < N.+1) (f (i, true) + f (i, false)))%R)%Re.
Definition uniform : expectation ('I_N.+1 * bool).
Proof.
  refine (@Expectation _ uniform_E _ _ _ _); rewrite /uniform_E.
  - by move=> f g H; congr Rmult; apply: eq_bigr => i _; rewrite !H.
  - move=> f g; rewrite -Rmult_plus_distr_l; congr Rmult.
    rewrite (eq_bigr (fun i => (f (i, true) + f (i, false)) + (g (i, true) + g (i, false)))); first by rewrite big_split.
    by move=> i _; rnorm; ring.
  - move=> a f; rewrite -Rmult_assoc (Rmult_comm a) Rmult_assoc; congr Rmult.
    rewrite (eq_bigr (fun i => a * (f (i, true) + f (i, false)))); first by rewrite -mulr_sumr.
    by move=> i _; rnorm; ring.
  - rewrite (_ : \sum_(i < _) _ = INR (2 * N.+1)); first by apply: Rinv_l; apply: not_0_INR.
    by rewrite sumr_const card_ord INRE mulrnA.
Defined.
Definition signs (w : 'I_N.+1 * bool) : 'cV[R]_N.+1 :=
  \col_i (if i == w.1 then if w.2 then sqrt (INR N.+1) else (- sqrt (INR N.+1))%Re else 0%Re).
Lemma signs_moments : has_moments uniform signs 0 1%:M.
Proof.
  have P : (0 <= INR N.+1)%Re := pos_INR _.
  have Q : (INR N.+1 <> 0)%Re by apply: not_0_INR.
  split.
    move=> i k; rewrite [RHS]mxE /= /uniform_E big1 ?Rmult_0_r // => j _.
    by rewrite !mxE /=; case: (i == j); rnorm; ring.
  move=> i j k l; rewrite !ord1 eqxx /= /uniform_E.
  rewrite (eq_bigr (fun a => if a == i then if a == j then (2 * INR N.+1)%Re else 0 else 0)); last first.
    move=> a _; rewrite !mxE /= !Rminus_0_r ![_ == a]eq_sym.
    case: (a == i); case: (a == j); rnorm; rewrite ?Rmult_opp_opp ?sqrt_sqrt //; ring.
  rewrite -big_mkcond big_pred1_eq mxE; case: (i == j); last by rewrite Rmult_0_r.
  rewrite mult_INR; change (INR 2) with 2%Re; move: Q; move: (INR N.+1) => q Q; apply: Rinv_l; apply: Rmult_integral_contrapositive_currified => //; lra.
Qed.
End Draws.

Lemma moments_cross Omega (E : expectation Omega) a b c (A : 'M[R]_(a, c)) (B : 'M[R]_(b, c)) (x : Omega -> 'cV[R]_c) S :
  has_moments E x 0 S -> forall i j, E (fun w => ((A *m x w) i ord0 * (B *m x w) j ord0)%Re) = (A *m S *m B^T) i j.
Proof.
  move=> Hx i j; have := moments_second (moments_linear (col_mx A B) Hx) => /(_ (lshift b i) (rshift a j)).
  rewrite tr_col_mx mul_col_mx mul_col_row block_mxEur => <-; apply: E_ext => w.
  by rewrite mul_col_mx col_mxEu col_mxEd.
Qed.

Lemma draws_exist nu n (P : 'M[R]_nu) : psd P ->
  exists Omega (E : expectation Omega) (e_u : Omega -> 'cV[R]_nu) (e_h : Omega -> 'cV[R]_n), draws_of E P e_u e_h.
Proof.
  move=> HP; have [L HL] := root_exists HP.
  pose A : 'M[R]_(nu, 1 + (nu + n)) := L *m row_mx 0 (row_mx 1%:M 0).
  pose B : 'M[R]_(n, 1 + (nu + n)) := row_mx 0 (row_mx 0 1%:M).
  have H : has_moments (uniform (nu + n)) (@signs (nu + n) : _ -> 'cV[R]_(1 + (nu + n))) 0 1%:M by exact: signs_moments.
  exists _, (uniform (nu + n)), (fun w => A *m (signs w : 'cV[R]_(1 + (nu + n)))), (fun w => B *m (signs w : 'cV[R]_(1 + (nu + n)))); split; last split.
  - have -> : P = A *m 1%:M *m A^T.
      by rewrite mulmx1 /A trmx_mul mulmxA -(mulmxA L) !tr_row_mx !mul_row_col !trmx0 !trmx1 !mulmx0 !mulmx1 add0r addr0 mulmx1.
    exact: moments_linear.
  - rewrite [X in has_moments _ _ _ X](_ : _ = B *m 1%:M *m B^T); first exact: moments_linear.
    by rewrite mulmx1 /B !tr_row_mx !mul_row_col !trmx0 !trmx1 !mulmx0 !mulmx1 !add0r.
  - move=> i j; rewrite (moments_cross _ _ H) mulmx1 /A /B -mulmxA !tr_row_mx !mul_row_col !trmx0 !trmx1 !mulmx0 !mul0mx.
    by rewrite !add0r mulmx0 mxE.
Qed.

(** * C93: what is sampled *)
Section C93.
Variables (chol : forall n, 'M[R]_n -> 'M[R]_n) (Hc : chol_ok chol).
Variables (root : forall n, 'M[R]_n -> 'M[R]_n) (Hr : root_ok root).
Variables (k : R -> R -> R) (Hk : covariance_function k) (eps : R) (He : (0 <= eps)%Re).
Variables (nu n : nat) (K_u : 'M[R]_nu) (t_u : 'I_nu -> R) (p : natnormal nu) (t_h : 'I_n -> R).
Hypothesis HA : spd (kmat k t_u t_u + eps%:M).
Hypothesis Hp : spd (nn_prec p).
Let B := kmat k t_h t_u *m invmx (kmat k t_u t_u + eps%:M).

Lemma sample_hE e_u e_h : sample_h chol root k eps K_u t_u p t_h e_u e_h
  = B *m K_u *m sample chol p e_u + root (posterior_var chol k eps t_u t_h) *m e_h.
Proof. by rewrite /sample_h /posterior_mean pd_invE // /B !mulmxA. Qed.

Lemma sampleE e : sample chol p e = invmx (nn_prec p) *m nn_lam p + invmx (nn_prec p) *m e.
Proof.
  rewrite /sample cholsolveE // mulmxDr addrC; congr (_ *m _ + _).
  by apply/colP => i; rewrite mxE.
Qed.

Lemma sample_h_moments Omega (E : expectation Omega) e_u e_h : draws_of E (nn_prec p) e_u e_h ->
  has_moments E (fun w => sample_h chol root k eps K_u t_u p t_h (e_u w) (e_h w))
    (B *m K_u *m (invmx (nn_prec p) *m nn_lam p))
    (kmat k t_h t_h - B *m kmat k t_u t_h + B *m K_u *m invmx (nn_prec p) *m (B *m K_u)^T).
Proof.
  move=> [Hu [Hh U]]; set M := B *m K_u; set L := root (posterior_var chol k eps t_u t_h).
  have H := moments_linear (row_mx (M *m invmx (nn_prec p)) L) (moments_pair Hu Hh U).
  move: H; rewrite mul_row_block tr_row_mx mul_row_col !mulmx0 add0r addr0 mulmx1 => H.
  have {}H := moments_shift (M *m (invmx (nn_prec p) *m nn_lam p)) H.
  have [H1 H2] := H.
  have Ex w : M *m (invmx (nn_prec p) *m nn_lam p) + row_mx (M *m invmx (nn_prec p)) L *m col_mx (e_u w) (e_h w)
    = sample_h chol root k eps K_u t_u p t_h (e_u w) (e_h w).
    by rewrite sample_hE sampleE mulmxDr mul_row_col addrA !mulmxA.
  have Ec : M *m invmx (nn_prec p) *m nn_prec p *m (M *m invmx (nn_prec p))^T + L *m L^T
    = kmat k t_h t_h - B *m kmat k t_u t_h + M *m invmx (nn_prec p) *m M^T.
    rewrite (Hr (pvar_psd Hc Hk He t_h HA)) pvarE // addrC; congr (_ - _ + _); first by rewrite /B !mulmxA.
    by rewrite -[X in X *m _ = _]mulmxA mulVmx ?spd_unit // mulmx1 trmx_mul (symm_inv (proj1 Hp)) !mulmxA.
  split.
    by move=> i j; rewrite -(H1 i j); apply: E_ext => w; rewrite Ex.
  by move=> i j a b; rewrite -Ec -(H2 i j a b); apply: E_ext => w; rewrite Ex.
Qed.
End C93.

(** C93: the samples have the mean and the covariance of the process with kernel [k] given
    its noisy values at the inducing points, averaged over the distribution of these values. *)
Theorem C93_moments :
  forall chol, chol_ok chol -> forall root, root_ok root ->
  forall k, covariance_function k -> forall eps, (0 <= eps)%Re ->
  forall nu n (K_u : 'M[R]_nu) (t_u : 'I_nu -> R) (p : natnormal nu) (t_h : 'I_n -> R),
  spd (kmat k t_u t_u + eps%:M) -> spd (nn_prec p) ->
  forall Omega (E : expectation Omega) e_u e_h, draws_of E (nn_prec p) e_u e_h ->
  let B := kmat k t_h t_u *m invmx (kmat k t_u t_u + eps%:M) in
  let m_u := K_u *m (invmx (nn_prec p) *m nn_lam p) in
  let S_u := K_u *m invmx (nn_prec p) *m K_u^T in
  has_moments E (fun w => sample_h chol root k eps K_u t_u p t_h (e_u w) (e_h w))
    (B *m m_u) (kmat k t_h t_h - B *m kmat k t_u t_h + B *m S_u *m B^T).
Proof.
  move=> chol Hc root Hr k Hk eps He nu n K_u t_u p t_h HA Hp Omega E e_u e_h D B m_u S_u.
  have := sample_h_moments Hc Hr Hk He K_u t_h HA Hp D; rewrite -/B /m_u /S_u trmx_mul !mulmxA; exact.
Qed.
Print Assumptions C93_moments.

(** C93: without regularisation every single sample takes the sampled values at the inducing points. *)
Theorem C93_interpolation :
  forall chol, chol_ok chol -> forall root, root_ok root ->
  forall k, covariance_function k ->
  forall nu n (K_u : 'M[R]_nu) (t_u : 'I_nu -> R) (p : natnormal nu) (t_h : 'I_n -> R) e_u e_h i j,
  spd (kmat k t_u t_u) -> t_h i = t_u j ->
  sample_h chol root k 0 K_u t_u p t_h e_u e_h i ord0 = (K_u *m sample chol p e_u) j ord0.
Proof.
  move=> chol Hc root Hr k Hk nu n K_u t_u p t_h e_u e_h i j HK Eij.
  have Z : kmat k t_u t_u + 0%:M = kmat k t_u t_u by rewrite raddf0 addr0.
  have HA : spd (kmat k t_u t_u + 0%:M) by rewrite Z.
  have R0 m (x : 'M[R]_(nu, m)) q : (kmat k t_h t_u *m (invmx (kmat k t_u t_u) *m x)) i q = x j q.
    rewrite mulmxA mxE (eq_bigr (fun l => (1%:M : 'M[R]_nu) j l * x l q)); last first.
      move=> l _; congr (_ * _); rewrite -[1%:M](mulmxV (spd_unit HK)) !mxE; apply: eq_bigr => l' _.
      by rewrite !mxE Eij.
    by transitivity ((1%:M *m x) j q); [rewrite mxE|rewrite mul1mx].
  rewrite mxE /posterior_mean pd_invE // Z R0 (root_row Hc Hk (Rle_refl 0) HA Hr) ?addr0 //.
  by rewrite pvarE // Z mxE [X in _ + X]mxE R0 !mxE Eij subrr.
Qed.
Print Assumptions C93_interpolation.

(** C93: if the kernel vanishes at negative times, every sample is exactly zero there. *)
Theorem C93_causal :
  forall chol, chol_ok chol -> forall root, root_ok root ->
  forall k, covariance_function k -> (forall s t, (s < 0)%Re -> k s t = 0) -> forall eps, (0 <= eps)%Re ->
  forall nu n (K_u : 'M[R]_nu) (t_u : 'I_nu -> R) (p : natnormal nu) (t_h : 'I_n -> R) e_u e_h i,
  spd (kmat k t_u t_u + eps%:M) -> (t_h i < 0)%Re ->
  sample_h chol root k eps K_u t_u p t_h e_u e_h i ord0 = 0.
Proof.
  move=> chol Hc root Hr k Hk Kc eps He nu n K_u t_u p t_h e_u e_h i HA Ti.
  have R0 m (x : 'M[R]_(nu, m)) q : (kmat k t_h t_u *m x) i q = 0.
    by rewrite mxE big1 // => l _; rewrite mxE Kc // mul0r.
  rewrite mxE R0 (root_row Hc Hk He HA Hr) ?addr0 //.
  by rewrite pvarE // mxE [X in _ + X]mxE R0 mxE Kc // oppr0 addr0.
Qed.
Print Assumptions C93_causal.

(** The hypotheses are met by both models. *)
Lemma rk_causal m s t : (s < 0)%Re -> rk_h_kernel m s t = 0.
Proof.
  move=> Hs; rewrite rk_value /FilterKernel.rwin; destruct (Rle_dec 0 s) as [H|_]; first by lra.
  rewrite /=; rnorm; ring.
Qed.
Lemma gk_causal m k s t : (0 < g_gamma m)%Re -> g_causal m = true -> (forall s t, k_h_kernel m s t = Ok (k s t)) ->
  (s < 0)%Re -> k s t = 0.
Proof.
  move=> Pg Ca Hk Hs; rewrite (FilterKernel.kernel_value m Pg k Hk) /FilterKernel.gwin Ca; destruct (Rle_dec 0 s) as [H|_]; first by lra.
  rewrite /=; rnorm; ring.
Qed.
Lemma psd_eps n (A : 'M[R]_n) eps : psd A -> (0 < eps)%Re -> spd (A + eps%:M).
Proof.
  move=> [S P] He; split; first by rewrite /symm linearD /= S tr_scalar_mx.
  move=> x Hx; rewrite mulmxDl mul_scalar_mx dotDr dotZr.
  have := P x; have := Rmult_lt_0_compat _ _ He (dot_gt0 (introN eqP Hx)); move: (dot x _) (dot x x) => a b.
  by rnorm => ? ?; lra.
Qed.

(** C93: this applies to all models: their kernels are covariance functions, and the filters of
    the CGPCM and the RGPCM are exactly zero at negative times in every sample. *)
Theorem C93_models :
  forall chol, chol_ok chol -> forall root, root_ok root ->
  (forall m k, (0 < g_gamma m)%Re -> (forall s t, k_h_kernel m s t = Ok (k s t)) -> covariance_function k) /\
  (forall m, (0 < r_lam m)%Re -> covariance_function (rk_h_kernel m)) /\
  forall k, (exists m, [/\ (0 < g_gamma m)%Re, g_causal m = true & forall s t, k_h_kernel m s t = Ok (k s t)])
            \/ (exists m, (0 < r_lam m)%Re /\ k = rk_h_kernel m) ->
  forall eps, (0 < eps)%Re ->
  forall nu n (K_u : 'M[R]_nu) (t_u : 'I_nu -> R) (p : natnormal nu) (t_h : 'I_n -> R) e_u e_h i,
  (t_h i < 0)%Re -> sample_h chol root k eps K_u t_u p t_h e_u e_h i ord0 = 0.
Proof.
  move=> chol Hc root Hr; split; first exact: gpcm_cov.
  split; first exact: rgpcm_cov.
  move=> k Hm eps He nu n K_u t_u p t_h e_u e_h i Hi.
  have [C Z] : covariance_function k /\ forall s t, (s < 0)%Re -> k s t = 0.
    case: Hm => [[m [Pg Ca Hk]]|[m [Pl ->]]]; split.
    - exact: gpcm_cov Pg Hk.
    - by move=> s t; exact: gk_causal Pg Ca Hk.
    - exact: rgpcm_cov.
    - by move=> s t; exact: rk_causal.
  by apply: C93_causal => //; [exact: Rlt_le|exact: psd_eps].
Qed.
Print Assumptions C93_models.

(** * C94: the prior *)
Section Prior.
Variables (chol : forall n, 'M[R]_n -> 'M[R]_n) (Hc : chol_ok chol).
Variables (root : forall n, 'M[R]_n -> 'M[R]_n) (Hr : root_ok root).
Variables (k : R -> R -> R) (Hk : covariance_function k).
Variables (nu n : nat) (t_u : 'I_nu -> R) (t_h : 'I_n -> R) (a : R) (K_u : 'M[R]_nu).
Hypothesis HK : spd (kmat k t_u t_u).
Hypothesis HKu : spd K_u.
Variables (Omega : Type) (E : expectation Omega) (e_u : Omega -> 'cV[R]_nu) (e_h : Omega -> 'cV[R]_n).
Hypothesis D : draws_of E K_u e_u e_h.
Let q := kmat k t_h t_u *m invmx (kmat k t_u t_u) *m kmat k t_u t_h.

Lemma prior_cov : K_u = a *: kmat k t_u t_u ->
  has_moments E (fun w => sample_h chol root k 0 K_u t_u (NatNormal 0 K_u) t_h (e_u w) (e_h w)) 0
    (kmat k t_h t_h + (a - 1) *: q).
Proof.
  move=> Ea; have Z : kmat k t_u t_u + 0%:M = kmat k t_u t_u by rewrite raddf0 addr0.
  have HA : spd (kmat k t_u t_u + 0%:M) by rewrite Z.
  have := C93_moments Hc Hr Hk (Rle_refl 0) K_u t_h (p := NatNormal 0 K_u) HA HKu D.
  rewrite Z /= mulmx0 mulmx0 mulmx0 mulmxV ?spd_unit // mul1mx (proj1 HKu).
  rewrite trmx_mul (symm_inv (proj1 HK)) (kmat_tr _ _ (cov_sym Hk)) Ea -scalemxAr -scalemxAl.
  rewrite -[X in a *: (X *m _)]mulmxA mulVmx ?spd_unit // mulmx1 mulmxA -/q.
  by rewrite scalerBl scale1r addrCA addrC.
Qed.
End Prior.

Section G.
Variables (N : numdom) (so : setorder) (ofR : R -> N).
Hypothesis Ho : forall r, val (ofR r) = r.
Variable m : gpcm.
Hypothesis Hm : good_gpcm m.
Notation nu := (List.length (g_t_u m)).
Notation nz := (List.length (g_t_z m)).
Variables (G : gp nu nz) (k : R -> R -> R).
Hypothesis HG : gpcm_gp so ofR m = Ok G.
Hypothesis Hk : forall s t, k_h_kernel m s t = Ok (k s t).
Hypothesis Nc : g_causal m = false.
Let tu (i : 'I_nu) : R := List.nth i (g_t_u m) R0.
Let Pg : (0 < g_gamma m)%Re := proj1 (proj2 Hm).

Lemma kh_k s t : GpcmSpec.kh m s t = (g_alpha_t m ^ 2 * k s t)%Re.
Proof.
  rewrite (FilterKernel.kernel_value m Pg k Hk) /FilterKernel.gwin Nc /GpcmSpec.kh !Rmult_1_l -!exp_plus.
  by congr (_ * exp _)%Re; ring.
Qed.

Lemma tu_inj : injective tu.
Proof.
  case: Hm => _ [_ [_ [_ [ND _]]]] i j E; apply: val_inj => /=.
  by apply: (proj1 (List.NoDup_nth (g_t_u m) R0) ND) => //; exact/ltP.
Qed.

Lemma Ku_kmat : K_u G = (g_alpha_t m ^ 2)%Re *: kmat k tu tu.
Proof.
  move: HG; rewrite /gpcm_gp => H; have [Kz [EKz {}H]] := bindP H; have [Ku [EKu {H} [<-]]] := bindP H => /=.
  apply/matrixP => i j; rewrite !mxE; apply: etrans (kh_k _ _).
  by apply: (GpcmEntries.Ku_get N so ofR Ho m Ku i j EKu); exact/ltP.
Qed.

Lemma k_strict : strict_on (fun _ => True) k.
Proof. exact: gpcm_strict Pg Nc Hk. Qed.
Lemma k_cov : covariance_function k.
Proof. exact: gpcm_cov Pg Hk. Qed.
Lemma K_spd : spd (kmat k tu tu).
Proof. by apply: k_strict => //; exact: tu_inj. Qed.
Lemma Ku_spd : spd (K_u G).
Proof. by case: (K_u_facts Ho Hm HG). Qed.
End G.

(** A point that is not an inducing point has variance left. *)
Lemma residual_pos k nu (t_u : 'I_nu -> R) s D : strict_on D k -> injective t_u -> (forall i, D (t_u i)) -> D s -> (forall i, t_u i <> s) ->
  covariance_function k ->
  (0 < k s s - (kmat k (fun _ : 'I_1 => s) t_u *m invmx (kmat k t_u t_u) *m kmat k t_u (fun _ : 'I_1 => s)) ord0 ord0)%Re.
Proof.
  move=> Hs Ti Du Ds Ns Hk; have HK := Hs _ _ Ti Du; have Sk := cov_sym Hk.
  pose s1 (_ : 'I_1) := s.
  pose r (i : 'I_(1 + nu)) := match split i with inl i => s1 i | inr j => t_u j end.
  have Hr : spd (kmat k r r).
    apply: Hs => [i j|i]; last by rewrite /r; case: (split i).
    rewrite /r -[i]splitK -[j]splitK !unsplitK; case: (split i) => i'; case: (split j) => j' //=.
    - by move=> _; rewrite !ord1.
    - by move=> /esym/Ns.
    - by move=> /Ns.
    - by move/Ti ->.
  pose w := - (invmx (kmat k t_u t_u) *m kmat k t_u s1).
  pose x : 'cV[R]_(1 + nu) := col_mx 1%:M w.
  have Nx : x <> 0.
    move=> /(congr1 (fun y : 'cV[R]_(1 + nu) => y (lshift nu ord0) ord0)); rewrite col_mxEu !mxE /=; exact: R1_neq_R0.
  have := proj2 Hr x Nx.
  have -> : kmat k r r = block_mx (kmat k s1 s1) (kmat k s1 t_u) (kmat k t_u s1) (kmat k t_u t_u).
    by apply/matrixP => i j; rewrite !mxE /r; case: (split i) => i'; rewrite !mxE; case: (split j) => j'; rewrite !mxE.
  rewrite mul_block_col.
  have -> : kmat k t_u s1 *m 1%:M + kmat k t_u t_u *m w = 0.
    by rewrite /w mulmxN mulmxA mulmxV ?spd_unit // mul1mx mulmx1 subrr.
  have -> (p : 'cV[R]_1) : dot x (col_mx p 0) = p ord0 ord0.
    rewrite /dot big_split_ord /= [X in _ + X]big1 ?addr0; last by move=> i _; rewrite /x !col_mxEd [X in _ * X]mxE mulr0.
    by rewrite big_ord1 /x !col_mxEu mxE /= mul1r.
  by rewrite mulmx1 /w mulmxN mulmxA mxE [X in _ + X]mxE [X in X + _]mxE.
Qed.

(** C94: it is false that the samples of the filter under the prior have the covariance of the
    filter that the model defines: for no GPCM whose [alpha_t] differs from one, and at no time
    other than an inducing point. *)
Theorem C94_gpcm_refuted :
  forall (N : numdom) (so : setorder) (ofR : R -> N) (m : gpcm), (forall r, val (ofR r) = r) ->
  good_gpcm m -> g_causal m = false -> (g_alpha_t m ^ 2 <> 1)%Re ->
  forall (G : gp (List.length (g_t_u m)) (List.length (g_t_z m))) (k : R -> R -> R) ap,
  gpcm_gp so ofR m = Ok G -> (forall s t, k_h_kernel m s t = Ok (k s t)) -> ap_i ap = 0%N ->
  forall chol, chol_ok chol -> forall root, root_ok root ->
  forall s, ~ List.In s (g_t_u m) ->
  forall Omega (E : expectation Omega) e_u e_h, draws_of E (K_u G) e_u e_h ->
  let h w := sample_h chol root k 0 (K_u G) (fun i => List.nth i (g_t_u m) R0) (p_u G ap) (fun _ : 'I_1 => s) (e_u w) (e_h w) in
  ~ has_prior E h (GpcmSpec.kh m) (fun _ => s).
Proof.
  move=> N so ofR m Ho Hm Nc Na G k ap HG Hk Ap chol Hc root Hr s Hs Omega E e_u e_h D h.
  have Pg := proj1 (proj2 Hm); have C := k_cov Hm Hk; have HK := K_spd Hm Hk Nc.
  rewrite /has_prior /h /p_u Ap => H.
  have P := prior_cov Hc Hr C (fun _ : 'I_1 => s) HK (Ku_spd Ho Hm HG) D (Ku_kmat Ho Hm HG Hk Nc).
  have := moments_second H ord0 ord0; rewrite (moments_second P) mxE [X in _ + X = _]mxE !mxE (kh_k Hm Hk Nc) => F.
  have Ns (i : 'I_(List.length (g_t_u m))) : List.nth i (g_t_u m) R0 <> s.
    by move=> Es; apply: Hs; rewrite -Es; apply: List.nth_In; exact/ltP.
  have := residual_pos (k_strict Hm Hk Nc) (tu_inj Hm) (fun _ => I) I Ns C; rewrite mxE.
  move: F; move: (\sum_(_ < _) _) => q; move: (k s s) (g_alpha_t m ^ 2)%Re Na => kss a Na; rnorm => F V.
  have : ((a - 1) * (kss - q) = 0)%Re by move: F; lra.
  by case/Rmult_integral => ?; [apply: Na|]; lra.
Qed.
Print Assumptions C94_gpcm_refuted.

(** C94, what holds: mean zero, and the right covariance with the inducing points; elsewhere the
    covariance is off by [1 - alpha_t^2] times the covariance given the inducing variables. *)
Theorem C94_gpcm_partial :
  forall (N : numdom) (so : setorder) (ofR : R -> N) (m : gpcm), (forall r, val (ofR r) = r) ->
  good_gpcm m -> g_causal m = false ->
  forall (G : gp (List.length (g_t_u m)) (List.length (g_t_z m))) (k : R -> R -> R) ap,
  gpcm_gp so ofR m = Ok G -> (forall s t, k_h_kernel m s t = Ok (k s t)) -> ap_i ap = 0%N ->
  forall chol, chol_ok chol -> forall root, root_ok root ->
  forall n (t_h : 'I_n -> R) Omega (E : expectation Omega) e_u e_h, draws_of E (K_u G) e_u e_h ->
  let t_u (i : 'I_(List.length (g_t_u m))) := List.nth i (g_t_u m) R0 in
  let given := kmat k t_h t_h - kmat k t_h t_u *m invmx (kmat k t_u t_u) *m kmat k t_u t_h in
  let h w := sample_h chol root k 0 (K_u G) t_u (p_u G ap) t_h (e_u w) (e_h w) in
  has_moments E h 0 (kmat (GpcmSpec.kh m) t_h t_h + (1 - (g_alpha_t m ^ 2)%Re) *: given) /\
  (forall i j, List.In (t_h i) (g_t_u m) -> given i j = 0).
Proof.
  move=> N so ofR m Ho Hm Nc G k ap HG Hk Ap chol Hc root Hr n t_h Omega E e_u e_h D t_u given h.
  have C := k_cov Hm Hk; have HK := K_spd Hm Hk Nc; split.
    have := prior_cov Hc Hr C t_h HK (Ku_spd Ho Hm HG) D (Ku_kmat Ho Hm HG Hk Nc).
    rewrite /h /p_u Ap -/t_u; set cov1 := (X in has_moments _ _ _ X); set cov2 := (X in _ -> has_moments _ _ _ X).
    suff -> : cov1 = cov2 by [].
    rewrite /cov1 /cov2 /given; move: (_ *m _ *m _) => q; apply/matrixP => i j; rewrite !mxE (kh_k Hm Hk Nc).
    move: (k _ _) (q i j) (g_alpha_t m ^ 2)%Re => x y z; rring.
  move=> i j Hi; have [l [Hl El]] := List.In_nth _ _ R0 Hi; move/ltP: Hl => Hl.
  rewrite /given mxE [X in _ + X]mxE -mulmxA mulmxA.
  have -> : (kmat k t_h t_u *m invmx (kmat k t_u t_u) *m kmat k t_u t_h) i j = k (t_h i) (t_h j).
    transitivity ((1%:M *m kmat k t_u t_h) (Ordinal Hl) j); last by rewrite mul1mx mxE /t_u El.
    rewrite mxE [RHS]mxE; apply: eq_bigr => b _; congr (_ * _); rewrite -[1%:M](mulmxV (spd_unit HK)) !mxE.
    by apply: eq_bigr => c _; rewrite !mxE /t_u El.
  by rewrite mxE subrr.
Qed.
Print Assumptions C94_gpcm_partial.

(** C94: for the RGPCM it is false too: the samples have the same variance at all inducing
    points, whereas the kernel of the filter decays. *)
Theorem C94_rgpcm_refuted :
  forall m Ku, rcompute_K_u m = Ok Ku -> (0 < r_lam m)%Re -> (0 < r_alpha m)%Re -> (0 < r_gamma m)%Re -> (r_gamma_t m <> 0)%Re ->
  List.NoDup (r_t_u m) -> (forall t, List.In t (r_t_u m) -> (0 <= t)%Re) ->
  forall (i j : 'I_(List.length (r_t_u m))),
  let t_u (i : 'I_(List.length (r_t_u m))) := List.nth i (r_t_u m) R0 in
  (t_u i < t_u j)%Re ->
  forall chol, chol_ok chol -> forall root, root_ok root ->
  forall n (t_h : 'I_n -> R) i' j', t_h i' = t_u i -> t_h j' = t_u j ->
  let K_u := mat (List.length (r_t_u m)) (List.length (r_t_u m)) Ku in
  forall Omega (E : expectation Omega) e_u e_h, draws_of E K_u e_u e_h ->
  let h w := sample_h chol root (rk_h_kernel m) 0 K_u t_u (NatNormal 0 K_u) t_h (e_u w) (e_h w) in
  ~ has_prior E h (rk_h_kernel m) t_h.
Proof.
  move=> m Ku HKu Pl Pa Pg Ng ND Pt i j t_u Lt chol Hc root Hr n t_h i' j' Ei Ej K_u Omega E e_u e_h D h H.
  have Du (l : 'I_(List.length (r_t_u m))) : (0 <= t_u l)%Re by apply: Pt; apply: List.nth_In; exact/ltP.
  have Ti : injective t_u.
    move=> a b Eab; apply: val_inj => /=; by apply: (proj1 (List.NoDup_nth (r_t_u m) R0) ND) => //; exact/ltP.
  have C := rgpcm_cov Pl; have HK := rgpcm_strict Pl Ti Du.
  have Ke a b : K_u a b = (r_gamma_t m ^ 2 / (2 * r_gamma m) * exp (- r_gamma m * Rabs (t_u a - t_u b)))%Re.
    move: HKu; rewrite /rcompute_K_u rdiv_ok; last by lra.
    case=> HKu; rewrite /K_u mxE -HKu.
    have La := elimT ltP (ltn_ord a); have Lb := elimT ltP (ltn_ord b).
    rewrite (List.nth_indep _ nil (List.map (fun t2 => (r_gamma_t m ^ 2 / (2 * r_gamma m) * exp (- r_gamma m * Rabs (0 - t2)))%Re) (r_t_u m))) ?List.map_length //.
    rewrite (List.map_nth (fun t1 => List.map (fun t2 => (r_gamma_t m ^ 2 / (2 * r_gamma m) * exp (- r_gamma m * Rabs (t1 - t2)))%Re) (r_t_u m))).
    by rewrite (List.nth_indep _ R0 (r_gamma_t m ^ 2 / (2 * r_gamma m) * exp (- r_gamma m * Rabs (t_u a - 0)))%Re) ?List.map_length //
      (List.map_nth (fun t2 => (r_gamma_t m ^ 2 / (2 * r_gamma m) * exp (- r_gamma m * Rabs (t_u a - t2)))%Re)).
  have SK : spd K_u.
    split; first by apply/matrixP => a b; rewrite mxE !Ke Rabs_minus_sym.
    move=> x Hx.
    have Pc : (0 < r_gamma_t m ^ 2 / (2 * r_gamma m))%Re by apply: Rdiv_lt_0_compat; [have := Rsqr_pos_lt _ Ng; rewrite /Rsqr /=; lra|lra].
    have -> : K_u = (r_gamma_t m ^ 2 / (2 * r_gamma m))%Re *: kmat (RgpcmCov.expk (r_gamma m)) t_u t_u.
      by apply/matrixP => a b; rewrite Ke !mxE.
    rewrite -scalemxAl dotZr; apply: Rmult_lt_0_compat => //; rewrite kmat_sum.
    apply: (FilterKernel.ek_pd (r_gamma m) (fun _ => 1%Re) (RgpcmCov.expk (r_gamma m))) => //.
    - by move=> *; ring.
    - exact: ofun_inj.
    - exact: col_nonzero.
  have V a a' : t_h a' = t_u a -> E (fun w => (h w a' ord0 * h w a' ord0)%Re) = K_u a a.
    move=> Ea; rewrite -(moments_second (proj1 D)); apply: E_ext => w.
    rewrite /h (C93_interpolation Hc Hr C _ _ _ _ HK Ea) sampleE //= mulmx0 add0r mulmxA mulmxV ?spd_unit //.
    by rewrite mul1mx.
  have F a a' : t_h a' = t_u a -> exp (-2 * r_alpha m * t_u a) = (r_gamma_t m ^ 2 / (2 * r_gamma m))%Re.
    move=> Ea; have := V a a' Ea; rewrite (moments_second H) mxE Ea Ke Rminus_eq_0 Rabs_R0 Rmult_0_r exp_0 Rmult_1_r => <-.
    rewrite rk_value /FilterKernel.rwin /RgpcmCov.expk Rminus_eq_0 Rabs_R0 Rmult_0_r exp_0 Rabs_pos_eq //.
    destruct (Rle_dec 0 (t_u a)) as [_|Hn]; last by case: (Hn (Du a)).
    by rewrite !Rmult_1_l Rmult_1_r -exp_plus; congr exp; ring.
  have Ee : exp (-2 * r_alpha m * t_u i) = exp (-2 * r_alpha m * t_u j) by rewrite (F i i' Ei) (F j j' Ej).
  have := exp_inv _ _ Ee; nra.
Qed.
Print Assumptions C94_rgpcm_refuted.

(** The hypotheses of C93 and C94 are met by the model that the constructor builds with its
    defaults, at a time between inducing points. *)
Example C94_witness : exists m k (G : gp (List.length (g_t_u m)) (List.length (g_t_z m))) s
    Omega (E : expectation Omega) (e_u : Omega -> 'cV[R]_(List.length (g_t_u m))) (e_h : Omega -> 'cV[R]_1),
  new_gpcm (default_args false 1 1 [:: 0%Re; 1%Re]) = Ok m /\ good_gpcm m /\ g_causal m = false /\ (g_alpha_t m ^ 2 <> 1)%Re
  /\ gpcm_gp ord_id idR m = Ok G /\ (forall s t, k_h_kernel m s t = Ok (k s t)) /\ ~ List.In s (g_t_u m)
  /\ draws_of E (K_u G) e_u e_h
  /\ covariance_function k /\ spd (kmat k (fun i : 'I_(List.length (g_t_u m)) => List.nth i (g_t_u m) R0) (fun i => List.nth i (g_t_u m) R0)).
Proof.
  have [m [Em Hm]] := C86_witness false.
  have Nc : g_causal m = false by have [-> _] := GpcmInit.new_gpcm_inv _ m Em.
  have Ho : forall r, @val RTensorDom (idR r) = r by [].
  have [[G HG] _] := (@C86_well_posed RTensorDom ord_id idR m [::] Ho Hm).1 (fun _ => erefl).
  have Pg := proj1 (proj2 Hm); have [k Hk] := FilterKernel.kernel_total m Pg.
  have Na : (g_alpha_t m ^ 2 <> 1)%Re.
    have [m' [Em' H]] := GpcmProps2.C27_kernels_agree_refuted false; move: Em' H; rewrite Em => -[<-] H.
    have [v [w [Hv [Hw N]]]] := H R0 R0 (Rle_refl _) (Rle_refl _) => Ea; apply: N.
    rewrite (GpcmProps2.C27_kernels_agree_partial _ _ _ _ _ _ _ _ Ho Pg _ Hv Hw) ?Ea ?Rmult_1_l // Nc //.
  have [s Hs] : exists s, ~ List.In s (g_t_u m).
    exists (List.fold_right Rmax 0 (g_t_u m) + 1)%Re.
    have B l x : List.In x l -> (x <= List.fold_right Rmax 0 l)%Re.
      elim: l => [|y l IH] //= [->|Hx]; first exact: Rmax_l.
      exact: Rle_trans (IH Hx) (Rmax_r _ _).
    by move/B; lra.
  have SK := Ku_spd Ho Hm HG.
  have PK : psd (K_u G) by exact: spd_psd.
  have [Omega [E [e_u [e_h D]]]] := draws_exist 1 PK.
  exists m, k, G, s, Omega, E, e_u, e_h; do 8! [split; first by []].
  by split; [exact: (k_cov Hm Hk)|exact: (K_spd Hm Hk Nc)].
Qed.

(** * C95: the prediction *)
Lemma mapM_total A B (f : A -> res B) (g : A -> B) l : (forall x, List.In x l -> f x = Ok (g x)) -> mapM f l = Ok (map g l).
Proof.
  elim: l => //= x l IH H; rewrite (H x) /=; last by left.
  by rewrite IH // => y Hy; apply: H; right.
Qed.
Lemma list_nth A (d : A) l i : List.nth i l d = nth d l i.
Proof. by elim: l i => [|x l IH] [|i] //=. Qed.
Lemma mapM_err A B (f : A -> res B) e x l : f x = Err e -> mapM f (x :: l) = Err e.
Proof. by move=> /= ->. Qed.
Lemma all_some_map A B (f : A -> B) l : all_some [seq Some (f x) | x <- l] = Some (map f l).
Proof. by elim: l => //= x l ->. Qed.
Lemma all_some_none A B (f : A -> option B) l x : List.In x l -> f x = None -> all_some (map f l) = None.
Proof. by elim: l => //= y l IH [->|H] E; [rewrite E|case: (f y) => // b; rewrite IH]. Qed.

Section C95.
Variables (chol : forall n, 'M[R]_n -> 'M[R]_n) (root : forall n, 'M[R]_n -> 'M[R]_n) (k : R -> R -> R) (eps extent : R).
Variables (nu : nat) (K_u : 'M[R]_nu) (t_u : 'I_nu -> R) (p : natnormal nu).

(** The sample for the draws [e]. *)
Definition raw (t_h : seq R) (e : 'cV[R]_nu * (nat -> R)) : seq R :=
  [seq sample_h chol root k eps K_u t_u p (fun i : 'I_(size t_h) => nth 0%Re t_h i) e.1 (\col_i e.2 (nat_of_ord i)) i ord0 | i <- enum 'I_(size t_h)].

Lemma size_raw t_h e : size (raw t_h e) = size t_h.
Proof. by rewrite size_map size_enum_ord. Qed.
End C95.

(** What is reported at the times [t] about the filters [hs]: for every time, the mean, the
    variance and the values of the filters at that time. *)
Definition reports (hs : seq (seq R)) n (S : seq summary) : Prop :=
  size S = n /\ forall i, (i < n)%N -> exists s, List.nth_error S i = Some s
    /\ let values := [seq nth 0%Re h i | h <- hs] in
       sm_mean s = UtilSpec.mean_of values /\ sm_var s = UtilSpec.variance values /\ sm_all_samples s = values.

Lemma reports_ok hs n : hs <> [::] ->
  reports hs n [seq summarise_samples [seq nth 0%Re h i | h <- hs] false | i <- iota 0 n].
Proof.
  move=> Hh; split; first by rewrite size_map size_iota.
  move=> i Hi; exists (summarise_samples [seq nth 0%Re h i | h <- hs] false); split.
    rewrite List.nth_error_map (List.nth_error_nth' _ 0%N); last by apply/ltP; rewrite -[List.length _]/(size _) size_iota.
    by rewrite list_nth nth_iota // add0n.
  have N : [seq nth 0%Re h i | h <- hs] <> [::] by case: hs Hh.
  by have [H1 [H2 [H3 _]]] := UtilProps2.C79_partial _ N.
Qed.

(** C95: without the transform, the times are the given ones and the report is about the samples. *)
Theorem C95_samples :
  forall chol root k eps extent nu (K_u : 'M[R]_nu) (t_u : 'I_nu -> R) (p : natnormal nu) t_h noises,
  noises <> [::] ->
  exists S, predict_filter chol root k eps extent K_u t_u p (Some t_h) noises false = Ok (t_h, Some S)
    /\ reports (map (raw chol root k eps K_u t_u p t_h) noises) (size t_h) S.
Proof.
  move=> chol root k eps extent nu K_u t_u p t_h noises Hn; eexists; split.
    rewrite /predict_filter /=.
    rewrite (@mapM_total _ _ _ (fun e => Some (raw chol root k eps K_u t_u p t_h e))) //=.
    by rewrite all_some_map; case: (noises) Hn.
  by apply: reports_ok; case: (noises) Hn.
Qed.
Print Assumptions C95_samples.

(** C95: with the transform, the times are shifted to start at zero, and the report is about the
    one filter with minimum phase and the gains of the sample, for every sample.  It consists of
    [nan]s exactly when the response of some sample vanishes somewhere. *)
Theorem C95_min_phase :
  forall chol root k eps extent nu (K_u : 'M[R]_nu) (t_u : 'I_nu -> R) (p : natnormal nu) t0 t noises,
  noises <> [::] ->
  let t_h := t0 :: t in
  let r := raw chol root k eps K_u t_u p t_h in
  let vanishes := exists e kk, List.In e noises /\ (kk < size t_h)%N /\ MinPhaseSpec.gain2 (r e) kk = 0%Re in
  exists S, predict_filter chol root k eps extent K_u t_u p (Some t_h) noises true = Ok ([seq (x - t0)%Re | x <- t_h], S)
    /\ (S = None <-> vanishes)
    /\ forall S', S = Some S' -> exists hs, reports hs (size t_h) S' /\ size hs = size noises
         /\ forall i e h, List.nth_error noises i = Some e -> List.nth_error hs i = Some h ->
              MinPhaseSpec.same_gains h (r e) /\ MinPhaseSpec.minimum_phase h.
Proof.
  move=> chol root k eps extent nu K_u t_u p t0 t noises Hn t_h r vanishes.
  have Nr e : r e <> [::] by move=> /(congr1 size); rewrite size_raw.
  pose g e := if min_phase (r e) is Ok o then o else None.
  have Hg e : min_phase (r e) = Ok (g e) /\ (g e = None <-> exists kk, (kk < size t_h)%coq_nat /\ MinPhaseSpec.gain2 (r e) kk = 0%Re).
    have [H1 H2] := MinPhaseProps.C88_nan (r e); rewrite -[List.length (r e)]/(size (r e)) size_raw in H1.
    rewrite /g; case Em : (min_phase (r e)) H1 H2 => [o|e'] H1 H2.
      split=> //; split=> [Eo|[kk Hk]]; first by apply: (proj2 (proj1 H1 _)); rewrite Eo.
      by have [] : Ok o = Ok None by apply: (proj2 H1); split; [exact: Nr|exists kk].
    case: (Classical_Prop.classic (exists kk, (kk < size t_h)%coq_nat /\ MinPhaseSpec.gain2 (r e) kk = 0%Re)) => [V|V].
      by have F := proj2 H1; have : Err e' = Ok None :> res (option (seq R)) by apply: F; split; [exact: Nr|].
    have [||h [Eh _]] := @MinPhaseProps.C88_min_phase (r e); [exact: Nr| |by rewrite Eh in Em].
    by move=> kk Hkk Z; apply: V; exists kk; split=> //; move: Hkk; rewrite -[List.length _]/(size (r e)) size_raw.
  exists (if all_some (map g noises) is Some hs then Some [seq summarise_samples [seq nth 0%Re h i | h <- hs] false | i <- iota 0 (size t_h)] else None).
  split; last split.
  - rewrite /predict_filter /= (@mapM_total _ _ _ g); last by move=> e _; case: (Hg e).
    by rewrite /=; case: (noises) Hn.
  - case: (Classical_Prop.classic vanishes) => V.
      split=> // _; have [e [kk [He [/ltP Hkk Z]]]] := V.
      by rewrite (all_some_none He) //; apply: (proj2 (proj2 (Hg e))); exists kk.
    split=> [Q|//]; exfalso; move: Q.
    have [hs ->] : exists hs, all_some (map g noises) = Some hs; last by [].
    have : forall e, List.In e noises -> g e <> None.
      by move=> e He /(proj1 (proj2 (Hg e))) [kk [/ltP Hkk Z]]; apply: V; exists e, kk.
    elim: (noises) => [|e l IH] G /=; first by exists [::].
    have [hs ->] := IH (fun e' He' => G e' (or_intror He')).
    by case Ge : (g e) => [h|]; [exists (h :: hs)|case: (G e (or_introl erefl))].
  - move=> S'; case Es : (all_some (map g noises)) => [hs|//] [<-].
    have Es' : map g noises = map Some hs.
      elim: (noises) (hs) Es => [|e l IH] hs' /=; first by case=> <-.
      case: (g e) => // h; case Ea : (all_some _) => [xs|//] [<-] /=; by rewrite (IH xs).
    exists hs; split; last split.
    + by apply: reports_ok => Eh; move: Es' Hn; rewrite Eh; case: (noises).
    + by have := congr1 size Es'; rewrite !size_map.
    + move=> i e h Ee Eh.
      have Ge : g e = Some h.
        have := congr1 (fun l => List.nth_error l i) Es'; rewrite !List.nth_error_map Ee Eh => -[]; exact.
      have [Em _] := Hg e; rewrite Ge in Em.
      have Nz : forall kk, (kk < List.length (r e))%coq_nat -> MinPhaseSpec.gain2 (r e) kk <> 0%Re.
        move=> kk Hkk Z; have : g e = None by apply: (proj2 (proj2 (Hg e))); exists kk; split=> //; move: Hkk; rewrite -[List.length _]/(size (r e)) size_raw.
        by rewrite Ge.
      have [h' [Eh' U]] := @MinPhaseProps.C88_min_phase (r e) (Nr e) Nz.
      by rewrite Em in Eh'; case: Eh' => Eh'; apply: (proj2 (U h)).
Qed.
Print Assumptions C95_min_phase.

(** C95: by default the times cover the support of the filter symmetrically, so that they run from
    zero to twice its extent after the shift; without samples there is an error. *)
Theorem C95_times :
  forall chol root k eps extent nu (K_u : 'M[R]_nu) (t_u : 'I_nu -> R) (p : natnormal nu),
  (forall t_h minimum, exists e, predict_filter chol root k eps extent K_u t_u p (Some t_h) [::] minimum = Err e) /\
  exists t_h, size t_h = 601%N
    /\ (forall i, (i < 601)%N -> nth 0%Re t_h i = (- extent + INR i / 600 * (2 * extent))%Re)
    /\ forall noises minimum, predict_filter chol root k eps extent K_u t_u p None noises minimum
       = predict_filter chol root k eps extent K_u t_u p (Some t_h) noises minimum.
Proof.
  move=> chol root k eps extent nu K_u t_u p; split.
    by move=> [|x t_h] [|]; rewrite /predict_filter /=; eexists.
  have [t_h Et] := GpcmProps.linspace_total (- extent)%Re extent 601 ltac:(done).
  have [_ [Gr L]] := GpcmInit.linspace_grid _ _ _ _ Et.
  exists t_h; split; first by rewrite -[size _]/(List.length t_h) L.
  split; last by move=> noises minimum; rewrite /predict_filter /filter_times Et.
  move=> i Hi; have [_ N] := Gr; have Hi' : (i < List.length t_h)%coq_nat by rewrite L; exact/ltP.
  rewrite (N i (nth 0%Re t_h i)); last by rewrite (List.nth_error_nth' _ R0 Hi') list_nth.
  field.
Qed.
Print Assumptions C95_times.

(** The hypotheses of C93 and of the claim about the RGPCM are met, and both kinds of reports occur:
    at the inducing point of a model with one inducing point, the sample is the draw. *)
Example C93_witness :
  covariance_function (rk_h_kernel RgpcmProps.toy) /\ (forall s t, (s < 0)%Re -> rk_h_kernel RgpcmProps.toy s t = 0)
  /\ (forall eps n (t : 'I_n -> R), (0 < eps)%Re -> spd (kmat (rk_h_kernel RgpcmProps.toy) t t + eps%:M))
  /\ spd (kmat (rk_h_kernel RgpcmProps.toy) (fun _ : 'I_1 => 0%Re) (fun _ => 0%Re))
  /\ chol_ok some_chol /\ root_ok some_root
  /\ exists Ku, rcompute_K_u RgpcmProps.toy = Ok Ku /\ List.NoDup (r_t_u RgpcmProps.toy)
       /\ (forall t, List.In t (r_t_u RgpcmProps.toy) -> (0 <= t)%Re)
       /\ (List.nth 0 (r_t_u RgpcmProps.toy) R0 < List.nth 1 (r_t_u RgpcmProps.toy) R0)%Re.
Proof.
  have Pl : (0 < r_lam RgpcmProps.toy)%Re by rewrite /=; lra.
  have C := rgpcm_cov Pl; split=> //.
  split; first by move=> s t; exact: rk_causal.
  split; first by move=> eps n t; apply: psd_eps.
  split; first by apply: (rgpcm_strict Pl) => [i j _|_]; [rewrite !ord1|exact: Rle_refl].
  split; first exact: some_chol_ok.
  split; first exact: some_root_ok.
  rewrite /rcompute_K_u rdiv_ok; last by rewrite /=; lra.
  eexists; split; first by []. split.
    by constructor; [move=> [E|[]]; lra|constructor; [move=> []|constructor]].
  by split; [move=> t [<-|[<-|[]]]; lra|rewrite /=; lra].
Qed.

Example C95_witness : forall v : R,
  let out := predict_filter some_chol some_root (rk_h_kernel RgpcmProps.toy) 0%Re 1%Re (1%:M : 'M[R]_1) (fun _ => 0%Re)
    (NatNormal 0 1%:M) (Some [:: 0%Re]) [:: (const_mx v, fun _ => 0%Re)] true in
  exists S, out = Ok ([:: (0 - 0)%Re], S) /\ (S = None <-> v = 0%Re).
Proof.
  move=> v out; have Pl : (0 < r_lam RgpcmProps.toy)%Re by rewrite /=; lra.
  have HK : spd (kmat (rk_h_kernel RgpcmProps.toy) (fun _ : 'I_1 => 0%Re) (fun _ => 0%Re)).
    by apply: (rgpcm_strict Pl) => [i j _|_]; [rewrite !ord1|exact: Rle_refl].
  have [//|S [ES [VS _]]] := @C95_min_phase some_chol some_root (rk_h_kernel RgpcmProps.toy) 0%Re 1%Re 1 1%:M (fun _ => 0%Re)
    (NatNormal 0 1%:M) 0%Re [::] [:: (const_mx v, fun _ => 0%Re)].
  exists S; split; first exact: ES.
  have Er : raw some_chol some_root (rk_h_kernel RgpcmProps.toy) 0%Re (1%:M : 'M[R]_1) (fun _ => 0%Re) (NatNormal 0 1%:M) [:: 0%Re] (const_mx v, fun _ => 0%Re) = [:: v].
    rewrite /raw; have -> : enum 'I_(size [:: 0%Re]) = [:: (ord0 : 'I_1)].
      by apply: (inj_map val_inj); rewrite val_enum_ord.
    rewrite /=; congr (_ :: _); apply: etrans.
      by apply: (C93_interpolation some_chol_ok some_root_ok (rgpcm_cov Pl) _ _ _ _ (j := ord0) HK).
    rewrite mul1mx sampleE /=; [|exact: some_chol_ok|exact: spd1].
    by rewrite mulmx0 add0r invmx1 mul1mx mxE.
  have Gn : MinPhaseSpec.gain2 [:: v] 0 = (v ^ 2)%Re.
    rewrite /MinPhaseSpec.gain2 /MinPhaseSpec.response_re /MinPhaseSpec.response_im /= Rmult_0_r /Rdiv Rmult_0_l cos_0 sin_0; ring.
  rewrite VS; split=> [[e [kk [[<-|//] [Hk]]]]|E0].
    move: Hk; case: kk => // _ Z; have : (v ^ 2 = 0)%Re by rewrite -Gn -Er; exact: Z.
    by rewrite /= => E0; nra.
  have Z : (MinPhaseSpec.gain2 [:: v] 0 = 0)%Re by rewrite Gn E0; ring.
  exists (const_mx v, fun _ => 0%Re), 0%N; split; first by left.
  by split=> //; apply: etrans Z; rewrite -Er.
Qed.
