(** The kernels given the inducing variables of the filter are stationary covariance functions. *)
From Coq Require Import Reals ZArith List String Lra.
From mathcomp Require Import all_ssreflect all_algebra.
From Verif Require Import Py ListFacts ExpPolyModel ExpPolyIntModel ExpPolyIntProofs RMat RChol RTac NormalModel NormalProofs ApproxModel ApproxSpec ApproxProofs ApproxProofs2 ApproxProofs3.
From Verif Require Import GpcmModel RgpcmModel GpcmGood GpcmBridge GpcmWell GpcmKernelPsd SampleProps FilterModel FilterProofs KernelSpec.
From Coquelicot Require Rbar.
From Verif Require Gauss Gauss2 GpcmProofs3 GaussFeat GpcmSpec GpcmEntries GpcmKernel GpcmKernelPd GpcmTotal GpcmProps GpcmProps2 RgpcmPerm RgpcmCov RgpcmUx RgpcmKernel FilterKernel.
Set Implicit Arguments.
Unset Strict Implicit.
Unset Printing Implicit Defensive.
Import GRing.Theory.
Local Open Scope ring_scope.
Delimit Scope R_scope with Re.

(** ** Stationary kernels *)
Section Stationary.
Variable F : R -> R -> R.
Hypothesis St : forall s t h, F (s + h)%Re (t + h)%Re = F s t.
Hypothesis Sy : forall s t, F s t = F t s.
Hypothesis Pd : forall n (t : 'I_n -> R), injective t -> spd (kmat F t t).
Hypothesis Ps : forall n (t : 'I_n -> R), psd (kmat F t t).
Let k (s : R) := F s 0%Re.

Lemma lag s t : F s t = k (s - t)%Re.
Proof. by rewrite /k -(St (s - t)%Re 0%Re t); congr F; ring. Qed.

Lemma smat_kmat a b (s : 'I_a -> R) (t : 'I_b -> R) : smat k s t = kmat F s t.
Proof. by apply/matrixP=> i j; rewrite !mxE lag. Qed.

Lemma two_form (e s : R) : s <> 0%Re -> (e * e = 1 -> 0 < 2 * k 0 + 2 * e * k s)%Re.
Proof.
  move=> Ns Ee; pose t (i : 'I_2) := if i == ord0 then s else 0%Re.
  have It : injective t.
    have O2 (i : 'I_2) : i = ord0 \/ i = lift ord0 ord0.
      by case: (unliftP ord0 i) => [j ->|->]; [right; rewrite (ord1 j)|left].
    by move=> i j; case: (O2 i) => ->; case: (O2 j) => -> //; rewrite /t /= => E; case: Ns.
  have [_ P] := Pd It; pose x : 'cV[R]_2 := \col_i (if i == ord0 then 1%Re else e).
  have Nx : x <> 0 by move=> /matrixP /(_ ord0 ord0); rewrite !mxE eqxx => E; exact: R1_neq_R0 E.
  have {P} := P x Nx; rewrite /dot.
  rewrite !big_ord_recl big_ord0 !mxE !big_ord_recl !big_ord0 !mxE /= /t /=.
  rewrite [F s s]lag [F 0%Re 0%Re]lag [F s 0%Re]lag [F 0%Re s]Sy [F s 0%Re]lag.
  set z := (s - s)%Re; have -> : z = 0%Re by rewrite /z; ring.
  set y := (0 - 0)%Re; have -> : y = 0%Re by rewrite /y; ring.
  set w := (s - 0)%Re; have -> : w = s by rewrite /w; ring.
  rewrite /GRing.mul /GRing.add /GRing.zero /=.
  set X := (X in (_ < X)%Re -> _); suff -> : X = (2 * k 0 + 2 * e * k s + (e * e - 1) * k 0)%Re by rewrite Ee; lra.
  by rewrite /X; ring.
Qed.

Lemma stationary_ok : stationary_covariance k.
Proof.
  have P0 : (0 < k 0)%Re.
    have [|_ /(_ (const_mx 1%Re))] := @Pd 1 (fun _ => 0%Re); first by move=> i j _; rewrite !ord1.
    have N : const_mx 1%Re <> 0 :> 'cV[R]_1 by move=> /matrixP /(_ ord0 ord0); rewrite !mxE; exact: R1_neq_R0.
    move=> /(_ N); rewrite /dot big_ord_recl big_ord0 !mxE big_ord_recl big_ord0 !mxE /GRing.mul /GRing.add /GRing.zero /=.
    set X := (X in (_ < X)%Re -> _); suff -> : X = k 0 by [].
    by rewrite /X /k; ring.
  split; first by move=> n t; rewrite smat_kmat.
  split; first by move=> n t It; rewrite smat_kmat; exact: Pd.
  split=> //; split=> [s|s Ns].
    by rewrite /k (Sy s) -(St 0%Re s (- s)%Re); congr F; ring.
  have A := @two_form 1%Re s Ns ltac:(lra); have B := @two_form (-1)%Re s Ns ltac:(lra).
  by apply: Rabs_def1; lra.
Qed.
End Stationary.

(** The entry of [kernel_approx] for two times. *)
Definition kfun (chol : forall n, 'M[R]_n -> 'M[R]_n) nu (Ku : 'M[R]_nu) (i_hx : R -> R -> R) (I_ux : R -> R -> 'M[R]_nu) (u : 'cV[R]_nu) (s t : R) : R :=
  kernel_approx chol Ku i_hx I_ux (fun _ : 'I_1 => s) (fun _ : 'I_1 => t) u ord0 ord0.

Lemma kernel_kfun chol nu (Ku : 'M[R]_nu) i_hx I_ux u a b (s : 'I_a -> R) (t : 'I_b -> R) :
  kernel_approx chol Ku i_hx I_ux s t u = kmat (kfun chol Ku i_hx I_ux u) s t.
Proof. by apply/matrixP=> i j; rewrite [RHS]mxE /kfun [LHS]mxE [RHS]mxE. Qed.

(** ** The GPCM and the CGPCM *)
Section Gpcm.
Variables (chol : forall n, 'M[R]_n -> 'M[R]_n) (Hc : chol_ok chol).
Variables (N : numdom) (so : setorder) (ofR : R -> N).
Hypothesis Ho : forall r, val (ofR r) = r.
Variable m : gpcm.
Hypothesis Hm : good_gpcm m.
Notation nu := (List.length (g_t_u m)).
Notation nz := (List.length (g_t_z m)).
Variables (G : gp nu nz) (i_hx : R -> R -> R) (I_ux : R -> R -> 'M[R]_nu).
Hypothesis HG : gpcm_gp so ofR m = Ok G.
Hypothesis Hhx : forall s s', compute_i_hx N so ofR m (Some s) (Some s') = Ok (i_hx s s').
Hypothesis Hux : forall s s', exists T, compute_I_ux4 N so ofR m (Some [:: s]) (Some [:: s']) = Ok [:: [:: T]] /\ I_ux s s' = mat nu nu T.
Variable u : 'cV[R]_nu.
Let F := kfun chol (K_u G) i_hx I_ux u.

Lemma hx_shift s t h : i_hx (s + h)%Re (t + h)%Re = i_hx s t.
Proof.
  case: Hm => M _.
  have [_ [_ [S _]]] := GpcmProps2.C23_i_hx N ofR m (s + h)%Re (t + h)%Re Ho (proj1 (proj1 M)).
  by apply: (S so so s t _ _ (Hhx _ _) (Hhx _ _)); left; ring.
Qed.
Lemma ux_shift s t h : I_ux (s + h)%Re (t + h)%Re = I_ux s t.
Proof.
  have [T [ET ->]] := Hux s t; have [T' [ET' ->]] := Hux (s + h)%Re (t + h)%Re.
  apply/matrixP=> i j; rewrite !mxE; symmetry.
  apply: (GpcmKernelPd.ux_shift m (List.nth i (g_t_u m) R0) (List.nth j (g_t_u m) R0) s t h).
    exact: (GpcmEntries.ux4_get N so ofR Ho m (proj1 Hm) T s t i j ET (elimT ltP (ltn_ord i)) (elimT ltP (ltn_ord j))).
  exact: (GpcmEntries.ux4_get N so ofR Ho m (proj1 Hm) T' (s + h)%Re (t + h)%Re i j ET' (elimT ltP (ltn_ord i)) (elimT ltP (ltn_ord j))).
Qed.

Lemma gpcm_shift s t h : F (s + h)%Re (t + h)%Re = F s t.
Proof. by rewrite /F /kfun /kernel_approx !mxE hx_shift ux_shift. Qed.

Lemma gpcm_sym s t : F s t = F t s.
Proof.
  pose r (i : 'I_2) := if i == ord0 then s else t.
  have [S _] := gpcm_kernel_psd Hc Ho Hm HG Hhx Hux r u.
  by have := congr1 (fun M : 'M[R]_2 => M ord0 (lift ord0 ord0)) S; rewrite kernel_kfun !mxE /r /= -/F.
Qed.

Lemma gpcm_pd n (t : 'I_n -> R) : injective t -> spd (kmat F t t).
Proof.
  move=> It; have [P1 P2] := gpcm_kernel_psd Hc Ho Hm HG Hhx Hux t u; rewrite kernel_kfun -/F in P1 P2.
  split=> // x Hx; case: Hm => M [Pg [Na [No [NDu [NDz Pn]]]]].
  have Pa := GpcmProofs3.moderate_pos _ (proj1 (proj1 M)).
  have [SP [Ws HW]] := K_u_facts Ho Hm HG.
  rewrite -kernel_kfun (@dot_mx_sum _ _ _ _ _ (kernel_kval Hc Ho Hm i_hx I_ux HG t u)).
  apply: (GpcmKernelPd.kval_pd m Pa Pg Na n nu _ (fun i => List.nth i (g_t_u m) R0) _ _
    (@hx_fact _ _ _ Ho m Hm i_hx Hhx n t) (@ux_fact _ _ _ Ho m Hm I_ux Hux n t) _ _ Ws HW).
  - by move=> i j Hi Hj; apply: (proj1 (List.NoDup_nth (g_t_u m) R0) NDu).
  - exact: ofun_inj.
  - exact: col_nonzero.
Qed.

Lemma gpcm_stationary : stationary_covariance (fun s => F s 0%Re) /\
  forall a b (s : 'I_a -> R) (t : 'I_b -> R), kernel_approx chol (K_u G) i_hx I_ux s t u = smat (fun s => F s 0%Re) s t.
Proof.
  split.
    apply: stationary_ok; [exact: gpcm_shift|exact: gpcm_sym|exact: gpcm_pd|].
    move=> n t; rewrite -kernel_kfun. have := gpcm_kernel_psd Hc Ho Hm HG Hhx Hux t u; exact.
  by move=> a b s t; rewrite smat_kmat //; [exact: kernel_kfun|exact: gpcm_shift].
Qed.
End Gpcm.

(** ** The RGPCM *)

(** What the constructor and the constraints on the parameters guarantee, and the two exceptions
    of the closed form of [compute_I_ux]. *)
Definition good_rgpcm (m : rgpcm) : Prop :=
  [/\ 0 < r_alpha m, 0 < r_gamma m & 0 < r_lam m]%Re /\ r_alpha_t m <> 0%Re /\ r_gamma_t m <> 0%Re /\
  r_gamma m <> r_alpha m /\ ((r_gamma m - r_alpha m) ^ 2 <> r_lam m ^ 2)%Re /\
  List.NoDup (r_t_u m) /\ forall t, List.In t (r_t_u m) -> (0 <= t)%Re.

(** [i_hx] and [I_ux] are what [compute_i_hx] and [compute_I_ux] return at pairs of times. *)
Definition rintegrals_of (m : rgpcm) (i_hx : R -> R -> R) (I_ux : R -> R -> 'M[R]_(List.length (r_t_u m))) : Prop :=
  (forall s s', rcompute_i_hx m (Some s) (Some s') = Ok (i_hx s s')) /\
  forall s s', exists T, rcompute_I_ux4 m (Some [:: s]) (Some [:: s']) = Ok [:: [:: T]] /\ I_ux s s' = mat _ _ T.

Section Rgpcm.
Variables (chol : forall n, 'M[R]_n -> 'M[R]_n) (Hc : chol_ok chol).
Variable m : rgpcm.
Hypothesis Hm : good_rgpcm m.
Notation nu := (List.length (r_t_u m)).
Variables (Ku : list (list R)) (i_hx : R -> R -> R) (I_ux : R -> R -> 'M[R]_nu).
Hypothesis HKu : rcompute_K_u m = Ok Ku.
Hypothesis HI : rintegrals_of i_hx I_ux.
Variable u : 'cV[R]_nu.
Let K := mat nu nu Ku.
Let F := kfun chol K i_hx I_ux u.
Let tu (i : nat) : R := List.nth i (r_t_u m) R0.

Lemma rKu_get i j : (i < nu)%coq_nat -> (j < nu)%coq_nat ->
  GpcmEntries.get2 Ku i j = (r_gamma_t m ^ 2 / (2 * r_gamma m) * exp (- r_gamma m * Rabs (tu i - tu j)))%Re.
Proof.
  case: Hm => -[_ Pg _] _ La Lb; move: HKu; rewrite /rcompute_K_u rdiv_ok; last by lra.
  case=> <-; rewrite /GpcmEntries.get2.
  rewrite (List.nth_indep _ nil (List.map (fun t2 => (r_gamma_t m ^ 2 / (2 * r_gamma m) * exp (- r_gamma m * Rabs (0 - t2)))%Re) (r_t_u m))) ?List.map_length //.
  rewrite (List.map_nth (fun t1 => List.map (fun t2 => (r_gamma_t m ^ 2 / (2 * r_gamma m) * exp (- r_gamma m * Rabs (t1 - t2)))%Re) (r_t_u m))).
  by rewrite (List.nth_indep _ R0 (r_gamma_t m ^ 2 / (2 * r_gamma m) * exp (- r_gamma m * Rabs (tu i - 0)))%Re) ?List.map_length //
      (List.map_nth (fun t2 => (r_gamma_t m ^ 2 / (2 * r_gamma m) * exp (- r_gamma m * Rabs (tu i - t2)))%Re)).
Qed.

Lemma tu_inj i j : (i < nu)%coq_nat -> (j < nu)%coq_nat -> tu i = tu j -> i = j.
Proof. by case: Hm => _ [_ [_ [_ [_ [ND _]]]]] Hi Hj; apply: (proj1 (List.NoDup_nth (r_t_u m) R0) ND). Qed.

Lemma rK_spd : spd K.
Proof.
  apply: mat_spd => [i j Hi Hj|c Hc']; first by rewrite !rKu_get // Rabs_minus_sym.
  case: (Hm) => -[_ Pg _] [_ [Ng _]].
  have -> : Sum nu (fun i => Sum nu (fun j => c i * c j * GpcmEntries.get2 Ku i j))%Re
    = (r_gamma_t m ^ 2 / (2 * r_gamma m) * Sum nu (fun i => Sum nu (fun j => c i * c j * RgpcmCov.expk (r_gamma m) (tu i) (tu j))))%Re.
    rewrite -GaussFeat.Sum_scal; apply: GaussFeat.Sum_ext => i Hi; rewrite -GaussFeat.Sum_scal; apply: GaussFeat.Sum_ext => j Hj.
    by rewrite rKu_get // /RgpcmCov.expk; ring.
  apply: Rmult_lt_0_compat.
    by apply: Rdiv_lt_0_compat; [have := Rsqr_pos_lt _ Ng; rewrite /Rsqr /=; lra|lra].
  apply: (FilterKernel.ek_pd (r_gamma m) (fun _ => 1%Re) (RgpcmCov.expk (r_gamma m))) => //.
  - by move=> *; ring.
  - exact: tu_inj.
Qed.

Lemma rhx_value s t : i_hx s t = (r_alpha_t m ^ 2 / 2 / r_alpha m * exp (- r_lam m * Rabs (s - t)))%Re.
Proof.
  case: (Hm) => -[Pa _ _] _; case: HI => /(_ s t) + _; rewrite /rcompute_i_hx rdiv_ok; last by lra.
  by case.
Qed.

Lemma rux_value s t (i j : 'I_nu) : I_ux s t i j = RgpcmUx.ux_value m s t (tu i) (tu j).
Proof.
  case: (Hm) => _ [_ [_ [Ng [Nl _]]]]; case: HI => _ /(_ s t) [T [ET ->]]; rewrite mxE.
  move: ET; rewrite /rcompute_I_ux4 /=.
  rewrite (RgpcmPerm.mapM_ext_In (fun u1 => mapM _ _) (fun u1 => List.map (RgpcmUx.ux_value m s t u1) (r_t_u m))); last first.
    by move=> u1 _; apply: RgpcmPerm.mapM_ext_In => u2 _; apply: RgpcmUx.ux_elem.
  move=> -[<-] {T}; have La := elimT ltP (ltn_ord i); have Lb := elimT ltP (ltn_ord j).
  rewrite (List.nth_indep _ nil (List.map (RgpcmUx.ux_value m s t R0) (r_t_u m))) ?List.map_length //.
  rewrite (List.map_nth (fun u1 => List.map (RgpcmUx.ux_value m s t u1) (r_t_u m))).
  by rewrite (List.nth_indep _ R0 (RgpcmUx.ux_value m s t (tu i) R0)) ?List.map_length // List.map_nth.
Qed.

Lemma rgpcm_shift s t h : F (s + h)%Re (t + h)%Re = F s t.
Proof.
  rewrite /F /kfun /kernel_approx !mxE !rhx_value (_ : s + h - (t + h) = s - t)%Re; last by ring.
  suff -> : I_ux (s + h)%Re (t + h)%Re = I_ux s t by [].
  apply/matrixP=> i j; rewrite !rux_value; case: (Hm) => _ [_ [_ [Ng [Nl _]]]].
  by apply: RgpcmUx.ux_stationary => //; ring.
Qed.

Section Form.
Variables (n : nat) (t : 'I_n -> R) (x : 'cV[R]_n).
Let W := ofmx (invmx K).
Let v := ofcol (invmx K *m u).
Let ux (p q a b : nat) : R := RgpcmUx.ux_value m (ofun t p) (ofun t q) (tu b) (tu a).

Let value (p q : nat) : R :=
  (i_hx (ofun t p) (ofun t q) - Sum nu (fun a => Sum nu (fun b => W a b * ux p q a b))
   + Sum nu (fun a => Sum nu (fun b => v a * v b * ux p q a b)))%Re.

Lemma rkernel_value (p q : 'I_n) : kmat F t t p q = value p q.
Proof.
  rewrite /value.
  have [Sy _] := spd_inv rK_spd.
  rewrite -kernel_kfun kernel_approxE //; last exact: rK_spd.
  rewrite !ofunE; set I := I_ux _ _.
  have EI a b : I^T a b = ux p q a b by rewrite mxE /ux !ofunE; exact: rux_value.
  have -> : \tr (invmx K *m I) = \tr (invmx K *m I^T) by rewrite -mxtrace_tr trmx_mul Sy mxtrace_mulC.
  rewrite (tr_sum Sy EI).
  have -> : dot (invmx K *m u) (I *m (invmx K *m u)) = dot (invmx K *m u) (I^T *m (invmx K *m u)).
    by rewrite dot_mx dotC.
  by rewrite (dot_mx_sum _ _ EI).
Qed.

Lemma rkernel_form c T : (forall a, (a < nu)%coq_nat -> 0 <= tu a <= T)%Re -> (0 <= T)%Re ->
  c = (r_alpha_t m ^ 2 * exp (- 2 * r_alpha m * T) / (2 * r_alpha m))%Re ->
  (c * dot x (kmat (RgpcmCov.expk (r_lam m)) t t *m x) <= dot x (kmat F t t *m x))%Re.
Proof.
  move=> HT PT ->; case: (Hm) => -[Pa Pg Pl] [_ [_ [Ng [Nl _]]]].
  have [Ws HW] := inv_sum rK_spd.
  rewrite (@dot_mx_sum _ _ x x value rkernel_value) kmat_sum.
  apply: (RgpcmKernel.kernel_bound (r_alpha m) (r_alpha_t m) (r_gamma m) (r_gamma_t m) (r_lam m) T Pa Pg Pl PT n nu (ofun t) tu HT
    (fun p q => i_hx (ofun t p) (ofun t q)) ux) => [p q _ _|p q a b _ _ _ _|i j Hi Hj].
  - exact: rhx_value.
  - exact: (RgpcmUx.ux_spec m Ng Nl).
  - transitivity (ofmx (invmx (mat nu nu Ku)) i j) => //; rewrite -(HW i j Hi Hj); apply: GaussFeat.Sum_ext => k Hk; apply: GaussFeat.Sum_ext => l Hl; by rewrite rKu_get.
Qed.
End Form.

Lemma rF_bound : exists c, (0 < c)%Re /\ forall n (t : 'I_n -> R) x,
  (c * dot x (kmat (RgpcmCov.expk (r_lam m)) t t *m x) <= dot x (kmat F t t *m x))%Re.
Proof.
  case: (Hm) => -[Pa Pg Pl] [Na [_ [_ [_ [_ Pt]]]]].
  have [T [PT HT]] := RgpcmKernel.abs_bound nu tu.
  exists (r_alpha_t m ^ 2 * exp (- 2 * r_alpha m * T) / (2 * r_alpha m))%Re; split.
    apply: Rdiv_lt_0_compat; last by lra.
    by apply: Rmult_lt_0_compat; [have := Rsqr_pos_lt _ Na; rewrite /Rsqr /=; lra|exact: exp_pos].
  move=> n t x; apply: (@rkernel_form n t x _ T) => // a Ha; split.
    by apply: Pt; apply: List.nth_In.
  by apply: Rle_trans (HT a Ha); exact: Rle_abs.
Qed.

Lemma rexp_forms n (t : 'I_n -> R) x :
  (0 <= dot x (kmat (RgpcmCov.expk (r_lam m)) t t *m x))%Re /\
  (injective t -> x <> 0 -> (0 < dot x (kmat (RgpcmCov.expk (r_lam m)) t t *m x))%Re).
Proof.
  case: (Hm) => -[_ _ Pl] _; rewrite kmat_sum; split=> [|It Hx].
    apply: (FilterKernel.ek_psd (r_lam m) (fun _ => 1%Re) (RgpcmCov.expk (r_lam m))); last by lra.
    by move=> *; ring.
  apply: (FilterKernel.ek_pd (r_lam m) (fun _ => 1%Re) (RgpcmCov.expk (r_lam m))) => //.
  - by move=> *; ring.
  - exact: ofun_inj.
  - exact: col_nonzero.
Qed.

Lemma rgpcm_sym s t : F s t = F t s.
Proof.
  case: (Hm) => _ [_ [_ [Ng [Nl _]]]]; have [Sy _] := spd_inv rK_spd.
  rewrite /F /kfun !kernel_approxE //; try exact: rK_spd.
  have -> : I_ux t s = (I_ux s t)^T.
    by apply/matrixP=> i j; rewrite mxE !rux_value; exact: (RgpcmUx.ux_swap m Ng Nl).
  have -> : \tr (invmx K *m (I_ux s t)^T) = \tr (invmx K *m I_ux s t) by rewrite -mxtrace_tr trmx_mul trmxK Sy mxtrace_mulC.
  have -> : dot (invmx K *m u) ((I_ux s t)^T *m (invmx K *m u)) = dot (invmx K *m u) (I_ux s t *m (invmx K *m u)).
    by rewrite dot_mx trmxK dotC.
  by rewrite !rhx_value (Rabs_minus_sym t s).
Qed.

Lemma rgpcm_stationary : stationary_covariance (fun s => F s 0%Re) /\
  forall a b (s : 'I_a -> R) (t : 'I_b -> R), kernel_approx chol K i_hx I_ux s t u = smat (fun s => F s 0%Re) s t.
Proof.
  have Sm n (t : 'I_n -> R) : symm (kmat F t t) by apply/matrixP=> i j; rewrite !mxE rgpcm_sym.
  have [c [Pc B]] := rF_bound.
  split.
    apply: stationary_ok; [exact: rgpcm_shift|exact: rgpcm_sym| |].
      move=> n t It; split=> // x Hx; apply: Rlt_le_trans (B n t x); apply: Rmult_lt_0_compat => //.
      by apply: (proj2 (rexp_forms t x)).
    move=> n t; split=> // x; apply: Rle_trans (B n t x); apply: Rmult_le_pos; first exact: Rlt_le.
    exact: (proj1 (rexp_forms t x)).
  by move=> a b s t; rewrite smat_kmat //; [exact: kernel_kfun|exact: rgpcm_shift].
Qed.
End Rgpcm.
