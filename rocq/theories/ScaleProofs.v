(** Proofs that the unit of the filter does not matter to the approximations. *)
From Coq Require Import Reals Lra String FunctionalExtensionality.
From mathcomp Require Import all_ssreflect all_algebra.
From Verif Require Import Py RMat RChol NormalModel NormalSpec NormalProofs RTac ApproxModel ApproxSpec ApproxProofs EvidenceModel ScaleSpec.
Set Implicit Arguments.
Unset Strict Implicit.
Unset Printing Implicit Defensive.
Import GRing.Theory.
Local Open Scope ring_scope.
Delimit Scope R_scope with Re.

Section Scale.
Variable chol : forall n, 'M[R]_n -> 'M[R]_n.
Hypothesis Hc : chol_ok chol.
Variables s t : R.
Hypothesis s0 : (0 < s)%Re.
Hypothesis st : (s * t = 1)%Re.

Let ss : (0 < s * s)%Re. Proof. exact: Rmult_lt_0_compat. Qed.
Let st' : s * t = 1. Proof. exact: st. Qed.
Let ts' : t * s = 1. Proof. by rewrite mulrC. Qed.
Let sst : s * s * t * t = 1. Proof. by rewrite -(mulrA s s) st' mulr1. Qed.
Let s_unit : s \is a GRing.unit. Proof. by apply/unitrP; exists t. Qed.
Let vs : s^-1 = t. Proof. by rewrite -[RHS]mul1r -(mulVr s_unit) -mulrA st' mulr1. Qed.
Let s_neq0 : s != 0. Proof. exact: Rneq0. Qed.

Lemma spd_sc n (A : 'M[R]_n) : spd A -> spd ((s * s)%Re *: A).
Proof. exact: spd_scale. Qed.

Lemma chol_sc n (A : 'M[R]_n) : spd A -> chol ((s * s)%Re *: A) = s *: chol A.
Proof.
  move=> H; apply: (chol_unique (Hc (spd_sc H))); have [L [P E]] := Hc H; split; [|split].
  - by move=> i j Hij; rewrite mxE L // mulr0.
  - by move=> i; rewrite mxE; apply: Rmult_lt_0_compat.
  - by rewrite linearZ -scalemxAl -scalemxAr /= E scalerA.
Qed.

Lemma invmx_sc n (A : 'M[R]_n) a b : a * b = 1 -> A \in unitmx -> invmx (a *: A) = b *: invmx A.
Proof.
  move=> ab U; have ua : a \is a GRing.unit by apply/unitrP; exists b; split=> //; rewrite mulrC.
  rewrite invmxZ //; last by rewrite unitmxZ.
  by congr (_ *: _); rewrite -[RHS]mul1r -(mulVr ua) -mulrA ab mulr1.
Qed.

Let ttss : t * t * (s * s) = 1. Proof. by rewrite mulrACA ts' mulr1. Qed.
Let ttss' : s * s * t * t = 1. Proof. by []. Qed.
Let ttss'' : s * (t * t) * s = 1. Proof. transitivity ((s * t) * (s * t)); [rring|by rewrite st' mulr1]. Qed.
Ltac cancel := transitivity ((s * t) * (s * t)); [rring|by rewrite st' mulr1].
Lemma trZ a p q (M : 'M[R]_(p, q)) : (a *: M)^T = a *: M^T.
Proof. by rewrite linearZ. Qed.
Lemma chol_unit n (A : 'M[R]_n) : spd A -> chol A \in unitmx.
Proof. by move=> H; have [L [P _]] := Hc H; exact: lower_unit. Qed.

Lemma solve_sc n k (L : 'M[R]_n) (b : 'M[R]_(n, k)) : L \in unitmx -> solve (s *: L) b = t *: solve L b.
Proof. by move=> U; rewrite /solve (invmx_sc st' U) scalemxAl. Qed.
Lemma solveZ n k (L : 'M[R]_n) a (b : 'M[R]_(n, k)) : solve L (a *: b) = a *: solve L b.
Proof. by rewrite /solve scalemxAr. Qed.
Lemma cholsolve_sc n k (A : 'M[R]_n) (b : 'M[R]_(n, k)) : spd A ->
  cholsolve (chol ((s * s)%Re *: A)) b = (t * t) *: cholsolve (chol A) b.
Proof.
  move=> H; have U := chol_unit H; rewrite /cholsolve chol_sc // trZ (solve_sc _ U) solve_sc ?unitmx_tr //.
  by rewrite solveZ scalerA.
Qed.
Lemma cholsolveZ n k (L : 'M[R]_n) a (b : 'M[R]_(n, k)) : cholsolve L (a *: b) = a *: cholsolve L b.
Proof. by rewrite /cholsolve !solveZ. Qed.

Lemma mean_sc n (p : natnormal n) : spd (nn_prec p) -> mean chol (scale_q s p) = t *: mean chol p.
Proof. by move=> H; rewrite /mean /= cholsolve_sc // cholsolveZ scalerA -mulrA ts' mulr1. Qed.
Lemma pd_inv_sc n (A : 'M[R]_n) : spd A -> pd_inv chol ((s * s)%Re *: A) = (t * t) *: pd_inv chol A.
Proof. exact: cholsolve_sc. Qed.
Lemma m2_sc n (p : natnormal n) : spd (nn_prec p) -> m2 chol (scale_q s p) = (t * t) *: m2 chol p.
Proof.
  move=> H; rewrite /m2 /= !cholsolve_sc //.
  have -> : (s * s)%Re *: nn_prec p + s *: nn_lam p *m (s *: nn_lam p)^T = (s * s) *: (nn_prec p + nn_lam p *m (nn_lam p)^T).
    by rewrite linearZ -scalemxAl -scalemxAr /= scalerA scalerDr.
  rewrite cholsolveZ scalerA; by rewrite ttss scale1r.
Qed.

Lemma kl_sc n (p q : natnormal n) : spd (nn_prec p) -> spd (nn_prec q) -> kl chol (scale_q s p) (scale_q s q) = kl chol p q.
Proof.
  move=> Hp Hq; rewrite /kl !mean_sc // ![nn_prec (scale_q _ _)]/= !chol_sc //.
  have -> : solve (s *: chol (nn_prec p)) (s *: chol (nn_prec q)) = solve (chol (nn_prec p)) (chol (nn_prec q)).
    by rewrite solve_sc ?chol_unit // solveZ scalerA ts' scale1r.
  by rewrite -scalerBr -scalemxAl -scalemxAr scalerA sum_mulZl sum_mulZr !mulrA ttss' mul1r.
Qed.

(** * Terms *)
Definition sct n nu nz (ts : terms n nu nz) : terms n nu nz :=
  Terms (ts_I_hx ts) ((s * s) *: ts_I_ux ts) (ts_I_hz ts) (fun i => s *: ts_I_uz ts i)
  (ts_K_u_squeezed ts) (fun i => (s * s) *: ts_K_z_squeezed ts i) ((s * s) *: ts_A_sum ts) (ts_B_sum ts) (ts_c_sum ts)
  (ts_y ts) (s *: ts_I_uz_sum ts).

Section Terms.
Variables (n nu nz : nat) (m : gp nu nz) (ig : integrals n nu nz) (y : 'I_n -> R).
Hypothesis Ku : spd (K_u m).
Notation m' := (scale_gp s m).
Notation ts := (construct_terms chol m ig y).
Notation ts1 := (construct_terms chol m' (scale_integrals s ig) y).

Lemma K_u_inv_sc : K_u_inv chol m' = (t * t) *: K_u_inv chol m.
Proof. exact: pd_inv_sc. Qed.

Lemma terms_sc : ts1 = sct ts.
Proof.
  rewrite /sct.
  have E1 i : (s *: ig_uz ig i)^T *m K_u_inv chol m' *m (s *: ig_uz ig i) = (ig_uz ig i)^T *m K_u_inv chol m *m ig_uz ig i.
    rewrite K_u_inv_sc trZ -!scalemxAl -!scalemxAr -!scalemxAl !scalerA; match goal with |- ?k *: _ = _ => have -> : k = 1 by cancel end; by rewrite scale1r.
  have E2 i : (s *: ig_uz ig i) *m K_z_inv chol m' *m (s *: ig_uz ig i)^T = (s * s) *: (ig_uz ig i *m K_z_inv chol m *m (ig_uz ig i)^T).
    by rewrite trZ -!scalemxAl -!scalemxAr scalerA.
  rewrite /construct_terms; cbn [ts_I_hx ts_I_ux ts_I_hz ts_I_uz ts_K_u_squeezed ts_K_z_squeezed ts_A_sum ts_B_sum ts_c_sum ts_y ts_I_uz_sum ig_hx ig_ux ig_hz ig_uz scale_integrals].
  have F1 : (fun i => (s *: ig_uz ig i)^T *m K_u_inv chol m' *m (s *: ig_uz ig i)) = (fun i => (ig_uz ig i)^T *m K_u_inv chol m *m ig_uz ig i).
    exact: functional_extensionality.
  have F2 : (fun i => (s *: ig_uz ig i) *m K_z_inv chol m' *m (s *: ig_uz ig i)^T) = (fun i => (s * s) *: (ig_uz ig i *m K_z_inv chol m *m (ig_uz ig i)^T)).
    exact: functional_extensionality.
  have Z1 (a : R) p q (M : 'M[R]_(p, q)) : a *: ((s * s)%Re *: M) = (s * s) *: (a *: M) by rewrite !scalerA mulrC.
  have Z2 p q (A M : 'M[R]_(p, q)) : sum_mul ((t * t) *: A) ((s * s) *: M) = sum_mul A M.
    by rewrite sum_mulZl sum_mulZr mulrA ttss mul1r.
  rewrite F1 F2; congr Terms.
  - by rewrite Z1 scalerBr scaler_sumr; congr (_ - _); apply: eq_bigr => i _; exact: E2.
  - by congr (_ - _); apply: eq_bigr => i _; exact: E1.
  - rewrite K_u_inv_sc Z1 Z2; congr (_ + _)%Re.
    by apply: eq_bigr => i _; rewrite E2 Z2.
  - by rewrite scaler_sumr; apply: eq_bigr => i _; rewrite !scalerA mulrC.
Qed.

End Terms.

Section Use.
Variables (n nu nz : nat) (m : gp nu nz) (ts : terms n nu nz).
Hypothesis Ku : spd (K_u m).
Notation m' := (scale_gp s m).
Notation ts1 := (sct ts).

Lemma Zc a p q (M : 'M[R]_(p, q)) : (s * s)%Re *: (a *: M) = a *: ((s * s)%Re *: M).
Proof. by rewrite !scalerA mulrC. Qed.
Lemma q_u_sc z : q_u_optimal m' ts1 z = scale_q s (q_u_optimal m ts z).
Proof.
  rewrite /q_u_optimal /q_optimal /scale_q; cbn [nn_lam nn_prec ts_A_sum ts_I_uz ts_I_uz_sum sct noise K_u scale_gp]; congr NatNormal.
    by rewrite -scalemxAl !scalerA mulrC.
  rewrite [RHS]scalerDr; congr (_ + _); rewrite [RHS]Zc; congr (_ *: _); rewrite [RHS]scalerDr; congr (_ + _).
  rewrite scaler_sumr; apply: eq_bigr => i _.
  by rewrite -scalemxAl trZ -scalemxAl -scalemxAr scalerA.
Qed.
Lemma q_u_mf_sc qz : q_u_optimal_mean_field chol m' ts1 qz = scale_q s (q_u_optimal_mean_field chol m ts qz).
Proof.
  rewrite /q_u_optimal_mean_field /q_optimal_m2 /scale_q; cbn [nn_lam nn_prec ts_A_sum ts_I_uz ts_I_uz_sum sct noise K_u scale_gp]; congr NatNormal.
    by rewrite -scalemxAl !scalerA mulrC.
  rewrite [RHS]scalerDr; congr (_ + _); rewrite [RHS]Zc; congr (_ *: _); rewrite [RHS]scalerDr; congr (_ + _).
  rewrite scaler_sumr; apply: eq_bigr => i _.
  by rewrite trZ -!scalemxAl -scalemxAr scalerA.
Qed.
Lemma q_z_sc u : q_z_optimal m' ts1 (t *: u) = q_z_optimal m ts u.
Proof.
  rewrite /q_z_optimal /q_optimal; cbn [nn_lam nn_prec ts_B_sum ts_I_uz ts_I_uz_sum sct noise K_z scale_gp]; congr NatNormal.
    by rewrite trZ -scalemxAl -scalemxAr (scalerA s) st' scale1r.
  congr (_ + _ *: (_ + _)); apply: eq_bigr => i _.
  by rewrite trZ -scalemxAl -scalemxAr (scalerA s) st' scale1r.
Qed.
Lemma q_z_mf_sc qu : spd (nn_prec qu) -> q_z_optimal_mean_field chol m' ts1 (scale_q s qu) = q_z_optimal_mean_field chol m ts qu.
Proof.
  move=> H; rewrite /q_z_optimal_mean_field /q_optimal_m2 mean_sc // m2_sc //.
  cbn [nn_lam nn_prec ts_B_sum ts_I_uz ts_I_uz_sum sct noise K_z scale_gp]; congr NatNormal.
    by rewrite trZ -scalemxAl -scalemxAr (scalerA s) st' scale1r.
  congr (_ + _ *: (_ + _)); apply: eq_bigr => i _.
  rewrite !trZ -!scalemxAl -!scalemxAr -!scalemxAl !scalerA; match goal with |- ?k *: _ = _ => have -> : k = 1 by cancel end.
  by rewrite scale1r.
Qed.

Lemma Z2 p q (A M : 'M[R]_(p, q)) : sum_mul ((s * s) *: A) ((t * t) *: M) = sum_mul A M.
Proof. by rewrite sum_mulZl sum_mulZr mulrA (mulrC (s * s)) ttss mul1r. Qed.
Lemma Z2' p q (A M : 'M[R]_(p, q)) : sum_mul ((t * t) *: A) ((s * s) *: M) = sum_mul A M.
Proof. by rewrite sum_mulC Z2 sum_mulC. Qed.
Lemma Iz p q (A : 'M[R]_(p, q)) (x : 'M[R]_q) :
  s *: A *m x *m (s *: A)^T = (s * s) *: (A *m x *m A^T).
Proof. by rewrite trZ -!scalemxAl -scalemxAr scalerA. Qed.

Lemma moments_sc u u2 z z2 i : predict_moments chol m' ts1 (t *: u) ((t * t) *: u2) z z2 i = predict_moments chol m ts u u2 z z2 i.
Proof.
  rewrite /predict_moments K_u_inv_sc // -[K_z_inv chol m']/(K_z_inv chol m).
  cbn [ts_I_hx ts_I_ux ts_I_hz ts_I_uz ts_K_u_squeezed ts_K_z_squeezed sct]; congr pair.
    by rewrite trZ -!scalemxAl -scalemxAr -scalemxAl scalerA ts' scale1r.
  by rewrite -scalerBr Z2 !Z2' Iz // Z2'.
Qed.

Lemma elbo_at_sc pu pz qu qz : spd (nn_prec pu) -> spd (nn_prec qu) ->
  elbo_at chol m' ts1 (scale_q s pu) pz (scale_q s qu) qz = elbo_at chol m ts pu pz qu qz.
Proof.
  move=> Hp Hq; rewrite /elbo_at kl_sc // m2_sc // mean_sc //.
  cbn [ts_y ts_A_sum ts_B_sum ts_c_sum ts_I_uz ts_I_uz_sum sct noise scale_gp].
  rewrite Z2 -scalemxAl sum_mulZl sum_mulZr mulrA ts' mul1r.
  have -> : \sum_i sum_mul (s *: ts_I_uz ts i *m m2 chol qz *m (s *: ts_I_uz ts i)^T) ((t * t) *: m2 chol qu) =
            \sum_i sum_mul (ts_I_uz ts i *m m2 chol qz *m (ts_I_uz ts i)^T) (m2 chol qu).
    by apply: eq_bigr => i _; rewrite Iz // Z2.
  by [].
Qed.

Lemma log_Z_u_sc u : log_Z_u chol m' ts1 (t *: u) = log_Z_u chol m ts u.
Proof.
  rewrite /log_Z_u q_z_sc; cbn [ts_y ts_A_sum ts_c_sum sct noise K_z scale_gp].
  have -> : sum_mul (t *: u) ((s * s) *: ts_A_sum ts *m (t *: u)) = sum_mul u (ts_A_sum ts *m u); last by [].
  rewrite -scalemxAl -scalemxAr scalerA sum_mulZl sum_mulZr mulrA; have -> : t * (s * s * t) = 1 by cancel.
  by rewrite mul1r.
Qed.
End Use.

(** * States, fits and predictions *)

Lemma p_u_sc nu nz (m : gp nu nz) ap : p_u (scale_gp s m) (scale_state s ap) = scale_q s (p_u m ap).
Proof. by rewrite /p_u /=; case: (ap_i ap) => [|i] //; rewrite /scale_q /= scaler0. Qed.
Lemma p_u_proper nu nz (m : gp nu nz) ap : spd (K_u m) -> (forall i, proper (ap_qs_u ap i)) -> proper (p_u m ap).
Proof. by move=> Ku H; rewrite /p_u; case: (ap_i ap). Qed.

Lemma set_qs_sc nu nz (ap : approx nu nz) qu qz :
  set_q_z (set_q_u (scale_state s ap) (scale_q s qu)) qz = scale_state s (set_q_z (set_q_u ap qu) qz).
Proof.
  rewrite /set_q_z /set_q_u /scale_state /=; congr Approx.
  by apply: functional_extensionality => i; case: (i == ap_i ap).
Qed.

Section States.
Variables (n nu nz : nat) (m : gp nu nz) (ts : terms n nu nz) (ap : approx nu nz).
Hypothesis Ku : spd (K_u m).
Hypothesis Hu : forall i, proper (ap_qs_u ap i).
Notation m' := (scale_gp s m).
Notation ts1 := (sct ts).
Notation ap' := (scale_state s ap).

Lemma predict_mf_sc i : predict_mean_field chol m' ts1 ap' i = predict_mean_field chol m ts ap i.
Proof.
  have P := p_u_proper Ku Hu.
  by rewrite /predict_mean_field p_u_sc mean_sc // m2_sc // moments_sc.
Qed.

Lemma elbo_sc (Hf : forall q, spd (nn_prec q) -> spd (nn_prec (q_u_optimal_mean_field chol m ts q))) co : proper (q_z ap) ->
  elbo chol m' ts1 ap' co = elbo chol m ts ap co.
Proof.
  move=> Hz; have P := p_u_proper Ku Hu; have Q : proper (q_u ap) by exact: Hu.
  have E qz : elbo_at chol m' ts1 (p_u m' ap') (p_z m' ap') (q_u ap') qz = elbo_at chol m ts (p_u m ap) (p_z m ap) (q_u ap) qz.
    by rewrite p_u_sc; exact: elbo_at_sc.
  have Eu qz : proper qz -> elbo_at chol m' ts1 (p_u m' ap') (p_z m' ap') (q_u_optimal_mean_field chol m' ts1 qz) qz
    = elbo_at chol m ts (p_u m ap) (p_z m ap) (q_u_optimal_mean_field chol m ts qz) qz.
    by move=> Hq; rewrite p_u_sc q_u_mf_sc; apply: elbo_at_sc => //; exact: Hf.
  have Ez : q_z_optimal_mean_field chol m' ts1 (q_u ap') = q_z_optimal_mean_field chol m ts (q_u ap) by exact: q_z_mf_sc.
  rewrite /elbo; case: co => [c|]; last by rewrite E.
  by rewrite Ez E (Eu _ Hz).
Qed.

Lemma collapsed_z_sc us : elbo_collapsed_z chol m' ts1 ap' [seq t *: u | u <- us] = elbo_collapsed_z chol m ts ap us.
Proof.
  have P := p_u_proper Ku Hu; have Q : proper (q_u ap) by exact: Hu.
  rewrite /elbo_collapsed_z; have -> : [seq log_Z_u chol m' ts1 u | u <- [seq t *: u | u <- us]] = [seq log_Z_u chol m ts u | u <- us].
    by rewrite -map_comp; apply: eq_map => u /=; exact: log_Z_u_sc.
  rewrite p_u_sc -[q_u ap']/(scale_q s (q_u ap)) kl_sc //.
Qed.
End States.

Lemma structured_sc n n' nu nz (m : gp nu nz) (tsd : terms n nu nz) (ts : terms n' nu nz) us i : spd (K_u m) ->
  predict_structured chol (scale_gp s m) (sct tsd) (sct ts) [seq t *: u | u <- us] i = predict_structured chol m tsd ts us i.
Proof.
  move=> Ku; rewrite /predict_structured size_map !big_map.
  have E u : predict_moments chol (scale_gp s m) (sct ts) (t *: u) ((t *: u) *m (t *: u)^T)
      (mean chol (q_z_optimal (scale_gp s m) (sct tsd) (t *: u))) (m2 chol (q_z_optimal (scale_gp s m) (sct tsd) (t *: u))) i
    = predict_moments chol m ts u (u *m u^T) (mean chol (q_z_optimal m tsd u)) (m2 chol (q_z_optimal m tsd u)) i.
    by rewrite q_z_sc trZ -scalemxAl -scalemxAr scalerA moments_sc.
  have E1 : \sum_(u <- us) (predict_moments chol (scale_gp s m) (sct ts) (t *: u) ((t *: u) *m (t *: u)^T)
      (mean chol (q_z_optimal (scale_gp s m) (sct tsd) (t *: u))) (m2 chol (q_z_optimal (scale_gp s m) (sct tsd) (t *: u))) i).1
    = \sum_(u <- us) (predict_moments chol m ts u (u *m u^T) (mean chol (q_z_optimal m tsd u)) (m2 chol (q_z_optimal m tsd u)) i).1.
    by apply: eq_bigr => u _; rewrite E.
  have E2 : \sum_(u <- us) (predict_moments chol (scale_gp s m) (sct ts) (t *: u) ((t *: u) *m (t *: u)^T)
      (mean chol (q_z_optimal (scale_gp s m) (sct tsd) (t *: u))) (m2 chol (q_z_optimal (scale_gp s m) (sct tsd) (t *: u))) i).2
    = \sum_(u <- us) (predict_moments chol m ts u (u *m u^T) (mean chol (q_z_optimal m tsd u)) (m2 chol (q_z_optimal m tsd u)) i).2.
    by apply: eq_bigr => u _; rewrite E.
  by rewrite E1 E2.
Qed.

Lemma kernel_sc nu a (Ku : 'M[R]_nu) i_hx I_ux (tk : 'I_a -> R) u : spd Ku ->
  sample_kernel chol ((s * s)%Re *: Ku) i_hx (fun t1 t2 => (s * s)%Re *: I_ux t1 t2) tk (t *: u) = sample_kernel chol Ku i_hx I_ux tk u.
Proof.
  move=> H; have U := chol_unit H; rewrite /sample_kernel /kernel_approx chol_sc //.
  apply/matrixP=> p q; rewrite !mxE.
  have -> : solve (s *: chol Ku) 1%:M = t *: solve (chol Ku) 1%:M by exact: solve_sc.
  set L := solve (chol Ku) 1%:M; set I := I_ux _ _.
  have -> : t *: L *m ((s * s)%Re *: I) *m (t *: L)^T = L *m I *m L^T.
    rewrite trZ -!scalemxAl -!scalemxAr -!scalemxAl !scalerA; match goal with |- ?k *: _ = _ => have -> : k = 1 by cancel end.
    by rewrite scale1r.
  have -> : t *: L *m (((s * s)%Re *: Ku) *m (t *: u)) = L *m (Ku *m u); last by [].
  rewrite -!scalemxAl -!scalemxAr -?scalemxAl !scalerA; match goal with |- ?k *: _ = _ => have -> : k = 1 by cancel end.
  by rewrite scale1r.
Qed.

(** Coordinate ascent visits the same iterates. *)
Lemma ca_sc n nu nz (m : gp nu nz) (ts : terms n nu nz)
    (Hf : forall q, spd (nn_prec q) -> spd (nn_prec (q_u_optimal_mean_field chol m ts q)))
    (Hg : forall q, spd (nn_prec q) -> spd (nn_prec (q_z_optimal_mean_field chol m ts q))) k k' qu qz : spd (nn_prec qu) -> spd (nn_prec qz) ->
  let r := ca_loop chol m ts k qu qz in
  let r' := ca_loop chol (scale_gp s m) (sct ts) k' (scale_q s qu) qz in
  forall i x x', (i < size r.2)%N -> (i < size r'.2)%N -> nth x' r'.2 i = scale_pair s (nth x r.2 i).
Proof.
  elim: k k' qu qz => [|k IH] [|k'] qu qz Hu Hz //= i x x'.
  rewrite !q_u_mf_sc (q_z_mf_sc _ _ (Hf _ Hz)).
  set qu1 := q_u_optimal_mean_field chol m ts qz; set qz1 := q_z_optimal_mean_field chol m ts qu1.
  have H1 : spd (nn_prec qu1) by exact: Hf. have H2 : spd (nn_prec qz1) by exact: Hg.
  case: (Rlt_dec (diff qu1 qz1 qu qz) _) => ?; case: (Rlt_dec (diff (scale_q s qu1) _ _ _) _) => ? /=; case: i => [|i] //=; rewrite ?ltnS ?ltn0 //.
  exact: IH.
Qed.

Lemma sample_sc k num (p : natnormal k) (e : 'M[R]_(k, num)) : spd (nn_prec p) ->
  sample chol (scale_q s p) (s *: e) = t *: sample chol p e.
Proof.
  move=> H; rewrite /sample [nn_prec _]/= cholsolve_sc //.
  have -> : s *: e + \matrix_(i, j) nn_lam (scale_q s p) i 0 = s *: (e + \matrix_(i, j) nn_lam p i 0).
    by apply/matrixP=> i j; rewrite !mxE mulrDr.
  by rewrite cholsolveZ scalerA -mulrA ts' mulr1.
Qed.

Lemma gibbs_sc n nu nz (m : gp nu nz) (ts : terms n nu nz) (Hq : forall z, spd (nn_prec (q_u_optimal m ts z))) es u z :
  gibbs chol (scale_gp s m) (sct ts) [seq (s *: e.1, e.2) | e <- es] (t *: u) z =
  (t *: (gibbs chol m ts es u z).1, (gibbs chol m ts es u z).2).
Proof.
  elim: es u z => [|e es IH] u z //=; rewrite q_u_sc sample_sc // q_z_sc.
  exact: IH.
Qed.

Lemma logdet_sc k (A : 'M[R]_k) : spd A -> logdet chol ((s * s)%Re *: A) = (2 * (INR k * ln s) + logdet chol A)%Re.
Proof.
  move=> H; rewrite /logdet chol_sc //; have [_ [P _]] := Hc H.
  have -> : \sum_i ln ((s *: chol A) i i) = (INR k * ln s + \sum_i ln (chol A i i))%Re; last by set S := \sum_i _; rring.
  have -> : \sum_i ln ((s *: chol A) i i) = \sum_i (ln s + ln (chol A i i)).
    by apply: eq_bigr => i _; rewrite mxE; apply: ln_mult.
  by rewrite big_split /= sumr_const card_ord -mulr_natl INRE.
Qed.
Lemma logpdf_aux (a n' l c q : R) : (- (1 / 2) * (- (2 * (n' * l) + a) + c + q) = - (1 / 2) * (- a + c + q) + n' * l)%Re.
Proof. field. Qed.
Lemma logpdf_sc k (p : natnormal k) x : spd (nn_prec p) -> logpdf chol (scale_q s p) (t *: x) = (logpdf chol p x + INR k * ln s)%Re.
Proof.
  move=> H; rewrite /logpdf mean_sc // [nn_prec _]/= logdet_sc //.
  rewrite -scalerBr -scalemxAl -scalemxAr scalerA sum_mulZl sum_mulZr !mulrA ttss' mul1r; exact: logpdf_aux.
Qed.

Lemma elbo_gibbs_aux (a b c : R) : (a + (b + c) = a + b + c)%Re. Proof. ring. Qed.
Lemma elbo_gibbs_sc n nu nz (m : gp nu nz) (ts : terms n nu nz) (ap : approx nu nz)
  (Hq : forall z, spd (nn_prec (q_u_optimal m ts z))) es u z : spd (K_u m) -> (forall i, proper (ap_qs_u ap i)) ->
  elbo_gibbs chol (scale_gp s m) (sct ts) (scale_state s ap) [seq (s *: e.1, e.2) | e <- es] (t *: u) z =
  let r := elbo_gibbs chol m ts ap es u z in ((r.1.1 + INR nu * ln s)%Re, t *: r.1.2, r.2).
Proof.
  move=> Ku Hu; rewrite /elbo_gibbs gibbs_sc //; cbn [fst snd].
  rewrite log_Z_u_sc p_u_sc logpdf_sc; last exact: p_u_proper.
  by rewrite elbo_gibbs_aux.
Qed.
End Scale.
