(** Proofs that the sign of the signal does not matter to the approximations. *)
From Coq Require Import Reals Lra String FunctionalExtensionality.
From mathcomp Require Import all_ssreflect all_algebra.
From Verif Require Import Py RMat RChol NormalModel NormalSpec NormalProofs RTac ApproxModel ApproxSpec ApproxProofs EvidenceModel OutSpec.
Set Implicit Arguments.
Unset Strict Implicit.
Unset Printing Implicit Defensive.
Import GRing.Theory.
Local Open Scope ring_scope.
Delimit Scope R_scope with Re.

Section Flip.
Variable chol : forall n, 'M[R]_n -> 'M[R]_n.

Lemma cholsolveN n k (L : 'M[R]_n) (b : 'M[R]_(n, k)) : cholsolve L (- b) = - cholsolve L b.
Proof. by rewrite /cholsolve /solve !mulmxN. Qed.
Lemma mean_neg n (p : natnormal n) : mean chol (neg_q p) = - mean chol p.
Proof. exact: cholsolveN. Qed.
Lemma trN p q (a : 'M[R]_(p, q)) : (- a)^T = - a^T. Proof. by apply/matrixP => i j; rewrite !mxE. Qed.
Lemma NN p q r (a : 'M[R]_(p, q)) (b : 'M[R]_(r, q)) : (- a) *m (- b)^T = a *m b^T.
Proof. by rewrite trN mulmxN mulNmx opprK. Qed.
Lemma m2_neg n (p : natnormal n) : m2 chol (neg_q p) = m2 chol p.
Proof. by rewrite /m2 /neg_q; cbn [nn_lam nn_prec]; rewrite NN. Qed.
Lemma sum_mulNN p q (a b : 'M[R]_(p, q)) : sum_mul (- a) (- b) = sum_mul a b.
Proof. by rewrite sum_mulNl sum_mulC sum_mulNl sum_mulC opprK. Qed.
Lemma sample_neg n k (p : natnormal n) (e : 'M[R]_(n, k)) : sample chol (neg_q p) (- e) = - sample chol p e.
Proof.
  rewrite /sample /neg_q; cbn [nn_lam nn_prec]; rewrite -cholsolveN; congr cholsolve.
  by apply/matrixP => i j; rewrite !mxE opprD.
Qed.
Lemma subNN n (a b : 'cV[R]_n) : - a - - b = - (a - b). Proof. by rewrite opprD. Qed.
Lemma kl_neg n (p q : natnormal n) : kl chol (neg_q p) (neg_q q) = kl chol p q.
Proof. by rewrite /kl !mean_neg subNN; cbn [nn_prec neg_q]; rewrite mulmxN sum_mulNN. Qed.
Lemma logpdf_neg n (p : natnormal n) x : logpdf chol (neg_q p) (- x) = logpdf chol p x.
Proof. by rewrite /logpdf !mean_neg subNN; cbn [nn_prec neg_q]; rewrite mulmxN sum_mulNN. Qed.

(** The terms of the data with the other sign. *)
Definition flip n nu nz (ts : terms n nu nz) : terms n nu nz :=
  Terms (ts_I_hx ts) (ts_I_ux ts) (ts_I_hz ts) (ts_I_uz ts) (ts_K_u_squeezed ts) (ts_K_z_squeezed ts) (ts_A_sum ts) (ts_B_sum ts)
    (ts_c_sum ts) (fun i => - ts_y ts i)%Re (- ts_I_uz_sum ts).
Lemma terms_flip n nu nz (m : gp nu nz) (ig : integrals n nu nz) y :
  construct_terms chol m ig (fun i => - y i)%Re = flip (construct_terms chol m ig y).
Proof.
  rewrite /construct_terms /flip; cbn [ts_I_hx ts_I_ux ts_I_hz ts_I_uz ts_K_u_squeezed ts_K_z_squeezed ts_A_sum ts_B_sum ts_c_sum ts_y ts_I_uz_sum].
  by congr Terms; rewrite -sumrN; apply: eq_bigr => i _; rewrite -scaleNr.
Qed.

Section Use.
Variables (n nu nz : nat) (m : gp nu nz) (ts : terms n nu nz).

Lemma q_u_flip z : q_u_optimal m (flip ts) z = neg_q (q_u_optimal m ts z).
Proof. by rewrite /q_u_optimal /q_optimal /neg_q; cbn [flip ts_I_uz_sum ts_A_sum ts_I_uz nn_lam nn_prec]; rewrite mulNmx scalerN. Qed.
Lemma q_z_flip u : q_z_optimal m (flip ts) (- u) = q_z_optimal m ts u.
Proof.
  rewrite /q_z_optimal /q_optimal; cbn [flip ts_I_uz_sum ts_B_sum ts_I_uz]; congr NatNormal.
  - by rewrite trN mulNmx mulmxN opprK.
  - by congr (_ + _ *: (_ + _)); apply: eq_bigr => i _; rewrite mulmxN NN.
Qed.
Lemma q_u_mf_flip q : q_u_optimal_mean_field chol m (flip ts) q = neg_q (q_u_optimal_mean_field chol m ts q).
Proof. by rewrite /q_u_optimal_mean_field /q_optimal_m2 /neg_q; cbn [flip ts_I_uz_sum ts_A_sum ts_I_uz nn_lam nn_prec]; rewrite mulNmx scalerN. Qed.
Lemma q_z_mf_flip q : q_z_optimal_mean_field chol m (flip ts) (neg_q q) = q_z_optimal_mean_field chol m ts q.
Proof.
  rewrite /q_z_optimal_mean_field /q_optimal_m2 mean_neg m2_neg; cbn [flip ts_I_uz_sum ts_B_sum ts_I_uz]; congr NatNormal.
  by rewrite trN mulNmx mulmxN opprK.
Qed.

(** Predictions do not read the data. *)
Lemma moments_neg u u2 z z2 i :
  predict_moments chol m ts (- u) u2 z z2 i = (let r := predict_moments chol m ts u u2 z z2 i in (- r.1, r.2)%Re).
Proof. by rewrite /predict_moments; cbn [fst snd]; rewrite trN !mulNmx mxE. Qed.

Lemma elbo_at_flip pu pz qu qz : elbo_at chol m (flip ts) (neg_q pu) pz (neg_q qu) qz = elbo_at chol m ts pu pz qu qz.
Proof.
  rewrite /elbo_at kl_neg m2_neg mean_neg; cbn [flip ts_A_sum ts_B_sum ts_I_uz ts_c_sum ts_y ts_I_uz_sum].
  rewrite (mulNmx (ts_I_uz_sum ts)) sum_mulNN.
  rewrite [X in (_ * (X + _ + _ + _ + _ - _))%Re](eq_bigr (fun i => (ts_y ts i * ts_y ts i)%Re)) //.
  by move=> i _; change ((- ts_y ts i * - ts_y ts i = ts_y ts i * ts_y ts i)%Re); ring.
Qed.
Lemma log_Z_u_flip u : log_Z_u chol m (flip ts) (- u) = log_Z_u chol m ts u.
Proof.
  rewrite /log_Z_u; cbv zeta; rewrite q_z_flip; cbn [flip ts_A_sum ts_c_sum ts_y]; rewrite mulmxN sum_mulNN.
  rewrite [X in ((X + _ + _) / _)%Re](eq_bigr (fun i => (ts_y ts i * ts_y ts i)%Re)) //.
  by move=> i _; change ((- ts_y ts i * - ts_y ts i = ts_y ts i * ts_y ts i)%Re); ring.
Qed.

Lemma p_u_neg ap : p_u m (neg_state ap) = neg_q (p_u m ap).
Proof. by rewrite /p_u /neg_state; cbn [ap_i ap_qs_u]; case: (ap_i ap) => [|i] //; rewrite /neg_q; cbn [nn_lam nn_prec]; rewrite oppr0. Qed.
Lemma p_z_neg ap : p_z m (neg_state ap) = p_z m ap. Proof. by []. Qed.
Lemma q_u_neg (ap : approx nu nz) : q_u (neg_state ap) = neg_q (q_u ap). Proof. by []. Qed.
Lemma q_z_neg (ap : approx nu nz) : q_z (neg_state ap) = q_z ap. Proof. by []. Qed.

Lemma predict_mf_neg ap i : predict_mean_field chol m ts (neg_state ap) i = let r := predict_mean_field chol m ts ap i in (- r.1, r.2)%Re.
Proof.
  rewrite /predict_mean_field p_u_neg p_z_neg mean_neg m2_neg moments_neg; cbn [fst snd]; congr pair.
  set r := predict_moments _ _ _ _ _ _ _ _.
  by change ((r.2 - - r.1 * - r.1 + noise m = r.2 - r.1 * r.1 + noise m)%Re); ring.
Qed.
Lemma elbo_flip ap co : elbo chol m (flip ts) (neg_state ap) co = elbo chol m ts ap co.
Proof. by rewrite /elbo p_u_neg p_z_neg q_u_neg q_z_neg q_z_mf_flip q_u_mf_flip !elbo_at_flip. Qed.

Lemma rms_neg k l (a b : 'M[R]_(k, l)) : rms (- a) (- b) = rms a b.
Proof.
  rewrite /rms; congr (sqrt (_ / _)%Re); apply: eq_bigr => i _; apply: eq_bigr => j _; rewrite !mxE.
  by set x := a i j; set y := b i j; change (((- x - - y) * (- x - - y) = (x - y) * (x - y))%Re); ring.
Qed.
Lemma diff_neg (qu qu' : natnormal nu) (qz qz' : natnormal nz) : diff (neg_q qu) qz (neg_q qu') qz' = diff qu qz qu' qz'.
Proof. by rewrite /diff /neg_q; cbn [nn_lam nn_prec]; rewrite rms_neg. Qed.
Lemma ca_flip k qu qz : ca_loop chol m (flip ts) k (neg_q qu) qz =
  let r := ca_loop chol m ts k qu qz in (neg_pair r.1, [seq neg_pair q | q <- r.2]).
Proof.
  elim: k qu qz => [|k IH] qu qz; cbn [ca_loop]; first reflexivity.
  rewrite q_u_mf_flip q_z_mf_flip.
  set qu1 := q_u_optimal_mean_field chol m ts qz; set qz1 := q_z_optimal_mean_field chol m ts qu1.
  rewrite diff_neg; case: (Rlt_dec (diff qu1 qz1 qu qz) _) => ?; first by [].
  by rewrite IH.
Qed.
Lemma set_qs_neg (ap : approx nu nz) a b : set_q_z (set_q_u (neg_state ap) (neg_q a)) b = neg_state (set_q_z (set_q_u ap a) b).
Proof.
  rewrite /set_q_z /set_q_u /neg_state; cbn [ap_i ap_qs_u ap_qs_z]; congr Approx.
  by apply: functional_extensionality => i; case: (i == ap_i ap).
Qed.
Lemma fit_flip k ap : fit_mean_field_ca chol m (flip ts) k (neg_state ap) =
  let r := fit_mean_field_ca chol m ts k ap in (neg_state r.1, [seq neg_pair q | q <- r.2]).
Proof. by rewrite /fit_mean_field_ca q_u_neg q_z_neg ca_flip; cbn [fst snd neg_pair]; rewrite set_qs_neg. Qed.
Lemma gibbs_flip es u z : gibbs chol m (flip ts) [seq (- e.1, e.2) | e <- es] (- u) z =
  let r := gibbs chol m ts es u z in (- r.1, r.2).
Proof.
  elim: es u z => [|e es IH] u z; cbn [gibbs map]; first reflexivity.
  by cbn [fst snd]; rewrite q_u_flip sample_neg q_z_flip IH.
Qed.
Lemma elbo_gibbs_flip ap es u z : elbo_gibbs chol m (flip ts) (neg_state ap) [seq (- e.1, e.2) | e <- es] (- u) z =
  let r := elbo_gibbs chol m ts ap es u z in (r.1.1, - r.1.2, r.2).
Proof. by rewrite /elbo_gibbs gibbs_flip; cbn [fst snd]; rewrite log_Z_u_flip p_u_neg logpdf_neg. Qed.
Lemma collapsed_flip ap us : elbo_collapsed_z chol m (flip ts) (neg_state ap) [seq - u | u <- us] = elbo_collapsed_z chol m ts ap us.
Proof.
  rewrite /elbo_collapsed_z p_u_neg q_u_neg kl_neg -map_comp.
  by have -> : map (log_Z_u chol m (flip ts) \o -%R) us = map (log_Z_u chol m ts) us by apply: eq_map => u; exact: log_Z_u_flip.
Qed.
End Use.

Lemma structured_flip n n' nu nz (m : gp nu nz) (tsd : terms n nu nz) (ts : terms n' nu nz) us i :
  predict_structured chol m (flip tsd) ts [seq - u | u <- us] i = let r := predict_structured chol m tsd ts us i in (- r.1, r.2)%Re.
Proof.
  pose mm u := predict_moments chol m ts u (u *m u^T) (mean chol (q_z_optimal m tsd u)) (m2 chol (q_z_optimal m tsd u)) i.
  pose mm' u := predict_moments chol m ts u (u *m u^T) (mean chol (q_z_optimal m (flip tsd) u)) (m2 chol (q_z_optimal m (flip tsd) u)) i.
  have E u : mm' (- u) = (- (mm u).1, (mm u).2)%Re by rewrite /mm' q_z_flip NN moments_neg.
  pose us' := [seq - u | u <- us].
  have S1 : \sum_(u <- us') (mm' u).1 = - \sum_(u <- us) (mm u).1 by rewrite big_map -sumrN; apply: eq_bigr => u _; rewrite E.
  have S2 : \sum_(u <- us') (mm' u).2 = \sum_(u <- us) (mm u).2 by rewrite big_map; apply: eq_bigr => u _; rewrite E.
  have Z : size us' = size us by rewrite size_map.
  have -> : predict_structured chol m (flip tsd) ts us' i = ((\sum_(u <- us') (mm' u).1) / INR (size us'),
    (\sum_(u <- us') (mm' u).2) / INR (size us') - (\sum_(u <- us') (mm' u).1) / INR (size us') * ((\sum_(u <- us') (mm' u).1) / INR (size us')) + noise m)%Re by [].
  have -> : predict_structured chol m tsd ts us i = ((\sum_(u <- us) (mm u).1) / INR (size us),
    (\sum_(u <- us) (mm u).2) / INR (size us) - (\sum_(u <- us) (mm u).1) / INR (size us) * ((\sum_(u <- us) (mm u).1) / INR (size us)) + noise m)%Re by [].
  rewrite S1 S2 Z; cbn [fst snd]; move: (\sum_(u <- us) (mm u).1) (\sum_(u <- us) (mm u).2) (INR (size us)) => a b k; congr pair.
  - by change ((- a / k = - (a / k))%Re); rewrite /Rdiv; ring.
  - by change ((b / k - - a / k * (- a / k) + noise m = b / k - a / k * (a / k) + noise m)%Re); rewrite /Rdiv; ring.
Qed.

Lemma kernel_neg nu a (Ku : 'M[R]_nu) i_hx I_ux (tk : 'I_a -> R) u :
  sample_kernel chol Ku i_hx I_ux tk (- u) = sample_kernel chol Ku i_hx I_ux tk u.
Proof.
  rewrite /sample_kernel /kernel_approx; apply/matrixP=> p q; rewrite !mxE.
  by rewrite !mulmxN trN !mulNmx opprK.
Qed.
End Flip.
