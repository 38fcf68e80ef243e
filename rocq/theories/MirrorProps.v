(** The property C120: the sign of the filter and the excitation is not determined. *)
From Coq Require Import Reals Lra String FunctionalExtensionality.
From mathcomp Require Import all_ssreflect all_algebra.
From Verif Require Import Py RMat RChol NormalModel NormalSpec NormalProofs RTac ApproxModel ApproxSpec ApproxProofs ApproxProofs2 ApproxProps EvidenceModel OutSpec FlipProofs MirrorSpec.
Set Implicit Arguments.
Unset Strict Implicit.
Unset Printing Implicit Defensive.
Import GRing.Theory.
Local Open Scope ring_scope.
Delimit Scope R_scope with Re.

Section Mirror.
Variable chol : forall n, 'M[R]_n -> 'M[R]_n.
Section Use.
Variables (n nu nz : nat) (m : gp nu nz) (ts : terms n nu nz).

Lemma q_optimal_N a b s (A : 'M[R]_a) (I : 'I_n -> 'M[R]_(a, b)) S K x :
  q_optimal s A I S K (- x) = neg_q (q_optimal s A I S K x).
Proof.
  rewrite /q_optimal /neg_q; cbn [nn_lam nn_prec]; congr NatNormal; first by rewrite mulmxN scalerN.
  by congr (_ + _ *: (_ + _)); apply: eq_bigr => i _; rewrite mulmxN NN.
Qed.
Lemma q_u_N z : q_u_optimal m ts (- z) = neg_q (q_u_optimal m ts z). Proof. exact: q_optimal_N. Qed.
Lemma q_z_N u : q_z_optimal m ts (- u) = neg_q (q_z_optimal m ts u). Proof. exact: q_optimal_N. Qed.
Lemma q_u_mf_N q : q_u_optimal_mean_field chol m ts (neg_q q) = neg_q (q_u_optimal_mean_field chol m ts q).
Proof. by rewrite /q_u_optimal_mean_field /q_optimal_m2 mean_neg m2_neg /neg_q; cbn [nn_lam nn_prec]; rewrite mulmxN scalerN. Qed.
Lemma q_z_mf_N q : q_z_optimal_mean_field chol m ts (neg_q q) = neg_q (q_z_optimal_mean_field chol m ts q).
Proof. by rewrite /q_z_optimal_mean_field /q_optimal_m2 mean_neg m2_neg /neg_q; cbn [nn_lam nn_prec]; rewrite mulmxN scalerN. Qed.

Lemma moments_NN u u2 z z2 i : predict_moments chol m ts (- u) u2 (- z) z2 i = predict_moments chol m ts u u2 z z2 i.
Proof. by rewrite /predict_moments trN !mulNmx mulmxN opprK. Qed.
Lemma elbo_at_N pu pz qu qz : elbo_at chol m ts (neg_q pu) (neg_q pz) (neg_q qu) (neg_q qz) = elbo_at chol m ts pu pz qu qz.
Proof. by rewrite /elbo_at !kl_neg !m2_neg !mean_neg mulmxN sum_mulNN. Qed.
Lemma p_u_N ap : p_u m (mirror ap) = neg_q (p_u m ap).
Proof. by rewrite /p_u /mirror; cbn [ap_i ap_qs_u]; case: (ap_i ap) => [|i] //; rewrite /neg_q; cbn [nn_lam nn_prec]; rewrite oppr0. Qed.
Lemma p_z_N ap : p_z m (mirror ap) = neg_q (p_z m ap).
Proof. by rewrite /p_z /mirror; cbn [ap_i ap_qs_z]; case: (ap_i ap) => [|i] //; rewrite /neg_q; cbn [nn_lam nn_prec]; rewrite oppr0. Qed.
Lemma qu_N (ap : approx nu nz) : q_u (mirror ap) = neg_q (q_u ap). Proof. by []. Qed.
Lemma qz_N (ap : approx nu nz) : q_z (mirror ap) = neg_q (q_z ap). Proof. by []. Qed.
Lemma elbo_N ap co : elbo chol m ts (mirror ap) co = elbo chol m ts ap co.
Proof. by rewrite /elbo p_u_N p_z_N qu_N qz_N q_z_mf_N q_u_mf_N !elbo_at_N. Qed.
Lemma predict_N ap i : predict_mean_field chol m ts (mirror ap) i = predict_mean_field chol m ts ap i.
Proof. by rewrite /predict_mean_field p_u_N p_z_N !mean_neg !m2_neg moments_NN. Qed.
Lemma diff_N (qu qu' : natnormal nu) (qz qz' : natnormal nz) : diff (neg_q qu) (neg_q qz) (neg_q qu') (neg_q qz') = diff qu qz qu' qz'.
Proof. by rewrite /diff /neg_q; cbn [nn_lam nn_prec]; rewrite !rms_neg. Qed.
Lemma ca_N k qu qz : ca_loop chol m ts k (neg_q qu) (neg_q qz) =
  let r := ca_loop chol m ts k qu qz in (mirror_pair r.1, [seq mirror_pair q | q <- r.2]).
Proof.
  elim: k qu qz => [|k IH] qu qz; cbn [ca_loop]; first reflexivity.
  rewrite q_u_mf_N q_z_mf_N.
  set qu1 := q_u_optimal_mean_field chol m ts qz; set qz1 := q_z_optimal_mean_field chol m ts qu1.
  rewrite diff_N; case: (Rlt_dec (diff qu1 qz1 qu qz) _) => ?; first by [].
  by rewrite IH.
Qed.
Lemma set_qs_N (ap : approx nu nz) a b : set_q_z (set_q_u (mirror ap) (neg_q a)) (neg_q b) = mirror (set_q_z (set_q_u ap a) b).
Proof.
  rewrite /set_q_z /set_q_u /mirror; cbn [ap_i ap_qs_u ap_qs_z]; congr Approx;
  by apply: functional_extensionality => i; case: (i == ap_i ap).
Qed.
Lemma fit_N k ap : fit_mean_field_ca chol m ts k (mirror ap) =
  let r := fit_mean_field_ca chol m ts k ap in (mirror r.1, [seq mirror_pair q | q <- r.2]).
Proof. by rewrite /fit_mean_field_ca qu_N qz_N ca_N; cbn [fst snd mirror_pair]; rewrite set_qs_N. Qed.
Lemma log_Z_u_N u : log_Z_u chol m ts (- u) = log_Z_u chol m ts u.
Proof.
  rewrite /log_Z_u; cbv zeta; rewrite q_z_N mulmxN sum_mulNN; cbn [neg_q nn_lam nn_prec].
  by rewrite /iqf /solve mulmxN sum_mulNN.
Qed.
Lemma gibbs_N es u z : gibbs chol m ts [seq (- e.1, - e.2) | e <- es] (- u) (- z) = let r := gibbs chol m ts es u z in (- r.1, - r.2).
Proof.
  elim: es u z => [|e es IH] u z; cbn [gibbs map]; first reflexivity.
  by cbn [fst snd]; rewrite q_u_N sample_neg q_z_N sample_neg IH.
Qed.
End Use.

Lemma structured_N n n' nu nz (m : gp nu nz) (tsd : terms n nu nz) (ts : terms n' nu nz) us i :
  predict_structured chol m tsd ts [seq - u | u <- us] i = predict_structured chol m tsd ts us i.
Proof.
  pose mm u := predict_moments chol m ts u (u *m u^T) (mean chol (q_z_optimal m tsd u)) (m2 chol (q_z_optimal m tsd u)) i.
  have E u : mm (- u) = mm u by rewrite /mm q_z_N mean_neg m2_neg NN moments_NN.
  pose us' := [seq - u | u <- us].
  have S1 : \sum_(u <- us') (mm u).1 = \sum_(u <- us) (mm u).1 by rewrite big_map; apply: eq_bigr => u _; rewrite E.
  have S2 : \sum_(u <- us') (mm u).2 = \sum_(u <- us) (mm u).2 by rewrite big_map; apply: eq_bigr => u _; rewrite E.
  have Z : size us' = size us by rewrite size_map.
  have F vs : predict_structured chol m tsd ts vs i = ((\sum_(u <- vs) (mm u).1) / INR (size vs),
    (\sum_(u <- vs) (mm u).2) / INR (size vs) - (\sum_(u <- vs) (mm u).1) / INR (size vs) * ((\sum_(u <- vs) (mm u).1) / INR (size vs)) + noise m)%Re by [].
  by rewrite (F us') (F us) S1 S2 Z.
Qed.
End Mirror.

(** Nothing that the data or the user sees tells (u, z) from (-u, -z): an approximation with the
    posteriors of -u and -z, and with samplers whose noise has the other sign, gives the same
    bounds, predictions of the signal and samples of the kernel, and stays the mirror image of
    the other one.  Only the predicted excitation has the other sign. *)
Theorem C120_mirror :
  forall chol n n' nu nz (m : gp nu nz) (data : terms n nu nz) (new : terms n' nu nz),
    (forall k (p : natnormal k), mean chol (neg_q p) = - mean chol p /\ var chol (neg_q p) = var chol p
       /\ forall e : 'cV[R]_k, sample chol (neg_q p) (- e) = - sample chol p e)
    (* conditionals and updates *)
    /\ (forall z, q_u_optimal m data (- z) = neg_q (q_u_optimal m data z))
    /\ (forall u, q_z_optimal m data (- u) = neg_q (q_z_optimal m data u))
    /\ (forall q, q_u_optimal_mean_field chol m data (neg_q q) = neg_q (q_u_optimal_mean_field chol m data q))
    /\ (forall q, q_z_optimal_mean_field chol m data (neg_q q) = neg_q (q_z_optimal_mean_field chol m data q))
    (* fits with their callbacks, and Gibbs chains *)
    /\ (forall iters ap, fit_mean_field_ca chol m data iters (mirror ap)
         = let r := fit_mean_field_ca chol m data iters ap in (mirror r.1, [seq mirror_pair q | q <- r.2]))
    /\ (forall ap : approx nu nz, condition (mirror ap) = mirror (condition ap))
    /\ (forall noises u z, gibbs chol m data [seq (- e.1, - e.2) | e <- noises] (- u) (- z)
         = let r := gibbs chol m data noises u z in (- r.1, - r.2))
    /\ (forall ap noises u z, elbo_gibbs chol m data (mirror ap) [seq (- e.1, - e.2) | e <- noises] (- u) (- z)
         = let r := elbo_gibbs chol m data ap noises u z in (r.1.1, - r.1.2, - r.2))
    (* bounds *)
    /\ (forall ap collapsed, elbo chol m data (mirror ap) collapsed = elbo chol m data ap collapsed)
    /\ (forall u, log_Z_u chol m data (- u) = log_Z_u chol m data u)
    /\ (forall ap us, elbo_collapsed_z chol m data (mirror ap) [seq - u | u <- us] = elbo_collapsed_z chol m data ap us)
    (* predictions *)
    /\ (forall ap i, predict_mean_field chol m new (mirror ap) i = predict_mean_field chol m new ap i)
    /\ (forall us i, predict_structured chol m data new [seq - u | u <- us] i = predict_structured chol m data new us i)
    /\ (forall a i_hx I_ux (t_k : 'I_a -> R) u,
         sample_kernel chol (K_u m) i_hx I_ux t_k (- u) = sample_kernel chol (K_u m) i_hx I_ux t_k u)
    /\ (forall ap k, predict_z_mean_field chol m (mirror ap) k = let r := predict_z_mean_field chol m ap k in (- r.1, r.2)%Re)
    /\ (forall (zs : seq 'cV[R]_nz) k, predict_z_structured [seq - z | z <- zs] k = let r := predict_z_structured zs k in (- r.1, r.2)%Re).
Proof.
  move=> chol n n' nu nz m data new.
  split; first by move=> k p; split; [exact: mean_neg|split=> // e; exact: sample_neg].
  split; first by move=> z; exact: q_u_N.
  split; first by move=> u; exact: q_z_N.
  split; first by move=> q; exact: q_u_mf_N.
  split; first by move=> q; exact: q_z_mf_N.
  split; first by move=> k ap; exact: fit_N.
  split; first by [].
  split; first by move=> es u z; exact: gibbs_N.
  split; first by move=> ap es u z; rewrite /elbo_gibbs gibbs_N; cbn [fst snd]; rewrite log_Z_u_N p_u_N logpdf_neg.
  split; first by move=> ap co; exact: elbo_N.
  split; first by move=> u; exact: log_Z_u_N.
  split.
    move=> ap us; rewrite /elbo_collapsed_z p_u_N qu_N kl_neg -map_comp.
    by have -> : map (log_Z_u chol m data \o -%R) us = map (log_Z_u chol m data) us by apply: eq_map => u; exact: log_Z_u_N.
  split; first by move=> ap i; exact: predict_N.
  split; first by move=> us i; exact: structured_N.
  split; first by move=> a i_hx I_ux t_k u; exact: kernel_neg.
  split; first by move=> ap k; rewrite /predict_z_mean_field p_z_N mean_neg; cbn [fst snd]; rewrite mxE.
  move=> zs k; rewrite /predict_z_structured size_map !big_map; cbn [fst snd].
  have -> : \sum_(z <- zs) (- z)%R k ord0 = - \sum_(z <- zs) (z : 'cV[R]_nz) k ord0 by rewrite -sumrN; apply: eq_bigr => z _; rewrite mxE.
  have -> : \sum_(z <- zs) ((- z)%R k ord0 * (- z)%R k ord0)%Re = \sum_(z <- zs) (z k ord0 * z k ord0)%Re.
    by apply: eq_bigr => z _; rewrite mxE; move: (z k ord0) => x; change ((- x * - x = x * x)%Re); ring.
  set a := (\sum_(z <- zs) z k ord0); set b := (\sum_(z <- zs) (z k ord0 * z k ord0)%Re); move: a b (INR _) => a b c; congr pair.
    by change ((- a / c = - (a / c))%Re); rewrite /Rdiv; ring.
  by change ((b / c - - a / c * (- a / c) = b / c - a / c * (a / c))%Re); rewrite /Rdiv; ring.
Qed.
Print Assumptions C120_mirror.

(** So a fit cannot leave the symmetric posteriors: started at a posterior of z with mean zero,
    as the prior is, it has mean zero throughout and predicts zero, whatever the data are. *)
Theorem C120_symmetric_start :
  forall chol n n' nu nz (m : gp nu nz) (data : terms n nu nz) (new : terms n' nu nz) (ap : approx nu nz) iters,
    nn_lam (q_u ap) = 0 -> nn_lam (q_z ap) = 0 ->
    let r := fit_mean_field_ca chol m data iters ap in
    nn_lam (q_u r.1) = 0 /\ nn_lam (q_z r.1) = 0
    /\ List.Forall (fun q => nn_lam q.1 = 0 /\ nn_lam q.2 = 0) r.2
    /\ (forall i, (predict_mean_field chol m new (condition r.1) i).1 = 0%Re)
    /\ (forall k, (predict_z_mean_field chol m (condition r.1) k).1 = 0%Re).
Proof.
  move=> chol n n' nu nz m data new ap iters Hu Hz r.
  have M0 k (p : natnormal k) : nn_lam p = 0 -> mean chol p = 0 by move=> E; rewrite /mean E /cholsolve /solve !mulmx0.
  have Eu q : nn_lam q = 0 -> nn_lam (q_u_optimal_mean_field chol m data q) = 0.
    by move=> E; rewrite /q_u_optimal_mean_field /q_optimal_m2; cbn [nn_lam]; rewrite M0 // mulmx0 scaler0.
  have Ez q : nn_lam q = 0 -> nn_lam (q_z_optimal_mean_field chol m data q) = 0.
    by move=> E; rewrite /q_z_optimal_mean_field /q_optimal_m2; cbn [nn_lam]; rewrite M0 // mulmx0 scaler0.
  have L k qu qz : nn_lam qu = 0 -> nn_lam qz = 0 -> let s := ca_loop chol m data k qu qz in
      (nn_lam s.1.1 = 0 /\ nn_lam s.1.2 = 0) /\ List.Forall (fun q => nn_lam q.1 = 0 /\ nn_lam q.2 = 0) s.2.
    elim: k qu qz => [|k IH] qu qz Eq1 Eq2; cbn [ca_loop]; first by split=> //; constructor.
    have U := Eu _ Eq2; have Z := Ez _ U; case: Rlt_dec => ?; cbn [fst snd].
      by split=> //; constructor.
    have [A B] := IH _ _ U Z; split=> //; by constructor.
  have [[A B] C] := L iters _ _ Hu Hz.
  have QU : nn_lam (q_u r.1) = 0 by rewrite /r /fit_mean_field_ca /q_u /set_q_z /set_q_u; cbn [fst ap_i ap_qs_u]; rewrite eqxx.
  have QZ : nn_lam (q_z r.1) = 0 by rewrite /r /fit_mean_field_ca /q_z /set_q_z /set_q_u; cbn [fst ap_i ap_qs_z]; rewrite eqxx.
  split=> //; split=> //; split; first exact: C.
  have PU : p_u m (condition r.1) = q_u r.1 by [].
  have PZ : p_z m (condition r.1) = q_z r.1 by [].
  split=> [i|k].
    by rewrite /predict_mean_field PU PZ (M0 _ _ QU) (M0 _ _ QZ) /predict_moments; cbn [fst]; rewrite mulmx0 mxE.
  by rewrite /predict_z_mean_field PZ (M0 _ _ QZ); cbn [fst]; rewrite mxE.
Qed.
Print Assumptions C120_symmetric_start.

(** Non-vacuity: a state that is not its own mirror image, and the symmetric state of the prior. *)
Example C120_witness : mirror ap1 <> ap1
  /\ (let ap0 : approx 2 1 := Approx 0 (fun _ => NatNormal 0 (K_u gp1)) (fun _ => NatNormal 0 (K_z gp1)) in
      nn_lam (q_u ap0) = 0 /\ nn_lam (q_z ap0) = 0 /\ mirror ap0 = ap0).
Proof.
  split.
    move=> E; have := congr1 (fun ap => nn_lam (q_z ap) ord0 ord0) E.
    rewrite /q_z /mirror /ap1; cbn [ap_i ap_qs_z nn_lam neg_q]; rewrite !mxE => H.
    have : (- 1 = 1)%Re by exact: H.
    by lra.
  by split=> //; split=> //; rewrite /mirror /neg_q; cbn [ap_i ap_qs_u ap_qs_z nn_lam nn_prec]; rewrite !oppr0.
Qed.
