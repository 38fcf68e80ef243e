(** Proofs that the unit of the signal does not matter to the approximations. *)
From Coq Require Import Reals Lra String FunctionalExtensionality.
From mathcomp Require Import all_ssreflect all_algebra.
From Verif Require Import Py RMat RChol NormalModel NormalSpec NormalProofs RTac ApproxModel ApproxSpec ApproxProofs EvidenceModel OutSpec ScaleProofs.
Set Implicit Arguments.
Unset Strict Implicit.
Unset Printing Implicit Defensive.
Import GRing.Theory.
Local Open Scope ring_scope.
Delimit Scope R_scope with Re.

Section Out.
Variable chol : forall n, 'M[R]_n -> 'M[R]_n.
Variable c : R.
Hypothesis c0 : c <> 0%Re.
Notation cc := (c * c).

Definition outt n nu nz (ts : terms n nu nz) : terms n nu nz :=
  Terms (fun i => cc * ts_I_hx ts i) (cc *: ts_I_ux ts) (fun i => cc *: ts_I_hz ts i) (fun i => c *: ts_I_uz ts i)
  (fun i => cc *: ts_K_u_squeezed ts i) (fun i => cc *: ts_K_z_squeezed ts i) (cc *: ts_A_sum ts) (cc *: ts_B_sum ts) (cc * ts_c_sum ts)
  (fun i => c * ts_y ts i) (cc *: ts_I_uz_sum ts).

Lemma sq_l p q r (A : 'M[R]_(p, q)) (K : 'M[R]_p) (B : 'M[R]_(p, r)) : (c *: A)^T *m K *m (c *: B) = cc *: (A^T *m K *m B).
Proof. by rewrite trZ -!scalemxAl -!scalemxAr scalerA. Qed.
Lemma sq_r p q r (A : 'M[R]_(p, q)) (K : 'M[R]_q) (B : 'M[R]_(r, q)) : (c *: A) *m K *m (c *: B)^T = cc *: (A *m K *m B^T).
Proof. by rewrite trZ -!scalemxAl -!scalemxAr scalerA. Qed.

Lemma terms_out n nu nz (m : gp nu nz) (ig : integrals n nu nz) y :
  construct_terms chol (out_gp c m) (out_integrals c ig) (out_y c y) = outt (construct_terms chol m ig y).
Proof.
  rewrite /construct_terms /outt; cbn [ts_I_hx ts_I_ux ts_I_hz ts_I_uz ts_K_u_squeezed ts_K_z_squeezed ts_A_sum ts_B_sum ts_c_sum ts_y ts_I_uz_sum ig_hx ig_ux ig_hz ig_uz out_integrals].
  have -> : K_u_inv chol (out_gp c m) = K_u_inv chol m by [].
  have -> : K_z_inv chol (out_gp c m) = K_z_inv chol m by [].
  have Z1 (a : R) p q (M : 'M[R]_(p, q)) : a *: (cc *: M) = cc *: (a *: M) by rewrite !scalerA mulrC.
  have F1 : (fun i => (c *: ig_uz ig i)^T *m K_u_inv chol m *m (c *: ig_uz ig i)) = (fun i => cc *: ((ig_uz ig i)^T *m K_u_inv chol m *m ig_uz ig i)).
    by apply: functional_extensionality => i; exact: sq_l.
  have F2 : (fun i => (c *: ig_uz ig i) *m K_z_inv chol m *m (c *: ig_uz ig i)^T) = (fun i => cc *: (ig_uz ig i *m K_z_inv chol m *m (ig_uz ig i)^T)).
    by apply: functional_extensionality => i; exact: sq_r.
  have S1 p q (F : 'I_n -> 'M[R]_(p, q)) : \sum_i (cc *: F i) = cc *: \sum_i F i by rewrite scaler_sumr.
  have F3 : \sum_i (c * c * ig_hx ig i)%Re = cc * \sum_i ig_hx ig i by rewrite mulr_sumr.
  rewrite F1 F2; congr Terms.
  - rewrite (eq_bigr (fun i => cc *: (ig_uz ig i *m K_z_inv chol m *m (ig_uz ig i)^T))); last by move=> i _; exact: sq_r.
    by rewrite S1 Z1 scalerBr.
  - rewrite [X in _ - X](eq_bigr (fun i => cc *: ((ig_uz ig i)^T *m K_u_inv chol m *m ig_uz ig i))); last by move=> i _; exact: sq_l.
    by rewrite !S1 scalerBr.
  - rewrite F3 Z1 S1 !sum_mulZr.
    rewrite [X in (_ + X)%Re](eq_bigr (fun i => cc * sum_mul (K_u_inv chol m) (ig_uz ig i *m K_z_inv chol m *m (ig_uz ig i)^T))); last by move=> i _; rewrite sq_r sum_mulZr.
    rewrite -mulr_sumr; rring.
  - by rewrite scaler_sumr; apply: eq_bigr => i _; rewrite /out_y !scalerA; congr (_ *: _); rring.
Qed.

Section Use.
Variables (n nu nz : nat) (m : gp nu nz) (ts : terms n nu nz).
Hypothesis No : (0 < noise m)%Re.
Notation m' := (out_gp c m).
Notation ts1 := (outt ts).

Lemma inv_out : (/ (c * c * noise m))%Re * cc = (/ noise m)%Re.
Proof. by change ((/ (c * c * noise m) * (c * c) = / noise m)%Re); field; split=> //; lra. Qed.

Lemma opt_out a b (A K : 'M[R]_a) (F : 'I_n -> 'M[R]_(a, b)) Fs x :
  q_optimal (c * c * noise m)%Re (cc *: A) (fun i => c *: F i) (cc *: Fs) K x = q_optimal (noise m) A F Fs K x.
Proof.
  rewrite /q_optimal -scalemxAl scalerA inv_out; congr NatNormal; congr (_ + _).
  rewrite (eq_bigr (fun i => cc *: (F i *m x *m (F i *m x)^T))); last first.
    by move=> i _; rewrite -!scalemxAl trZ -scalemxAr scalerA.
  by rewrite -scaler_sumr -scalerDr scalerA inv_out.
Qed.
Lemma opt2_out a b (A K : 'M[R]_a) (F : 'I_n -> 'M[R]_(a, b)) Fs x x2 :
  q_optimal_m2 (c * c * noise m)%Re (cc *: A) (fun i => c *: F i) (cc *: Fs) K x x2 = q_optimal_m2 (noise m) A F Fs K x x2.
Proof.
  rewrite /q_optimal_m2 -scalemxAl scalerA inv_out; congr NatNormal; congr (_ + _).
  rewrite (eq_bigr (fun i => cc *: (F i *m x2 *m (F i)^T))); last by move=> i _; exact: sq_r.
  by rewrite -scaler_sumr -scalerDr scalerA inv_out.
Qed.
Lemma tr_out : (fun i => (c *: ts_I_uz ts i)^T) = (fun i => c *: (ts_I_uz ts i)^T).
Proof. by apply: functional_extensionality => i; rewrite trZ. Qed.

Lemma q_u_out z : q_u_optimal m' ts1 z = q_u_optimal m ts z. Proof. exact: opt_out. Qed.
Lemma q_u_mf_out q : q_u_optimal_mean_field chol m' ts1 q = q_u_optimal_mean_field chol m ts q. Proof. exact: opt2_out. Qed.
Lemma q_z_out u : q_z_optimal m' ts1 u = q_z_optimal m ts u.
Proof. by rewrite /q_z_optimal; cbn [outt ts_B_sum ts_I_uz ts_I_uz_sum]; rewrite tr_out trZ; exact: opt_out. Qed.
Lemma q_z_mf_out q : q_z_optimal_mean_field chol m' ts1 q = q_z_optimal_mean_field chol m ts q.
Proof. by rewrite /q_z_optimal_mean_field; cbn [outt ts_B_sum ts_I_uz ts_I_uz_sum]; rewrite tr_out trZ; exact: opt2_out. Qed.

Lemma moments_out u u2 z z2 i :
  predict_moments chol m' ts1 u u2 z z2 i = (let r := predict_moments chol m ts u u2 z z2 i in (c * r.1, cc * r.2)).
Proof.
  rewrite /predict_moments; cbn [outt ts_I_hx ts_I_ux ts_I_hz ts_I_uz ts_K_u_squeezed ts_K_z_squeezed fst snd].
  have -> : K_u_inv chol m' = K_u_inv chol m by [].
  have -> : K_z_inv chol m' = K_z_inv chol m by [].
  congr pair; first by rewrite -scalemxAr -scalemxAl mxE.
  rewrite sq_r -!scalerBr !sum_mulZr !sum_mulZl.
  set a1 := sum_mul _ u2; set a2 := sum_mul _ z2; set a3 := sum_mul _ (ts_I_ux ts); set a4 := sum_mul _ (ts_I_hz ts i);
  set a5 := sum_mul _ (ts_K_z_squeezed ts i); set a6 := sum_mul u2 _; set h := ts_I_hx ts i.
  change ((c * c * a1 + c * c * a2 + (c * c * h - c * c * a3 - c * c * a4 + c * c * a5) + c * c * a6 = c * c * (a1 + a2 + (h - a3 - a4 + a5) + a6))%Re); ring.
Qed.

Lemma ln_out : ln (2 * PI * (c * c * noise m)) = (ln (2 * PI * noise m) + 2 * ln (Rabs c))%Re.
Proof.
  have Pi := PI_RGT_0; have Ca := Rabs_pos_lt c c0.
  have -> : (2 * PI * (c * c * noise m) = 2 * PI * noise m * (Rabs c * Rabs c))%Re.
    by have E := Rsqr_abs c; rewrite /Rsqr in E; rewrite -E; ring.
  rewrite ln_mult; [|by apply: Rmult_lt_0_compat => //; lra|exact: Rmult_lt_0_compat].
  rewrite (ln_mult _ _ Ca Ca); lra.
Qed.

Lemma elbo_at_out pu pz qu qz : elbo_at chol m' ts1 pu pz qu qz = (elbo_at chol m ts pu pz qu qz - INR n * ln (Rabs c))%Re.
Proof.
  rewrite /elbo_at; cbn [outt ts_A_sum ts_B_sum ts_I_uz ts_c_sum ts_y ts_I_uz_sum out_gp noise].
  rewrite ln_out.
  rewrite (eq_bigr (fun i => cc * (ts_y ts i * ts_y ts i)%Re)); last by move=> i _; change ((c * ts_y ts i * (c * ts_y ts i) = c * c * (ts_y ts i * ts_y ts i))%Re); ring.
  rewrite -mulr_sumr !sum_mulZl.
  rewrite [X in (_ + X + _)%Re](eq_bigr (fun i => cc * sum_mul (ts_I_uz ts i *m m2 chol qz *m (ts_I_uz ts i)^T) (m2 chol qu))); last first.
    by move=> i _; rewrite sq_r sum_mulZl.
  rewrite -mulr_sumr -scalemxAl sum_mulZr.
  set S1 := \sum_i _; set S2 := \sum_i _; set kl1 := kl _ _ _; set kl2 := kl _ _ _.
  set a := sum_mul _ _; set b := sum_mul _ _; set d := sum_mul _ _.
  change ((- (1 / 2) * INR n * (ln (2 * PI * noise m) + 2 * ln (Rabs c)) + - (1 / 2) / (c * c * noise m) *
    (c * c * S1 + c * c * a + c * c * b + c * c * S2 + c * c * ts_c_sum ts - 2 * (c * c * d)) - kl1 - kl2 =
    - (1 / 2) * INR n * ln (2 * PI * noise m) + - (1 / 2) / noise m * (S1 + a + b + S2 + ts_c_sum ts - 2 * d) - kl1 - kl2 - INR n * ln (Rabs c))%Re).
  field; split=> //; lra.
Qed.

Lemma log_Z_u_out u : log_Z_u chol m' ts1 u = (log_Z_u chol m ts u - INR n * ln (Rabs c))%Re.
Proof.
  rewrite /log_Z_u; cbv zeta; rewrite q_z_out; cbn [outt ts_A_sum ts_c_sum ts_y out_gp noise K_z].
  rewrite ln_out.
  rewrite (eq_bigr (fun i => cc * (ts_y ts i * ts_y ts i)%Re)); last by move=> i _; change ((c * ts_y ts i * (c * ts_y ts i) = c * c * (ts_y ts i * ts_y ts i))%Re); ring.
  rewrite -mulr_sumr -scalemxAl sum_mulZr.
  set S1 := \sum_i _; set a := sum_mul _ _; set l1 := logdet _ _; set l2 := logdet _ _; set q := iqf _ _ _.
  change ((1 / 2 * (- INR n * (ln (2 * PI * noise m) + 2 * ln (Rabs c)) - (c * c * S1 + c * c * a + c * c * ts_c_sum ts) / (c * c * noise m) + l1 - l2 + q) =
    1 / 2 * (- INR n * ln (2 * PI * noise m) - (S1 + a + ts_c_sum ts) / noise m + l1 - l2 + q) - INR n * ln (Rabs c))%Re).
  field; split=> //; lra.
Qed.

Lemma p_u_out ap : p_u m' ap = p_u m ap. Proof. by []. Qed.
Lemma p_z_out ap : p_z m' ap = p_z m ap. Proof. by []. Qed.

Lemma predict_mf_out ap i : predict_mean_field chol m' ts1 ap i = out_p c (predict_mean_field chol m ts ap i).
Proof.
  rewrite /predict_mean_field p_u_out p_z_out moments_out /out_p; cbn [fst snd out_gp noise]; congr pair.
  set r := predict_moments _ _ _ _ _ _ _ _.
  by change ((c * c * r.2 - c * r.1 * (c * r.1) + c * c * noise m = c * c * (r.2 - r.1 * r.1 + noise m))%Re); ring.
Qed.

Lemma elbo_out ap co : elbo chol m' ts1 ap co = match elbo chol m ts ap co with Ok v => Ok (v - INR n * ln (Rabs c))%Re | Err e => Err e end.
Proof.
  have E qu qz : elbo_at chol m' ts1 (p_u m' ap) (p_z m' ap) qu qz = (elbo_at chol m ts (p_u m ap) (p_z m ap) qu qz - INR n * ln (Rabs c))%Re.
    exact: elbo_at_out.
  rewrite /elbo q_z_mf_out q_u_mf_out !E; case: co => [s|] //.
  by repeat match goal with |- context [match ?x with _ => _ end] => destruct x end.
Qed.

Lemma ca_out k qu qz : ca_loop chol m' ts1 k qu qz = ca_loop chol m ts k qu qz.
Proof.
  elim: k qu qz => [|k IH] qu qz //; cbn [ca_loop]; rewrite q_u_mf_out q_z_mf_out.
  by case: (Rlt_dec (diff _ _ qu qz) _) => ? //; rewrite IH.
Qed.
Lemma fit_out k ap : fit_mean_field_ca chol m' ts1 k ap = fit_mean_field_ca chol m ts k ap.
Proof. by rewrite /fit_mean_field_ca ca_out. Qed.
Lemma gibbs_out es u z : gibbs chol m' ts1 es u z = gibbs chol m ts es u z.
Proof. elim: es u z => [|e es IH] u z; cbn [gibbs]; first reflexivity. by rewrite q_u_out q_z_out IH. Qed.
Lemma elbo_gibbs_out ap es u z : elbo_gibbs chol m' ts1 ap es u z =
  let r := elbo_gibbs chol m ts ap es u z in ((r.1.1 - INR n * ln (Rabs c))%Re, r.1.2, r.2).
Proof.
  rewrite /elbo_gibbs gibbs_out log_Z_u_out p_u_out; cbn [fst snd]; congr (_, _, _).
  by set a := log_Z_u _ _ _ _; set b := logpdf _ _ _; change ((a - INR n * ln (Rabs c) + b = a + b - INR n * ln (Rabs c))%Re); ring.
Qed.
Lemma collapsed_out ap us : elbo_collapsed_z chol m' ts1 ap us =
  match elbo_collapsed_z chol m ts ap us with Ok v => Ok (v - INR n * ln (Rabs c))%Re | Err e => Err e end.
Proof.
  rewrite /elbo_collapsed_z p_u_out; case: us => [|u us]; first by [].
  rewrite !big_map !size_map.
  rewrite (eq_bigr (fun u => log_Z_u chol m ts u - INR n * ln (Rabs c))); last by move=> v _; exact: log_Z_u_out.
  cbn [map]; congr Ok; rewrite sumrB; set S := \sum_(_ <- _) log_Z_u _ _ _ _; set k := kl _ _ _.
  have -> : \sum_(i <- u :: us) INR n * ln (Rabs c) = (INR (size (u :: us)) * (INR n * ln (Rabs c)))%Re.
    rewrite big_const_seq count_predT; move: (size _) => j; elim: j => [|j IH]; first by rewrite /= Rmult_0_l.
    by rewrite iterS IH S_INR; change ((INR n * ln (Rabs c) + INR j * (INR n * ln (Rabs c)) = (INR j + 1) * (INR n * ln (Rabs c)))%Re); ring.
  have Hn : INR (size (u :: us)) <> 0%Re by apply: not_0_INR.
  by change (((S - INR (size (u :: us)) * (INR n * ln (Rabs c))) / INR (size (u :: us)) - k = S / INR (size (u :: us)) - k - INR n * ln (Rabs c))%Re); field.
Qed.
End Use.

Lemma structured_out n n' nu nz (m : gp nu nz) (tsd : terms n nu nz) (ts : terms n' nu nz) us i : (0 < noise m)%Re ->
  predict_structured chol (out_gp c m) (outt tsd) (outt ts) us i = out_p c (predict_structured chol m tsd ts us i).
Proof.
  move=> No; rewrite /predict_structured /out_p; cbn [fst snd out_gp noise].
  set mm := fun u => predict_moments chol m ts u (u *m u^T) (mean chol (q_z_optimal m tsd u)) (m2 chol (q_z_optimal m tsd u)) i.
  have E u : predict_moments chol (out_gp c m) (outt ts) u (u *m u^T) (mean chol (q_z_optimal (out_gp c m) (outt tsd) u)) (m2 chol (q_z_optimal (out_gp c m) (outt tsd) u)) i
    = (c * (mm u).1, cc * (mm u).2) by rewrite q_z_out // moments_out.
  rewrite (eq_bigr (fun u => c * (mm u).1)); last by move=> u _; rewrite E.
  rewrite [X in (X / _ - _ + _)%Re](eq_bigr (fun u => cc * (mm u).2)); last by move=> u _; rewrite E.
  rewrite -!mulr_sumr; set a := \sum_(_ <- _) _; set b := \sum_(_ <- _) _; congr pair.
  - by change ((c * a / INR (size us) = c * (a / INR (size us)))%Re); rewrite /Rdiv; ring.
  - change ((c * c * b / INR (size us) - c * a / INR (size us) * (c * a / INR (size us)) + c * c * noise m =
      c * c * (b / INR (size us) - a / INR (size us) * (a / INR (size us)) + noise m))%Re); rewrite /Rdiv; ring.
Qed.

Lemma kernel_out nu a (Ku : 'M[R]_nu) i_hx I_ux (tk : 'I_a -> R) u :
  sample_kernel chol Ku (fun t1 t2 => c * c * i_hx t1 t2)%Re (fun t1 t2 => (c * c)%Re *: I_ux t1 t2) tk u
  = (c * c)%Re *: sample_kernel chol Ku i_hx I_ux tk u.
Proof.
  rewrite /sample_kernel /kernel_approx; apply/matrixP=> p q; rewrite !mxE.
  set L := solve (chol Ku) 1%:M; set I := I_ux _ _; set h := i_hx _ _; set w := L *m (Ku *m u).
  have -> : L *m ((c * c)%Re *: I) *m L^T = (c * c)%Re *: (L *m I *m L^T) by rewrite -scalemxAr -scalemxAl.
  have -> : w^T *m ((c * c)%Re *: (L *m I *m L^T)) *m w = (c * c)%Re *: (w^T *m (L *m I *m L^T) *m w) by rewrite -scalemxAr -scalemxAl.
  rewrite !mxtraceZ; set x := \tr (_ *m L^T); set y := \tr _.
  by change ((c * c * h - (c * c * x - c * c * y) = c * c * (h - (x - y)))%Re); ring.
Qed.
End Out.
