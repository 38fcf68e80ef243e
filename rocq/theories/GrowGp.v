(** The posteriors of a smaller model within a larger one: bounds and predictions. *)
From Coq Require Import Reals Lra String FunctionalExtensionality.
From mathcomp Require Import all_ssreflect all_algebra.
From Verif Require Import Py RMat RChol RTac NormalModel NormalProofs ApproxModel ApproxSpec ApproxProofs ApproxProofs2 GrowSpec GrowProofs.
Set Implicit Arguments.
Unset Strict Implicit.
Unset Printing Implicit Defensive.
Import GRing.Theory.
Local Open Scope ring_scope.
Delimit Scope R_scope with Re.

Lemma sum_mul_swap a b (I : 'M[R]_(a, b)) (A : 'M[R]_a) (z : 'M[R]_b) : sum_mul (I^T *m A *m I) z = sum_mul A (I *m z *m I^T).
Proof. by rewrite sum_mulC [RHS]sum_mulC !sum_mulE !trmx_mul trmxK -!mulmxA [RHS]mxtrace_mulC -!mulmxA. Qed.

Section Moments.
Variable chol : forall n, 'M[R]_n -> 'M[R]_n.
Hypothesis Hc : chol_ok chol.
Variables (n nu nz : nat) (m : gp nu nz) (ig : integrals n nu nz) (y : 'I_n -> R).
Hypotheses (Ku : spd (K_u m)) (Kz : spd (K_z m)).
Notation ts := (construct_terms chol m ig y).

(** The second moment in terms of what the posterior changes of the prior. *)
Lemma moments_gap u u2 z z2 i : predict_moments chol m ts u u2 z z2 i =
  ((u^T *m ig_uz ig i *m z) ord0 ord0,
   (ig_hx ig i + sum_mul (u2 - invmx (K_u m))%R (ig_ux ig) + sum_mul (z2 - invmx (K_z m))%R (ig_hz ig i)
    + sum_mul (u2 - invmx (K_u m))%R (ig_uz ig i *m (z2 - invmx (K_z m)) *m (ig_uz ig i)^T)%R)%Re).
Proof.
  rewrite /predict_moments; cbn [ts_I_uz ts_I_ux ts_I_hx ts_I_hz ts_K_u_squeezed ts_K_z_squeezed construct_terms].
  rewrite /K_u_inv /K_z_inv !(pd_invE Hc) //; congr pair.
  set Ki := invmx (K_u m); set Zi := invmx (K_z m); set I := ig_uz ig i.
  have E1 : sum_mul (I^T *m Ki *m I) z2 = sum_mul Ki (I *m z2 *m I^T) by exact: sum_mul_swap.
  rewrite !sum_mulDl !sum_mulNl mulmxBr mulmxBl !sum_mulDr !sum_mulNr E1.
  rewrite (sum_mulC (ig_ux ig)) (sum_mulC (ig_hz ig i)) (sum_mulC (I *m Zi *m I^T) u2).
  rring.
Qed.

(** The expected squares of the errors, from the moments of the function at each point. *)
Definition errors u u2 z z2 : R :=
  \sum_i (y i * y i - 2 * (y i * (predict_moments chol m ts u u2 z z2 i).1) + (predict_moments chol m ts u u2 z z2 i).2)%Re.

Lemma errorsE a b c d : errors a b c d =
  (\sum_i (ts_y ts i * ts_y ts i) + sum_mul (ts_A_sum ts) b + sum_mul (ts_B_sum ts) d
   + \sum_i sum_mul (ts_I_uz ts i *m d *m (ts_I_uz ts i)^T)%R b + ts_c_sum ts - 2 * sum_mul a (ts_I_uz_sum ts *m c)%R)%Re.
Proof.
  apply: esym; rewrite /errors.
  rewrite /predict_moments; cbn [fst snd ts_y ts_A_sum ts_B_sum ts_c_sum ts_I_uz ts_I_uz_sum ts_I_ux ts_I_hx ts_I_hz ts_K_u_squeezed ts_K_z_squeezed construct_terms].
  set Ki := K_u_inv chol m; set Zi := K_z_inv chol m.
  set F1 := fun i => (y i * y i)%Re.
  have -> : \sum_i (y i * y i - 2 * (y i * (a^T *m ig_uz ig i *m c) ord0 ord0)
       + (sum_mul (ig_ux ig - ig_uz ig i *m Zi *m (ig_uz ig i)^T)%R b + sum_mul (ig_hz ig i - (ig_uz ig i)^T *m Ki *m ig_uz ig i)%R d
          + (ig_hx ig i - sum_mul Ki (ig_ux ig) - sum_mul Zi (ig_hz ig i) + sum_mul Ki (ig_uz ig i *m Zi *m (ig_uz ig i)^T)%R)
          + sum_mul b (ig_uz ig i *m d *m (ig_uz ig i)^T)%R))%Re
    = \sum_i F1 i + \sum_i ((- 2)%Re * sum_mul a (y i *: ig_uz ig i *m c))
      + \sum_i (sum_mul (ig_ux ig) b - sum_mul (ig_uz ig i *m Zi *m (ig_uz ig i)^T) b)
      + \sum_i (sum_mul (ig_hz ig i) d - sum_mul ((ig_uz ig i)^T *m Ki *m ig_uz ig i) d)
      + \sum_i (ig_hx ig i - sum_mul Ki (ig_ux ig))
      + \sum_i (sum_mul Ki (ig_uz ig i *m Zi *m (ig_uz ig i)^T) - sum_mul Zi (ig_hz ig i))
      + \sum_i sum_mul (ig_uz ig i *m d *m (ig_uz ig i)^T) b.
    rewrite -!big_split; apply: eq_bigr => i _; rewrite /F1 /=.
    have -> : sum_mul a (y i *: ig_uz ig i *m c) = (y i * (a^T *m ig_uz ig i *m c) ord0 ord0)%Re.
      by rewrite -scalemxAl sum_mulZr sum_mul_col /dot -mulmxA mxE; congr Rmult; apply: eq_bigr => j _; rewrite !mxE.
    rewrite !sum_mulDl !sum_mulNl (sum_mulC b); move: ((a^T *m ig_uz ig i *m c) ord0 ord0) => w; rring.
  rewrite -[\sum_i ((- 2)%Re * _)]big_distrr !sumrB INR_scale !sum_mulDl !sum_mulNl !sum_mul_suml !sum_mul_sumr mulmx_suml sum_mul_sumr.
  rewrite /F1 /=; rring.
Qed.

Lemma elbo_at_errors pu pz qu qz : elbo_at chol m ts pu pz qu qz =
  (- (1 / 2) * INR n * ln (2 * PI * noise m) + (- (1 / 2) / noise m) * errors (mean chol qu) (m2 chol qu) (mean chol qz) (m2 chol qz)
   - kl chol qu pu - kl chol qz pz)%Re.
Proof. by rewrite errorsE. Qed.

(** The exact conditional of z is the best posterior of z. *)
Lemma log_Z_gap u q : (0 < noise m)%Re -> spd (nn_prec q) -> spd (nn_prec (q_z_optimal m ts u)) ->
  log_Z_u chol m ts u =
  (- (1 / 2) * INR n * ln (2 * PI * noise m) + (- (1 / 2) / noise m) * errors u (u *m u^T)%R (mean chol q) (m2 chol q)
   - kl chol q (NatNormal 0 (K_z m)) + kl chol q (q_z_optimal m ts u))%Re.
Proof.
  move=> No Hq Ho; rewrite errorsE !(kl_nat Hc) // /log_Z_u !(logdetE Hc) // (iqfE Hc) //.
  set D := dot _ (invmx (nn_prec (q_z_optimal _ _ _)) *m _); set LP := ln (\det (nn_prec (q_z_optimal _ _ _))).
  cbn [nn_lam nn_prec q_z_optimal q_optimal]; rewrite !dot0l sum_mulDl sum_mulZl sum_mulDl sum_mul_suml dotZl.
  rewrite !sum_mul_col sum_mul_outer [dot u (ts_I_uz_sum ts *m _)]dot_mx.
  have -> : \sum_i sum_mul (ts_I_uz ts i *m m2 chol q *m (ts_I_uz ts i)^T) (u *m u^T) =
     \sum_i sum_mul ((ts_I_uz ts i)^T *m u *m ((ts_I_uz ts i)^T *m u)^T) (m2 chol q).
    apply: eq_bigr => i _; rewrite sum_mulC -sum_mul_swap; congr sum_mul.
    by rewrite trmx_mul trmxK !mulmxA.
  have N : noise m <> R0 by move=> e; move: No; rewrite e; exact: Rlt_irrefl.
  move: D LP => D LP; rfield; exact: N.
Qed.

Lemma log_Z_best u q : (0 < noise m)%Re -> spd (nn_prec q) -> spd (nn_prec (q_z_optimal m ts u)) ->
  (- (1 / 2) * INR n * ln (2 * PI * noise m) + (- (1 / 2) / noise m) * errors u (u *m u^T)%R (mean chol q) (m2 chol q)
   - kl chol q (NatNormal 0 (K_z m)) <= log_Z_u chol m ts u)%Re.
Proof.
  move=> No Hq Ho; rewrite (log_Z_gap No Hq Ho); have := kl_ge0 Hc Hq Ho; set x := kl chol q (q_z_optimal _ _ _); lra.
Qed.
Lemma log_Z_reached u : (0 < noise m)%Re -> spd (nn_prec (q_z_optimal m ts u)) ->
  log_Z_u chol m ts u = (- (1 / 2) * INR n * ln (2 * PI * noise m)
   + (- (1 / 2) / noise m) * errors u (u *m u^T)%R (mean chol (q_z_optimal m ts u)) (m2 chol (q_z_optimal m ts u))
   - kl chol (q_z_optimal m ts u) (NatNormal 0 (K_z m)))%Re.
Proof. by move=> No Ho; rewrite (log_Z_gap No Ho Ho) (kl_refl Hc Ho) Rplus_0_r. Qed.
End Moments.

(** * The selection of some of the variables *)
Definition sel k k' (s : 'I_k -> 'I_k') : 'M[R]_(k', k) := \matrix_(a, i) (a == s i)%:R.

Lemma selM a b c (r : 'I_b -> 'I_c) (A : 'M[R]_(a, c)) i j : (A *m sel r) i j = A i (r j).
Proof. by rewrite mxE (bigD1 (r j)) //= big1 ?addr0 ?mxE ?eqxx ?mulr1 // => l Hl; rewrite mxE (negbTE Hl) mulr0. Qed.
Lemma selTM a b c (s : 'I_a -> 'I_c) (A : 'M[R]_(c, b)) i j : ((sel s)^T *m A) i j = A (s i) j.
Proof. by rewrite -[_ *m _]trmxK trmx_mul trmxK mxE selM mxE. Qed.
Lemma entriesE a b a' b' (s : 'I_a' -> 'I_a) (r : 'I_b' -> 'I_b) (A : 'M[R]_(a, b)) : entries s r A = (sel s)^T *m A *m sel r.
Proof. by apply/matrixP => i j; rewrite selM selTM mxE. Qed.
Lemma paddedE k k' (s : 'I_k -> 'I_k') u : padded s u = sel s *m u.
Proof.
  apply/matrixP => a j; rewrite !mxE (ord1 j) big_mkcond; apply: eq_bigr => i _.
  by rewrite mxE eq_sym; case: (a == s i); rewrite ?mul1r ?mul0r.
Qed.
Lemma sel_inj k k' (s : 'I_k -> 'I_k') (x : 'cV[R]_k) : injective s -> sel s *m x = 0 -> x = 0.
Proof.
  move=> Hs /matrixP H; apply/matrixP => i j; have := H (s i) j; rewrite !mxE (bigD1 i) //= mxE eqxx mul1r big1 ?addr0 // => l Hl.
  by rewrite mxE (inj_eq Hs) eq_sym (negbTE Hl) mul0r.
Qed.
Lemma sel_spd k k' (s : 'I_k -> 'I_k') (A : 'M[R]_k') : injective s -> spd A -> spd ((sel s)^T *m A *m sel s).
Proof.
  move=> Hs [SA PA]; split; first by rewrite /symm !trmx_mul trmxK SA mulmxA.
  move=> x Nx; rewrite -!mulmxA -dot_mxl; apply: PA => H; apply: Nx; exact: sel_inj Hs H.
Qed.

Lemma sum_mul_El k k' (E : 'M[R]_(k', k)) (D : 'M[R]_k) (X : 'M[R]_k') : sum_mul (E *m D *m E^T) X = sum_mul D (E^T *m X *m E).
Proof. by rewrite sum_mulC sum_mul_E sum_mulC. Qed.

Section Grown.
Variable chol : forall n, 'M[R]_n -> 'M[R]_n.
Hypothesis Hc : chol_ok chol.
Variables (nu nz nu' nz' : nat) (s : 'I_nu -> 'I_nu') (r : 'I_nz -> 'I_nz') (m' : gp nu' nz').
Hypotheses (Hs : injective s) (Hr : injective r) (Ku : spd (K_u m')) (Kz : spd (K_z m')).
Notation m := (some_gp s r m').

Definition grow_u (p : natnormal nu) := grow (sel s) (K_u m') p.
Definition grow_z (p : natnormal nz) := grow (sel r) (K_z m') p.
Definition grow_state (ap : approx nu nz) : approx nu' nz' :=
  Approx (ap_i ap) (fun i => grow_u (ap_qs_u ap i)) (fun i => grow_z (ap_qs_z ap i)).

Lemma some_Ku : K_u m = (sel s)^T *m K_u m' *m sel s. Proof. exact: entriesE. Qed.
Lemma some_Kz : K_z m = (sel r)^T *m K_z m' *m sel r. Proof. exact: entriesE. Qed.
Let Su := sel_spd Hs Ku.
Let Sz := sel_spd Hr Kz.
Lemma some_Ku_spd : spd (K_u m). Proof. by rewrite some_Ku. Qed.
Lemma some_Kz_spd : spd (K_z m). Proof. by rewrite some_Kz. Qed.

Lemma p_u_grow ap : p_u m' (grow_state ap) = grow_u (p_u m ap).
Proof. by rewrite /p_u; cbn [grow_state ap_i ap_qs_u]; case: (ap_i ap) => [|i] //; rewrite some_Ku /grow_u grow_prior. Qed.
Lemma p_z_grow ap : p_z m' (grow_state ap) = grow_z (p_z m ap).
Proof. by rewrite /p_z; cbn [grow_state ap_i ap_qs_z]; case: (ap_i ap) => [|i] //; rewrite some_Kz /grow_z grow_prior. Qed.

Lemma moments_grow n (ig' : integrals n nu' nz') y qu qz i : proper qu -> proper qz ->
  predict_moments chol m' (construct_terms chol m' ig' y) (mean chol (grow_u qu)) (m2 chol (grow_u qu)) (mean chol (grow_z qz)) (m2 chol (grow_z qz)) i
  = predict_moments chol m (construct_terms chol m (some_integrals s r ig') y) (mean chol qu) (m2 chol qu) (mean chol qz) (m2 chol qz) i.
Proof.
  move=> Hu Hz; have Mu := some_Ku_spd; have Mz := some_Kz_spd.
  rewrite !(moments_gap Hc) // /grow_u /grow_z (grow_gap Hc Ku Su Hu) (grow_gap Hc Kz Sz Hz) (grow_mean Hc Ku Su Hu) (grow_mean Hc Kz Sz Hz).
  cbn [some_integrals ig_uz ig_hx ig_ux ig_hz]; rewrite !entriesE -some_Ku -some_Kz.
  set U := m2 chol qu - _; set Z := m2 chol qz - _; congr pair.
    by rewrite trmx_mul !mulmxA.
  rewrite !sum_mul_El; congr (_ + _ + _ + _)%Re; last by congr sum_mul; rewrite !trmx_mul trmxK !mulmxA.
Qed.

Lemma elbo_at_grow n (ig' : integrals n nu' nz') y pu pz qu qz : proper pu -> proper pz -> proper qu -> proper qz ->
  elbo_at chol m' (construct_terms chol m' ig' y) (grow_u pu) (grow_z pz) (grow_u qu) (grow_z qz)
  = elbo_at chol m (construct_terms chol m (some_integrals s r ig') y) pu pz qu qz.
Proof.
  move=> Hpu Hpz Hqu Hqz; rewrite !elbo_at_errors /grow_u /grow_z (grow_kl Hc Ku Su) // (grow_kl Hc Kz Sz) //.
  congr (_ + _ * _ - _ - _)%Re; apply: eq_bigr => i _; by rewrite moments_grow.
Qed.

Lemma proper_grow_u q : proper q -> proper (grow_u q). Proof. exact: (grow_spd Ku Su). Qed.
Lemma proper_grow_z q : proper q -> proper (grow_z q). Proof. exact: (grow_spd Kz Sz). Qed.
Lemma proper_grow ap : (forall i, proper (ap_qs_u ap i)) -> (forall i, proper (ap_qs_z ap i)) ->
  (forall i, proper (ap_qs_u (grow_state ap) i)) /\ (forall i, proper (ap_qs_z (grow_state ap) i)).
Proof. by move=> H1 H2; split=> i; [exact: proper_grow_u|exact: proper_grow_z]. Qed.

Lemma elbo_grow n (ig' : integrals n nu' nz') y ap : (forall i, proper (ap_qs_u ap i)) -> (forall i, proper (ap_qs_z ap i)) ->
  elbo chol m' (construct_terms chol m' ig' y) (grow_state ap) None = elbo chol m (construct_terms chol m (some_integrals s r ig') y) ap None.
Proof.
  move=> H1 H2; rewrite /elbo p_u_grow p_z_grow -[q_u (grow_state ap)]/(grow_u (q_u ap)) -[q_z (grow_state ap)]/(grow_z (q_z ap)).
  have Pu : proper (p_u m ap) by rewrite /p_u; case: (ap_i ap) => [|i] //; exact: some_Ku_spd.
  have Pz : proper (p_z m ap) by rewrite /p_z; case: (ap_i ap) => [|i] //; exact: some_Kz_spd.
  by rewrite elbo_at_grow //; [exact: H1|exact: H2].
Qed.

Lemma predict_grow n (ig' : integrals n nu' nz') y ap i : (forall i, proper (ap_qs_u ap i)) -> (forall i, proper (ap_qs_z ap i)) ->
  predict_mean_field chol m' (construct_terms chol m' ig' y) (grow_state ap) i
  = predict_mean_field chol m (construct_terms chol m (some_integrals s r ig') y) ap i.
Proof.
  move=> H1 H2; rewrite /predict_mean_field p_u_grow p_z_grow moments_grow //.
  - by rewrite /p_u; case: (ap_i ap) => [|j] //; exact: some_Ku_spd.
  - by rewrite /p_z; case: (ap_i ap) => [|j] //; exact: some_Kz_spd.
Qed.

(** The covariances of a part of a model make sense if those of the model do. *)
Lemma some_well_posed n (ig' : integrals n nu' nz') : well_posed m' ig' -> well_posed m (some_integrals s r ig').
Proof.
  move=> [_ [_ [No [S1 [S2 J]]]]]; split; first exact: some_Ku_spd; split; first exact: some_Kz_spd; split=> //.
  have D a b (A : 'M[R]_(a, b)) c d (f : 'I_c -> 'I_a) (g : 'I_d -> 'I_b) x w : dot x (entries f g A *m w) = dot (sel f *m x) (A *m (sel g *m w)).
    by rewrite entriesE -!mulmxA [LHS]dot_mx trmxK.
  have Sy a b (A : 'M[R]_a) (f : 'I_b -> 'I_a) : symm A -> symm (entries f f A).
    by rewrite /symm => H; rewrite entriesE !trmx_mul trmxK H mulmxA.
  split; first exact: Sy; split; first by move=> i; exact: Sy.
  by move=> i x w; have [J1 J2] := J i (sel s *m x) (sel r *m w); split; rewrite /= !D.
Qed.
End Grown.

(** More inducing variables for the excitation, with the same ones for the filter. *)
Section GrownZ.
Variable chol : forall n, 'M[R]_n -> 'M[R]_n.
Hypothesis Hc : chol_ok chol.
Variables (n nu nz nz' : nat) (r : 'I_nz -> 'I_nz') (m' : gp nu nz') (ig' : integrals n nu nz') (y : 'I_n -> R).
Hypotheses (Hr : injective r) (WP : well_posed m' ig').
Let m := some_gp id r m'.
Let ig := some_integrals id r ig'.

Lemma entries_id a b c (f : 'I_c -> 'I_b) (A : 'M[R]_(a, b)) : entries id f A = A *m sel f.
Proof. by apply/matrixP => i j; rewrite selM mxE. Qed.
Lemma entries_id2 a b (A : 'M[R]_(a, b)) : entries id id A = A.
Proof. by apply/matrixP => i j; rewrite mxE. Qed.

Lemma log_Z_grow u : (log_Z_u chol m (construct_terms chol m ig y) u <= log_Z_u chol m' (construct_terms chol m' ig' y) u)%Re.
Proof.
  have [Ku [Kz [No _]]] := WP.
  have Wm : well_posed m ig by apply: some_well_posed => //; exact: inj_id.
  have [Mu [Mz _]] := Wm.
  have B' := B_sum_psd Hc y WP; have B := B_sum_psd Hc y Wm.
  have O' : spd (nn_prec (q_z_optimal m' (construct_terms chol m' ig' y) u)) by apply: q_optimal_spd.
  have O : spd (nn_prec (q_z_optimal m (construct_terms chol m ig y) u)) by apply: q_optimal_spd.
  rewrite (log_Z_reached Hc) //; set q := q_z_optimal m _ u.
  have Sz := sel_spd Hr Kz.
  have Pg : proper (grow_z r m' q) by apply: proper_grow_z.
  apply: Rle_trans (log_Z_best Hc _ No Pg O') => //; apply: Req_le.
  have Ep : NatNormal 0 (K_z m') = grow_z r m' (NatNormal 0 (K_z m)) by rewrite /m (some_Kz id) /grow_z grow_prior.
  rewrite Ep /grow_z (grow_kl Hc Kz Sz) //.
  congr (_ + _ * _ - _)%Re; apply: eq_bigr => i _.
  rewrite !(moments_gap Hc) // (grow_gap Hc Kz Sz O) (grow_mean Hc Kz Sz O).
  cbn [m ig some_gp some_integrals ig_uz ig_hx ig_ux ig_hz fst snd K_u K_z]; rewrite !entries_id2 entries_id !entriesE.
  by rewrite !sum_mul_El !trmx_mul !mulmxA.
Qed.
End GrownZ.
