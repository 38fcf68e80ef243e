(** The properties C43-C47, C52, C53, C56 and C77 of approx.py and model.py, stated on the model. *)
From Coq Require Import Reals Lra Psatz String.
From mathcomp Require Import all_ssreflect all_algebra.
From Verif Require Import Py RMat RChol RTac NormalModel NormalSpec NormalProofs NormalProps ApproxModel ApproxSpec ApproxProofs ApproxProofs2 ApproxProofs3.
Set Implicit Arguments.
Unset Strict Implicit.
Unset Printing Implicit Defensive.
Import GRing.Theory.
Local Open Scope ring_scope.
Delimit Scope R_scope with Re.

(** A well-posed model with two inducing points for u, one for z and two data points. *)
Definition gp1 : gp 2 1 := GP corr2 (1%:M) 1%Re.
Definition ig1 : integrals 2 2 1 :=
  Integrals (fun _ => 4%Re) (corr2) (fun _ => 1%:M)
    (fun i => \matrix_(a, b) (if i == ord0 then (1 / 2)%Re else 0%Re)).

Lemma ig1_aux (a b w h : R) :
  (h = 1 / 2 \/ h = 0 ->
   0 <= a * (2 * a + 1 * b) + b * (1 * a + 2 * b) + 2 * (a * (h * w) + b * (h * w)) + w * w)%Re.
Proof.
  have S x : (0 <= x * x)%Re by exact: Rle_0_sqr.
  have Sa := S a; have Sb := S b; have Sw := S w; have Sab := S (a + b)%Re.
  case=> ->.
    have := S (a + b + w / 2)%Re => ?; lra.
  lra.
Qed.

Lemma ig1_sum (x : 'cV[R]_2) (w : 'cV[R]_1) i :
  (0 <= dot x (corr2 *m x) + 2 * dot x (ig_uz ig1 i *m w) + dot w ((1%:M : 'M[R]_1) *m w))%Re.
Proof.
  rewrite mul1mx /dot !big_ord_recl !big_ord0 !addr0 !mxE !big_ord_recl !big_ord0 !addr0 !mxE.
  by apply: ig1_aux; case: (i == ord0); [left|right].
Qed.

Lemma ig1_swap (a b c : R) : (a + b + c = c + b + a)%Re.
Proof. ring. Qed.

Lemma gp1_well_posed : well_posed gp1 ig1.
Proof.
  split; first exact: corr2_spd.
  split; first exact: spd1.
  split; first by rewrite /=; exact: Rlt_0_1.
  split; first exact: (proj1 corr2_spd).
  split; first by move=> i; exact: (proj1 (spd1 1)).
  move=> i x w; split; first exact: ig1_sum.
  have -> : (dot w (ig_hz ig1 i *m w) + 2 * dot x (ig_uz ig1 i *m w) + dot x (K_u gp1 *m x))%Re =
     (dot x (corr2 *m x) + 2 * dot x (ig_uz ig1 i *m w) + dot w ((1%:M : 'M[R]_1) *m w))%Re by exact: ig1_swap.
  exact: ig1_sum.
Qed.

(** A proper state of the approximation before any conditioning. *)
Definition ap1 : approx 2 1 := Approx 0 (fun _ => nat2) (fun _ => NatNormal (const_mx 1%Re) 1%:M).
Lemma ap1_proper : ap_i ap1 = 0%N /\ proper (q_u ap1) /\ proper (q_z ap1).
Proof. by split; [|split; [exact: corr2_spd|exact: spd1]]. Qed.

(** * C43: summed and per-point terms *)

(** The terms that are summed for fitting are the sums of those that prediction uses, and the
    ELBO is the expected log-likelihood of the data under the predicted moments, point by
    point, minus the divergences from the prior. *)
Theorem C43_summed_terms :
  forall chol n nu nz (m : gp nu nz) (ig : integrals n nu nz) (y : 'I_n -> R),
    let ts := construct_terms chol m ig y in
    (forall u u2 z z2,
       (\sum_i (y i * y i) + sum_mul (ts_A_sum ts) u2 + sum_mul (ts_B_sum ts) z2
        + \sum_i sum_mul (ts_I_uz ts i *m z2 *m (ts_I_uz ts i)^T)%R u2
        + ts_c_sum ts - 2 * sum_mul u (ts_I_uz_sum ts *m z)%R)%Re =
       \sum_i (y i * y i - 2 * y i * (predict_moments chol m ts u u2 z z2 i).1
                + (predict_moments chol m ts u u2 z z2 i).2)%Re)
    /\ (forall ap : approx nu nz, noise m <> 0%Re ->
       elbo chol m ts ap None =
       Ok (\sum_i (- (1 / 2) * ln (2 * PI * noise m)
                   - (y i * y i
                      - 2 * y i * (predict_moments chol m ts (mean chol (q_u ap)) (m2 chol (q_u ap))
                                     (mean chol (q_z ap)) (m2 chol (q_z ap)) i).1
                      + (predict_moments chol m ts (mean chol (q_u ap)) (m2 chol (q_u ap))
                           (mean chol (q_z ap)) (m2 chol (q_z ap)) i).2) / (2 * noise m))%Re
           - kl chol (q_u ap) (p_u m ap) - kl chol (q_z ap) (p_z m ap))%Re).
Proof.
  move=> chol n nu nz m ig y ts; split=> [u u2 z z2|ap Hn]; first exact: quadratic_sum.
  rewrite /elbo /elbo_at -[ts_y ts]/y quadratic_sum; congr Ok; congr (_ - _ - _)%Re.
  set PM := predict_moments chol m ts _ _ _ _.
  pose F := fun i => (y i * y i - 2 * y i * (PM i).1 + (PM i).2)%Re.
  rewrite -[X in (_ + _ * X)%Re]/(\sum_i F i).
  transitivity (\sum_i ((- (1 / 2) * ln (2 * PI * noise m))%Re + (- (1 / 2) / noise m)%Re * F i)).
    rewrite [RHS]big_split [X in _ = X + _]sumr_const card_ord -mulr_natr -INRE -[X in _ = _ + X]mulr_sumr; rring.
  by apply: eq_bigr => i _; rewrite -[in RHS]/(F i); move: (F i) => f; rfield.
Qed.
Print Assumptions C43_summed_terms.

Example C43_witness : noise gp1 <> 0%Re.
Proof. exact: R1_neq_R0. Qed.

(** * C44: the exact conditionals *)

Theorem C44_conditionals :
  forall chol, chol_ok chol ->
  forall n nu nz (m : gp nu nz) (ig : integrals n nu nz) (y : 'I_n -> R), well_posed m ig ->
    let ts := construct_terms chol m ig y in
    let prior_u := gaussian_logpdf 0 (invmx (K_u m)) in
    let prior_z := gaussian_logpdf 0 (invmx (K_z m)) in
    (forall u z,
       (expected_log_lik m ig y u z + prior_z z)%Re =
       (log_Z_u chol m ts u + logpdf chol (q_z_optimal m ts u) z)%Re)
    /\ (exists log_Z_z, forall u z,
       (expected_log_lik m ig y u z + prior_u u)%Re =
       (log_Z_z z + logpdf chol (q_u_optimal m ts z) u)%Re)
    /\ (forall u z, proper (q_z_optimal m ts u) /\ proper (q_u_optimal m ts z)).
Proof.
  move=> chol Hc n nu nz m ig y WP ts pu pz; have [HKu [HKz [Hn J]]] := WP.
  have PA := A_sum_psd Hc y WP; have PB := B_sum_psd Hc y WP.
  have N0 : noise m <> R0 by move=> E; rewrite E in Hn; exact: Rlt_irrefl Hn.
  have Hz u : proper (q_z_optimal m ts u) by exact: q_optimal_spd.
  have Hu z : proper (q_u_optimal m ts z) by exact: q_optimal_spd.
  have Eu u : pu u = logpdf chol (NatNormal 0 (K_u m)) u by rewrite logpdfE //= mulmx0.
  have Ez z : pz z = logpdf chol (NatNormal 0 (K_z m)) z by rewrite logpdfE //= mulmx0.
  split; [|split; [|by split]].
  - move=> u z; rewrite Ez; exact: (log_Z_u_exact Hc HKu HKz z N0 (Hz u)).
  - exists (log_Z_z chol m ig y) => u z; rewrite Eu; exact: (log_Z_z_exact Hc HKu HKz u N0 (Hu z)).
Qed.
Print Assumptions C44_conditionals.

Example C44_witness : chol_ok some_chol /\ well_posed gp1 ig1.
Proof. split; [exact: some_chol_ok|exact: gp1_well_posed]. Qed.

(** * C45: coordinate ascent *)

Theorem C45_ascent :
  forall chol, chol_ok chol ->
  forall n nu nz (m : gp nu nz) (ig : integrals n nu nz) (y : 'I_n -> R) (ap : approx nu nz),
    well_posed m ig -> ap_i ap = 0%N ->
    let ts := construct_terms chol m ig y in
    let value qu qz v := elbo chol m ts (with_qs ap qu qz) None = Ok v in
    (forall qu qz v, proper qu -> proper qz -> value qu qz v ->
       exists v', value (q_u_optimal_mean_field chol m ts qz) qz v' /\ (v <= v')%Re)
    /\ (forall qu qz v, proper qu -> proper qz -> value qu qz v ->
       exists v', value qu (q_z_optimal_mean_field chol m ts qu) v' /\ (v <= v')%Re)
    /\ (forall iters, proper (q_u ap) -> proper (q_z ap) ->
       exists vs, nondecreasing vs /\ size vs = (size (fit_mean_field_ca chol m ts iters ap).2).+1
         /\ (forall k, (k < size vs)%N ->
              let q := nth (q_u ap, q_z ap) ((q_u ap, q_z ap) :: (fit_mean_field_ca chol m ts iters ap).2) k in
              value q.1 q.2 (nth R0 vs k))
         /\ elbo chol m ts (fit_mean_field_ca chol m ts iters ap).1 None = Ok (last R0 vs)).
Proof.
  move=> chol Hc n nu nz m ig y ap WP I0 ts value; have [HKu [HKz [Hn J]]] := WP.
  have PA := A_sum_psd Hc y WP; have PB := B_sum_psd Hc y WP.
  have V qu qz v : value qu qz v <->
      elbo_at chol m ts (NatNormal 0 (K_u m)) (NatNormal 0 (K_z m)) qu qz = v.
    rewrite /value /elbo /with_qs /set_q_u /set_q_z /p_u /p_z /q_u /q_z /= I0 /=.
    by split=> [[]|->].
  split; [|split].
  - move=> qu qz v Hu Hz /V <-; eexists; split; first exact/V.
    by have [] := opt_u_max Hc HKu Hn PA Hu Hz.
  - move=> qu qz v Hu Hz /V <-; eexists; split; first exact/V.
    by have [] := opt_z_max Hc HKz Hn PB Hu Hz.
  - move=> iters Hu Hz; have [N [L _]] := ca_loop_run Hc HKu HKz Hn PA PB iters Hu Hz.
    eexists; split; first exact: N.
    split; first by rewrite size_map.
    split.
      move=> k Hk; apply/V; rewrite size_map in Hk.
      by rewrite (nth_map (q_u ap, q_z ap)).
    have -> : elbo chol m ts (fit_mean_field_ca chol m ts iters ap).1 None =
       elbo chol m ts (with_qs ap (ca_loop chol m ts iters (q_u ap) (q_z ap)).1.1 (ca_loop chol m ts iters (q_u ap) (q_z ap)).1.2) None by [].
    apply/V; set el := fun q => _; set l := (ca_loop _ _ _ _ _ _).2.
    have -> : last R0 (map el ((q_u ap, q_z ap) :: l)) = el (last (q_u ap, q_z ap) l) by rewrite -(last_map el).
    by rewrite -L.
Qed.
Print Assumptions C45_ascent.

Example C45_witness : chol_ok some_chol /\ well_posed gp1 ig1 /\ ap_i ap1 = 0%N /\ proper (q_u ap1) /\ proper (q_z ap1).
Proof. split; [exact: some_chol_ok|split; [exact: gp1_well_posed|exact: ap1_proper]]. Qed.

(** After conditioning, the prior of the ELBO is the previous posterior, but the fixed-point
    iteration still uses the original prior: one iteration can decrease the ELBO. *)
Definition gp2 : gp 1 1 := GP 1%:M 1%:M 1%Re.
Definition ig2 : integrals 1 1 1 := Integrals (fun _ => 0%Re) 0 (fun _ => 0) (fun _ => 0).
Definition two : natnormal 1 := NatNormal 0 (2%Re%:M).
Definition ap2 : approx 1 1 := condition (Approx 0 (fun _ => two) (fun _ => two)).
Definition ts2 (chol : forall n, 'M[R]_n -> 'M[R]_n) : terms 1 1 1 := construct_terms chol gp2 ig2 (fun _ => 1%Re).

Lemma dot_self_ge0 k (x : 'cV[R]_k) : (0 <= dot x x)%Re.
Proof. by have := proj2 (spd_psd (spd1 k)) x; rewrite mul1mx. Qed.

Lemma gp2_aux (w : R) : (0 <= w -> 0 <= 0 + 2 * 0 + w)%Re.
Proof. lra. Qed.

Lemma gp2_well_posed : well_posed gp2 ig2.
Proof.
  split; first exact: spd1.
  split; first exact: spd1.
  split; first exact: Rlt_0_1.
  split; first by rewrite /symm /= trmx0.
  split; first by move=> i; rewrite /symm /= trmx0.
  move=> i x w; rewrite /= !mul0mx !dot0r !mul1mx.
  by split; apply: gp2_aux; exact: dot_self_ge0.
Qed.

Lemma two_spd : proper two.
Proof.
  rewrite /proper /two /=; have -> : 2%Re%:M = 2%Re *: (1%:M : 'M[R]_1) by rewrite scalemx1.
  apply: spd_scale; [exact: Rlt_0_2|exact: spd1].
Qed.

Lemma two_kl chol : chol_ok chol -> (0 < kl chol (NatNormal 0 1%:M) two)%Re.
Proof.
  move=> Hc; have P1 : proper (NatNormal (0 : 'cV[R]_1) 1%:M) by exact: spd1.
  have [//|E] := kl_ge0 Hc P1 two_spd; exfalso.
  have := kl_eq0 Hc P1 two_spd (esym E) => - [] /(congr1 (fun M : 'M[R]_1 => M ord0 ord0)).
  rewrite !mxE eqxx !mulr1n => H; have : 1%Re = 2%Re by []; lra.
Qed.

Lemma ts2_zero chol : chol_ok chol -> let ts := ts2 chol in
  [/\ ts_A_sum ts = 0, ts_B_sum ts = 0, ts_c_sum ts = 0, ts_I_uz_sum ts = 0 & forall i, ts_I_uz ts i = 0].
Proof.
  move=> Hc ts; rewrite /ts /=; split=> //.
  - by rewrite scaler0 sub0r big1 ?oppr0 // => i _; rewrite !mul0mx.
  - by rewrite !big1 ?subr0 // => i _; rewrite ?trmx0 ?mul0mx ?mulmx0.
  - rewrite scaler0 !sum_mul0r ![\sum_i _]big1 // ?sum_mul0r; first by rewrite /= !Rminus_0_r Rplus_0_r.
    by move=> i _; rewrite !mul0mx sum_mul0r.
  - by rewrite big1 // => i _; rewrite scaler0.
Qed.

Lemma opt2 chol : chol_ok chol -> forall q,
  q_u_optimal_mean_field chol gp2 (ts2 chol) q = NatNormal 0 1%:M
  /\ q_z_optimal_mean_field chol gp2 (ts2 chol) q = NatNormal 0 1%:M.
Proof.
  move=> Hc q; have [EA EB Ec EI Ei] := ts2_zero Hc.
  rewrite /q_u_optimal_mean_field /q_z_optimal_mean_field /q_optimal_m2 EA EB EI.
  split; congr NatNormal; rewrite ?trmx0 ?mul0mx ?scaler0 //.
  - rewrite [X in 0 + X]big1; first by rewrite addr0 scaler0 addr0.
    by move=> i _; rewrite Ei !mul0mx.
  - rewrite [X in 0 + X]big1; first by rewrite addr0 scaler0 addr0.
    by move=> i _; rewrite Ei trmx0 !mul0mx.
Qed.

Lemma elbo2_aux (a b : R) : a = b -> forall c d : R, (a - c - d = b - c - d)%Re.
Proof. by move=> ->. Qed.

Lemma elbo2 chol : chol_ok chol -> exists C, forall pu pz qu qz,
  elbo_at chol gp2 (ts2 chol) pu pz qu qz = (C - kl chol qu pu - kl chol qz pz)%Re.
Proof.
  move=> Hc; exists (elbo_at chol gp2 (ts2 chol) two two two two) => pu pz qu qz; have [EA EB Ec EI Ei] := ts2_zero Hc.
  have S (a b : natnormal 1) : \sum_i sum_mul (ts_I_uz (ts2 chol) i *m m2 chol b *m (ts_I_uz (ts2 chol) i)^T) (m2 chol a) = 0.
    by apply: big1 => i _; rewrite Ei !mul0mx sum_mul0l.
  rewrite /elbo_at EA EB Ec EI !S; apply: elbo2_aux.
  by rewrite !(kl_refl Hc two_spd) !Rminus_0_r !mul0mx !sum_mul0l !sum_mul0r.
Qed.

(** The claim for conditioned models. *)
Definition C45_claim_conditioned (chol : forall n, 'M[R]_n -> 'M[R]_n) : Prop :=
  forall n nu nz (m : gp nu nz) (ig : integrals n nu nz) (y : 'I_n -> R) (ap : approx nu nz),
    well_posed m ig -> (forall k, proper (ap_qs_u ap k)) -> (forall k, proper (ap_qs_z ap k)) ->
    let ts := construct_terms chol m ig y in
    forall iters v v', elbo chol m ts ap None = Ok v ->
      elbo chol m ts (fit_mean_field_ca chol m ts iters ap).1 None = Ok v' -> (v <= v')%Re.

Lemma fit2 chol : chol_ok chol ->
  (fit_mean_field_ca chol gp2 (ts2 chol) 1 ap2).1 = with_qs ap2 (NatNormal 0 1%:M) (NatNormal 0 1%:M).
Proof.
  move=> Hc; rewrite /fit_mean_field_ca /= (proj2 (opt2 Hc _)) (proj1 (opt2 Hc _)).
  by case: Rlt_dec.
Qed.

Lemma drop_aux (e k : R) : (0 < k)%Re -> (e - 0 - 0 <= e - k - k)%Re -> False.
Proof. lra. Qed.

Theorem C45_conditioned_refuted : forall chol, chol_ok chol -> ~ C45_claim_conditioned chol.
Proof.
  move=> chol Hc H; have [C EC] := elbo2 Hc.
  have := H _ _ _ gp2 ig2 (fun _ => 1%Re) ap2 gp2_well_posed (fun _ => two_spd) (fun _ => two_spd) 1%N _ _ (erefl _).
  rewrite -/(ts2 chol) (fit2 Hc) => /(_ _ (erefl _)).
  rewrite /with_qs /p_u /p_z /q_u /q_z /= !EC !(kl_refl Hc two_spd).
  exact: drop_aux (two_kl Hc).
Qed.
Print Assumptions C45_conditioned_refuted.

(** * C46: the collapsed ELBO *)

Theorem C46_collapsed :
  forall chol, chol_ok chol ->
  forall n nu nz (m : gp nu nz) (ig : integrals n nu nz) (y : 'I_n -> R) (ap : approx nu nz),
    well_posed m ig -> ap_i ap = 0%N -> proper (q_u ap) -> proper (q_z ap) ->
    let ts := construct_terms chol m ig y in
    exists v vz vu,
      elbo chol m ts ap None = Ok v
      /\ elbo chol m ts ap (Some "z"%string) = Ok vz
      /\ elbo chol m ts ap (Some "u"%string) = Ok vu
      /\ (v <= vz)%Re /\ (v = vz <-> q_z ap = q_z_optimal_mean_field chol m ts (q_u ap))
      /\ (v <= vu)%Re /\ (v = vu <-> q_u ap = q_u_optimal_mean_field chol m ts (q_z ap)).
Proof.
  move=> chol Hc n nu nz m ig y ap WP I0 Hu Hz ts; have [HKu [HKz [Hn J]]] := WP.
  have PA := A_sum_psd Hc y WP; have PB := B_sum_psd Hc y WP.
  rewrite /elbo /p_u /p_z I0.
  do 3!eexists; split; [reflexivity|split; [reflexivity|split; [reflexivity|]]].
  have [Hz1 Hz2] := opt_z_max Hc HKz Hn PB Hu Hz.
  have [Hu1 Hu2] := opt_u_max Hc HKu Hn PA Hu Hz.
  by [].
Qed.
Print Assumptions C46_collapsed.

Example C46_witness : chol_ok some_chol /\ well_posed gp1 ig1 /\ ap_i ap1 = 0%N /\ proper (q_u ap1) /\ proper (q_z ap1)
  /\ elbo some_chol gp1 (construct_terms some_chol gp1 ig1 (fun _ => 1%Re)) ap1 (Some "x"%string) = Err ValueError.
Proof. by split; [exact: some_chol_ok|split; [exact: gp1_well_posed|have [? []] := ap1_proper]]. Qed.

Lemma drop2_aux (e k : R) : (0 < k)%Re -> (e - 0 - 0 <= e - 0 - k)%Re -> False.
Proof. lra. Qed.

(** On a conditioned model, collapsing can decrease the ELBO. *)
Theorem C46_conditioned_refuted :
  forall chol, chol_ok chol ->
  ~ (forall n nu nz (m : gp nu nz) (ig : integrals n nu nz) (y : 'I_n -> R) (ap : approx nu nz),
       well_posed m ig -> (forall k, proper (ap_qs_u ap k)) -> (forall k, proper (ap_qs_z ap k)) ->
       let ts := construct_terms chol m ig y in
       forall v vz, elbo chol m ts ap None = Ok v -> elbo chol m ts ap (Some "z"%string) = Ok vz -> (v <= vz)%Re).
Proof.
  move=> chol Hc H; have [C EC] := elbo2 Hc.
  have := H _ _ _ gp2 ig2 (fun _ => 1%Re) ap2 gp2_well_posed (fun _ => two_spd) (fun _ => two_spd) _ _ (erefl _) (erefl _).
  rewrite -/(ts2 chol) (proj2 (opt2 Hc _)) /p_u /p_z /q_u /q_z /= !EC !(kl_refl Hc two_spd).
  exact: drop2_aux (two_kl Hc).
Qed.
Print Assumptions C46_conditioned_refuted.

(** * C47: the kernel approximation *)

Theorem C47_kernel_approx :
  forall chol, chol_ok chol ->
  forall nu (Ku : 'M[R]_nu) (i_hx : R -> R -> R) (I_ux : R -> R -> 'M[R]_nu), spd Ku ->
  forall a b (t1 : 'I_a -> R) (t2 : 'I_b -> R),
    (forall u p q,
       kernel_approx chol Ku i_hx I_ux t1 t2 u p q =
       (i_hx (t1 p) (t2 q) - \tr (invmx Ku *m I_ux (t1 p) (t2 q))%R
        + dot (invmx Ku *m u) (I_ux (t1 p) (t2 q) *m (invmx Ku *m u)))%Re)
    /\ (forall Omega (E : expectation Omega) (u : Omega -> 'cV[R]_nu),
       (forall i j, E (fun w => (u w i ord0 * u w j ord0)%Re) = Ku i j) ->
       forall p q, E (fun w => kernel_approx chol Ku i_hx I_ux t1 t2 (u w) p q) = i_hx (t1 p) (t2 q))
    /\ (forall Omega (E : expectation Omega) (u : Omega -> 'cV[R]_nu),
       (forall i j, E (fun w => (u w i ord0 * u w j ord0)%Re) = invmx Ku i j) ->
       forall p, E (fun w => sample_kernel chol Ku i_hx I_ux t1 (u w) p ord0) = i_hx (t1 p) 0%Re)
    /\ ((forall s t, i_hx s t = i_hx t s) -> (forall s t, I_ux t s = (I_ux s t)^T) ->
       forall u, kernel_approx chol Ku i_hx I_ux t2 t1 u = (kernel_approx chol Ku i_hx I_ux t1 t2 u)^T).
Proof.
  move=> chol Hc nu Ku i_hx I_ux HK a b t1 t2; split; [|split; [|split]].
  - move=> u p q; exact: kernel_approxE.
  - move=> Omega E u H p q; exact: kernel_approx_avg.
  - move=> Omega E u H p; exact: sample_kernel_avg.
  - move=> H1 H2 u; exact: kernel_approx_sym.
Qed.
Print Assumptions C47_kernel_approx.

(** Four equally likely values of u with the second moments [corr2]. *)
Definition four (w : bool * bool) : 'cV[R]_2 :=
  \col_i (if i == ord0 then (if w.1 || w.2 then (if w.1 && ~~ w.2 then 0%Re else 2%Re) else 0%Re)
          else (if (w.1 && w.2) || ~~ (w.1 || w.2) then 0%Re else 2%Re)).

Example C47_witness : spd corr2 /\
  forall i j, coins (fun w => (four w i ord0 * four w j ord0)%Re) = corr2 i j.
Proof.
  split; first exact: corr2_spd.
  case=> - [|[|//]] Hi; case=> - [|[|//]] Hj; rewrite /= !mxE /=; field.
Qed.

(** * C52: conditioning *)

(** What a user can do to the approximation. *)
Variant op (nu nz : nat) := SetU (d : natnormal nu) | SetZ (d : natnormal nz) | Condition.
Definition exec nu nz (ap : approx nu nz) (o : op nu nz) : approx nu nz :=
  match o with
  | SetU d => set_q_u ap d
  | SetZ d => set_q_z ap d
  | Condition => condition ap
  end.
Definition is_set nu nz (o : op nu nz) : bool := if o is Condition then false else true.

Lemma exec_history nu nz (ap : approx nu nz) (l : seq (op nu nz)) j : (j < ap_i ap)%N ->
  (ap_i ap <= ap_i (foldl (@exec nu nz) ap l))%N
  /\ ap_qs_u (foldl (@exec nu nz) ap l) j = ap_qs_u ap j
  /\ ap_qs_z (foldl (@exec nu nz) ap l) j = ap_qs_z ap j.
Proof.
  elim: l ap => [|o l IH] ap Hj //=.
  have Hj' : (j < ap_i (exec ap o))%N by case: o => [d|d|] //=; apply: ltnW.
  have [H1 [H2 H3]] := IH _ Hj'; rewrite H2 H3; split.
    by apply: leq_trans H1; case: (o) => [d|d|] //=.
  by case: (o) => [d|d|] //=; rewrite (ltn_eqF Hj).
Qed.

Lemma exec_counter nu nz (ap : approx nu nz) (l : seq (op nu nz)) : all (@is_set nu nz) l ->
  ap_i (foldl (@exec nu nz) ap l) = ap_i ap.
Proof. by elim: l ap => [|[d|d|] l IH] ap //= H; rewrite IH. Qed.

(** Over every history: conditioning makes the current posterior the prior, and nothing that
    happens before the next conditioning changes it; posteriors of earlier stages are never
    changed again. *)
Theorem C52_condition :
  forall nu nz (m : gp nu nz) (ap0 : approx nu nz) (before after : seq (op nu nz)),
    let ap := foldl (@exec nu nz) ap0 before in
    (all (@is_set nu nz) after ->
       p_u m (foldl (@exec nu nz) (condition ap) after) = q_u ap
       /\ p_z m (foldl (@exec nu nz) (condition ap) after) = q_z ap)
    /\ (forall j, (j < ap_i ap)%N ->
       ap_qs_u (foldl (@exec nu nz) ap after) j = ap_qs_u ap j
       /\ ap_qs_z (foldl (@exec nu nz) ap after) j = ap_qs_z ap j)
    /\ (forall d, q_u (set_q_u ap d) = d /\ q_z (set_q_u ap d) = q_z ap
       /\ p_u m (set_q_u ap d) = p_u m ap /\ p_z m (set_q_u ap d) = p_z m ap)
    /\ (forall d, q_z (set_q_z ap d) = d /\ q_u (set_q_z ap d) = q_u ap
       /\ p_u m (set_q_z ap d) = p_u m ap /\ p_z m (set_q_z ap d) = p_z m ap)
    /\ (ap_i ap = 0%N -> p_u m ap = NatNormal 0 (K_u m) /\ p_z m ap = NatNormal 0 (K_z m)).
Proof.
  move=> nu nz m ap0 before after ap; split; [|split; [|split; [|split]]].
  - move=> Hs; rewrite /p_u /p_z (exec_counter _ Hs) /=.
    by have [_ [-> ->]] := @exec_history _ _ (condition ap) after (ap_i ap) (ltnSn _).
  - by move=> j Hj; have [_ []] := exec_history after Hj.
  - move=> d; rewrite /q_u /q_z /p_u /p_z /= eqxx; do 3!split=> //.
    by case E : (ap_i ap) => [//|i]; rewrite /= (ltn_eqF (ltnSn i)).
  - move=> d; rewrite /q_u /q_z /p_u /p_z /= eqxx; do 3!split=> //.
    by case E : (ap_i ap) => [//|i]; rewrite /= (ltn_eqF (ltnSn i)).
  - by move=> E; rewrite /p_u /p_z E.
Qed.
Print Assumptions C52_condition.

Example C52_witness : all (@is_set 2 1) [:: SetU 1 nat2; SetZ 2 (NatNormal 0 1%:M)]
  /\ (0 < ap_i (foldl (@exec 2 1) ap1 [:: Condition 2 1]))%N.
Proof. by []. Qed.

(** * C53: the fixed-point iteration *)

(** The iterates: the optimal q(u) for the last q(z), then the optimal q(z) for that q(u). *)
Theorem C53_fixed_point :
  forall chol n nu nz (m : gp nu nz) (ts : terms n nu nz) (ap : approx nu nz) iters,
    let step q := let qu := q_u_optimal_mean_field chol m ts q.2 in
                  (qu, q_z_optimal_mean_field chol m ts qu) in
    let s k := iter k step (q_u ap, q_z ap) in
    let change k :=
      (rms (nn_lam (s k.+1).1) (nn_lam (s k).1) + rms (nn_prec (s k.+1).1) (nn_prec (s k).1)
       + rms (nn_lam (s k.+1).2) (nn_lam (s k).2) + rms (nn_prec (s k.+1).2) (nn_prec (s k).2))%Re in
    let r := fit_mean_field_ca chol m ts iters ap in
    exists N, (N <= iters)%N
      /\ r.2 = [seq s k.+1 | k <- iota 0 N]
      /\ (forall k, (k.+1 < N)%N -> ~ (change k < 1 / 1000000)%Re)
      /\ ((N < iters)%N -> exists2 k, N = k.+1 & (change k < 1 / 1000000)%Re)
      /\ r.1 = with_qs ap (s N).1 (s N).2
      /\ q_u r.1 = (s N).1 /\ q_z r.1 = (s N).2.
Proof.
  move=> chol n nu nz m ts ap iters step s change r.
  have T : (1 / 10 ^ 6)%Re = (1 / 1000000)%Re by field.
  have [N [H1 H2 H3 H4 H5]] := ca_loop_iter chol m ts iters (q_u ap) (q_z ap).
  rewrite T in H4 H5.
  have E1 : r.1 = with_qs ap (s N).1 (s N).2 by rewrite /r /fit_mean_field_ca /= H3.
  exists N; split; [exact: H1|split; [exact: H2|split; [exact: H4|split; [exact: H5|split; [exact: E1|]]]]].
  by rewrite E1 /with_qs /q_u /q_z /= !eqxx.
Qed.
Print Assumptions C53_fixed_point.

(** * C56: predictive variances *)

Lemma C56_aux (a b c : R) : (b <= a)%Re -> (c <= a - b + c)%Re.
Proof. lra. Qed.
Lemma C56_aux0 (a b : R) : (b <= a)%Re -> (0 <= a - b)%Re.
Proof. lra. Qed.

Lemma spd_diag_gt0 k (S : 'M[R]_k) i : spd S -> (0 < S i i)%Re.
Proof.
  move=> [_ H]; have := H (delta_mx i ord0).
  have -> : dot (delta_mx i ord0) (S *m delta_mx i ord0) = S i i.
    by rewrite -colE dotC /dot (bigD1 i) //= !mxE !eqxx mulr1 big1 ?addr0 // => j /negbTE Hj; rewrite !mxE Hj mulr0.
  apply=> /(congr1 (fun M : 'cV[R]_k => M i ord0)); rewrite !mxE !eqxx => E.
  exact: R1_neq_R0.
Qed.

Theorem C56_variance :
  forall chol, chol_ok chol ->
    (* given the per-sample moments *)
    (forall n n' nu nz (m : gp nu nz) (tsd : terms n nu nz) (ts : terms n' nu nz) (us : seq 'cV[R]_nu) (i : 'I_n'),
       (0 < size us)%N ->
       (forall u, let q := q_z_optimal m tsd u in
          let mm := predict_moments chol m ts u (u *m u^T) (mean chol q) (m2 chol q) i in
          (mm.1 * mm.1 <= mm.2)%Re) ->
       (noise m <= (predict_structured chol m tsd ts us i).2)%Re)
    (* the per-sample moments are such for well-posed models *)
    /\ (forall n n' nu nz (m : gp nu nz) (ig : integrals n nu nz) (ig' : integrals n' nu nz) y y'
          (us : seq 'cV[R]_nu) (i : 'I_n') (ap : approx nu nz),
       well_posed m ig -> well_posed m ig' -> residual_nonneg m ig' -> (0 < size us)%N ->
       (noise m <= (predict_structured chol m (construct_terms chol m ig y) (construct_terms chol m ig' y') us i).2)%Re
       /\ (proper (p_u m ap) -> proper (p_z m ap) ->
           (noise m <= (predict_mean_field chol m (construct_terms chol m ig' y') ap i).2)%Re))
    (* Fourier features *)
    /\ (forall nz (zs : seq 'cV[R]_nz) k, (0 < size zs)%N -> (0 <= (predict_z_structured zs k).2)%Re)
    /\ (forall nu nz (m : gp nu nz) (ap : approx nu nz) k,
       proper (p_z m ap) -> (0 < (predict_z_mean_field chol m ap k).2)%Re).
Proof.
  move=> chol Hc.
  have P1 : forall n n' nu nz (m : gp nu nz) (tsd : terms n nu nz) (ts : terms n' nu nz) (us : seq 'cV[R]_nu) (i : 'I_n'),
       (0 < size us)%N ->
       (forall u, let q := q_z_optimal m tsd u in
          let mm := predict_moments chol m ts u (u *m u^T) (mean chol q) (m2 chol q) i in
          (mm.1 * mm.1 <= mm.2)%Re) ->
       (noise m <= (predict_structured chol m tsd ts us i).2)%Re.
    move=> n n' nu nz m tsd ts us i Hs H; apply: C56_aux.
    exact: (mean_sq_le (f := fun u => (predict_moments chol m ts u (u *m u^T) (mean chol (q_z_optimal m tsd u)) (m2 chol (q_z_optimal m tsd u)) i).1)
      (g := fun u => (predict_moments chol m ts u (u *m u^T) (mean chol (q_z_optimal m tsd u)) (m2 chol (q_z_optimal m tsd u)) i).2) Hs H).
  split; [exact: P1|split; [|split]].
  - move=> n n' nu nz m ig ig' y y' us i ap WP WP' RN Hs; have [HKu [HKz [Hn J]]] := WP; split.
      apply: P1 => // u q.
      have Pq : proper q by apply: q_optimal_spd => //; exact: B_sum_psd.
      rewrite m2E // -(add0r (u *m u^T)); have Pi := spd_inv Pq.
      exact: (predict_moments_var Hc y' WP' RN u (mean chol q) i (@dual_psd0 _) (spd_psd Pi) (dual_psd_spd Pi)).
    move=> Pu Pz; apply: C56_aux; rewrite !m2E //; have Piu := spd_inv Pu; have Piz := spd_inv Pz.
    exact: (predict_moments_var Hc y' WP' RN (mean chol (p_u m ap)) (mean chol (p_z m ap)) i (dual_psd_spd Piu) (spd_psd Piz) (dual_psd_spd Piz)).
  - move=> nz zs k Hs; apply: C56_aux0.
    exact: (mean_sq_le (f := fun z : 'cV[R]_nz => z k ord0) (g := fun z : 'cV[R]_nz => (z k ord0 * z k ord0)%Re) Hs (fun z => Rle_refl _)).
  - move=> nu nz m ap k Hp; rewrite /= varE //; exact: spd_diag_gt0 (spd_inv Hp).
Qed.
Print Assumptions C56_variance.

Lemma res_aux (x : R) : (0 <= x)%Re -> (0 <= 4 - (1 + 1) - 1 + x)%Re.
Proof. lra. Qed.

Lemma ig1_res : residual_nonneg gp1 ig1.
Proof.
  move=> i; have -> : ig_hx ig1 i = 4%Re by [].
  have -> : \tr (invmx (K_u gp1) *m ig_ux ig1) = (1 + 1)%Re.
    rewrite [K_u _]/= [ig_ux _]/= mulVmx ?mxtrace1 //; exact: (spd_unit corr2_spd).
  have -> : \tr (invmx (K_z gp1) *m ig_hz ig1 i) = 1%Re.
    by rewrite [K_z _]/= [ig_hz _ _]/= mulmx1 invmx1 mxtrace1.
  apply: res_aux; have S := spd_inv corr2_spd.
  rewrite -[invmx (K_u gp1)]/(invmx corr2) -[X in \tr (X *m _)](proj1 S) -sum_mulE sum_mulC.
  apply: sum_mul_psd_spd => //; apply: psd_conj; exact: spd_psd (spd_inv (spd1 1)).
Qed.

Example C56_witness : chol_ok some_chol /\ well_posed gp1 ig1 /\ residual_nonneg gp1 ig1
  /\ proper (p_u gp1 ap1) /\ proper (p_z gp1 ap1).
Proof.
  split; [exact: some_chol_ok|split; [exact: gp1_well_posed|split; [exact: ig1_res|]]].
  by split; [exact: corr2_spd|exact: spd1].
Qed.

(** * C77: the moments are those of the convolution *)

(** [cov] is the double integral that gives the second moment of f(t_i) for given second
    moments of the filter and the input, and [avg] the integral that gives its mean for given
    means; the integrals of the model are their values at the prior covariances. *)
Theorem C77_conditional_moments :
  forall chol, chol_ok chol ->
  forall n nu nz (m : gp nu nz) (ig : integrals n nu nz) (y : 'I_n -> R) (i : 'I_n),
    spd (K_u m) -> spd (K_z m) ->
  forall (V W : lmodType R) (cov : V -> W -> R)
         (k_h : V) (ku : 'I_nu -> 'I_nu -> V) (k_x : W) (kz : 'I_nz -> 'I_nz -> W),
    bilinear_cov cov ->
    cov k_h k_x = ig_hx ig i ->
    (forall a b, cov (ku a b) k_x = ig_ux ig a b) ->
    (forall k l, cov k_h (kz k l) = ig_hz ig i k l) ->
    (forall a b k l, cov (ku a b) (kz k l) = (ig_uz ig i a k * ig_uz ig i b l)%Re) ->
  forall (V1 W1 : lmodType R) (avg : V1 -> W1 -> R) (hu : 'I_nu -> V1) (hz : 'I_nz -> W1),
    bilinear_cov avg ->
    (forall a k, avg (hu a) (hz k) = ig_uz ig i a k) ->
  forall u z,
    predict_moments chol m (construct_terms chol m ig y) u (u *m u^T) z (z *m z^T) i =
    (avg (\sum_a u a ord0 *: hu a) (\sum_k z k ord0 *: hz k),
     cov (given k_h ku (K_u m) u) (given k_x kz (K_z m) z)).
Proof.
  move=> chol Hc n nu nz m ig y i HKu HKz V W cov k_h ku k_x kz HB H1 H2 H3 H4 V1 W1 avg hu hz HA H5 u z.
  rewrite predict_moments_spec //; congr (_, _); last by rewrite (f_m2_conv HB H1 H2 H3 H4).
  rewrite cov_suml // /f_mean /dot; apply: eq_bigr => a _; rewrite cov_Zl // cov_sumr // mxE; congr (_ * _).
  by apply: eq_bigr => k _; rewrite cov_Zr // H5 mulrC.
Qed.
Print Assumptions C77_conditional_moments.

(** Multiplication of numbers is such a functional: a single point in time. *)
Definition mulR (P Q : R^o) : R := (P * Q)%Re.
Definition ig3 : integrals 1 1 1 := Integrals (fun _ => 6%Re) (const_mx 3%Re) (fun _ => const_mx 2%Re) (fun _ => const_mx 1%Re).
Example C77_witness :
  spd (K_u gp2) /\ spd (K_z gp2) /\ bilinear_cov mulR
  /\ mulR 2%Re 3%Re = ig_hx ig3 ord0
  /\ (forall a b, mulR 1%Re 3%Re = ig_ux ig3 a b)
  /\ (forall k l, mulR 2%Re 1%Re = ig_hz ig3 ord0 k l)
  /\ (forall a b k l, mulR 1%Re 1%Re = (ig_uz ig3 ord0 a k * ig_uz ig3 ord0 b l)%Re)
  /\ (forall a k, mulR 1%Re 1%Re = ig_uz ig3 ord0 a k).
Proof.
  split; [exact: spd1|split; [exact: spd1|split]].
    split=> [a P P' Q|a P Q Q']; rewrite /mulR.
    - by rewrite -[LHS]/(Rmult (Rplus (Rmult a P) P') Q); ring.
    - by rewrite -[LHS]/(Rmult P (Rplus (Rmult a Q) Q')); ring.
  rewrite /mulR /=; split; first ring.
  split; first by move=> a b; rewrite mxE; ring.
  split; first by move=> a b; rewrite mxE; ring.
  by split; [move=> a b k l|move=> a k]; rewrite !mxE; ring.
Qed.
