(** The properties C39-C41, C43 and C44 in terms of integrals, and C90. *)
From Coq Require Import Reals Lra Psatz String.
From mathcomp Require Import all_ssreflect all_algebra.
From Verif Require Import Py RMat RChol RTac NormalModel NormalSpec NormalProofs ApproxModel ApproxSpec ApproxProofs ApproxProofs2
  NormalProps ApproxProps IntegralSpec GaussN Tame TameMat EvidenceModel EvidenceSpec EvidenceProofs.
Set Implicit Arguments.
Unset Strict Implicit.
Unset Printing Implicit Defensive.
Import GRing.Theory.
Local Open Scope ring_scope.
Delimit Scope R_scope with Re.

(** * Densities and moments *)

Lemma dot_coord n (x : 'cV[R]_n) i : dot (delta_mx i 0) x = x i 0.
Proof. by rewrite dotC dot_delta. Qed.
Lemma dot_coord2 n (x : 'cV[R]_n) i j : dot x (delta_mx i j *m x) = x i 0 * x j 0.
Proof.
  have -> : delta_mx i j *m x = x j 0 *: delta_mx i 0.
    apply/matrixP => a b; rewrite !ord1 !mxE (bigD1 j) //= big1 ?addr0.
      by rewrite mxE eqxx andbT mulrC.
    by move=> k Hk; rewrite mxE (negbTE Hk) andbF mul0r.
  by rewrite dotZr dot_delta mulrC.
Qed.
Lemma sum_mul_delta n (A : 'M[R]_n) i j : sum_mul (delta_mx i j) A = A i j.
Proof.
  rewrite /sum_mul (bigD1 i) //= (bigD1 j) //= mxE !eqxx mul1r !big1 ?addr0 // => k Hk.
    rewrite big1 // => l _; by rewrite mxE (negbTE Hk) mul0r.
  by rewrite mxE (negbTE Hk) andbF mul0r.
Qed.

(** C41: [exp (logpdf x)] is a probability density. *)
Theorem C41_density :
  forall chol, chol_ok chol ->
  forall n (p : natnormal n), spd (nn_prec p) ->
    (forall x, (0 < exp (logpdf chol p x))%Re)
    /\ integral (fun x => exp (logpdf chol p x)) 1%Re.
Proof. move=> chol Hc n p Hp; split; [by move=> x; exact: exp_pos|exact: integral_dens]. Qed.
Print Assumptions C41_density.

Example C41_density_witness : spd (nn_prec nat2) /\ integral (fun x => exp (logpdf some_chol nat2 x)) 1%Re.
Proof. split; [exact: corr2_spd|exact: (proj2 (C41_density some_chol_ok (p := nat2) corr2_spd))]. Qed.

(** C39: [mean], [var] and [m2] are the moments of that density. *)
Theorem C39_moments :
  forall chol, chol_ok chol ->
  forall n (p : natnormal n), spd (nn_prec p) ->
    let average F v := integral (fun x => (exp (logpdf chol p x) * F x)%Re) v in
    (forall i, average (fun x => x i ord0) (mean chol p i ord0))
    /\ (forall i j, average (fun x => (x i ord0 * x j ord0)%Re) (m2 chol p i j))
    /\ (forall i j, average (fun x => ((x i ord0 - mean chol p i ord0) * (x j ord0 - mean chol p j ord0))%Re)
                      (var chol p i j)).
Proof.
  move=> chol Hc n p Hp av.
  have M1 i : av (fun x => x i ord0) (mean chol p i ord0).
    have := integral_quad Hc (p := p) (F := fun x => x i ord0) (c := 0%Re) (a := delta_mx i 0) (A := 0) Hp.
    rewrite dot_coord sum_mul0l; rnorm; rewrite Rplus_0_l Rplus_0_r; apply=> x.
    by rewrite dot_coord mul0mx dot0r; rnorm; rewrite Rplus_0_l Rplus_0_r.
  have M2 i j : av (fun x => (x i ord0 * x j ord0)%Re) (m2 chol p i j).
    have := integral_quad Hc (p := p) (F := fun x => (x i ord0 * x j ord0)%Re) (c := 0%Re) (a := 0) (A := delta_mx i j) Hp.
    rewrite dot0l sum_mul_delta; rnorm; rewrite !Rplus_0_l; apply=> x.
    by rewrite dot_coord2 dot0l; rnorm; rewrite !Rplus_0_l.
  split; [exact: M1|split; [exact: M2|]] => i j.
  have I := integral_plus (integral_plus (M2 i j) (integral_plus (integral_scal (- mean chol p i ord0)%Re (M1 j)) (integral_scal (- mean chol p j ord0)%Re (M1 i))))
    (integral_const Hc (mean chol p i ord0 * mean chol p j ord0)%Re Hp).
  move: I; set v := (_ + _)%Re; have -> : v = var chol p i j.
    rewrite /v m2E // varE // !mxE big_ord1 !mxE; move: (invmx _ _ _) => s; rring.
  by apply: integral_ext => x /=; rring.
Qed.
Print Assumptions C39_moments.

Example C39_moments_witness :
  integral (fun x => (exp (logpdf some_chol nat2 x) * (x ord0 ord0 * x ord_max ord0))%Re) (m2 some_chol nat2 ord0 ord_max).
Proof. exact: (proj1 (proj2 (C39_moments some_chol_ok (p := nat2) corr2_spd)) ord0 ord_max). Qed.

(** C40: [kl] is the average of the difference of the log-densities. *)
Theorem C40_integral :
  forall chol, chol_ok chol ->
  forall n (p q : natnormal n), spd (nn_prec p) -> spd (nn_prec q) ->
    integral (fun x => (exp (logpdf chol p x) * (logpdf chol p x - logpdf chol q x))%Re) (kl chol p q).
Proof. by move=> chol Hc n p q Hp Hq; exact: kl_integral. Qed.
Print Assumptions C40_integral.

Example C40_integral_witness : spd (nn_prec nat2) /\ spd (nn_prec (NatNormal 0 1%:M : natnormal 2)) /\ (0 < kl some_chol nat2 (NatNormal 0 1%:M))%Re.
Proof. split; [exact: corr2_spd|split; [exact: spd1|exact: C40_witness]]. Qed.

(** * C43, C44: the ELBO and the exact conditional *)

Lemma log_densityE chol (Hc : chol_ok chol) n (p : natnormal n) x : spd (nn_prec p) -> log_density p x = logpdf chol p x.
Proof. by move=> H; rewrite logpdfE. Qed.

(** The mean-field ELBO is the average of the expected log-likelihood under the two posteriors,
    minus the divergences of the posteriors from the priors. *)
Theorem C43_integral :
  forall chol, chol_ok chol ->
  forall n nu nz (m : gp nu nz) (ig : integrals n nu nz) (y : 'I_n -> R) (ap : approx nu nz), well_posed m ig ->
    let ts := construct_terms chol m ig y in
    proper (p_u m ap) -> proper (p_z m ap) -> proper (q_u ap) -> proper (q_z ap) ->
    exists e ku kz,
      integral2 (fun u z => (exp (log_density (q_u ap) u + log_density (q_z ap) z) * expected_log_lik m ig y u z)%Re) e
      /\ integral (fun u => (exp (log_density (q_u ap) u) * (log_density (q_u ap) u - log_density (p_u m ap) u))%Re) ku
      /\ integral (fun z => (exp (log_density (q_z ap) z) * (log_density (q_z ap) z - log_density (p_z m ap) z))%Re) kz
      /\ elbo chol m ts ap None = Ok (e - ku - kz)%Re.
Proof.
  move=> chol Hc n nu nz m ig y ap WP ts Hpu Hpz Hqu Hqz.
  exists (ell_qq chol m ig y (q_u ap) (q_z ap)), (kl chol (q_u ap) (p_u m ap)), (kl chol (q_z ap) (p_z m ap)).
  split; last split; last split.
  - exists (fun u => (exp (logpdf chol (q_u ap) u) * ell_u chol m ig y (q_z ap) u)%Re); split.
      move=> u; apply: integral_ext (integral_scal (exp (logpdf chol (q_u ap) u)) (ell_u_integral Hc y WP u Hqz)) => z.
      by rewrite !(log_densityE Hc) // exp_plus Rmult_assoc.
    exact: (ell_qq_integral Hc y WP Hqu Hqz).
  - by apply: integral_ext (kl_integral Hc Hqu Hpu) => u; rewrite !(log_densityE Hc).
  - by apply: integral_ext (kl_integral Hc Hqz Hpz) => u; rewrite !(log_densityE Hc).
  - by rewrite /elbo /ts elbo_ell.
Qed.
Print Assumptions C43_integral.

Example C43_integral_witness : well_posed gp1 ig1 /\ proper (p_u gp1 ap1) /\ proper (p_z gp1 ap1) /\ proper (q_u ap1) /\ proper (q_z ap1).
Proof. by split; [exact: gp1_well_posed|split; [exact: corr2_spd|split; [exact: spd1|exact: (proj2 ap1_proper)]]]. Qed.

(** [log_Z_u] is the logarithm of the integral over z. *)
Theorem C44_normaliser :
  forall chol, chol_ok chol ->
  forall n nu nz (m : gp nu nz) (ig : integrals n nu nz) (y : 'I_n -> R), well_posed m ig ->
    let ts := construct_terms chol m ig y in
    forall u, integral (fun z => exp (expected_log_lik m ig y u z + gaussian_logpdf 0 (invmx (K_z m)) z))
                (exp (log_Z_u chol m ts u)).
Proof.
  move=> chol Hc n nu nz m ig y WP ts u; apply: integral_ext (integral_Z0 Hc y WP u) => z.
  by rewrite logpdfE //= ?mulmx0 //; exact: (HKz WP).
Qed.
Print Assumptions C44_normaliser.

Example C44_normaliser_witness : exists u, integral (fun z => exp (expected_log_lik gp1 ig1 (fun _ => 1%Re) u z + gaussian_logpdf 0 (invmx (K_z gp1)) z))
   (exp (log_Z_u some_chol gp1 (construct_terms some_chol gp1 ig1 (fun _ => 1%Re)) u)) /\ u <> 0.
Proof.
  exists (const_mx 1%Re); split; first exact: (C44_normaliser some_chol_ok _ gp1_well_posed).
  move/(congr1 (fun M : 'cV[R]_2 => M ord0 ord0)); rewrite !mxE; exact: R1_neq_R0.
Qed.

(** * C90: the evidence lower bounds *)

Lemma le_ln a b : Rle (exp a) b -> Rle a (ln b).
Proof.
  case=> [H|<-]; last by rewrite ln_exp; exact: Rle_refl.
  by left; rewrite -(ln_exp a); apply: ln_increasing => //; exact: exp_pos.
Qed.

Lemma elbo_cases chol n nu nz (m : gp nu nz) (ts : terms n nu nz) ap c v : elbo chol m ts ap (Some c) = Ok v ->
  c = "z"%string \/ c = "u"%string.
Proof.
  rewrite /elbo; case: c => [|[a b c d e f g h] [|x c']] //; case: a b c d e f g h => - [] [] [] [] [] [] [] [] //; by [left|right].
Qed.

(** The mean-field ELBO, collapsed or not and with any priors, is at most the logarithm of the
    evidence. *)
Theorem C90_mean_field :
  forall chol, chol_ok chol ->
  forall n nu nz (m : gp nu nz) (ig : integrals n nu nz) (y : 'I_n -> R) (ap : approx nu nz), well_posed m ig ->
    let ts := construct_terms chol m ig y in
    proper (p_u m ap) -> proper (p_z m ap) -> proper (q_u ap) -> proper (q_z ap) ->
    exists L,
      evidence m ig y (p_u m ap) (p_z m ap) (exp L)
      /\ (exists v, elbo chol m ts ap None = Ok v)
      /\ forall collapsed v, elbo chol m ts ap collapsed = Ok v -> (v <= L)%Re.
Proof.
  move=> chol Hc n nu nz m ig y ap WP ts Hpu Hpz Hqu Hqz.
  have [h [Z [Hh [_ HZ]]]] := evidence_exists Hc y WP Hpu Hpz.
  have B qu qz : spd (nn_prec qu) -> spd (nn_prec qz) -> Rle (elbo_at chol m ts (p_u m ap) (p_z m ap) qu qz) (ln Z).
    by move=> Hu Hz; apply: le_ln; exact: (mean_field_bound Hc WP Hpu Hpz Hu Hz Hh HZ).
  have P : Rlt 0 Z.
    by apply: Rlt_le_trans (mean_field_bound Hc WP Hpu Hpz Hqu Hqz Hh HZ); exact: exp_pos.
  have HA := HA Hc y WP; have HB := HB Hc y WP; have HN := Hnoise WP.
  have HKu := HKu WP; have HKz := HKz WP.
  exists (ln Z); split; last split.
  - exists h; rewrite exp_ln //; split; last exact: HZ.
    by move=> u; apply: integral_ext (Hh u) => z; rewrite /log_joint !(log_densityE Hc).
  - by eexists.
  - move=> [c|] v; last by case=> <-; exact: B.
    move=> H; have [E|E] := elbo_cases H; move: H; rewrite {}E; case=> <-; apply: B => //; [exact: g_spd|exact: f_spd].
Qed.
Print Assumptions C90_mean_field.

Lemma draws_affine n (d L : 'cV[R]_n -> R) (e : R) : integral d 1%Re -> integral (fun x => (d x * L x)%Re) e ->
  forall num (F : seq 'cV[R]_n -> R) (a b : R), (forall us, size us = num -> F us = (a + b * (\sum_(u <- us) L u)%R)%Re) ->
    draws d num F (a + b * (INR num * e))%Re.
Proof.
  move=> D I; elim=> [|k IH] F a b HF.
    by rewrite /= HF // big_nil; rnorm; ring.
  exists (fun x => ((a + b * L x) + b * (INR k * e))%Re); split.
    by move=> x; apply: IH => us S; rewrite HF /= ?S // big_cons; rring.
  have J := integral_plus (integral_scal (a + b * (INR k * e))%Re D) (integral_scal b I).
  move: J; have -> : ((a + b * (INR k * e)) * 1 + b * e = a + b * (INR k.+1 * e))%Re by rewrite S_INR; ring.
  by apply: integral_ext => x; ring.
Qed.

Lemma collapsed_draws chol (Hc : chol_ok chol) n nu nz (m : gp nu nz) (ts : terms n nu nz) (ap : approx nu nz) e :
  spd (nn_prec (q_u ap)) -> integral (fun u => (exp (logpdf chol (q_u ap) u) * log_Z_u chol m ts u)%Re) e ->
  forall num, (0 < num)%N ->
    draws (fun u => exp (log_density (q_u ap) u)) num
      (fun us => if elbo_collapsed_z chol m ts ap us is Ok x then x else 0%Re) (e - kl chol (q_u ap) (p_u m ap))%Re.
Proof.
  move=> Hqu He num Hnum.
  have Pn : INR num <> 0%Re by apply: not_0_INR => Enum; rewrite Enum in Hnum.
  have D : integral (fun u => exp (log_density (q_u ap) u)) 1%Re.
    by apply: integral_ext (integral_dens Hc Hqu) => u; rewrite (log_densityE Hc).
  have I : integral (fun u => (exp (log_density (q_u ap) u) * log_Z_u chol m ts u)%Re) e.
    by apply: integral_ext He => u; rewrite (log_densityE Hc).
  have := draws_affine D I (num := num) (a := (- kl chol (q_u ap) (p_u m ap))%Re) (b := (/ INR num)%Re).
  have -> : (- kl chol (q_u ap) (p_u m ap) + / INR num * (INR num * e) = e - kl chol (q_u ap) (p_u m ap))%Re by field.
  apply=> us S; rewrite /elbo_collapsed_z; case: us S => [|u us] S; first by rewrite -S in Hnum.
  have -> : size [seq log_Z_u chol m ts u0 | u0 <- u :: us] = num by rewrite size_map.
  rewrite /= !big_cons big_map.
  by rewrite /Rdiv; ring.
Qed.

(** Before any conditioning: the bounds in order, the collapsed ones included, and the bound
    that [elbo_collapsed_z] estimates without bias. *)
Theorem C90_bounds :
  forall chol, chol_ok chol ->
  forall n nu nz (m : gp nu nz) (ig : integrals n nu nz) (y : 'I_n -> R) (ap : approx nu nz),
    well_posed m ig -> ap_i ap = 0%N -> proper (q_u ap) -> proper (q_z ap) ->
    let ts := construct_terms chol m ig y in
    exists v vz vu s L,
      elbo chol m ts ap None = Ok v
      /\ elbo chol m ts ap (Some "z"%string) = Ok vz
      /\ elbo chol m ts ap (Some "u"%string) = Ok vu
      /\ structured_bound m ig y (p_u m ap) (q_u ap) (p_z m ap) s
      /\ (forall num, (0 < num)%N ->
            draws (fun u => exp (log_density (q_u ap) u)) num
              (fun us => if elbo_collapsed_z chol m ts ap us is Ok x then x else 0%Re) s)
      /\ evidence m ig y (p_u m ap) (p_z m ap) (exp L)
      /\ (v <= vz)%Re /\ (vz <= s)%Re /\ (s <= L)%Re
      /\ (v <= vu)%Re /\ (vu <= L)%Re.
Proof.
  move=> chol Hc n nu nz m ig y ap WP I0 Hqu Hqz ts.
  have Epu : p_u m ap = NatNormal 0 (K_u m) by rewrite /p_u I0.
  have Epz : p_z m ap = NatNormal 0 (K_z m) by rewrite /p_z I0.
  have Hpu : spd (nn_prec (p_u m ap)) by rewrite Epu; exact: (HKu WP).
  have Hpz : spd (nn_prec (p_z m ap)) by rewrite Epz; exact: (HKz WP).
  have HA := HA Hc y WP; have HB := HB Hc y WP; have HN := Hnoise WP.
  have Hgz : spd (nn_prec (q_z_optimal_mean_field chol m ts (q_u ap))).
    by apply: g_spd => //; exact: (HKz WP).
  have Hfu : spd (nn_prec (q_u_optimal_mean_field chol m ts (q_z ap))).
    by apply: f_spd => //; exact: (HKu WP).
  have [v [vz [vu [E1 [E2 [E3 [L1 [_ [L2 _]]]]]]]]] := C46_collapsed Hc y WP I0 Hqu Hqz.
  have [h [Z [Hh [_ HZ]]]] := evidence_exists Hc y WP Hpu Hpz.
  have [e He] := structured_exists Hc y WP Hqu.
  have Bu := mean_field_bound Hc WP Hpu Hpz Hfu Hqz Hh HZ.
  have P : Rlt 0 Z by apply: Rlt_le_trans Bu; exact: exp_pos.
  have HZ' : integral (fun u => exp (log_Z_u chol m ts u + logpdf chol (p_u m ap) u)) Z.
    apply: integral_ext HZ => u; rewrite Epz in Hh.
    exact: integral_unique (Hh u) (integral_Z Hc y WP (p_u m ap) u).
  have [Bs BL] := structured_bounds Hc WP Hpu Hqu Hgz He HZ'.
  exists v, vz, vu, (e - kl chol (q_u ap) (p_u m ap))%Re, (ln Z); split=> //; split=> //; split=> //.
  split; last split; last split; last split=> //; last split; last split; last split=> //.
  - exists (log_Z_u chol m ts), e, (kl chol (q_u ap) (p_u m ap)); split; last split; last split=> //.
    + move=> u; apply: integral_ext (C44_normaliser Hc y WP u) => z.
      by rewrite Epz /log_density /= mulmx0.
    + by apply: integral_ext He => u; rewrite (log_densityE Hc).
    + by apply: integral_ext (kl_integral Hc Hqu Hpu) => u; rewrite !(log_densityE Hc).
  - exact: (collapsed_draws Hc Hqu He).
  - exists h; rewrite exp_ln //; split; last exact: HZ.
    by move=> u; apply: integral_ext (Hh u) => z; rewrite /log_joint !(log_densityE Hc).
  - by move: E2 Bs; rewrite /elbo Epz => - [<-].
  - exact: le_ln.
  - by move: E3 Bu; rewrite /elbo => - [->]; exact: le_ln.
Qed.
Print Assumptions C90_bounds.

Example C90_witness : well_posed gp1 ig1 /\ ap_i ap1 = 0%N /\ proper (p_u gp1 ap1) /\ proper (p_z gp1 ap1) /\ proper (q_u ap1) /\ proper (q_z ap1).
Proof. by split; [exact: gp1_well_posed|split=> //; split; [exact: corr2_spd|split; [exact: spd1|exact: (proj2 ap1_proper)]]]. Qed.

(** [elbo_gibbs] returns the logarithm of the joint density of the observations and the new
    sample of u. *)
Theorem C90_gibbs :
  forall chol, chol_ok chol ->
  forall n nu nz (m : gp nu nz) (ig : integrals n nu nz) (y : 'I_n -> R) (ap : approx nu nz),
    well_posed m ig -> ap_i ap = 0%N ->
    let ts := construct_terms chol m ig y in
    forall noises u z,
      let '(value, u', z') := elbo_gibbs chol m ts ap noises u z in
      integral (fun z => exp (expected_log_lik m ig y u' z + log_density (p_u m ap) u' + log_density (p_z m ap) z)) (exp value).
Proof.
  move=> chol Hc n nu nz m ig y ap WP I0 ts noises u z; rewrite /elbo_gibbs.
  have Epu : p_u m ap = NatNormal 0 (K_u m) by rewrite /p_u I0.
  have Epz : p_z m ap = NatNormal 0 (K_z m) by rewrite /p_z I0.
  apply: integral_ext (integral_Z Hc y WP (p_u m ap) _) => z'.
  by rewrite /log_joint Epz !(log_densityE Hc) // ?Epu; [exact: (HKz WP)|exact: (HKu WP)].
Qed.
Print Assumptions C90_gibbs.

(** * Below the likelihood of the observations *)

Lemma exp_sum n (F : 'I_n -> R) : exp (\sum_i F i) = \prod_i exp (F i).
Proof.
  elim: (index_enum _) => [|i s IH]; first by rewrite !big_nil exp_0.
  by rewrite !big_cons -IH -[LHS]/(exp (F i + _)%Re) exp_plus.
Qed.

Lemma model_of_f_le n nu nz (m : gp nu nz) (ig : integrals n nu nz) (y : 'I_n -> R) Omega E (f : 'cV[R]_nu -> 'cV[R]_nz -> Omega -> 'I_n -> R) :
  (0 < noise m)%Re -> model_of_f m ig E f ->
  forall u z, (exp (expected_log_lik m ig y u z) <= E u z (fun w => likelihood (noise m) y (f u z w)))%Re.
Proof.
  move=> Hn Hf u z; have [Mono Mom] := Hf u z.
  pose X w : R := \sum_i (- (1 / 2) * ln (2 * PI * noise m) - (y i - f u z w i) * (y i - f u z w i) / (2 * noise m))%Re.
  have EX : E u z X = expected_log_lik m ig y u z.
    rewrite /X E_sum /expected_log_lik; apply: eq_bigr => i _.
    have [m1 m2] := Mom i.
    rewrite (E_ext (E u z) (g := fun w => ((- (1 / 2) * ln (2 * PI * noise m) - y i * y i / (2 * noise m))
       + (y i / noise m * f u z w i + - / (2 * noise m) * (f u z w i * f u z w i)))%Re)); last by move=> w; field; lra.
    rewrite !E_add !E_scale !E_const m1 m2; field; lra.
  set e := expected_log_lik m ig y u z in EX *.
  have -> : E u z (fun w => likelihood (noise m) y (f u z w)) = E u z (fun w => exp (X w)).
    by apply: E_ext => w; rewrite /likelihood /X exp_sum.
  have -> : exp e = E u z (fun w => (exp e * (1 - e) + exp e * X w)%Re).
    by rewrite E_add E_const E_scale EX; ring.
  apply: Mono => w.
  have -> : exp (X w) = (exp e * exp (X w - e))%Re by rewrite -exp_plus; congr exp; ring.
  have T := exp_ineq1_le (X w - e)%Re; have := exp_pos e; move: (exp e) (exp _) T => a b T Ha.
  rewrite -Rmult_plus_distr_l; apply: Rmult_le_compat_l; lra.
Qed.

(** The evidence is at most the likelihood of the observations, averaged over every random
    function with the moments of the model and over the priors; so every bound above is one of
    the log-likelihood. *)
Theorem C90_likelihood :
  forall n nu nz (m : gp nu nz) (ig : integrals n nu nz) (y : 'I_n -> R) Omega
      (E : 'cV[R]_nu -> 'cV[R]_nz -> expectation Omega) f (pu : natnormal nu) (pz : natnormal nz),
    (0 < noise m)%Re -> model_of_f m ig E f ->
    (forall u z, (expected_log_lik m ig y u z <= ln (E u z (fun w => likelihood (noise m) y (f u z w))))%Re)
    /\ forall L M,
      evidence m ig y pu pz (exp L) ->
      integral2 (fun u z => (E u z (fun w => likelihood (noise m) y (f u z w)) * exp (log_density pu u) * exp (log_density pz z))%Re) M ->
      (L <= ln M)%Re.
Proof.
  move=> n nu nz m ig y Omega E f pu pz Hn Hf; have B := model_of_f_le y Hn Hf.
  split; first by move=> u z; apply: le_ln; exact: B.
  move=> L M [h [Hh HZ]] [k [Hk HM]]; apply: le_ln; apply: integral_le HZ HM => u.
  apply: integral_le (Hh u) (Hk u) => z; rewrite !exp_plus.
  do 2!(apply: Rmult_le_compat_r; first by left; exact: exp_pos).
  exact: B.
Qed.
Print Assumptions C90_likelihood.

(** One inducing point for each process and one data point, where f is the product of u and z. *)
Definition gp0 : gp 1 1 := GP 1%:M 1%:M 1%Re.
Definition ig0 : integrals 1 1 1 := Integrals (fun _ => 1%Re) 1%:M (fun _ => 1%:M) (fun _ => 1%:M).
Lemma gp0_well_posed : well_posed gp0 ig0.
Proof.
  split; [exact: spd1|split; [exact: spd1|split; [exact: Rlt_0_1|split; [exact: (proj1 (spd1 1))|split; [by move=> i; exact: (proj1 (spd1 1))|]]]]].
  move=> i x w; rewrite !mul1mx.
  have H : Rle 0 (dot x x + 2 * dot x w + dot w w)%Re.
    have := dot_ge0 (x + w); rewrite !dotDl !dotDr (dotC w x); rnorm; lra.
  by split=> //; move: H; lra.
Qed.
Lemma f0_mean u z i : f_mean ig0 u z i = dot u z.
Proof. by rewrite /f_mean mul1mx. Qed.
Lemma f0_m2 u z i : f_m2 gp0 ig0 u z i = (dot u z * dot u z)%Re.
Proof.
  have I1 : invmx (1%:M : 'M[R]_1) = 1%:M by rewrite invmx1.
  rewrite /f_m2 f0_mean -[ig_ux ig0]/1%:M -[ig_uz ig0 i]/1%:M -[ig_hz ig0 i]/1%:M -[K_z gp0]/1%:M -[K_u gp0]/1%:M -[ig_hx ig0 i]/1%Re.
  rewrite I1 !trmx1 !mulmx1 subrr !mul0mx !dot0r mxtrace1.
  by rnorm; move: (dot u z) => d; have -> : (GRing.natmul 1 1 : R) = 1%Re by []; ring.
Qed.
Definition dirac : expectation unit.
Proof. by refine (@Expectation unit (fun f => f tt) _ _ _ _). Defined.

Example C90_likelihood_witness : exists f L M,
  model_of_f gp0 ig0 (fun _ _ => dirac) f
  /\ evidence gp0 ig0 (fun _ => 1%Re) (NatNormal 0 1%:M) (NatNormal 0 1%:M) (exp L)
  /\ integral2 (fun u z => (dirac (fun w => likelihood (noise gp0) (fun _ => 1%Re) (f u z w))
        * exp (log_density (NatNormal 0 1%:M) u) * exp (log_density (NatNormal 0 1%:M) z))%Re) M.
Proof.
  pose f (u z : 'cV[R]_1) (_ : unit) (_ : 'I_1) := dot u z.
  have Hf : model_of_f gp0 ig0 (fun _ _ => dirac) f.
    move=> u z; split; first by move=> g h H; exact: H.
    by move=> i; rewrite f0_m2 f0_mean.
  have [L [EL _]] := C90_mean_field some_chol_ok (m := gp0) (ig := ig0) (fun _ => 1%Re)
     (ap := Approx 0 (fun _ => NatNormal 0 1%:M) (fun _ => NatNormal 0 1%:M)) gp0_well_posed (spd1 1) (spd1 1) (spd1 1) (spd1 1).
  exists f, L, (exp L); split=> //; split; first exact: EL.
  have [h [Hh HZ]] := EL; exists h; split=> // u; apply: integral_ext (Hh u) => z.
  rewrite !exp_plus; congr (_ * _ * _)%Re.
  have -> : dirac (fun w => likelihood (noise gp0) (fun=> 1%Re) (f u z w)) = likelihood 1%Re (fun=> 1%Re) (f u z tt) by [].
  rewrite /likelihood /expected_log_lik !big_ord1 f0_m2 f0_mean -[noise gp0]/1%Re; congr exp.
  rewrite -[f u z tt ord0]/(dot u z); move: (dot u z) => d; field.
Qed.

(** * C91: the structured bound after conditioning *)

(** f does not depend on u, and its variance is the square of z, whatever the prior precision k
    of z. *)
Definition gpk (k : R) : gp 1 1 := GP 1%:M k%:M 1%Re.
Definition igk (k : R) : integrals 1 1 1 := Integrals (fun _ => (/ k)%Re) 0 (fun _ => 1%:M) (fun _ => 0).

Lemma spd_k (k : R) : Rlt 0 k -> spd (k%:M : 'M[R]_1).
Proof. move=> H; rewrite -scalemx1; apply: spd_scale => //; exact: spd1. Qed.

Lemma inv_k (k : R) : Rlt 0 k -> invmx (k%:M : 'M[R]_1) = ((/ k)%Re)%:M.
Proof.
  move=> H; have U := spd_unit (spd_k H).
  apply: (can_inj (mulKmx U)); rewrite mulmxV // -scalar_mxM; congr (_%:M).
  by rewrite -[_ * _]/(Rmult _ _) Rinv_r //; lra.
Qed.

Lemma gpk_well_posed k : Rlt 0 k -> well_posed (gpk k) (igk k).
Proof.
  move=> Hk; split; first exact: spd1.
  split; first exact: spd_k.
  split; first exact: Rlt_0_1.
  split; first by rewrite /symm /= trmx0.
  split; first by move=> i; rewrite /symm /= trmx1.
  move=> i x w; rewrite -[ig_uz _ _]/0 -[ig_ux _]/0 -[ig_hz _ _]/1%:M -[K_u _]/1%:M -[K_z _]/k%:M.
  rewrite !mul0mx !dot0r !mul1mx.
  have := proj2 (spd_psd (spd_k Hk)) w; have := dot_self_ge0 w; have := dot_self_ge0 x.
  move: (dot w w) (dot x x) (dot w _) => a b c; rnorm => ? ? ?; split; lra.
Qed.

Lemma ell_k k u z : Rlt 0 k ->
  expected_log_lik (gpk k) (igk k) (fun _ => 0%Re) u z = (- (1 / 2) * ln (2 * PI * 1) - 1 / 2 * dot z z)%Re.
Proof.
  move=> Hk; rewrite /expected_log_lik big_ord1 /f_m2 /f_mean.
  rewrite -[ig_uz _ _]/0 -[ig_ux _]/0 -[ig_hz _ _]/1%:M -[K_u _]/1%:M -[K_z _]/k%:M -[noise _]/1%Re -[ig_hx _ _]/(/ k)%Re.
  rewrite (inv_k Hk) !(trmx0, mul0mx, mulmx0, dot0r, subr0, mulmx1, mul1mx, mxtrace0) /mxtrace big_ord1 mxE eqxx mulr1n.
  by rnorm; move: (ln _) (dot z z) (/ k)%Re => a b c; field.
Qed.

Lemma log_Z_k chol (Hc : chol_ok chol) k u : Rlt 0 k ->
  log_Z_u chol (gpk k) (construct_terms chol (gpk k) (igk k) (fun _ => 0%Re)) u =
  (- (1 / 2) * ln (2 * PI * 1) + 1 / 2 * (ln k - ln (k + 1)))%Re.
Proof.
  move=> Hk; have WP := gpk_well_posed Hk.
  have S := q_z_spd Hc (fun _ => 0%Re) WP u.
  have := log_Z_u_exact Hc (HKu WP) (HKz WP) 0 (noise0 WP) S.
  have EP : q_z_optimal (gpk k) (construct_terms chol (gpk k) (igk k) (fun=> 0%Re)) u = NatNormal 0 ((k + 1)%Re)%:M.
    rewrite /q_z_optimal /q_optimal /=; congr NatNormal.
      by rewrite big_ord1 !(scaler0, trmx0, mul0mx).
    rewrite !big_ord1 !(trmx0, mul0mx, mulmx0, subr0, addr0) Rinv_1 scale1r.
    by apply/matrixP => i j; rewrite !mxE !ord1.
  have S1 : spd (nn_prec (NatNormal (0 : 'cV[R]_1) k%:M)) by exact: spd_k.
  have S2 : spd (nn_prec (NatNormal (0 : 'cV[R]_1) ((k + 1)%Re)%:M)) by apply: spd_k; lra.
  have P0 (A : 'M[R]_1) (B : 'M[R]_1) : gaussian_logpdf (B *m 0) A 0 = (- (1 / 2) * (INR 1 * ln (2 * PI) + ln (\det A)))%Re.
    by rewrite /gaussian_logpdf mulmx0 subr0 dot0l; congr Rmult; exact: Rplus_0_r.
  have LI a : Rlt 0 a -> ln (\det (invmx (a%:M : 'M[R]_1))) = (- ln a)%Re.
    by move=> Ha; rewrite inv_k // det_scalar1 ln_Rinv.
  rewrite EP ell_k // (logpdfE Hc _ S1) (logpdfE Hc _ S2) !P0 /= !LI // ?dot0l; last lra.
  rnorm; move: (ln (2 * PI)%Re) (ln (2 * PI * 1)%Re) (ln k) (ln (k + 1)%Re) (log_Z_u _ _ _ _) => a b c d e; lra.
Qed.

(** After conditioning, the prior of z is the previous posterior, but [elbo_collapsed_z]
    integrates z against the original prior: what it estimates can exceed the evidence. *)
Theorem C91_conditioned_refuted :
  forall chol, chol_ok chol ->
  ~ (forall n nu nz (m : gp nu nz) (ig : integrals n nu nz) (y : 'I_n -> R) (ap : approx nu nz),
       well_posed m ig -> (forall k, proper (ap_qs_u ap k)) -> (forall k, proper (ap_qs_z ap k)) ->
       let ts := construct_terms chol m ig y in
       forall num s L, (0 < num)%N ->
         draws (fun u => exp (log_density (q_u ap) u)) num
           (fun us => if elbo_collapsed_z chol m ts ap us is Ok x then x else 0%Re) s ->
         evidence m ig y (p_u m ap) (p_z m ap) (exp L) -> (s <= L)%Re).
Proof.
  move=> chol Hc H.
  pose q : natnormal 1 := NatNormal 0 ((/ 4)%Re)%:M.
  pose ap : approx 1 1 := condition (Approx 0 (fun _ => NatNormal 0 1%:M) (fun _ => q)).
  have Q4 : Rlt 0 (/ 4)%Re by lra.
  have Hq : proper q by exact: spd_k.
  pose lz k := (- (1 / 2) * ln (2 * PI * 1) + 1 / 2 * (ln k - ln (k + 1)))%Re.
  have E1 : spd (nn_prec (NatNormal (0 : 'cV[R]_1) 1%:M)) by exact: spd1.
  have D1 : integral (fun u => exp (log_density (NatNormal (0 : 'cV[R]_1) 1%:M) u)) 1%Re.
    by apply: integral_ext (integral_dens Hc E1) => u; rewrite (log_densityE Hc).
  have WP1 := gpk_well_posed Rlt_0_1.
  have WP4 := gpk_well_posed Q4.
  have D : draws (fun u => exp (log_density (q_u ap) u)) 1
    (fun us => if elbo_collapsed_z chol (gpk 1) (construct_terms chol (gpk 1) (igk 1) (fun=> 0%Re)) ap us is Ok x then x else 0%Re) (lz 1%Re).
    have := integral_scal (lz 1%Re) D1; rewrite Rmult_1_r => I.
    exists (fun u => lz 1%Re); split.
      move=> u /=; rewrite /elbo_collapsed_z /= big_cons big_nil log_Z_k; [|exact: Hc|exact: Rlt_0_1].
      by rewrite kl_refl // -/(lz 1%Re); rnorm; move: (lz _) => a; field.
    by apply: integral_ext I => u; exact: Rmult_comm.
  have V : evidence (gpk 1) (igk 1) (fun=> 0%Re) (p_u (gpk 1) ap) (p_z (gpk 1) ap) (exp (lz (/ 4)%Re)).
    have := integral_scal (exp (lz (/ 4)%Re)) D1; rewrite Rmult_1_r => I.
    exists (fun u => (exp (lz (/ 4)%Re) * exp (log_density (NatNormal 0 1%:M) u))%Re); split; last exact: I.
    move=> u; have := integral_Z Hc (fun=> 0%Re) WP4 (NatNormal 0 1%:M) u.
    rewrite log_Z_k // exp_plus -(log_densityE Hc) //; apply: integral_ext => z.
    by rewrite /log_joint !(log_densityE Hc) // !ell_k //; exact: Rlt_0_1.
  have := H _ _ _ (gpk 1) (igk 1) (fun=> 0%Re) ap WP1 (fun _ => E1) (fun _ => Hq) 1%N _ _ isT D V.
  rewrite /lz ln_1.
  have -> : (/ 4 + 1 = 5 * / 4)%Re by lra.
  rewrite (ln_mult 5 (/ 4)); [|by apply: IZR_lt|exact: Q4].
  have L5 : Rlt (ln 2) (ln 5) by apply: ln_increasing; apply: IZR_lt.
  have -> : (1 + 1 = 2)%Re by [].
  by move: (ln (2 * PI * 1)%Re) (ln (/ 4)%Re) (ln 5) (ln 2) L5 => a b c d ?; lra.
Qed.
Print Assumptions C91_conditioned_refuted.

(** What it does estimate, in every state: the structured bound under the current prior of u and
    the original prior of z, which is at most the evidence under those. *)
Theorem C91_original_prior_partial :
  forall chol, chol_ok chol ->
  forall n nu nz (m : gp nu nz) (ig : integrals n nu nz) (y : 'I_n -> R) (ap : approx nu nz),
    well_posed m ig -> proper (p_u m ap) -> proper (q_u ap) ->
    let ts := construct_terms chol m ig y in
    let prior_z : natnormal nz := NatNormal 0 (K_z m) in
    exists s L,
      structured_bound m ig y (p_u m ap) (q_u ap) prior_z s
      /\ (forall num, (0 < num)%N ->
            draws (fun u => exp (log_density (q_u ap) u)) num
              (fun us => if elbo_collapsed_z chol m ts ap us is Ok x then x else 0%Re) s)
      /\ evidence m ig y (p_u m ap) prior_z (exp L)
      /\ (s <= L)%Re.
Proof.
  move=> chol Hc n nu nz m ig y ap WP Hpu Hqu ts prior_z.
  have HZ : spd (nn_prec prior_z) := HKz WP.
  have [h [Z [Hh [_ HI]]]] := evidence_exists Hc y WP Hpu HZ.
  have [e He] := structured_exists Hc y WP Hqu.
  have HI' : integral (fun u => exp (log_Z_u chol m ts u + logpdf chol (p_u m ap) u)) Z.
    by apply: integral_ext HI => u; exact: integral_unique (Hh u) (integral_Z Hc y WP (p_u m ap) u).
  have [_ BL] := structured_bounds Hc WP Hpu Hqu HZ He HI'.
  have P : Rlt 0 Z by apply: Rlt_le_trans BL; exact: exp_pos.
  exists (e - kl chol (q_u ap) (p_u m ap))%Re, (ln Z); split; last split; last split; last exact: le_ln.
  - exists (log_Z_u chol m ts), e, (kl chol (q_u ap) (p_u m ap)); split; last split; last split=> //.
    + move=> u; apply: integral_ext (C44_normaliser Hc y WP u) => z.
      by rewrite /log_density /= mulmx0.
    + by apply: integral_ext He => u; rewrite (log_densityE Hc).
    + by apply: integral_ext (kl_integral Hc Hqu Hpu) => u; rewrite !(log_densityE Hc).
  - exact: (collapsed_draws Hc Hqu He).
  - exists h; rewrite exp_ln //; split; last exact: HI.
    by move=> u; apply: integral_ext (Hh u) => z; rewrite /log_joint !(log_densityE Hc).
Qed.
Print Assumptions C91_original_prior_partial.
