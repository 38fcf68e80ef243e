(** The property C128: what a forecast makes of the data that it is conditioned on. *)
From Coq Require Import Reals Lra.
From mathcomp Require Import all_ssreflect all_algebra.
From Verif Require Import Py RMat RChol NormalModel NormalSpec NormalProofs RTac ApproxModel ApproxSpec ApproxProofs ApproxProofs2 ApproxProps EvidenceProps ForecastModel.
Set Implicit Arguments.
Unset Strict Implicit.
Unset Printing Implicit Defensive.
Import GRing.Theory.
Local Open Scope ring_scope.
Delimit Scope R_scope with Re.

(** The same times with other values. *)
Definition with_values nu nz (d : observations nu nz) (y : 'I_(ob_n d) -> R) : observations nu nz := Observations (ob_ig d) y.

(** Forecasts use the values that they are conditioned on: for some model and times, other values give
    another predictive mean. *)
Definition uses_values chol (f : forall nu nz, approx nu nz -> fitted nu nz) : Prop :=
  exists nu nz (m : gp nu nz) (d : observations nu nz) (y' : 'I_(ob_n d) -> R) ap n (ig : integrals n nu nz) i,
    well_posed m (ob_ig d) /\ well_posed m ig /\ proper (q_u ap) /\ proper (q_z ap)
    /\ (forecast chol m (f nu nz ap) d ig i).1 <> (forecast chol m (f nu nz ap) (with_values (d := d) y') ig i).1.
Definition by_samples nu nz (ap : approx nu nz) : fitted nu nz := FitStructured ap [:: const_mx 1%Re].
Definition by_moments nu nz (ap : approx nu nz) : fitted nu nz := FitMeanField ap.

Definition C128_claim chol : Prop := uses_values chol by_samples /\ uses_values chol by_moments.

Theorem C128_uses_refuted : forall chol, chol_ok chol -> ~ C128_claim chol.
Proof. by move=> chol _ [_ [nu [nz [m [d [y' [ap [n [ig [i [_ [_ [_ [_ H]]]]]]]]]]]]]]; apply: H. Qed.
Print Assumptions C128_uses_refuted.

(** With the mean-field schemes a forecast is what the fitted posterior predicts, whatever the model is
    conditioned on. *)
Theorem C128_mean_field :
  forall chol nu nz (m : gp nu nz) (ap : approx nu nz) (d d' : observations nu nz) n (ig : integrals n nu nz) i,
    forecast chol m (FitMeanField ap) d ig i = forecast chol m (FitMeanField ap) d' ig i
    /\ forecast chol m (FitMeanField ap) d ig i =
       (let mm := predict_moments chol m (construct_terms chol m ig (fun _ => R0)) (mean chol (q_u ap)) (m2 chol (q_u ap))
                    (mean chol (q_z ap)) (m2 chol (q_z ap)) i in (mm.1, mm.2 - mm.1 * mm.1 + noise m)%Re).
Proof. by []. Qed.
Print Assumptions C128_mean_field.

Section Linear.
Variable chol : forall n, 'M[R]_n -> 'M[R]_n.
Hypothesis Hc : chol_ok chol.
Variables (n nu nz : nat) (m : gp nu nz) (ig : integrals n nu nz).
Hypothesis WP : well_posed m ig.
Notation ts y := (construct_terms chol m ig y).

Lemma q_z_proper y u : proper (q_z_optimal m (ts y) u).
Proof. by have [_ [_ H]] := C44_conditionals Hc y WP; case: (H u 0). Qed.

Lemma I_uz_lin (a b : R) (y1 y2 : 'I_n -> R) :
  ts_I_uz_sum (ts (fun i => (a * y1 i + b * y2 i)%Re)) = a *: ts_I_uz_sum (ts y1) + b *: ts_I_uz_sum (ts y2).
Proof.
  rewrite /= !scaler_sumr -big_split /=; apply: eq_bigr => i _.
  by rewrite !scalerA -scalerDl.
Qed.

Lemma mean_lin (a b : R) (y1 y2 : 'I_n -> R) u :
  mean chol (q_z_optimal m (ts (fun i => (a * y1 i + b * y2 i)%Re)) u)
  = a *: mean chol (q_z_optimal m (ts y1) u) + b *: mean chol (q_z_optimal m (ts y2) u).
Proof.
  rewrite !(meanE Hc (q_z_proper _ _)).
  have P y : nn_prec (q_z_optimal m (ts y) u) = nn_prec (q_z_optimal m (ts (fun _ => R0)) u) by [].
  rewrite !P; set P0 := invmx _.
  have L y : nn_lam (q_z_optimal m (ts y) u) = (/ noise m)%Re *: ((ts_I_uz_sum (ts y))^T *m u) by [].
  rewrite !L I_uz_lin !linearD /= mulmxDl !linearZ /= -!scalemxAl.
  by rewrite mulmxDr -!scalemxAr scalerDr.
Qed.
End Linear.

(** The mean of a forecast with samples. *)
Lemma forecast_mean chol nu nz (m : gp nu nz) ap us (d : observations nu nz) n (ig : integrals n nu nz) i :
  (forecast chol m (FitStructured ap us) d ig i).1
  = ((\sum_(u <- us) (u^T *m ig_uz ig i *m mean chol (q_z_optimal m (construct_terms chol m (ob_ig d) (@ob_y _ _ d)) u)) ord0 ord0)
      / INR (size us))%Re.
Proof. reflexivity. Qed.

Lemma one_and_one : (1%:M : 'M[R]_1) + (/ 1)%Re *: (1%:M - 1%:M + (const_mx 1%Re : 'cV[R]_1) *m (const_mx 1%Re : 'cV[R]_1)^T) = 2%Re%:M.
Proof.
  rewrite subrr add0r Rinv_1; apply/matrixP => a b; rewrite !ord1 !mxE big_ord1 !mxE /= !mulr1n.
  change ((1 + 1 * (1 * 1) = 2)%Re); ring.
Qed.

Lemma one_point_prec chol (Hc : chol_ok chol) y :
  nn_prec (q_z_optimal gp0 (construct_terms chol gp0 ig0 y) (const_mx 1%Re)) = 2%Re%:M.
Proof.
  rewrite /q_z_optimal /q_optimal /= !big_ord1 /K_u_inv /= (pd_invE Hc (spd1 1)) invmx1 !trmx1 !mul1mx.
  exact: one_and_one.
Qed.

Lemma one_point_lam chol y :
  nn_lam (q_z_optimal gp0 (construct_terms chol gp0 ig0 y) (const_mx 1%Re)) = y ord0 *: (const_mx 1%Re : 'cV[R]_1).
Proof.
  rewrite /q_z_optimal /q_optimal /= !big_ord1 linearZ /= trmx1 -scalemxAl mul1mx Rinv_1.
  exact: scale1r.
Qed.

Lemma inv_two : invmx (2%Re%:M : 'M[R]_1) = (/ 2)%Re%:M.
Proof.
  have H : 2%Re%:M *m (/ 2)%Re%:M = 1%:M :> 'M[R]_1.
    rewrite -scalar_mxM; congr (_%:M); apply: Rinv_r; lra.
  have [U _] := mulmx1_unit H.
  by rewrite -[LHS]mulmx1 -H mulKmx.
Qed.

(** One observation [y] at the only inducing point with unit filter: the forecast there is y / 2. *)
Lemma one_point_forecast chol (Hc : chol_ok chol) ap y :
  (forecast chol gp0 (FitStructured ap [:: const_mx 1%Re]) (Observations ig0 y) ig0 ord0).1 = (y ord0 / 2)%Re.
Proof.
  rewrite forecast_mean big_seq1 (meanE Hc (q_z_proper Hc gp0_well_posed _ _)).
  rewrite (one_point_prec Hc) one_point_lam inv_two mul_scalar_mx scalerA -scalemxAr.
  have -> : ig_uz ig0 ord0 = 1%:M by [].
  rewrite mulmx1 !mxE big_ord1 !mxE.
  change ((/ 2 * y ord0 * (1 * 1) / 1 = y ord0 / 2)%Re); field.
Qed.

(** With the structured scheme, and the samples of the filter that fitting left, the mean of a forecast
    is linear in the values that the model is conditioned on. *)
Theorem C128_uses_partial :
  forall chol, chol_ok chol ->
    uses_values chol by_samples
    /\ forall nu nz (m : gp nu nz) (d : observations nu nz) ap us n (ig : integrals n nu nz) i,
         well_posed m (ob_ig d) ->
         let F y := forecast chol m (FitStructured ap us) (with_values (d := d) y) ig i in
         (forall (a b : R) y1 y2, (F (fun k => (a * y1 k + b * y2 k)%Re)).1 = (a * (F y1).1 + b * (F y2).1)%Re)
         /\ (F (fun _ => 0%Re)).1 = 0%Re
         (* and does not depend on what the posterior was before *)
         /\ (forall ap', forecast chol m (FitStructured ap' us) d ig i = forecast chol m (FitStructured ap us) d ig i).
Proof.
  move=> chol Hc; split.
  - pose ap := Approx 0 (fun _ => NatNormal 0 (1%:M : 'M[R]_1)) (fun _ => NatNormal 0 (1%:M : 'M[R]_1)).
    exists 1%N, 1%N, gp0, (Observations ig0 (fun _ => 1%Re)), (fun _ => 0%Re), ap, 1%N, ig0, ord0.
    split; [exact: gp0_well_posed|split; [exact: gp0_well_posed|split; [exact: spd1|split; [exact: spd1|]]]].
    have E y : (forecast chol gp0 (by_samples ap) (Observations ig0 y) ig0 ord0).1 = (y ord0 / 2)%Re by exact: one_point_forecast.
    move: (E (fun _ => 1%Re)) (E (fun _ => 0%Re)); rewrite /with_values => E1 E0 H.
    have : (1 / 2 = 0 / 2)%Re by rewrite -E1 -E0; exact: H.
    lra.
  - move=> nu nz m d ap us n ig i WP F.
    have L (a b : R) y1 y2 : (F (fun k => (a * y1 k + b * y2 k)%Re)).1 = (a * (F y1).1 + b * (F y2).1)%Re.
      have E y : (F y).1 = ((\sum_(u <- us) (u^T *m ig_uz ig i *m mean chol (q_z_optimal m (construct_terms chol m (ob_ig d) y) u)) ord0 ord0)
          / INR (size us))%Re by exact: (forecast_mean chol m ap us (with_values (d := d) y) ig i).
      clearbody F; refine (etrans (E _) _); symmetry.
      refine (etrans (f_equal2 (fun p q => (a * p + b * q)%Re) (E y1) (E y2)) _); symmetry.
      have S : \sum_(u <- us) (u^T *m ig_uz ig i *m mean chol (q_z_optimal m (construct_terms chol m (ob_ig d) (fun k => (a * y1 k + b * y2 k)%Re)) u)) ord0 ord0
        = a * (\sum_(u <- us) (u^T *m ig_uz ig i *m mean chol (q_z_optimal m (construct_terms chol m (ob_ig d) y1) u)) ord0 ord0)
          + b * (\sum_(u <- us) (u^T *m ig_uz ig i *m mean chol (q_z_optimal m (construct_terms chol m (ob_ig d) y2) u)) ord0 ord0).
        rewrite !mulr_sumr -big_split /=; apply: eq_bigr => u _.
        rewrite (mean_lin Hc WP) mulmxDr -!scalemxAr.
        set p := _ *m _ *m _; set q := _ *m _ *m _; move: p q => p q.
        by rewrite !mxE.
      rewrite S; set p := \sum_(u <- us) _; set q := \sum_(u <- us) _; move: p q => p q.
      change (((a * p + b * q) / INR (size us) = a * (p / INR (size us)) + b * (q / INR (size us)))%Re).
      rewrite /Rdiv; ring.
    split; [exact: L|split; [|by []]].
    have Z : (fun k : 'I_(ob_n d) => (0 * (fun _ => 0%Re) k + 0 * (fun _ => 0%Re) k)%Re) = (fun _ => 0%Re).
      apply: FunctionalExtensionality.functional_extensionality => k; ring.
    rewrite -Z (L 0%Re 0%Re (fun _ => 0%Re) (fun _ => 0%Re)); ring.
Qed.
Print Assumptions C128_uses_partial.

(** Not vacuous: the value y at the inducing point is forecast as y / 2. *)
Example C128_witness : chol_ok some_chol /\ well_posed gp0 ig0
  /\ forall ap, (forecast some_chol gp0 (FitStructured ap [:: const_mx 1%Re]) (Observations ig0 (fun _ => 3%Re)) ig0 ord0).1 = (3 / 2)%Re.
Proof. split; [exact: some_chol_ok|split; [exact: gp0_well_posed|move=> ap; exact: (one_point_forecast some_chol_ok)]]. Qed.
