(** The property C116: the unit and the sign of the signal do not matter. *)
From Coq Require Import Reals ZArith List Lra String FunctionalExtensionality.
From mathcomp Require Import all_ssreflect all_algebra.
From Verif Require Import Py ExpPolyModel ExpPolyIntModel ExpPolyIntProofs RMat RChol RTac NormalModel NormalProofs ApproxModel ApproxSpec ApproxProofs ApproxProofs2 EvidenceModel.
From Verif Require Import GpcmModel GpcmGood GpcmBridge GpcmWell UnitSpec UnitProps GpcmUnitProps ScaleSpec ScaleProofs OutSpec OutProofs FlipProofs LoudSpec.
From Verif Require Import RgpcmModel RgpcmBridge RgpcmWell RgpcmEndProps.
From Verif Require GpcmSpec GpcmProps RgpcmProps GpcmEntries RgpcmSpec LoudEntries LoudInit.
Set Implicit Arguments.
Unset Strict Implicit.
Unset Printing Implicit Defensive.
Import GRing.Theory.
Local Open Scope ring_scope.
Delimit Scope R_scope with Re.

(** What the approximations see with the signal in another unit. *)
Definition out_session (c : R) (S : session) : session :=
  Session (out_gp c (s_gp S)) (out_integrals c (s_data S)) (out_integrals c (s_pred S)).

Lemma mat_times p q k (T T' : list (list R)) :
  (forall (i : 'I_p) (j : 'I_q), GpcmEntries.get2 T' i j = (k * GpcmEntries.get2 T i j)%Re) -> mat p q T' = k *: mat p q T.
Proof. by move=> H; apply/matrixP=> i j; rewrite !mxE; exact: H. Qed.
Lemma mat_same p q (T T' : list (list R)) :
  (forall (i : 'I_p) (j : 'I_q), GpcmEntries.get2 T' i j = GpcmEntries.get2 T i j) -> mat p q T' = mat p q T.
Proof. by move=> H; apply/matrixP=> i j; rewrite !mxE; exact: H. Qed.

(** The RGPCM, in which the filter is a scaled and windowed process: with the scaling and the
    noise converted, the approximations see the same model with the signal in the other unit. *)
Theorem C116_rgpcm :
  forall c, c <> 0%Re ->
  forall (argsort argsort' : list Z -> list nat) (m : rgpcm) (t t' : list R),
    RgpcmSpec.argsorts argsort -> RgpcmSpec.argsorts argsort' -> well_rgpcm m -> in_support m t -> in_support m t' ->
    exists S, rsession argsort m t t' = Ok S
      /\ well_posed (s_gp S) (s_data S) /\ well_posed (s_gp S) (s_pred S)
      /\ rsession argsort' (loud_rgpcm c m) t t' = Ok (out_session c S).
Proof.
  move=> c c0 argsort argsort' m t t' Ha Ha' Wm St St'.
  have [G EG] := rgpcm_gp_total Wm.
  have [D ED] := rgpcm_integrals_total Ha Wm t.
  have [P EP] := rgpcm_integrals_total Ha Wm t'.
  exists (Session G D P).
  split; first by rewrite /rsession EG ED EP.
  split; first by have [] := rgpcm_well Ha Wm St EG ED.
  split; first by have [] := rgpcm_well Ha Wm St' EG EP.
  have Hp : List.Forall (fun k => Z.le Z0 k) (r_ms m) by apply/List.Forall_forall; case: Wm => _ [_ [_ [_ []]]].
  case: (Wm) => -[[Pa Pg Pl] [Na [Nt [Ng [Nl [Nu Up]]]]]] [Hab [HM [NDm [Pm Pn]]]].
  have Wm' : well_rgpcm (loud_rgpcm c m).
    split; first split=> //.
      split; last by [].
      by apply: Rmult_integral_contrapositive_currified.
    split=> //; split=> //; split=> //; split=> //.
    by apply: Rmult_lt_0_compat => //; exact: Rlt_0_sqr.
  have [G' EG'] := rgpcm_gp_total Wm'.
  have [D' ED'] := rgpcm_integrals_total Ha' Wm' t.
  have [P' EP'] := rgpcm_integrals_total Ha' Wm' t'.
  rewrite /rsession EG' ED' EP' /bind; congr Ok; rewrite /out_session; cbn [s_gp s_data s_pred].
  rewrite /rgpcm_gp /rgpcm_integrals in EG ED EP EG' ED' EP'.
  have [Kz [EKz {}EG]] := bindP EG; have [Ku [EKu {}EG]] := bindP EG; case: EG => <-.
  have [hx [Ehx {}ED]] := bindP ED.
  have [ux [Eux {}ED]] := bindP ED.
  have [hz [Ehz {}ED]] := bindP ED.
  have [uz [Euz {}ED]] := bindP ED.
  case: ED => <-.
  have [hy [Ehy {}EP]] := bindP EP.
  have [uy [Euy {}EP]] := bindP EP.
  have [hw [Ehw {}EP]] := bindP EP.
  have [uw [Euw {}EP]] := bindP EP.
  case: EP => <-.
  have [Kz' [EKz' {}EG']] := bindP EG'; have [Ku' [EKu' {}EG']] := bindP EG'; case: EG' => <-.
  have [hx' [Ehx' {}ED']] := bindP ED'.
  have [ux' [Eux' {}ED']] := bindP ED'.
  have [hz' [Ehz' {}ED']] := bindP ED'.
  have [uz' [Euz' {}ED']] := bindP ED'.
  case: ED' => <-.
  have [hy' [Ehy' {}EP']] := bindP EP'.
  have [uy' [Euy' {}EP']] := bindP EP'.
  have [hw' [Ehw' {}EP']] := bindP EP'.
  have [uw' [Euw' {}EP']] := bindP EP'.
  case: EP' => <-.
  move: Euy Euy'; rewrite Eux Eux' => - [<-] [<-].
  rewrite LoudEntries.rKu_loud EKu in EKu'; rewrite LoudEntries.rKz_loud EKz in EKz'; case: EKu' => <-; case: EKz' => <-.
  have lo a (i : 'I_a) : (i < a)%coq_nat by exact/ltP.
  have F3 := mat_times (fun i j => LoudEntries.rux_loud c m Ng Nl _ _ _ _ Eux Eux' (lo _ i) (lo _ j)).
  have F4 a := mat_times (fun i j => LoudEntries.rhz_loud c _ _ Ha Ha' m Pa Pl Hab HM Hp _ _ _ _ _ _ Ehz Ehz' (lo _ a) (lo _ i) (lo _ j)).
  have F5 a := mat_times (fun i j => LoudEntries.rhz_loud c _ _ Ha Ha' m Pa Pl Hab HM Hp _ _ _ _ _ _ Ehw Ehw' (lo _ a) (lo _ i) (lo _ j)).
  have F6 a := mat_times (fun i j => LoudEntries.ruz_loud c _ _ Ha Ha' m Hab HM Ng Hp _ _ _ _ _ _ Euz Euz' (lo _ a) (lo _ i) (lo _ j)).
  have F7 a := mat_times (fun i j => LoudEntries.ruz_loud c _ _ Ha Ha' m Hab HM Ng Hp _ _ _ _ _ _ Euw Euw' (lo _ a) (lo _ i) (lo _ j)).
  have F8 a := LoudEntries.rhxs_loud c m Pa _ _ _ a Ehx Ehx'.
  have F9 a := LoudEntries.rhxs_loud c m Pa _ _ _ a Ehy Ehy'.
  clear -F3 F4 F5 F6 F7 F8 F9.
  change (r_t_u (loud_rgpcm c m)) with (r_t_u m); change (r_ms (loud_rgpcm c m)) with (r_ms m).
  rewrite /out_gp /out_integrals; cbn [K_u K_z noise ig_hx ig_ux ig_hz ig_uz].
  rewrite F3; congr Session; congr Integrals; apply: functional_extensionality => i.
  - by apply: F8; exact/ltP.
  - exact: F4.
  - exact: F6.
  - by apply: F9; exact/ltP.
  - exact: F5.
  - exact: F7.
Qed.
Print Assumptions C116_rgpcm.

(** The GPCM and the CGPCM, in which the inducing variables are values of the filter: these are
    measured in the other unit too. *)
Theorem C116_gpcm :
  forall c, (0 < c)%Re ->
  forall (N : numdom) (so so' : setorder) (ofR : R -> N) (m : gpcm) (t t' : list R),
    (forall r, val (ofR r) = r) -> GpcmProps.tensors N -> good_gpcm m ->
    exists S, gsession so ofR m t t' = Ok S
      /\ well_posed (s_gp S) (s_data S) /\ well_posed (s_gp S) (s_pred S)
      /\ gsession so' ofR (loud_gpcm c m) t t' = Ok (out_session c (scale_session c S)).
Proof.
  move=> c c0 N so so' ofR m t t' Ho Te Gm.
  have cn : c <> 0%Re by lra.
  have M := proj1 Gm.
  have [G EG] := gpcm_gp_total so Ho Gm Te.
  have [D ED] := gpcm_integrals_total so Ho Gm t Te.
  have [P EP] := gpcm_integrals_total so Ho Gm t' Te.
  exists (Session G D P); split; first by rewrite /gsession EG ED EP.
  split; first by have [] := gpcm_well Ho Gm EG ED.
  split; first by have [] := gpcm_well Ho Gm EG EP.
  have Gm' := LoudEntries.good_loud c cn m Gm.
  have [G' EG'] := gpcm_gp_total so' Ho Gm' Te.
  have [D' ED'] := gpcm_integrals_total so' Ho Gm' t Te.
  have [P' EP'] := gpcm_integrals_total so' Ho Gm' t' Te.
  rewrite /gsession EG' ED' EP' /bind; congr Ok; rewrite /out_session /scale_session; cbn [s_gp s_data s_pred].
  rewrite /gpcm_gp /gpcm_integrals in EG ED EP EG' ED' EP'.
  have [Kz [EKz {}EG]] := bindP EG; have [Ku [EKu {}EG]] := bindP EG; case: EG => <-.
  have [hx [Ehx {}ED]] := bindP ED.
  have [ux [Eux {}ED]] := bindP ED.
  have [hz [Ehz {}ED]] := bindP ED.
  have [uz [Euz {}ED]] := bindP ED.
  case: ED => <-.
  have [hy [Ehy {}EP]] := bindP EP.
  have [uy [Euy {}EP]] := bindP EP.
  have [hw [Ehw {}EP]] := bindP EP.
  have [uw [Euw {}EP]] := bindP EP.
  case: EP => <-.
  have [Kz' [EKz' {}EG']] := bindP EG'; have [Ku' [EKu' {}EG']] := bindP EG'; case: EG' => <-.
  have [hx' [Ehx' {}ED']] := bindP ED'.
  have [ux' [Eux' {}ED']] := bindP ED'.
  have [hz' [Ehz' {}ED']] := bindP ED'.
  have [uz' [Euz' {}ED']] := bindP ED'.
  case: ED' => <-.
  have [hy' [Ehy' {}EP']] := bindP EP'.
  have [uy' [Euy' {}EP']] := bindP EP'.
  have [hw' [Ehw' {}EP']] := bindP EP'.
  have [uw' [Euw' {}EP']] := bindP EP'.
  case: EP' => <-.
  move: Euy Euy'; rewrite Eux Eux' => - [<-] [<-].
  have lo a (i : 'I_a) : (i < a)%coq_nat by exact/ltP.
  have F1 := mat_times (fun i j => LoudEntries.Ku_loud c N so so' ofR Ho m _ _ _ _ EKu EKu' (lo _ i) (lo _ j)).
  have F2 := mat_same (fun i j => LoudEntries.Kz_loud c N so so' ofR Ho m M _ _ _ _ EKz EKz' (lo _ i) (lo _ j)).
  have F3 := mat_times (fun i j => LoudEntries.ux_loud c N so so' ofR Ho m M _ _ _ _ Eux Eux' (lo _ i) (lo _ j)).
  have F4 a := mat_times (fun i j => LoudEntries.hz_loud c N so so' ofR Ho m M _ _ _ _ _ _ Ehz Ehz' (lo _ a) (lo _ i) (lo _ j)).
  have F5 a := mat_times (fun i j => LoudEntries.hz_loud c N so so' ofR Ho m M _ _ _ _ _ _ Ehw Ehw' (lo _ a) (lo _ i) (lo _ j)).
  have F6 a := mat_times (fun i j => LoudEntries.uz_loud c N so so' ofR Ho m M _ _ _ _ _ _ Euz Euz' (lo _ a) (lo _ i) (lo _ j)).
  have F7 a := mat_times (fun i j => LoudEntries.uz_loud c N so so' ofR Ho m M _ _ _ _ _ _ Euw Euw' (lo _ a) (lo _ i) (lo _ j)).
  have F8 a := LoudEntries.hxs_loud c N so so' ofR Ho m M _ _ _ a Ehx Ehx'.
  have F9 a := LoudEntries.hxs_loud c N so so' ofR Ho m M _ _ _ a Ehy Ehy'.
  clear -F1 F2 F3 F4 F5 F6 F7 F8 F9.
  change (g_t_u (loud_gpcm c m)) with (g_t_u m); change (g_t_z (loud_gpcm c m)) with (g_t_z m).
  rewrite /out_gp /out_integrals /scale_gp /scale_integrals; cbn [K_u K_z noise ig_hx ig_ux ig_hz ig_uz].
  rewrite F1 F2 F3 scalerA; congr Session; congr Integrals; apply: functional_extensionality => i.
  - by apply: F8; exact/ltP.
  - exact: F4.
  - by rewrite scalerA; exact: F6.
  - by apply: F9; exact/ltP.
  - exact: F5.
  - by rewrite scalerA; exact: F7.
Qed.
Print Assumptions C116_gpcm.

(** The constructors: given the scaling of the filter, converting it and the noise converts the
    model.  Without it, the constructors choose the scaling for a signal of order one. *)
Theorem C116_constructor :
  forall c,
    (forall a, a_alpha_t a <> None -> new_gpcm (loud_args c a) = on_clock (loud_gpcm c) (new_gpcm a))
    /\ (forall a, ra_alpha_t a <> None -> new_rgpcm (rloud_args c a) = on_clock (loud_rgpcm c) (new_rgpcm a)).
Proof. by move=> c; split=> a; [exact: LoudInit.new_loud|exact: LoudInit.rnew_loud]. Qed.
Print Assumptions C116_constructor.

(** What the approximations compute with the signal in another unit: posteriors, fits with their
    callbacks and Gibbs samples are the same, bounds and densities are shifted by the density of
    the change of unit, and predictions are in the other unit. *)
Theorem C116_inference :
  forall chol c, c <> 0%Re ->
  forall n n' nu nz (G : gp nu nz) (D : integrals n nu nz) (P : integrals n' nu nz) y y', (0 < noise G)%Re ->
    let G1 := out_gp c G in
    let data := construct_terms chol G D y in
    let data1 := construct_terms chol G1 (out_integrals c D) (out_y c y) in
    let new := construct_terms chol G P y' in
    let new1 := construct_terms chol G1 (out_integrals c P) (out_y c y') in
    let shift x := (x - INR n * ln (Rabs c))%Re in
    (* the optimal posteriors and the fits by coordinate ascent *)
    (forall z, q_u_optimal G1 data1 z = q_u_optimal G data z)
    /\ (forall u, q_z_optimal G1 data1 u = q_z_optimal G data u)
    /\ (forall q, q_u_optimal_mean_field chol G1 data1 q = q_u_optimal_mean_field chol G data q)
    /\ (forall q, q_z_optimal_mean_field chol G1 data1 q = q_z_optimal_mean_field chol G data q)
    /\ (forall iters ap, fit_mean_field_ca chol G1 data1 iters ap = fit_mean_field_ca chol G data iters ap)
    (* the mean-field approximation *)
    /\ (forall ap collapsed, elbo chol G1 data1 ap collapsed = on_clock shift (elbo chol G data ap collapsed))
    /\ (forall ap i, predict_mean_field chol G1 new1 ap i = out_p c (predict_mean_field chol G new ap i))
    (* the structured approximation *)
    /\ (forall u, log_Z_u chol G1 data1 u = shift (log_Z_u chol G data u))
    /\ (forall ap us, elbo_collapsed_z chol G1 data1 ap us = on_clock shift (elbo_collapsed_z chol G data ap us))
    /\ (forall noises u z, gibbs chol G1 data1 noises u z = gibbs chol G data noises u z)
    /\ (forall ap noises u z, elbo_gibbs chol G1 data1 ap noises u z
         = let r := elbo_gibbs chol G data ap noises u z in (shift r.1.1, r.1.2, r.2))
    /\ (forall us i, predict_structured chol G1 data1 new1 us i = out_p c (predict_structured chol G data new us i)).
Proof.
  move=> chol c c0 n n' nu nz G D P y y' No G1 data data1 new new1 shift.
  have E : data1 = outt c data by exact: terms_out. have E' : new1 = outt c new by exact: terms_out.
  rewrite E E' /G1 /shift.
  split; first by move=> z; exact: q_u_out.
  split; first by move=> u; exact: q_z_out.
  split; first by move=> q; exact: q_u_mf_out.
  split; first by move=> q; exact: q_z_mf_out.
  split; first by move=> k ap; exact: fit_out.
  split; first by move=> ap co; exact: elbo_out.
  split; first by move=> ap i; exact: predict_mf_out.
  split; first by move=> u; exact: log_Z_u_out.
  split; first by move=> ap us; exact: collapsed_out.
  split; first by move=> es u z; exact: gibbs_out.
  split; first by move=> ap es u z; exact: elbo_gibbs_out.
  by move=> us i; exact: structured_out.
Qed.
Print Assumptions C116_inference.

(** The same for the GPCM, with the inducing variables of the filter in the other unit: whitened,
    they are divided by the unit. *)
Theorem C116_gpcm_inference :
  forall chol, chol_ok chol -> forall c, (0 < c)%Re ->
  forall n n' nu nz (G : gp nu nz) (D : integrals n nu nz) (P : integrals n' nu nz) y y',
    well_posed G D -> well_posed G P ->
    let G1 := out_gp c (scale_gp c G) in
    let data := construct_terms chol G D y in
    let data1 := construct_terms chol G1 (out_integrals c (scale_integrals c D)) (out_y c y) in
    let new := construct_terms chol G P y' in
    let new1 := construct_terms chol G1 (out_integrals c (scale_integrals c P)) (out_y c y') in
    let shift x := (x - INR n * ln c)%Re in
    let over (u : 'cV[R]_nu) := (/ c)%Re *: u in
    (forall z, q_u_optimal G1 data1 z = scale_q c (q_u_optimal G data z))
    /\ (forall u, q_z_optimal G1 data1 (over u) = q_z_optimal G data u)
    /\ (forall q, q_u_optimal_mean_field chol G1 data1 q = scale_q c (q_u_optimal_mean_field chol G data q))
    /\ (forall q, proper q -> q_z_optimal_mean_field chol G1 data1 (scale_q c q) = q_z_optimal_mean_field chol G data q)
    /\ (forall ap, (forall i, proper (ap_qs_u ap i)) -> proper (q_z ap) ->
         (forall collapsed, elbo chol G1 data1 (scale_state c ap) collapsed = on_clock shift (elbo chol G data ap collapsed))
         /\ (forall i, predict_mean_field chol G1 new1 (scale_state c ap) i = out_p c (predict_mean_field chol G new ap i)))
    /\ (forall u, log_Z_u chol G1 data1 (over u) = shift (log_Z_u chol G data u))
    /\ (forall ap us, (forall i, proper (ap_qs_u ap i)) ->
         elbo_collapsed_z chol G1 data1 (scale_state c ap) [seq over u | u <- us] = on_clock shift (elbo_collapsed_z chol G data ap us))
    /\ (forall noises u z,
         gibbs chol G1 data1 [seq (c *: e.1, e.2) | e <- noises] (over u) z
         = (over (gibbs chol G data noises u z).1, (gibbs chol G data noises u z).2))
    /\ (forall us i, predict_structured chol G1 data1 new1 [seq over u | u <- us] i = out_p c (predict_structured chol G data new us i))
    /\ (forall a i_hx I_ux (t_k : 'I_a -> R) u,
         sample_kernel chol (K_u G1) (fun t1 t2 => c * c * i_hx t1 t2)%Re (fun t1 t2 => (c * c)%Re *: ((c * c)%Re *: I_ux t1 t2)) t_k (over u)
         = (c * c)%Re *: sample_kernel chol (K_u G) i_hx I_ux t_k u).
Proof.
  move=> chol Hc c c0 n n' nu nz G D P y y' WP WP' G1 data data1 new new1 shift over.
  have cn : c <> 0%Re by lra.
  have [Ku [Kz [No _]]] := WP.
  have [_ [A1 [A2 [A3 [A4 [A5 [A6 [A7 [A8 [A9 _]]]]]]]]]] := C113_inference Hc c0 y y' WP WP'.
  have [B1 [B2 [B3 [B4 [_ [B6 [B7 [B8 [B9 [B10 [_ B12]]]]]]]]]]] :=
    @C116_inference chol c cn n n' nu nz (scale_gp c G) (scale_integrals c D) (scale_integrals c P) y y' No.
  have Ea : Rabs c = c by apply: Rabs_right; lra.
  rewrite Ea in B6 B8 B9.
  split; first by move=> z; rewrite /G1 /data1 B1 A1.
  split; first by move=> u; rewrite /G1 /data1 B2 A2.
  split; first by move=> q; rewrite /G1 /data1 B3 A3.
  split; first by move=> q Hq; rewrite /G1 /data1 B4 A4.
  split; first by move=> ap Hu Hz; have [X Y] := A5 ap Hu Hz; split=> [co|i]; rewrite /G1 /data1 /new1 ?B6 ?B7 ?X ?Y.
  split; first by move=> u; rewrite /G1 /data1 B8 A6.
  split; first by move=> ap us Hu; rewrite /G1 /data1 B9 A7.
  split; first by move=> es u z; rewrite /G1 /data1 B10 A8.
  split; first by move=> us i; rewrite /G1 /data1 /new1 B12 A9.
  move=> a i_hx I_ux t_k u; rewrite (kernel_out chol c); congr (_ *: _).
  exact: (C113_kernel Hc c0).
Qed.
Print Assumptions C116_gpcm_inference.

(** C116 for coordinate ascent in the GPCM, the full statement: the fit from the same start gives
    the same posterior.  Proved: both fits make the same sweeps as far as both go.  Missing: they
    need not make the same number of sweeps. *)
Theorem C116_gpcm_fit_partial :
  forall chol, chol_ok chol -> forall c, (0 < c)%Re ->
  forall n nu nz (G : gp nu nz) (D : integrals n nu nz) y ap iters iters',
    well_posed G D -> proper (q_u ap) -> proper (q_z ap) ->
    let G1 := out_gp c (scale_gp c G) in
    let calls := (fit_mean_field_ca chol G (construct_terms chol G D y) iters ap).2 in
    let r1 := fit_mean_field_ca chol G1 (construct_terms chol G1 (out_integrals c (scale_integrals c D)) (out_y c y)) iters' (scale_state c ap) in
    (forall i x x', (i < size calls)%N -> (i < size r1.2)%N -> nth x' r1.2 i = scale_pair c (nth x calls i))
    /\ (size calls = size r1.2 ->
        r1 = let r := fit_mean_field_ca chol G (construct_terms chol G D y) iters ap in (scale_state c r.1, [seq scale_pair c q | q <- r.2])).
Proof.
  move=> chol Hc c c0 n nu nz G D y ap iters iters' WP Hu Hz G1 calls r1.
  have cn : c <> 0%Re by lra.
  have [Ku [Kz [No _]]] := WP.
  have -> : r1 = fit_mean_field_ca chol (scale_gp c G) (construct_terms chol (scale_gp c G) (scale_integrals c D) y) iters' (scale_state c ap).
    by rewrite /r1 /G1 terms_out // fit_out.
  exact: C113_fit_partial.
Qed.
Print Assumptions C116_gpcm_fit_partial.

Theorem C116_gpcm_fit_refuted : ~ (forall chol, chol_ok chol -> forall c, (0 < c)%Re ->
  forall n nu nz (G : gp nu nz) (D : integrals n nu nz) y ap iters,
    well_posed G D -> (forall i, proper (ap_qs_u ap i)) -> (forall i, proper (ap_qs_z ap i)) ->
    let G1 := out_gp c (scale_gp c G) in
    q_u (fit_mean_field_ca chol G1 (construct_terms chol G1 (out_integrals c (scale_integrals c D)) (out_y c y)) iters (scale_state c ap)).1
    = scale_q c (q_u (fit_mean_field_ca chol G (construct_terms chol G D y) iters ap).1)).
Proof.
  move=> H; apply: C113_fit_refuted => chol Hc s s0 n nu nz G D y ap iters WP Hu Hz.
  have sn : s <> 0%Re by lra.
  have [Ku [Kz [No _]]] := WP.
  have := H chol Hc s s0 n nu nz G D y ap iters WP Hu Hz; cbv zeta.
  by rewrite terms_out // fit_out.
Qed.
Print Assumptions C116_gpcm_fit_refuted.

(** Data with the other sign, in the same model: the filter has the other sign and everything else
    is the same, also the fits. *)
Theorem C116_sign :
  forall chol n n' nu nz (G : gp nu nz) (D : integrals n nu nz) (new : terms n' nu nz) y,
    let data := construct_terms chol G D y in
    let data1 := construct_terms chol G D (fun i => - y i)%Re in
    let minus (p : R * R) := (- p.1, p.2)%Re in
    (forall k (p : natnormal k), mean chol (neg_q p) = - mean chol p /\ var chol (neg_q p) = var chol p
       /\ forall e : 'cV[R]_k, sample chol (neg_q p) (- e) = - sample chol p e)
    /\ (forall z, q_u_optimal G data1 z = neg_q (q_u_optimal G data z))
    /\ (forall u, q_z_optimal G data1 (- u) = q_z_optimal G data u)
    /\ (forall q, q_u_optimal_mean_field chol G data1 q = neg_q (q_u_optimal_mean_field chol G data q))
    /\ (forall q, q_z_optimal_mean_field chol G data1 (neg_q q) = q_z_optimal_mean_field chol G data q)
    /\ (forall iters ap, fit_mean_field_ca chol G data1 iters (neg_state ap)
         = let r := fit_mean_field_ca chol G data iters ap in (neg_state r.1, [seq neg_pair q | q <- r.2]))
    /\ (forall ap collapsed, elbo chol G data1 (neg_state ap) collapsed = elbo chol G data ap collapsed)
    /\ (forall ap i, predict_mean_field chol G new (neg_state ap) i = minus (predict_mean_field chol G new ap i))
    /\ (forall u, log_Z_u chol G data1 (- u) = log_Z_u chol G data u)
    /\ (forall ap us, elbo_collapsed_z chol G data1 (neg_state ap) [seq - u | u <- us] = elbo_collapsed_z chol G data ap us)
    /\ (forall noises u z, gibbs chol G data1 [seq (- e.1, e.2) | e <- noises] (- u) z
         = let r := gibbs chol G data noises u z in (- r.1, r.2))
    /\ (forall ap noises u z, elbo_gibbs chol G data1 (neg_state ap) [seq (- e.1, e.2) | e <- noises] (- u) z
         = let r := elbo_gibbs chol G data ap noises u z in (r.1.1, - r.1.2, r.2))
    /\ (forall us i, predict_structured chol G data1 new [seq - u | u <- us] i = minus (predict_structured chol G data new us i))
    /\ (forall a i_hx I_ux (t_k : 'I_a -> R) u,
         sample_kernel chol (K_u G) i_hx I_ux t_k (- u) = sample_kernel chol (K_u G) i_hx I_ux t_k u).
Proof.
  move=> chol n n' nu nz G D new y data data1 minus.
  have E : data1 = flip data by exact: terms_flip.
  rewrite E.
  split; first by move=> k p; split; [exact: mean_neg|split=> // e; exact: sample_neg].
  split; first by move=> z; exact: q_u_flip.
  split; first by move=> u; exact: q_z_flip.
  split; first by move=> q; exact: q_u_mf_flip.
  split; first by move=> q; exact: q_z_mf_flip.
  split; first by move=> k ap; exact: fit_flip.
  split; first by move=> ap co; exact: elbo_flip.
  split; first by move=> ap i; exact: predict_mf_neg.
  split; first by move=> u; exact: log_Z_u_flip.
  split; first by move=> ap us; exact: collapsed_flip.
  split; first by move=> es u z; exact: gibbs_flip.
  split; first by move=> ap es u z; exact: elbo_gibbs_flip.
  split; first by move=> us i; exact: structured_flip.
  by move=> a i_hx I_ux t_k u; exact: kernel_neg.
Qed.
Print Assumptions C116_sign.

(** Non-vacuity: volts and millivolts, for the default models. *)
Example C116_witness :
  (forall causal, exists a m, a_alpha_t a <> None /\ new_gpcm a = Ok m /\ good_gpcm m /\ g_causal m = causal
     /\ new_gpcm (loud_args 1000 a) = Ok (loud_gpcm 1000 m))
  /\ (exists m, new_rgpcm (rdefault_args 1 1 [:: 0%Re; 5%Re]) = Ok m /\ well_rgpcm m /\ in_support m [:: 0%Re; 5%Re])
  /\ well_posed gpc igc.
Proof.
  split; last by split; [exact: C99_witness|exact: gpc_well_posed].
  move=> causal.
  have [m [E G]] : exists m, new_gpcm (default_args causal 1 1 [:: 0%Re; 1%Re]) = Ok m /\ good_gpcm m.
    apply: (default_good causal 1 1 [:: 0%Re; 1%Re] 0 1); try (simpl; lra); simpl; try by (left || right; left).
    by move=> a b [<-|[<-|[]]] [<-|[<-|[]]]; lra.
  have Ec : g_causal m = causal.
    by move: E; rewrite /new_gpcm => E; repeat (have [? [_ {}E]] := bindP E); case: E => <-.
  have E' := LoudInit.given_same _ _ E.
  exists (LoudInit.with_alpha_t (default_args causal 1 1 [:: 0%Re; 1%Re]) (g_alpha_t m)), m; split=> //; split=> //; split=> //; split=> //.
  by rewrite LoudInit.new_loud // E'.
Qed.
