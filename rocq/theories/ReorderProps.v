(** The property C114: the order of the inducing points does not matter. *)
From Coq Require Import Reals ZArith List Lra String FunctionalExtensionality Permutation.
From mathcomp Require Import all_ssreflect all_algebra fingroup perm.
From Verif Require Import Py ExpPolyModel ExpPolyIntModel ExpPolyIntProofs RMat RChol RTac NormalModel NormalProofs ApproxModel ApproxSpec ApproxProofs ApproxProofs2 EvidenceModel.
From Verif Require Import GpcmModel GpcmGood GpcmBridge GpcmWell UnitProps GpcmUnitProps BasisSpec BasisProofs ReorderSpec ReorderSpec2 ReorderProofs.
From Verif Require Import RgpcmModel RgpcmBridge RgpcmWell KernelProofs RgpcmEndProps.
From Verif Require GpcmSpec GpcmProps RgpcmProps GpcmEntries ReorderEntries RgpcmSpec RgpcmReorder.
Set Implicit Arguments.
Unset Strict Implicit.
Unset Printing Implicit Defensive.
Import GRing.Theory.
Local Open Scope ring_scope.
Delimit Scope R_scope with Re.
Delimit Scope Z_scope with BZ.

Section Lists.
Variables (nu nz : nat) (s : 'S_nu) (r : 'S_nz).
Lemma mat_both (T T' : list (list R)) :
  (forall (i : 'I_nu) (j : 'I_nz), GpcmEntries.get2 T' i j = GpcmEntries.get2 T (s i) (r j)) -> mat nu nz T' = both s r (mat nu nz T).
Proof. by move=> H; apply/matrixP=> i j; rewrite !mxE; exact: H. Qed.
End Lists.

(** The approximations see the same model with the inducing variables in the other order. *)
Theorem C114_session :
  forall (N : numdom) (so so' : setorder) (ofR : R -> N) (m : gpcm) (tu tz t t' : list R),
    (forall x, val (ofR x) = x) -> GpcmProps.tensors N -> good_gpcm m ->
    Permutation (g_t_u m) tu -> Permutation (g_t_z m) tz ->
    let nu := List.length (g_t_u m) in
    let nz := List.length (g_t_z m) in
    exists (s : 'S_nu) (r : 'S_nz) (G : gp nu nz) (D : integrals (List.length t) nu nz) (P : integrals (List.length t') nu nz),
      (forall i : 'I_nu, List.nth i tu R0 = List.nth (s i) (g_t_u m) R0)
      /\ (forall i : 'I_nz, List.nth i tz R0 = List.nth (r i) (g_t_z m) R0)
      /\ gsession so ofR m t t' = Ok (Session G D P)
      /\ well_posed G D /\ well_posed G P
      /\ gsession so' ofR (with_points m tu tz) t t' = Ok (Session (order_gp s r G) (order_integrals s r D) (order_integrals s r P)).
Proof.
  move=> N so so' ofR m tu tz t t' Ho Te Gm Pu Pz nu nz.
  have M := proj1 Gm.
  have [Lu [s Es]] := perm_of R0 Pu; have [Lz [r Er]] := perm_of R0 Pz.
  have [G EG] := gpcm_gp_total so Ho Gm Te.
  have [D ED] := gpcm_integrals_total so Ho Gm t Te.
  have [P EP] := gpcm_integrals_total so Ho Gm t' Te.
  exists s, r, G, D, P; split=> //; split=> //.
  split; first by rewrite /gsession EG ED EP.
  split; first by have [] := gpcm_well Ho Gm EG ED.
  split; first by have [] := gpcm_well Ho Gm EG EP.
  have Gm' : good_gpcm (with_points m tu tz).
    apply: (ReorderEntries.good_points _ _ _ Gm); [apply: (Permutation_NoDup Pu)|apply: (Permutation_NoDup Pz)]; case: Gm; intuition.
  have [G' EG'] := gpcm_gp_total so' Ho Gm' Te.
  have [D' ED'] := gpcm_integrals_total so' Ho Gm' t Te.
  have [P' EP'] := gpcm_integrals_total so' Ho Gm' t' Te.
  rewrite /gsession EG' ED' EP' /bind; congr Ok.
  rewrite /gpcm_gp /gpcm_integrals in EG ED EP EG' ED' EP'.
  have [Kz [EKz {}EG]] := bindP EG; have [Ku [EKu {}EG]] := bindP EG; case: EG => <-.
  have [hx [Ehx {}ED]] := bindP ED.
  have [ux [Eux {}ED]] := bindP ED.
  have [hz [Ehz {}ED]] := bindP ED.
  have [uz [Euz {}ED]] := bindP ED.
  case: ED => <-.
  have [hy [Ehy {}EP]] := bindP EP.
  have [uy [Euy {}EP]] := bindP EP.
  have [hw [Ehw {}EP]] := bindP EP.
  have [uw [Euw {}EP]] := bindP EP.
  case: EP => <-.
  have [Kz' [EKz' {}EG']] := bindP EG'; have [Ku' [EKu' {}EG']] := bindP EG'; case: EG' => <-.
  have [hx' [Ehx' {}ED']] := bindP ED'.
  have [ux' [Eux' {}ED']] := bindP ED'.
  have [hz' [Ehz' {}ED']] := bindP ED'.
  have [uz' [Euz' {}ED']] := bindP ED'.
  case: ED' => <-.
  have [hy' [Ehy' {}EP']] := bindP EP'.
  have [uy' [Euy' {}EP']] := bindP EP'.
  have [hw' [Ehw' {}EP']] := bindP EP'.
  have [uw' [Euw' {}EP']] := bindP EP'.
  case: EP' => <-.
  move: Euy Euy'; rewrite Eux Eux' => - [<-] [<-].
  have lu (i : 'I_nu) : (i < List.length tu)%coq_nat by rewrite Lu; exact/ltP.
  have lz (i : 'I_nz) : (i < List.length tz)%coq_nat by rewrite Lz; exact/ltP.
  have lo a (i : 'I_a) : (i < a)%coq_nat by exact/ltP.
  have F1 := mat_both (fun i j => ReorderEntries.Ku_at N so so' ofR Ho m tu tz _ _ _ _ _ _ EKu EKu' (lo _ (s i)) (lo _ (s j)) (lu i) (lu j) (Es i) (Es j)).
  have F2 := mat_both (fun i j => ReorderEntries.Kz_at N so so' ofR Ho m M tu tz _ _ _ _ _ _ EKz EKz' (lo _ (r i)) (lo _ (r j)) (lz i) (lz j) (Er i) (Er j)).
  have F3 := mat_both (fun i j => ReorderEntries.ux_at N so so' ofR Ho m M tu tz _ _ _ _ _ _ Eux Eux' (lo _ (s i)) (lo _ (s j)) (lu i) (lu j) (Es i) (Es j)).
  have F4 a := mat_both (fun i j => ReorderEntries.hz_at N so so' ofR Ho m M tu tz _ _ _ _ _ _ _ _ Ehz Ehz' (lo _ a) (lo _ (r i)) (lo _ (r j)) (lz i) (lz j) (Er i) (Er j)).
  have F5 a := mat_both (fun i j => ReorderEntries.hz_at N so so' ofR Ho m M tu tz _ _ _ _ _ _ _ _ Ehw Ehw' (lo _ a) (lo _ (r i)) (lo _ (r j)) (lz i) (lz j) (Er i) (Er j)).
  have F6 a := mat_both (fun i j => ReorderEntries.uz_at N so so' ofR Ho m M tu tz _ _ _ _ _ _ _ _ Euz Euz' (lo _ a) (lo _ (s i)) (lo _ (r j)) (lu i) (lz j) (Es i) (Er j)).
  have F7 a := mat_both (fun i j => ReorderEntries.uz_at N so so' ofR Ho m M tu tz _ _ _ _ _ _ _ _ Euw Euw' (lo _ a) (lo _ (s i)) (lo _ (r j)) (lu i) (lz j) (Es i) (Er j)).
  have F8 a := ReorderEntries.hx_at N so so' ofR Ho m M tu tz _ _ _ a Ehx Ehx'.
  have F9 a := ReorderEntries.hx_at N so so' ofR Ho m M tu tz _ _ _ a Ehy Ehy'.
  clear -Lu Lz F1 F2 F3 F4 F5 F6 F7 F8 F9.
  change (g_t_u (with_points m tu tz)) with tu; change (g_t_z (with_points m tu tz)) with tz.
  change (g_noise (with_points m tu tz)) with (g_noise m).
  move: (List.length tu) (List.length tz) Lu Lz => nu' nz' -> ->; rewrite /order_gp /order_integrals /=.
  rewrite F1 F2 F3; congr Session; congr Integrals; apply: functional_extensionality => i.
  - by apply: F8; exact/ltP.
  - exact: F4.
  - exact: F6.
  - by apply: F9; exact/ltP.
  - exact: F5.
  - exact: F7.
Qed.
Print Assumptions C114_session.

(** The same for the RGPCM, for the inducing points and the frequencies. *)
Theorem C114_rgpcm :
  forall (argsort argsort' : list Z -> list nat) (m : rgpcm) (tu : list R) (ms : list Z) (t t' : list R),
    RgpcmSpec.argsorts argsort -> RgpcmSpec.argsorts argsort' -> well_rgpcm m -> in_support m t -> in_support m t' ->
    Permutation (r_t_u m) tu -> Permutation (r_ms m) ms ->
    let nu := List.length (r_t_u m) in
    let nz := List.length (r_ms m) in
    exists (s : 'S_nu) (r : 'S_nz) (G : gp nu nz) (D : integrals (List.length t) nu nz) (P : integrals (List.length t') nu nz),
      (forall i : 'I_nu, List.nth i tu R0 = List.nth (s i) (r_t_u m) R0)
      /\ (forall i : 'I_nz, List.nth i ms Z0 = List.nth (r i) (r_ms m) Z0)
      /\ rsession argsort m t t' = Ok (Session G D P)
      /\ well_posed G D /\ well_posed G P
      /\ rsession argsort' (with_features m tu ms) t t' = Ok (Session (order_gp s r G) (order_integrals s r D) (order_integrals s r P)).
Proof.
  move=> argsort argsort' m tu ms t t' Ha Ha' Wm St St' Pu Pz nu nz.
  have [Lu [s Es]] := perm_of R0 Pu; have [Lz [r Er]] := perm_of Z0 Pz.
  have [G EG] := rgpcm_gp_total Wm.
  have [D ED] := rgpcm_integrals_total Ha Wm t.
  have [P EP] := rgpcm_integrals_total Ha Wm t'.
  exists s, r, G, D, P; split=> //; split=> //.
  split; first by rewrite /rsession EG ED EP.
  split; first by have [] := rgpcm_well Ha Wm St EG ED.
  split; first by have [] := rgpcm_well Ha Wm St' EG EP.
  have Hp := ms_pos Wm.
  case: (Wm) => -[[Pa Pg Pl] [Na [Nt [Ng [Nl [Nu Up]]]]]] [Hab [HM [NDm [_ Pn]]]].
  have Hp' : List.Forall (fun k => Z.le Z0 k) ms by exact: (Permutation_Forall Pz).
  have Wm' : well_rgpcm (with_features m tu ms).
    split; first split=> //.
      split=> //; split=> //; split=> //; split=> //; split; first exact: (Permutation_NoDup Pu).
      by move=> v Hv; apply: Up; exact: (Permutation_in _ (Permutation_sym Pu)).
    split=> //; split=> //; split; first exact: (Permutation_NoDup Pz).
    by split=> //; apply/List.Forall_forall.
  have [G' EG'] := rgpcm_gp_total Wm'.
  have [D' ED'] := rgpcm_integrals_total Ha' Wm' t.
  have [P' EP'] := rgpcm_integrals_total Ha' Wm' t'.
  rewrite /rsession EG' ED' EP' /bind; congr Ok.
  rewrite /rgpcm_gp /rgpcm_integrals in EG ED EP EG' ED' EP'.
  have [Kz [EKz {}EG]] := bindP EG; have [Ku [EKu {}EG]] := bindP EG; case: EG => <-.
  have [hx [Ehx {}ED]] := bindP ED.
  have [ux [Eux {}ED]] := bindP ED.
  have [hz [Ehz {}ED]] := bindP ED.
  have [uz [Euz {}ED]] := bindP ED.
  case: ED => <-.
  have [hy [Ehy {}EP]] := bindP EP.
  have [uy [Euy {}EP]] := bindP EP.
  have [hw [Ehw {}EP]] := bindP EP.
  have [uw [Euw {}EP]] := bindP EP.
  case: EP => <-.
  have [Kz' [EKz' {}EG']] := bindP EG'; have [Ku' [EKu' {}EG']] := bindP EG'; case: EG' => <-.
  have [hx' [Ehx' {}ED']] := bindP ED'.
  have [ux' [Eux' {}ED']] := bindP ED'.
  have [hz' [Ehz' {}ED']] := bindP ED'.
  have [uz' [Euz' {}ED']] := bindP ED'.
  case: ED' => <-.
  have [hy' [Ehy' {}EP']] := bindP EP'.
  have [uy' [Euy' {}EP']] := bindP EP'.
  have [hw' [Ehw' {}EP']] := bindP EP'.
  have [uw' [Euw' {}EP']] := bindP EP'.
  case: EP' => <-.
  move: Euy Euy'; rewrite Eux Eux' => - [<-] [<-].
  rewrite RgpcmReorder.rhx_same Ehx in Ehx'; case: Ehx' => <-.
  rewrite RgpcmReorder.rhx_same Ehy in Ehy'; case: Ehy' => <-.
  have lu (i : 'I_nu) : (i < List.length tu)%coq_nat by rewrite Lu; exact/ltP.
  have lz (i : 'I_nz) : (i < List.length ms)%coq_nat by rewrite Lz; exact/ltP.
  have lo a (i : 'I_a) : (i < a)%coq_nat by exact/ltP.
  have ri (i j : 'I_nz) : (i = j :> nat) <-> (r i = r j :> nat).
    by split=> [/val_inj -> //|/val_inj /perm_inj -> //].
  have F1 := mat_both (fun i j => RgpcmReorder.rKu_at m tu ms _ _ _ _ _ _ EKu EKu' (lo _ (s i)) (lo _ (s j)) (lu i) (lu j) (Es i) (Es j)).
  have F2 := mat_both (fun i j => RgpcmReorder.rKz_at m tu ms _ _ _ _ _ _ EKz EKz' (lo _ (r i)) (lo _ (r j)) (lz i) (lz j) (Er i) (Er j) (ri i j)).
  have F3 := mat_both (fun i j => RgpcmReorder.rux_at m tu ms Ng Nl _ _ _ _ _ _ Eux Eux' (lo _ (s i)) (lo _ (s j)) (lu i) (lu j) (Es i) (Es j)).
  have F4 a := mat_both (fun i j => RgpcmReorder.rhz_at _ _ Ha Ha' m tu ms Pa Pl Hab HM Hp Hp' _ _ _ _ _ _ _ _ Ehz Ehz' (lo _ a) (lo _ (r i)) (lo _ (r j)) (lz i) (lz j) (Er i) (Er j)).
  have F5 a := mat_both (fun i j => RgpcmReorder.rhz_at _ _ Ha Ha' m tu ms Pa Pl Hab HM Hp Hp' _ _ _ _ _ _ _ _ Ehw Ehw' (lo _ a) (lo _ (r i)) (lo _ (r j)) (lz i) (lz j) (Er i) (Er j)).
  have F6 a := mat_both (fun i j => RgpcmReorder.ruz_at _ _ Ha Ha' m tu ms Hab HM Ng Hp Hp' _ _ _ _ _ _ _ _ Euz Euz' (lo _ a) (lo _ (s i)) (lo _ (r j)) (lu i) (lz j) (Es i) (Er j)).
  have F7 a := mat_both (fun i j => RgpcmReorder.ruz_at _ _ Ha Ha' m tu ms Hab HM Ng Hp Hp' _ _ _ _ _ _ _ _ Euw Euw' (lo _ a) (lo _ (s i)) (lo _ (r j)) (lu i) (lz j) (Es i) (Er j)).
  clear -Lu Lz F1 F2 F3 F4 F5 F6 F7.
  change (r_t_u (with_features m tu ms)) with tu; change (r_ms (with_features m tu ms)) with ms.
  change (r_noise (with_features m tu ms)) with (r_noise m).
  move: (List.length tu) (List.length ms) Lu Lz => nu' nz' -> ->; rewrite /order_gp /order_integrals /=.
  rewrite F1 F2 F3; congr Session; congr Integrals; apply: functional_extensionality => i.
  - exact: F4.
  - exact: F6.
  - exact: F5.
  - exact: F7.
Qed.
Print Assumptions C114_rgpcm.

(** What the approximations compute with the inducing variables in the one and in the other
    order: the posteriors, the samples and the features of the excitation are put in the other
    order, the bounds and the predictions are the same. *)
Theorem C114_inference :
  forall chol, chol_ok chol ->
  forall n n' nu nz (s : 'S_nu) (r : 'S_nz) (G : gp nu nz) (D : integrals n nu nz) (P : integrals n' nu nz) y y',
    well_posed G D -> well_posed G P ->
    let G1 := order_gp s r G in
    let data := construct_terms chol G D y in
    let data1 := construct_terms chol G1 (order_integrals s r D) y in
    let new := construct_terms chol G P y' in
    let new1 := construct_terms chol G1 (order_integrals s r P) y' in
    (* distributions in the other order are the distributions of the variables in the other order *)
    (forall k (o : 'S_k) (p : natnormal k), proper p ->
       mean chol (order_q o p) = rows o (mean chol p) /\ var chol (order_q o p) = both o o (var chol p)
       /\ m2 chol (order_q o p) = both o o (m2 chol p)
       /\ (forall x, logpdf chol (order_q o p) (rows o x) = logpdf chol p x)
       /\ forall l (e : 'M[R]_(k, l)), sample chol (order_q o p) (rows o e) = rows o (sample chol p e))
    (* the optimal posteriors are the same *)
    /\ (forall z, q_u_optimal G1 data1 (rows r z) = order_q s (q_u_optimal G data z))
    /\ (forall u, q_z_optimal G1 data1 (rows s u) = order_q r (q_z_optimal G data u))
    /\ (forall q, proper q -> q_u_optimal_mean_field chol G1 data1 (order_q r q) = order_q s (q_u_optimal_mean_field chol G data q))
    /\ (forall q, proper q -> q_z_optimal_mean_field chol G1 data1 (order_q s q) = order_q r (q_z_optimal_mean_field chol G data q))
    (* the mean-field approximation: fits, bounds and predictions are the same *)
    /\ (forall ap, (forall i, proper (ap_qs_u ap i)) -> (forall i, proper (ap_qs_z ap i)) ->
         (forall iters, fit_mean_field_ca chol G1 data1 iters (order_state s r ap)
            = let f := fit_mean_field_ca chol G data iters ap in (order_state s r f.1, [seq order_pair s r q | q <- f.2]))
         /\ (forall collapsed, elbo chol G1 data1 (order_state s r ap) collapsed = elbo chol G data ap collapsed)
         /\ (forall i, predict_mean_field chol G1 new1 (order_state s r ap) i = predict_mean_field chol G new ap i)
         /\ (forall i, predict_z_mean_field chol G1 (order_state s r ap) i = predict_z_mean_field chol G ap (r i)))
    (* the structured approximation: bounds, Gibbs sampler and predictions are the same *)
    /\ (forall u, log_Z_u chol G1 data1 (rows s u) = log_Z_u chol G data u)
    /\ (forall ap us, (forall i, proper (ap_qs_u ap i)) ->
         elbo_collapsed_z chol G1 data1 (order_state s r ap) [seq rows s u | u <- us] = elbo_collapsed_z chol G data ap us)
    /\ (forall noises u z,
         gibbs chol G1 data1 [seq (rows s e.1, rows r e.2) | e <- noises] (rows s u) (rows r z)
         = (rows s (gibbs chol G data noises u z).1, rows r (gibbs chol G data noises u z).2))
    /\ (forall us i, predict_structured chol G1 data1 new1 [seq rows s u | u <- us] i = predict_structured chol G data new us i)
    /\ (forall zs i, predict_z_structured [seq rows r z | z <- zs] i = predict_z_structured zs (r i))
    /\ (forall ap noises u z, (forall i, proper (ap_qs_u ap i)) ->
         elbo_gibbs chol G1 data1 (order_state s r ap) [seq (rows s e.1, rows r e.2) | e <- noises] (rows s u) (rows r z)
         = let f := elbo_gibbs chol G data ap noises u z in (f.1.1, rows s f.1.2, rows r f.2)).
Proof.
  move=> chol Hc n n' nu nz s r G D P y y' WP WP' G1 data data1 new new1.
  have [Ku [Kz [No _]]] := WP.
  have UT := unit_p s; have US := unit_p r.
  have E : data1 = bts (perm_mx s) (perm_mx r) data by rewrite /data1 /G1 gp_p ig_p; exact: terms_b.
  have E' : new1 = bts (perm_mx s) (perm_mx r) new by rewrite /new1 /G1 gp_p ig_p; exact: terms_b.
  have A := A_sum_psd Hc y WP; have B := B_sum_psd Hc y WP.
  have Hf q : spd (nn_prec q) -> spd (nn_prec (q_u_optimal_mean_field chol G data q)) by exact: f_spd.
  have Hg q : spd (nn_prec q) -> spd (nn_prec (q_z_optimal_mean_field chol G data q)) by exact: g_spd.
  have Hq z : spd (nn_prec (q_u_optimal G data z)) by apply: q_optimal_spd.
  have Hq' u : spd (nn_prec (q_z_optimal G data u)) by apply: q_optimal_spd.
  have Me k (o : 'S_k) (p : natnormal k) : proper p -> mean chol (order_q o p) = rows o (mean chol p).
    by move=> Hp; rewrite q_p (mean_b Hc (unit_p o)) // dual_p.
  have Va k (o : 'S_k) (p : natnormal k) : proper p -> var chol (order_q o p) = both o o (var chol p).
    by move=> Hp; rewrite q_p (var_b Hc (unit_p o)) // bothE inv_p -[invmx _]trmxK inv_p.
  have sg es : [seq (rows s e.1, rows r e.2) | e <- es] = [seq (perm_mx s *m e.1, perm_mx r *m e.2) | e : 'cV[R]_nu * 'cV[R]_nz <- es].
    by apply: eq_map => e; rewrite !rowsE.
  have su us : [seq rows s u | u <- us] = [seq dual (perm_mx s) u | u : 'cV[R]_nu <- us].
    by apply: eq_map => u; rewrite dual_p.
  rewrite E E' /G1 gp_p.
  split.
    move=> k o p Hp; split; first exact: Me; split; first exact: Va.
    split; first by rewrite q_p (m2_b Hc (unit_p o)) // bothE inv_p -[invmx _]trmxK inv_p.
    split; first by move=> x; rewrite q_p -dual_p (logpdf_b Hc (unit_p o)) // det_p Rplus_0_r.
    by move=> l e; rewrite q_p rowsE (sample_b Hc (unit_p o)) // dual_p.
  split; first by move=> z; rewrite q_p -dual_p; exact: q_u_b.
  split; first by move=> u; rewrite q_p -dual_p; exact: q_z_b.
  split; first by move=> q Hp; rewrite !q_p; exact: q_u_mf_b.
  split; first by move=> q Hp; rewrite !q_p; exact: q_z_mf_b.
  split.
    move=> ap Hu Hz; rewrite st_p.
    split; first move=> iters.
      have Pu : spd (nn_prec (q_u ap)) by exact: Hu.
      have Pz : spd (nn_prec (q_z ap)) by exact: Hz.
      rewrite (fit_b Hc UT US (@rms_l _ s) (@rms_l _ r) (@rms_r _ s) (@rms_r _ r) Hf Hg iters Pu Pz).
      by cbn zeta; rewrite st_p; congr pair; apply: eq_map => q; rewrite pair_p.
    split; first by move=> co; exact: elbo_b.
    split; first by move=> i; exact: predict_mf_b.
    move=> i; rewrite /predict_z_mean_field p_z_b -q_p Me ?Va ?mxE //; exact: p_z_ok.
  split; first by move=> u; rewrite -dual_p; exact: log_Z_u_b.
  split; first by move=> ap us Hu; rewrite su st_p; exact: collapsed_z_b.
  split; first by move=> es u z; rewrite sg -!dual_p; exact: gibbs_b.
  split; first by move=> us i; rewrite su; exact: structured_b.
  split.
    move=> zs i; rewrite /predict_z_structured size_map !big_map.
    have -> : \sum_(z <- zs) (rows r z) i ord0 = \sum_(z <- zs) z (r i) ord0 by apply: eq_bigr => z _; rewrite mxE.
    by have -> : \sum_(z <- zs) ((rows r z) i ord0 * (rows r z) i ord0)%Re = \sum_(z <- zs) (z (r i) ord0 * z (r i) ord0)%Re
      by apply: eq_bigr => z _; rewrite mxE.
  by move=> ap es u z Hu; rewrite sg st_p -!dual_p elbo_gibbs_b //; cbn zeta; rewrite det_p Rplus_0_r.
Qed.
Print Assumptions C114_inference.

(** The kernel of a sample of the filter is the same. *)
Theorem C114_kernel :
  forall chol, chol_ok chol ->
  forall nu a (s : 'S_nu) (Ku : 'M[R]_nu) i_hx I_ux (t_k : 'I_a -> R) u, spd Ku ->
    sample_kernel chol (both s s Ku) i_hx (fun t1 t2 => both s s (I_ux t1 t2)) t_k (rows s u)
    = sample_kernel chol Ku i_hx I_ux t_k u.
Proof.
  move=> chol Hc nu a s Ku i_hx I_ux t_k u HK; rewrite -dual_p bothE.
  have -> : (fun t1 t2 => both s s (I_ux t1 t2)) = (fun t1 t2 => perm_mx s *m I_ux t1 t2 *m (perm_mx s)^T).
    by apply: functional_extensionality => t1; apply: functional_extensionality => t2; exact: bothE.
  exact: (kernel_b Hc (unit_p s)).
Qed.
Print Assumptions C114_kernel.

Definition zs : list Z := (0 :: 1 :: 2 :: 3 :: 4 :: nil)%BZ.
Definition zs' : list Z := (3 :: 0 :: 4 :: 1 :: 2 :: nil)%BZ.
(** Non-vacuity: a good GPCM and CGPCM with their inducing points in two orders, and the RGPCM
    with frequencies that are not sorted. *)
Example C114_witness :
  (forall causal, exists m, good_gpcm m /\ g_causal m = causal
     /\ g_t_u m = [:: 0%Re; 1%Re; 2%Re] /\ g_t_z m = [:: 0%Re; 1%Re]
     /\ Permutation (g_t_u m) [:: 1%Re; 2%Re; 0%Re] /\ Permutation (g_t_z m) [:: 1%Re; 0%Re])
  /\ well_rgpcm RgpcmProps.toy /\ in_support RgpcmProps.toy [:: 3%Re]
  /\ Permutation (r_ms RgpcmProps.toy) zs /\ Permutation (r_t_u RgpcmProps.toy) [:: 1%Re; 0%Re].
Proof.
  split.
    move=> causal.
    have [m [E G]] : exists m, new_gpcm (default_args causal 1 1 [:: 0%Re; 1%Re]) = Ok m /\ good_gpcm m.
      apply: (default_good causal 1 1 [:: 0%Re; 1%Re] 0 1); try (simpl; lra); simpl; try by (left || right; left).
      by move=> a b [<-|[<-|[]]] [<-|[<-|[]]]; lra.
    have Ec : g_causal m = causal.
      by move: E; rewrite /new_gpcm => E; repeat (have [? [_ {}E]] := bindP E); case: E => <-.
    exists (with_points m [:: 0%Re; 1%Re; 2%Re] [:: 0%Re; 1%Re]).
    split.
      apply: (ReorderEntries.good_points _ _ _ G);
        repeat (constructor; [simpl; intuition; lra|]); constructor.
    split=> //; split=> //; split=> //; split; last exact: perm_swap.
    exact: (Permutation_cons_append [:: 1%Re; 2%Re] 0%Re).
  have P5 : Permutation zs' zs.
    apply: NoDup_Permutation.
    - by repeat (constructor; [simpl; intuition; discriminate|]); constructor.
    - by repeat (constructor; [simpl; intuition; discriminate|]); constructor.
    - by move=> x; simpl; intuition.
  split; last split; last split=> //.
  - split; first split; rewrite /=.
    + by split; lra.
    + split; first lra; split; first lra; split; first lra; split; first lra; split.
        by repeat (constructor; [simpl; intuition; lra|]); constructor.
      by move=> t [<-|[<-|[]]]; lra.
    + split; first lra; split=> //; split.
        by repeat (constructor; [simpl; intuition; discriminate|]); constructor.
      split; last lra.
      by move=> k [<-|[<-|[<-|[<-|[<-|[]]]]]].
  - by move=> x [<-|[]] /=; split; [lra|move=> u [<-|[<-|[]]]; lra].
  - exact: perm_swap.
Qed.
