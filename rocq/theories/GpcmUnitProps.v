(** The property C113: the unit and the origin of time do not matter to the GPCM and the CGPCM. *)
From Coq Require Import Reals ZArith List Lra String FunctionalExtensionality.
From mathcomp Require Import all_ssreflect all_algebra.
From Verif Require Import Py ExpPolyModel ExpPolyIntModel ExpPolyIntProofs RMat RChol RTac NormalModel NormalProofs ApproxModel ApproxSpec ApproxProofs ApproxProofs2 EvidenceModel.
From Verif Require Import GpcmModel GpcmGood GpcmBridge GpcmWell UnitSpec UnitProps GpcmUnitSpec ScaleSpec ScaleProofs.
From Verif Require GpcmSpec GpcmProps GpcmTotal GpcmEntries GpcmUnitProofs GpcmUnitEntries.
Set Implicit Arguments.
Unset Strict Implicit.
Unset Printing Implicit Defensive.
Import GRing.Theory.
Local Open Scope ring_scope.
Delimit Scope R_scope with Re.

(** What the approximations see of a GPCM, of the times [t] of the data and of the times [t'] of
    the predictions. *)
Definition gsession (N : numdom) (so : setorder) (ofR : R -> N) (m : gpcm) (t t' : list R) : res session :=
  bind (gpcm_gp so ofR m) (fun G => bind (gpcm_integrals so ofR m t) (fun D => bind (gpcm_integrals so ofR m t') (fun P =>
  Ok (Session G D P)))).

Definition scale_session (s : R) (S : session) : session :=
  Session (scale_gp s (s_gp S)) (scale_integrals s (s_data S)) (scale_integrals s (s_pred S)).

Lemma nth_scale k (l : list R) j : List.nth j (List.map (Rmult k) l) R0 = (k * List.nth j l R0)%Re.
Proof.
  elim: l j => [|x l IH] [|j] /=; try by rewrite Rmult_0_r.
  - by [].
  - exact: IH.
Qed.
Lemma nth_scale2 k (T : list (list R)) i : List.nth i (List.map (List.map (Rmult k)) T) nil = List.map (Rmult k) (List.nth i T nil).
Proof. by elim: T i => [|x l IH] [|i] //=. Qed.
Lemma nth_scale3 k (T : list (list (list R))) i :
  List.nth i (List.map (List.map (List.map (Rmult k))) T) nil = List.map (List.map (Rmult k)) (List.nth i T nil).
Proof. by elim: T i => [|x l IH] [|i] //=. Qed.
Lemma mat_map p q k T : mat p q (List.map (List.map (Rmult k)) T) = k *: mat p q T.
Proof. by apply/matrixP=> i j; rewrite !mxE nth_scale2 nth_scale. Qed.
Lemma nth_map_mat p q k i uz : mat p q (List.nth i (List.map (List.map (List.map (Rmult k))) uz) nil) = k *: mat p q (List.nth i uz nil).
Proof. by rewrite -mat_map nth_scale3. Qed.
Lemma inv_sq (c : R) : (0 < c)%Re -> (/ sqrt c * / sqrt c = / c)%Re.
Proof. by move=> H; rewrite -Rinv_mult sqrt_sqrt //; exact: Rlt_le. Qed.

(** On another clock the constructor makes the same model or raises the same exception. *)
Theorem C113_constructor :
  forall c d, (0 < c)%Re -> forall a, new_gpcm (gclock_args c d a) = on_clock (gclock c d) (new_gpcm a).
Proof. move=> c d Hc a; exact: GpcmUnitProofs.new_gclock. Qed.
Print Assumptions C113_constructor.

(** The matrices on another clock.  The filter and so its inducing variables are square roots of
    rates, the signal and the inducing variables of the excitation are numbers.  [e] is any
    origin: for times it is that of the clock, for lags it is zero. *)
Theorem C113_matrices :
  forall c d, (0 < c)%Re ->
  forall (N : numdom) (so so' : setorder) (ofR : R -> N) (m : gpcm),
    (forall r, val (ofR r) = r) ->
    let m' := gclock c d m in
    GpcmSpec.moderate_model m -> GpcmSpec.moderate_model m' ->
    (forall K K', compute_K_u N so ofR m = Ok K -> compute_K_u N so' ofR m' = Ok K' -> K' = List.map (List.map (Rmult (/ c))) K)
    /\ (forall K K', compute_K_z N so ofR m = Ok K -> compute_K_z N so' ofR m' = Ok K' -> K' = K)
    /\ (forall e t1 t2 v v', compute_i_hx N so ofR m (Some t1) (Some t2) = Ok v ->
          compute_i_hx N so' ofR m' (Some (time c e t1)) (Some (time c e t2)) = Ok v' -> v' = v)
    /\ (forall e l1 l2 T T', compute_I_ux4 N so ofR m (Some l1) (Some l2) = Ok T ->
          compute_I_ux4 N so' ofR m' (Some (List.map (time c e) l1)) (Some (List.map (time c e) l2)) = Ok T' ->
          T' = List.map (List.map (List.map (List.map (Rmult (/ c))))) T)
    /\ (forall l T T', compute_I_hz N so ofR m l = Ok T -> compute_I_hz N so' ofR m' (List.map (time c d) l) = Ok T' -> T' = T)
    /\ (forall l T T', compute_I_uz N so ofR m l = Ok T -> compute_I_uz N so' ofR m' (List.map (time c d) l) = Ok T' ->
          T' = List.map (List.map (List.map (Rmult (/ sqrt c)))) T).
Proof.
  move=> c d Hc N so so' ofR m Ho m' M M'.
  split; first by move=> K K'; exact: (GpcmUnitEntries.Ku_table c d Hc N so so' ofR Ho m).
  split; first by move=> K K'; exact: (GpcmUnitEntries.Kz_table c d Hc N so so' ofR Ho m M M').
  split; first by move=> e t1 t2 v v'; exact: (GpcmUnitEntries.hx_clock c e Hc N so so' ofR Ho m M M').
  split; first by move=> e l1 l2 T T'; exact: (GpcmUnitEntries.ux_table c e Hc N so so' ofR Ho m M M').
  split; first by move=> l T T'; exact: (GpcmUnitEntries.hz_table c d Hc N so so' ofR Ho m M M').
  by move=> l T T'; exact: (GpcmUnitEntries.uz_table c d Hc N so so' ofR Ho m M M').
Qed.
Print Assumptions C113_matrices.

(** From the model on: the approximations see the same model with the filter in another unit. *)
Theorem C113_session :
  forall c d, (0 < c)%Re ->
  forall (N : numdom) (so so' : setorder) (ofR : R -> N) (m : gpcm) (t t' : list R),
    (forall r, val (ofR r) = r) -> GpcmProps.tensors N -> good_gpcm m -> GpcmSpec.moderate_model (gclock c d m) ->
    exists S, gsession so ofR m t t' = Ok S
      /\ well_posed (s_gp S) (s_data S) /\ well_posed (s_gp S) (s_pred S)
      /\ gsession so' ofR (gclock c d m) (List.map (time c d) t) (List.map (time c d) t') = Ok (scale_session (/ sqrt c)%Re S).
Proof.
  move=> c d Hc N so so' ofR m t t' Ho Te Gm M'.
  have M := proj1 Gm.
  have [G EG] := gpcm_gp_total so Ho Gm Te.
  have [D ED] := gpcm_integrals_total so Ho Gm t Te.
  have [P EP] := gpcm_integrals_total so Ho Gm t' Te.
  exists (Session G D P); split; first by rewrite /gsession EG ED EP.
  split; first by have [] := gpcm_well Ho Gm EG ED.
  split; first by have [] := gpcm_well Ho Gm EG EP.
  have Gm' := GpcmUnitEntries.good_clock c d m Hc Gm M'.
  have [G' EG'] := gpcm_gp_total so' Ho Gm' Te.
  have [D' ED'] := gpcm_integrals_total so' Ho Gm' (List.map (time c d) t) Te.
  have [P' EP'] := gpcm_integrals_total so' Ho Gm' (List.map (time c d) t') Te.
  rewrite /gsession EG' ED' EP' /bind; congr Ok; rewrite /scale_session.
  rewrite /gpcm_gp /gpcm_integrals in EG ED EP EG' ED' EP'.
  have [Kz [EKz {}EG]] := bindP EG; have [Ku [EKu {}EG]] := bindP EG; case: EG => <-.
  have [hx [Ehx {}ED]] := bindP ED.
  have [ux [Eux {}ED]] := bindP ED.
  have [hz [Ehz {}ED]] := bindP ED.
  have [uz [Euz {}ED]] := bindP ED.
  case: ED => <-.
  have [hy [Ehy {}EP]] := bindP EP.
  have [uy [Euy {}EP]] := bindP EP.
  have [hw [Ehw {}EP]] := bindP EP.
  have [uw [Euw {}EP]] := bindP EP.
  case: EP => <-.
  have [Kz' [EKz' {}EG']] := bindP EG'; have [Ku' [EKu' {}EG']] := bindP EG'; case: EG' => <-.
  have [hx' [Ehx' {}ED']] := bindP ED'.
  have [ux' [Eux' {}ED']] := bindP ED'.
  have [hz' [Ehz' {}ED']] := bindP ED'.
  have [uz' [Euz' {}ED']] := bindP ED'.
  case: ED' => <-.
  have [hy' [Ehy' {}EP']] := bindP EP'.
  have [uy' [Euy' {}EP']] := bindP EP'.
  have [hw' [Ehw' {}EP']] := bindP EP'.
  have [uw' [Euw' {}EP']] := bindP EP'.
  case: EP' => <-.
  move: Euy Euy'; rewrite Eux Eux' => - [<-] [<-].
  rewrite (GpcmUnitEntries.Ku_table c d Hc N so so' ofR Ho m _ _ EKu EKu').
  rewrite (GpcmUnitEntries.Kz_table c d Hc N so so' ofR Ho m M M' _ _ EKz EKz').
  rewrite (GpcmUnitEntries.hz_table c d Hc N so so' ofR Ho m M M' _ _ _ Ehz Ehz').
  rewrite (GpcmUnitEntries.hz_table c d Hc N so so' ofR Ho m M M' _ _ _ Ehw Ehw').
  rewrite (GpcmUnitEntries.uz_table c d Hc N so so' ofR Ho m M M' _ _ _ Euz Euz').
  rewrite (GpcmUnitEntries.uz_table c d Hc N so so' ofR Ho m M M' _ _ _ Euw Euw').
  have Hx a := GpcmUnitEntries.hxs_clock c d Hc N so so' ofR Ho m M M' _ _ _ a Ehx Ehx'.
  have Hy a := GpcmUnitEntries.hxs_clock c d Hc N so so' ofR Ho m M M' _ _ _ a Ehy Ehy'.
  have Ux i j := GpcmUnitEntries.ux_clock c d Hc N so so' ofR Ho m M M' _ _ i j Eux Eux'.
  clear -Hc Hx Hy Ux.
  have Eu : List.length (g_t_u (gclock c d m)) = List.length (g_t_u m) by rewrite /= List.map_length.
  have Ez : List.length (g_t_z (gclock c d m)) = List.length (g_t_z m) by rewrite /= List.map_length.
  have Et s : List.length (List.map (time c d) s) = List.length s by rewrite List.map_length.
  move: (List.length (g_t_u (gclock c d m))) (List.length (g_t_z (gclock c d m))) (List.length (List.map (time c d) t)) (List.length (List.map (time c d) t')) Eu Ez (Et t) (Et t').
  move=> nu nz n n' -> -> -> ->; rewrite /scale_gp /scale_integrals /=.
  have Eux : mat (List.length (g_t_u m)) (List.length (g_t_u m)) ux' = (/ c)%Re *: mat (List.length (g_t_u m)) (List.length (g_t_u m)) ux.
    by apply/matrixP=> i j; rewrite !mxE; apply: Ux; exact/ltP.
  rewrite (inv_sq Hc) mat_map Eux; congr Session; congr Integrals; apply: functional_extensionality => i.
  - by apply: Hx; exact/ltP.
  - exact: nth_map_mat.
  - by apply: Hy; exact/ltP.
  - exact: nth_map_mat.
Qed.
Print Assumptions C113_session.

(** What the approximations compute from a session and from the session with the filter in another
    unit.  A distribution over the inducing variables is [scale_q s] of another one if its
    variables are the variables of the other one divided by [s]; standard normal noise enters
    [sample] before it is multiplied by the inverse of the Cholesky factor of the precision. *)
Theorem C113_inference :
  forall chol, chol_ok chol -> forall s, (0 < s)%Re ->
  forall n n' nu nz (G : gp nu nz) (D : integrals n nu nz) (P : integrals n' nu nz) y y',
    well_posed G D -> well_posed G P ->
    let G1 := scale_gp s G in
    let data := construct_terms chol G D y in
    let data1 := construct_terms chol G1 (scale_integrals s D) y in
    let new := construct_terms chol G P y' in
    let new1 := construct_terms chol G1 (scale_integrals s P) y' in
    let over (u : 'cV[R]_nu) := (/ s)%Re *: u in
    (* scaled distributions are the distributions of the scaled variables *)
    (forall p : natnormal nu, proper p ->
       mean chol (scale_q s p) = over (mean chol p) /\ m2 chol (scale_q s p) = (/ s * / s)%Re *: m2 chol p
       /\ forall e : 'cV[R]_nu, sample chol (scale_q s p) (s *: e) = over (sample chol p e))
    (* the optimal posteriors are the same *)
    /\ (forall z, q_u_optimal G1 data1 z = scale_q s (q_u_optimal G data z))
    /\ (forall u, q_z_optimal G1 data1 (over u) = q_z_optimal G data u)
    /\ (forall q, q_u_optimal_mean_field chol G1 data1 q = scale_q s (q_u_optimal_mean_field chol G data q))
    /\ (forall q, proper q -> q_z_optimal_mean_field chol G1 data1 (scale_q s q) = q_z_optimal_mean_field chol G data q)
    (* the mean-field approximation: bounds and predictions are the same *)
    /\ (forall ap, (forall i, proper (ap_qs_u ap i)) -> proper (q_z ap) ->
         (forall collapsed, elbo chol G1 data1 (scale_state s ap) collapsed = elbo chol G data ap collapsed)
         /\ (forall i, predict_mean_field chol G1 new1 (scale_state s ap) i = predict_mean_field chol G new ap i))
    (* the structured approximation: bounds, Gibbs sampler and predictions are the same *)
    /\ (forall u, log_Z_u chol G1 data1 (over u) = log_Z_u chol G data u)
    /\ (forall ap us, (forall i, proper (ap_qs_u ap i)) ->
         elbo_collapsed_z chol G1 data1 (scale_state s ap) [seq over u | u <- us] = elbo_collapsed_z chol G data ap us)
    /\ (forall noises u z,
         gibbs chol G1 data1 [seq (s *: e.1, e.2) | e <- noises] (over u) z
         = (over (gibbs chol G data noises u z).1, (gibbs chol G data noises u z).2))
    /\ (forall us i, predict_structured chol G1 data1 new1 [seq over u | u <- us] i = predict_structured chol G data new us i)
    (* the objective of the Gibbs steps for the hyperparameters contains the density of u *)
    /\ (forall ap noises u z, (forall i, proper (ap_qs_u ap i)) ->
         elbo_gibbs chol G1 data1 (scale_state s ap) [seq (s *: e.1, e.2) | e <- noises] (over u) z
         = let r := elbo_gibbs chol G data ap noises u z in ((r.1.1 + INR nu * ln s)%Re, over r.1.2, r.2)).
Proof.
  move=> chol Hc s s0 n n' nu nz G D P y y' WP WP' G1 data data1 new new1 over.
  have st : (s * / s = 1)%Re by apply: Rinv_r; lra.
  have [Ku [Kz [No _]]] := WP.
  have E : data1 = sct s data by exact: (terms_sc Hc s0 st).
  have E' : new1 = sct s new by exact: (terms_sc Hc s0 st).
  have A := A_sum_psd Hc y WP; have B := B_sum_psd Hc y WP.
  have Hf q : spd (nn_prec q) -> spd (nn_prec (q_u_optimal_mean_field chol G data q)) by exact: f_spd.
  have Hq z : spd (nn_prec (q_u_optimal G data z)) by apply: q_optimal_spd.
  rewrite E E' /G1 /over.
  split; first by move=> p Hp; split; [exact: mean_sc|split; [exact: m2_sc|move=> e; exact: sample_sc]].
  split; first by move=> z; exact: q_u_sc.
  split; first by move=> u; exact: q_z_sc.
  split; first by move=> q; exact: q_u_mf_sc.
  split; first by move=> q Hq'; exact: (q_z_mf_sc Hc s0 st).
  split; first by move=> ap Hu Hz; split=> [co|i]; [exact: (elbo_sc Hc s0 st)|exact: (predict_mf_sc Hc s0 st)].
  split; first by move=> u; exact: log_Z_u_sc.
  split; first by move=> ap us Hu; exact: collapsed_z_sc.
  split; first by move=> es u z; exact: gibbs_sc.
  split; first by move=> us i; exact: structured_sc.
  by move=> ap es u z Hu; exact: elbo_gibbs_sc.
Qed.
Print Assumptions C113_inference.

(** The kernel of a sample of the filter is the same. *)
Theorem C113_kernel :
  forall chol, chol_ok chol -> forall s, (0 < s)%Re ->
  forall nu a (Ku : 'M[R]_nu) i_hx I_ux (t_k : 'I_a -> R) u, spd Ku ->
    sample_kernel chol ((s * s)%Re *: Ku) i_hx (fun t1 t2 => (s * s)%Re *: I_ux t1 t2) t_k ((/ s)%Re *: u)
    = sample_kernel chol Ku i_hx I_ux t_k u.
Proof. by move=> chol Hc s s0 nu a Ku i_hx I_ux t_k u HK; apply: kernel_sc => //; apply: Rinv_r; lra. Qed.
Print Assumptions C113_kernel.

(** C113 for coordinate ascent, the full statement: the fit from the same start gives the same
    posterior.  Proved: both fits make the same sweeps, so the calls of their callbacks agree as
    far as both go.  Missing: they need not make the same number of sweeps. *)
Lemma ca_last chol n nu nz (m : gp nu nz) (ts : terms n nu nz) k qu qz :
  (ca_loop chol m ts k qu qz).1 = last (qu, qz) (ca_loop chol m ts k qu qz).2.
Proof.
  elim: k qu qz => [|k IH] qu qz; first by [].
  cbn [ca_loop]; case: (Rlt_dec (diff _ _ qu qz) _) => ?; [by []|cbn [fst snd last]; exact: IH].
Qed.

Theorem C113_fit_partial :
  forall chol, chol_ok chol -> forall s, (0 < s)%Re ->
  forall n nu nz (G : gp nu nz) (D : integrals n nu nz) y ap iters iters',
    well_posed G D -> proper (q_u ap) -> proper (q_z ap) ->
    let calls := (fit_mean_field_ca chol G (construct_terms chol G D y) iters ap).2 in
    let r1 := fit_mean_field_ca chol (scale_gp s G) (construct_terms chol (scale_gp s G) (scale_integrals s D) y) iters' (scale_state s ap) in
    (forall i x x', (i < size calls)%N -> (i < size r1.2)%N -> nth x' r1.2 i = scale_pair s (nth x calls i))
    /\ (size calls = size r1.2 ->
        r1 = let r := fit_mean_field_ca chol G (construct_terms chol G D y) iters ap in (scale_state s r.1, [seq scale_pair s q | q <- r.2])).
Proof.
  move=> chol Hc s s0 n nu nz G D y ap iters iters' WP Hu Hz calls r1.
  have st : (s * / s = 1)%Re by apply: Rinv_r; lra.
  have [Ku [Kz [No _]]] := WP.
  have A := A_sum_psd Hc y WP; have B := B_sum_psd Hc y WP.
  have Hf q : spd (nn_prec q) -> spd (nn_prec (q_u_optimal_mean_field chol G (construct_terms chol G D y) q)) by exact: f_spd.
  have Hg q : spd (nn_prec q) -> spd (nn_prec (q_z_optimal_mean_field chol G (construct_terms chol G D y) q)) by exact: g_spd.
  have S : forall i x x', (i < size calls)%N -> (i < size r1.2)%N -> nth x' r1.2 i = scale_pair s (nth x calls i).
    by rewrite /r1 /calls (terms_sc Hc s0 st) //; exact: (ca_sc Hc s0 st).
  split=> // Es.
  have E : r1.2 = [seq scale_pair s q | q <- calls].
    apply: (@eq_from_nth _ (q_u ap, q_z ap)); first by rewrite size_map.
    move=> i Hi; have Hi' : (i < size calls)%N by rewrite Es.
    by rewrite (nth_map (q_u ap, q_z ap)) //; exact: S.
  have : r1.1 = scale_state s (fit_mean_field_ca chol G (construct_terms chol G D y) iters ap).1.
    move: E; rewrite /r1 /calls /fit_mean_field_ca; cbn [fst snd]; rewrite !ca_last => ->.
    have -> : (q_u (scale_state s ap), q_z (scale_state s ap)) = scale_pair s (q_u ap, q_z ap) by [].
    by rewrite last_map; exact: set_qs_sc.
  by move: E; rewrite /calls; case: (r1) => a b /= -> ->.
Qed.
Print Assumptions C113_fit_partial.

(** * The number of sweeps depends on the unit *)

Definition gpc : gp 1 1 := GP 1%:M 1%:M 1%Re.
Definition igc : integrals 1 1 1 := Integrals (fun _ => 1%Re) 1%:M (fun _ => 1%:M) (fun _ => 1%:M).
Definition n1 (p : R) : natnormal 1 := NatNormal 0 p%:M.

Lemma gpc_well_posed : well_posed gpc igc.
Proof.
  split; [exact: spd1|split; [exact: spd1|split; [exact: Rlt_0_1|split; [exact: (proj1 (spd1 1))|split; [by move=> i; exact: (proj1 (spd1 1))|]]]]].
  move=> i x w; rewrite !mul1mx.
  have H : Rle 0 (dot x x + 2 * dot x w + dot w w)%Re.
    have := dot_ge0 (x + w); rewrite !dotDl !dotDr (dotC w x); rnorm; lra.
  by split=> //; move: H; lra.
Qed.

Lemma n1_proper p : (0 < p)%Re -> proper (n1 p).
Proof. by move=> H; rewrite /proper /n1 /= -[p%:M](scalemx1) ; apply: spd_scale => //; exact: spd1. Qed.

Lemma scale_n1 s p : scale_q s (n1 p) = n1 (s * s * p)%Re.
Proof. by rewrite /scale_q /n1 /= scaler0 scale_scalar_mx. Qed.

Lemma rms1 (a b : R) : rms (a%:M : 'M[R]_1) b%:M = Rabs (a - b)%Re.
Proof.
  rewrite /rms !big_ord1 !mxE eqxx !mulr1n muln1.
  have -> : (((a - b) * (a - b))%Re / INR 1)%Re = Rsqr (a - b) by rewrite /Rsqr /=; field.
  exact: sqrt_Rsqr_abs.
Qed.
Lemma rms0 : rms (0 : 'cV[R]_1) 0 = 0%Re.
Proof. by have := rms1 0 0; rewrite Rminus_0_r Rabs_R0 -scalemx1 scale0r. Qed.
Lemma diff_n1 a b a' b' : diff (n1 a) (n1 b) (n1 a') (n1 b') = (Rabs (a - a') + Rabs (b - b'))%Re.
Proof. by rewrite /diff /n1 /= !rms1 !rms0; lra. Qed.

Section Toy.
Variable chol : forall n, 'M[R]_n -> 'M[R]_n.
Hypothesis Hc : chol_ok chol.
Notation tsc := (construct_terms chol gpc igc (fun _ => 0%Re)).

Lemma m2_n1 p : (0 < p)%Re -> m2 chol (n1 p) = (/ p)%Re%:M.
Proof.
  move=> H; rewrite (m2E Hc (n1_proper H)) (meanE Hc (n1_proper H)) /n1 /= mulmx0 mul0mx addr0.
  have E : p%:M *m (/ p)%Re%:M = 1%:M :> 'M[R]_1 by rewrite -scalar_mxM; congr _%:M; apply: Rinv_r; lra.
  by rewrite -[LHS]mulmx1 -E mulKmx //; case/mulmx1_unit: E.
Qed.

Lemma pd1 : pd_inv chol (1%:M : 'M[R]_1) = 1%:M.
Proof. by rewrite (pd_invE Hc (spd1 1)) invmx1. Qed.

Lemma toy_u p : (0 < p)%Re -> q_u_optimal_mean_field chol gpc tsc (n1 p) = n1 (1 + / p)%Re.
Proof.
  move=> H; rewrite /q_u_optimal_mean_field /q_optimal_m2 (m2_n1 H) /construct_terms /K_z_inv /=.
  rewrite !big_ord1 pd1 trmx1 !mulmx1 !mul1mx scale1r subrr add0r scale0r mul0mx scaler0 /n1; congr NatNormal.
  have -> : (/ 1)%Re = 1 by exact: Rinv_1.
  by rewrite scale1r -raddfD.
Qed.
Lemma toy_z p : (0 < p)%Re -> q_z_optimal_mean_field chol gpc tsc (n1 p) = n1 (1 + / p)%Re.
Proof.
  move=> H; rewrite /q_z_optimal_mean_field /q_optimal_m2 (m2_n1 H) /construct_terms /K_u_inv /=.
  rewrite !big_ord1 pd1 trmx1 !mulmx1 !mul1mx subrr add0r scale0r trmx0 mul0mx scaler0 /n1 trmx1 mulmx1; congr NatNormal.
  have -> : (/ 1)%Re = 1 by exact: Rinv_1.
  by rewrite scale1r -raddfD.
Qed.
End Toy.

Definition a0 : R := (46368 / 28657)%Re.
Definition b0 : R := (75025 / 46368 + 5 / 10 ^ 7)%Re.
Definition start : approx 1 1 := Approx 0 (fun _ => n1 b0) (fun _ => n1 a0).

Lemma sweep_u : (1 + / a0 = 75025 / 46368)%Re. Proof. rewrite /a0; field. Qed.
Lemma sweep_z : (1 + / (75025 / 46368) = 121393 / 75025)%Re. Proof. field. Qed.
Lemma sweep_u2 : (1 + / (121393 / 75025) = 196418 / 121393)%Re. Proof. field. Qed.
Lemma small1 : (Rabs (75025 / 46368 - b0) + Rabs (121393 / 75025 - a0) < 1 / 10 ^ 6)%Re.
Proof. by rewrite /a0 /b0 Rabs_left1; [rewrite Rabs_right; lra|lra]. Qed.
Lemma large10 : ~ (Rabs (10 * 10 * (75025 / 46368) - 10 * 10 * b0) + Rabs (121393 / 75025 - a0) < 1 / 10 ^ 6)%Re.
Proof.
  have H := Rabs_pos (121393 / 75025 - a0)%Re; move: H; set x := Rabs _ => H; clearbody x.
  by rewrite /b0 Rabs_left1; [lra|lra].
Qed.

Lemma fit_q_u chol n nu nz (m : gp nu nz) (ts : terms n nu nz) k ap :
  q_u (fit_mean_field_ca chol m ts k ap).1 = (ca_loop chol m ts k (q_u ap) (q_z ap)).1.1.
Proof. by rewrite /q_u /fit_mean_field_ca /= eqxx. Qed.

(** After the same two iterations the fit with the filter in another unit stores another
    posterior: the tolerance 1e-6 is a difference of precisions, which have a unit. *)
Theorem C113_fit_refuted : ~ (forall chol, chol_ok chol -> forall s, (0 < s)%Re ->
  forall n nu nz (G : gp nu nz) (D : integrals n nu nz) y ap iters,
    well_posed G D -> (forall i, proper (ap_qs_u ap i)) -> (forall i, proper (ap_qs_z ap i)) ->
    q_u (fit_mean_field_ca chol (scale_gp s G) (construct_terms chol (scale_gp s G) (scale_integrals s D) y) iters (scale_state s ap)).1
    = scale_q s (q_u (fit_mean_field_ca chol G (construct_terms chol G D y) iters ap).1)).
Proof.
  move=> H; have Hc := some_chol_ok; have s0 : (0 < 10)%Re by lra.
  have st : (10 * / 10 = 1)%Re by field.
  have Pa : (0 < a0)%Re by rewrite /a0; lra. have Pb : (0 < b0)%Re by rewrite /b0; lra.
  have P1 : (0 < 75025 / 46368)%Re by lra. have P2 : (0 < 121393 / 75025)%Re by lra.
  have P3 : (0 < 196418 / 121393)%Re by lra.
  have {H} := H _ Hc _ s0 _ _ _ gpc igc (fun _ => 0%Re) start 2%N gpc_well_posed (fun _ => n1_proper Pb) (fun _ => n1_proper Pa).
  rewrite (terms_sc Hc s0 st); last exact: spd1.
  set ts := construct_terms _ gpc _ _.
  have U p : (0 < p)%Re -> q_u_optimal_mean_field some_chol gpc ts (n1 p) = n1 (1 + / p)%Re by exact: toy_u.
  have Z p : (0 < p)%Re -> q_z_optimal_mean_field some_chol gpc ts (n1 p) = n1 (1 + / p)%Re by exact: toy_z.
  have U' p : (0 < p)%Re -> q_u_optimal_mean_field some_chol (scale_gp 10 gpc) (sct 10 ts) (n1 p) = scale_q 10 (n1 (1 + / p)%Re).
    by move=> Hp; rewrite q_u_mf_sc U.
  have Z' p : (0 < p)%Re -> q_z_optimal_mean_field some_chol (scale_gp 10 gpc) (sct 10 ts) (scale_q 10 (n1 p)) = n1 (1 + / p)%Re.
    by move=> Hp; rewrite (q_z_mf_sc Hc s0 st) ?Z //; exact: n1_proper.
  clearbody ts; rewrite !fit_q_u.
  have -> : q_u start = n1 b0 by []. have -> : q_z start = n1 a0 by [].
  have -> : q_u (scale_state 10 start) = scale_q 10 (n1 b0) by []. have -> : q_z (scale_state 10 start) = n1 a0 by [].
  have E1 : (ca_loop some_chol gpc ts 2%N (n1 b0) (n1 a0)).1.1 = n1 (75025 / 46368).
    cbn [ca_loop]; rewrite (U _ Pa) sweep_u (Z _ P1) sweep_z diff_n1.
    by case: (Rlt_dec (Rabs _ + Rabs _)%Re _) => // C; case: (C small1).
  have E2 : (ca_loop some_chol (scale_gp 10 gpc) (sct 10 ts) 2%N (scale_q 10 (n1 b0)) (n1 a0)).1.1 = scale_q 10 (n1 (196418 / 121393)).
    cbn [ca_loop]; rewrite (U' _ Pa) sweep_u (Z' _ P1) sweep_z !scale_n1 diff_n1.
    case: (Rlt_dec (Rabs _ + Rabs _)%Re _) => C; first by case: (large10 C).
    cbn [fst snd]; rewrite (U' _ P2) sweep_u2 (Z' _ P3).
    by case: (Rlt_dec (diff _ _ _ _) _) => ?; cbn [is_left fst snd]; rewrite scale_n1.
  rewrite E1 E2 !scale_n1 => /(congr1 (fun q => nn_prec q ord0 ord0)); rewrite !mxE eqxx !mulr1n.
  lra.
Qed.
Print Assumptions C113_fit_refuted.

(** Non-vacuity: minutes instead of hours on a clock that is ten minutes ahead, for the default
    models, which are good on both clocks. *)
Example C113_witness : forall causal, exists m,
  new_gpcm (default_args causal 1 1 [:: 0%Re; 1%Re]) = Ok m /\ good_gpcm m
  /\ new_gpcm (default_args causal (60 * 1) (60 * 1) [:: (60 * 0 + 10)%Re; (60 * 1 + 10)%Re]) = Ok (gclock 60 10 m)
  /\ GpcmSpec.moderate_model (gclock 60 10 m).
Proof.
  move=> causal.
  have [m [E G]] : exists m, new_gpcm (default_args causal 1 1 [:: 0%Re; 1%Re]) = Ok m /\ good_gpcm m.
    apply: (default_good causal 1 1 [:: 0%Re; 1%Re] 0 1); try (simpl; lra); simpl; try by (left || right; left).
    by move=> a b [<-|[<-|[]]] [<-|[<-|[]]]; lra.
  have [m' [E' G']] : exists m', new_gpcm (default_args causal (60 * 1) (60 * 1) [:: (60 * 0 + 10)%Re; (60 * 1 + 10)%Re]) = Ok m' /\ good_gpcm m'.
    apply: (default_good causal _ _ _ (60 * 0 + 10) (60 * 1 + 10)); try (simpl; lra); simpl; try by (left || right; left).
    by move=> a b [<-|[<-|[]]] [<-|[<-|[]]]; lra.
  have E2 : new_gpcm (default_args causal (60 * 1) (60 * 1) [:: (60 * 0 + 10)%Re; (60 * 1 + 10)%Re]) = Ok (gclock 60 10 m).
    have := @C113_constructor 60%Re 10%Re ltac:(lra) (default_args causal 1 1 [:: 0%Re; 1%Re]).
    by rewrite E.
  exists m; split=> //; split=> //; split=> //.
  by move: E'; rewrite E2 => - [->]; case: G'.
Qed.
