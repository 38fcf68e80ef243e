(** The property C117: more inducing points never make the best bound worse. *)
From Coq Require Import Reals ZArith List Lra String FunctionalExtensionality Permutation.
From mathcomp Require Import all_ssreflect all_algebra fingroup perm.
From Verif Require Import Py ExpPolyModel ExpPolyIntModel ExpPolyIntProofs RMat RChol RTac NormalModel NormalProofs ApproxModel ApproxSpec ApproxProofs ApproxProofs2 EvidenceModel ApproxProps.
From Verif Require Import GpcmModel GpcmGood GpcmBridge GpcmWell UnitProps GpcmUnitProps BasisSpec BasisProofs ReorderSpec ReorderSpec2 ReorderProofs ReorderProps GrowSpec GrowProofs GrowGp.
From Verif Require Import RgpcmModel RgpcmBridge RgpcmWell KernelProofs RgpcmEndProps.
From Verif Require GpcmSpec GpcmProps RgpcmProps GpcmEntries ReorderEntries RgpcmSpec RgpcmReorder.
Set Implicit Arguments.
Unset Strict Implicit.
Unset Printing Implicit Defensive.
Import GRing.Theory.
Local Open Scope ring_scope.
Delimit Scope R_scope with Re.
Delimit Scope Z_scope with BZ.


Lemma mat_entries a b a' b' (s : 'I_a' -> 'I_a) (r : 'I_b' -> 'I_b) (T T' : list (list R)) :
  (forall (i : 'I_a') (j : 'I_b'), GpcmEntries.get2 T' i j = GpcmEntries.get2 T (s i) (r j)) -> mat a' b' T' = entries s r (mat a b T).
Proof. by move=> H; apply/matrixP=> i j; rewrite !mxE; exact: H. Qed.

Lemma find_in A (d : A) (l l' : list A) : List.NoDup l' -> List.incl l' l ->
  exists s : 'I_(List.length l') -> 'I_(List.length l), injective s /\ forall i : 'I_(List.length l'), List.nth i l' d = List.nth (s i) l d.
Proof.
  move=> ND I.
  have H (i : 'I_(List.length l')) : exists j : 'I_(List.length l), List.nth i l' d = List.nth j l d.
    have L : (i < List.length l')%coq_nat by exact/ltP.
    have [j [Lj Ej]] := List.In_nth _ _ d (I _ (List.nth_In _ d L)).
    by exists (Ordinal (introT ltP Lj)).
  have [s Es] := fin_all_exists H; exists s; split=> // i j E.
  apply: val_inj => /=; apply: (proj1 (List.NoDup_nth l' d) ND); [exact/ltP|exact/ltP|by rewrite !Es E].
Qed.

(** The GPCM and the CGPCM with only some of their inducing points: the approximations see the
    model with only some of its inducing variables. *)
Theorem C117_gpcm :
  forall (N : numdom) (so so' : setorder) (ofR : R -> N) (m : gpcm) (tu tz t t' : list R),
    (forall x, val (ofR x) = x) -> GpcmProps.tensors N -> good_gpcm m ->
    List.NoDup tu -> List.NoDup tz -> List.incl tu (g_t_u m) -> List.incl tz (g_t_z m) ->
    let nu := List.length tu in
    let nz := List.length tz in
    let nu' := List.length (g_t_u m) in
    let nz' := List.length (g_t_z m) in
    exists (s : 'I_nu -> 'I_nu') (r : 'I_nz -> 'I_nz') (G : gp nu' nz') (D : integrals (List.length t) nu' nz') (P : integrals (List.length t') nu' nz'),
      injective s /\ injective r
      /\ (forall i : 'I_nu, List.nth i tu R0 = List.nth (s i) (g_t_u m) R0)
      /\ (forall i : 'I_nz, List.nth i tz R0 = List.nth (r i) (g_t_z m) R0)
      /\ gsession so ofR m t t' = Ok (Session G D P)
      /\ well_posed G D /\ well_posed G P
      /\ gsession so' ofR (with_points m tu tz) t t' = Ok (Session (some_gp s r G) (some_integrals s r D) (some_integrals s r P)).
Proof.
  move=> N so so' ofR m tu tz t t' Ho Te Gm NDu NDz Pu Pz nu nz nu' nz'.
  have M := proj1 Gm.
  have [s [Is Es]] := find_in R0 NDu Pu; have [r [Ir Er]] := find_in R0 NDz Pz.
  have [G EG] := gpcm_gp_total so Ho Gm Te.
  have [D ED] := gpcm_integrals_total so Ho Gm t Te.
  have [P EP] := gpcm_integrals_total so Ho Gm t' Te.
  exists s, r, G, D, P; split=> //; split=> //; split=> //; split=> //.
  split; first by rewrite /gsession EG ED EP.
  split; first by have [] := gpcm_well Ho Gm EG ED.
  split; first by have [] := gpcm_well Ho Gm EG EP.
  have Gm' : good_gpcm (with_points m tu tz).
    exact: (ReorderEntries.good_points _ _ _ Gm NDu NDz).
  have [G' EG'] := gpcm_gp_total so' Ho Gm' Te.
  have [D' ED'] := gpcm_integrals_total so' Ho Gm' t Te.
  have [P' EP'] := gpcm_integrals_total so' Ho Gm' t' Te.
  rewrite /gsession EG' ED' EP' /bind; congr Ok.
  rewrite /gpcm_gp /gpcm_integrals in EG ED EP EG' ED' EP'.
  have [Kz [EKz {}EG]] := bindP EG; have [Ku [EKu {}EG]] := bindP EG; case: EG => <-.
  have [hx [Ehx {}ED]] := bindP ED.
  have [ux [Eux {}ED]] := bindP ED.
  have [hz [Ehz {}ED]] := bindP ED.
  have [uz [Euz {}ED]] := bindP ED.
  case: ED => <-.
  have [hy [Ehy {}EP]] := bindP EP.
  have [uy [Euy {}EP]] := bindP EP.
  have [hw [Ehw {}EP]] := bindP EP.
  have [uw [Euw {}EP]] := bindP EP.
  case: EP => <-.
  have [Kz' [EKz' {}EG']] := bindP EG'; have [Ku' [EKu' {}EG']] := bindP EG'; case: EG' => <-.
  have [hx' [Ehx' {}ED']] := bindP ED'.
  have [ux' [Eux' {}ED']] := bindP ED'.
  have [hz' [Ehz' {}ED']] := bindP ED'.
  have [uz' [Euz' {}ED']] := bindP ED'.
  case: ED' => <-.
  have [hy' [Ehy' {}EP']] := bindP EP'.
  have [uy' [Euy' {}EP']] := bindP EP'.
  have [hw' [Ehw' {}EP']] := bindP EP'.
  have [uw' [Euw' {}EP']] := bindP EP'.
  case: EP' => <-.
  move: Euy Euy'; rewrite Eux Eux' => - [<-] [<-].
  have lu (i : 'I_nu) : (i < List.length tu)%coq_nat by exact/ltP.
  have lz (i : 'I_nz) : (i < List.length tz)%coq_nat by exact/ltP.
  have lo a (i : 'I_a) : (i < a)%coq_nat by exact/ltP.
  have F1 := mat_entries (fun i j => ReorderEntries.Ku_at N so so' ofR Ho m tu tz _ _ _ _ _ _ EKu EKu' (lo _ (s i)) (lo _ (s j)) (lu i) (lu j) (Es i) (Es j)).
  have F2 := mat_entries (fun i j => ReorderEntries.Kz_at N so so' ofR Ho m M tu tz _ _ _ _ _ _ EKz EKz' (lo _ (r i)) (lo _ (r j)) (lz i) (lz j) (Er i) (Er j)).
  have F3 := mat_entries (fun i j => ReorderEntries.ux_at N so so' ofR Ho m M tu tz _ _ _ _ _ _ Eux Eux' (lo _ (s i)) (lo _ (s j)) (lu i) (lu j) (Es i) (Es j)).
  have F4 a := mat_entries (fun i j => ReorderEntries.hz_at N so so' ofR Ho m M tu tz _ _ _ _ _ _ _ _ Ehz Ehz' (lo _ a) (lo _ (r i)) (lo _ (r j)) (lz i) (lz j) (Er i) (Er j)).
  have F5 a := mat_entries (fun i j => ReorderEntries.hz_at N so so' ofR Ho m M tu tz _ _ _ _ _ _ _ _ Ehw Ehw' (lo _ a) (lo _ (r i)) (lo _ (r j)) (lz i) (lz j) (Er i) (Er j)).
  have F6 a := mat_entries (fun i j => ReorderEntries.uz_at N so so' ofR Ho m M tu tz _ _ _ _ _ _ _ _ Euz Euz' (lo _ a) (lo _ (s i)) (lo _ (r j)) (lu i) (lz j) (Es i) (Er j)).
  have F7 a := mat_entries (fun i j => ReorderEntries.uz_at N so so' ofR Ho m M tu tz _ _ _ _ _ _ _ _ Euw Euw' (lo _ a) (lo _ (s i)) (lo _ (r j)) (lu i) (lz j) (Es i) (Er j)).
  have F8 a := ReorderEntries.hx_at N so so' ofR Ho m M tu tz _ _ _ a Ehx Ehx'.
  have F9 a := ReorderEntries.hx_at N so so' ofR Ho m M tu tz _ _ _ a Ehy Ehy'.
  clear -F1 F2 F3 F4 F5 F6 F7 F8 F9.
  change (g_t_u (with_points m tu tz)) with tu; change (g_t_z (with_points m tu tz)) with tz.
  change (g_noise (with_points m tu tz)) with (g_noise m).
  rewrite /some_gp /some_integrals /=.
  rewrite F1 F2 F3; congr Session; congr Integrals; apply: functional_extensionality => i.
  - by apply: F8; exact/ltP.
  - exact: F4.
  - exact: F6.
  - by apply: F9; exact/ltP.
  - exact: F5.
  - exact: F7.
Qed.
Print Assumptions C117_gpcm.

(** The same for the RGPCM, for the inducing points and the frequencies. *)
Theorem C117_rgpcm :
  forall (argsort argsort' : list Z -> list nat) (m : rgpcm) (tu : list R) (ms : list Z) (t t' : list R),
    RgpcmSpec.argsorts argsort -> RgpcmSpec.argsorts argsort' -> well_rgpcm m -> in_support m t -> in_support m t' ->
    List.NoDup tu -> List.NoDup ms -> List.incl tu (r_t_u m) -> List.incl ms (r_ms m) ->
    let nu := List.length tu in
    let nz := List.length ms in
    let nu' := List.length (r_t_u m) in
    let nz' := List.length (r_ms m) in
    exists (s : 'I_nu -> 'I_nu') (r : 'I_nz -> 'I_nz') (G : gp nu' nz') (D : integrals (List.length t) nu' nz') (P : integrals (List.length t') nu' nz'),
      injective s /\ injective r
      /\ (forall i : 'I_nu, List.nth i tu R0 = List.nth (s i) (r_t_u m) R0)
      /\ (forall i : 'I_nz, List.nth i ms Z0 = List.nth (r i) (r_ms m) Z0)
      /\ rsession argsort m t t' = Ok (Session G D P)
      /\ well_posed G D /\ well_posed G P
      /\ rsession argsort' (with_features m tu ms) t t' = Ok (Session (some_gp s r G) (some_integrals s r D) (some_integrals s r P)).
Proof.
  move=> argsort argsort' m tu ms t t' Ha Ha' Wm St St' NDu NDm' Pu Pz nu nz nu' nz'.
  have [s [Is Es]] := find_in R0 NDu Pu; have [r [Ir Er]] := find_in Z0 NDm' Pz.
  have [G EG] := rgpcm_gp_total Wm.
  have [D ED] := rgpcm_integrals_total Ha Wm t.
  have [P EP] := rgpcm_integrals_total Ha Wm t'.
  exists s, r, G, D, P; split=> //; split=> //; split=> //; split=> //.
  split; first by rewrite /rsession EG ED EP.
  split; first by have [] := rgpcm_well Ha Wm St EG ED.
  split; first by have [] := rgpcm_well Ha Wm St' EG EP.
  have Hp := ms_pos Wm.
  case: (Wm) => -[[Pa Pg Pl] [Na [Nt [Ng [Nl [Nu Up]]]]]] [Hab [HM [NDm [_ Pn]]]].
  have Hp' : List.Forall (fun k => Z.le Z0 k) ms by apply/List.Forall_forall => k Hk; move/List.Forall_forall: Hp; apply; exact: Pz.
  have Wm' : well_rgpcm (with_features m tu ms).
    split; first split=> //.
      split=> //; split=> //; split=> //; split=> //; split=> //.
      by move=> v Hv; apply: Up; exact: Pu.
    split=> //; split=> //; split=> //.
    by split=> //; apply/List.Forall_forall.
  have [G' EG'] := rgpcm_gp_total Wm'.
  have [D' ED'] := rgpcm_integrals_total Ha' Wm' t.
  have [P' EP'] := rgpcm_integrals_total Ha' Wm' t'.
  rewrite /rsession EG' ED' EP' /bind; congr Ok.
  rewrite /rgpcm_gp /rgpcm_integrals in EG ED EP EG' ED' EP'.
  have [Kz [EKz {}EG]] := bindP EG; have [Ku [EKu {}EG]] := bindP EG; case: EG => <-.
  have [hx [Ehx {}ED]] := bindP ED.
  have [ux [Eux {}ED]] := bindP ED.
  have [hz [Ehz {}ED]] := bindP ED.
  have [uz [Euz {}ED]] := bindP ED.
  case: ED => <-.
  have [hy [Ehy {}EP]] := bindP EP.
  have [uy [Euy {}EP]] := bindP EP.
  have [hw [Ehw {}EP]] := bindP EP.
  have [uw [Euw {}EP]] := bindP EP.
  case: EP => <-.
  have [Kz' [EKz' {}EG']] := bindP EG'; have [Ku' [EKu' {}EG']] := bindP EG'; case: EG' => <-.
  have [hx' [Ehx' {}ED']] := bindP ED'.
  have [ux' [Eux' {}ED']] := bindP ED'.
  have [hz' [Ehz' {}ED']] := bindP ED'.
  have [uz' [Euz' {}ED']] := bindP ED'.
  case: ED' => <-.
  have [hy' [Ehy' {}EP']] := bindP EP'.
  have [uy' [Euy' {}EP']] := bindP EP'.
  have [hw' [Ehw' {}EP']] := bindP EP'.
  have [uw' [Euw' {}EP']] := bindP EP'.
  case: EP' => <-.
  move: Euy Euy'; rewrite Eux Eux' => - [<-] [<-].
  rewrite RgpcmReorder.rhx_same Ehx in Ehx'; case: Ehx' => <-.
  rewrite RgpcmReorder.rhx_same Ehy in Ehy'; case: Ehy' => <-.
  have lu (i : 'I_nu) : (i < List.length tu)%coq_nat by exact/ltP.
  have lz (i : 'I_nz) : (i < List.length ms)%coq_nat by exact/ltP.
  have lo a (i : 'I_a) : (i < a)%coq_nat by exact/ltP.
  have ri (i j : 'I_nz) : (i = j :> nat) <-> (r i = r j :> nat).
    by split=> [/val_inj -> //|/val_inj /Ir -> //].
  have F1 := mat_entries (fun i j => RgpcmReorder.rKu_at m tu ms _ _ _ _ _ _ EKu EKu' (lo _ (s i)) (lo _ (s j)) (lu i) (lu j) (Es i) (Es j)).
  have F2 := mat_entries (fun i j => RgpcmReorder.rKz_at m tu ms _ _ _ _ _ _ EKz EKz' (lo _ (r i)) (lo _ (r j)) (lz i) (lz j) (Er i) (Er j) (ri i j)).
  have F3 := mat_entries (fun i j => RgpcmReorder.rux_at m tu ms Ng Nl _ _ _ _ _ _ Eux Eux' (lo _ (s i)) (lo _ (s j)) (lu i) (lu j) (Es i) (Es j)).
  have F4 a := mat_entries (fun i j => RgpcmReorder.rhz_at _ _ Ha Ha' m tu ms Pa Pl Hab HM Hp Hp' _ _ _ _ _ _ _ _ Ehz Ehz' (lo _ a) (lo _ (r i)) (lo _ (r j)) (lz i) (lz j) (Er i) (Er j)).
  have F5 a := mat_entries (fun i j => RgpcmReorder.rhz_at _ _ Ha Ha' m tu ms Pa Pl Hab HM Hp Hp' _ _ _ _ _ _ _ _ Ehw Ehw' (lo _ a) (lo _ (r i)) (lo _ (r j)) (lz i) (lz j) (Er i) (Er j)).
  have F6 a := mat_entries (fun i j => RgpcmReorder.ruz_at _ _ Ha Ha' m tu ms Hab HM Ng Hp Hp' _ _ _ _ _ _ _ _ Euz Euz' (lo _ a) (lo _ (s i)) (lo _ (r j)) (lu i) (lz j) (Es i) (Er j)).
  have F7 a := mat_entries (fun i j => RgpcmReorder.ruz_at _ _ Ha Ha' m tu ms Hab HM Ng Hp Hp' _ _ _ _ _ _ _ _ Euw Euw' (lo _ a) (lo _ (s i)) (lo _ (r j)) (lu i) (lz j) (Es i) (Er j)).
  clear -F1 F2 F3 F4 F5 F6 F7.
  change (r_t_u (with_features m tu ms)) with tu; change (r_ms (with_features m tu ms)) with ms.
  change (r_noise (with_features m tu ms)) with (r_noise m).
  rewrite /some_gp /some_integrals /=.
  rewrite F1 F2 F3; congr Session; congr Integrals; apply: functional_extensionality => i.
  - exact: F4.
  - exact: F6.
  - exact: F5.
  - exact: F7.
Qed.
Print Assumptions C117_rgpcm.

(** Every posterior of the model with fewer inducing variables is a posterior of the model with
    more of them: it has the same bound and makes the same predictions. *)
Theorem C117_posterior :
  forall chol, chol_ok chol ->
  forall n n' nu nz nu' nz' (s : 'I_nu -> 'I_nu') (r : 'I_nz -> 'I_nz') (G' : gp nu' nz') (D' : integrals n nu' nz') (P' : integrals n' nu' nz') y y',
    injective s -> injective r -> well_posed G' D' -> well_posed G' P' ->
    let G := some_gp s r G' in
    let data := construct_terms chol G (some_integrals s r D') y in
    let data' := construct_terms chol G' D' y in
    let new := construct_terms chol G (some_integrals s r P') y' in
    let new' := construct_terms chol G' P' y' in
    well_posed G (some_integrals s r D') /\ well_posed G (some_integrals s r P')
    /\ forall ap : approx nu nz, (forall i, proper (ap_qs_u ap i)) -> (forall i, proper (ap_qs_z ap i)) ->
       exists ap' : approx nu' nz',
         ap_i ap' = ap_i ap
         /\ (forall i, proper (ap_qs_u ap' i) /\ mean chol (ap_qs_u ap' i) = padded s (mean chol (ap_qs_u ap i)))
         /\ (forall i, proper (ap_qs_z ap' i) /\ mean chol (ap_qs_z ap' i) = padded r (mean chol (ap_qs_z ap i)))
         /\ elbo chol G' data' ap' None = elbo chol G data ap None
         /\ kl chol (q_u ap') (p_u G' ap') = kl chol (q_u ap) (p_u G ap)
         /\ kl chol (q_z ap') (p_z G' ap') = kl chol (q_z ap) (p_z G ap)
         /\ forall i, predict_mean_field chol G' new' ap' i = predict_mean_field chol G new ap i.
Proof.
  move=> chol Hc n n' nu nz nu' nz' s r G' D' P' y y' Is Ir WP WP' G data data' new new'.
  have [Ku [Kz _]] := WP.
  split; first exact: some_well_posed; split; first exact: some_well_posed.
  move=> ap Hu Hz; exists (grow_state s r G' ap); split=> //.
  have Su := sel_spd Is Ku; have Sz := sel_spd Ir Kz.
  have Pu : proper (p_u G ap) by rewrite /p_u; case: (ap_i ap) => [|i] //; exact: some_Ku_spd.
  have Pz : proper (p_z G ap) by rewrite /p_z; case: (ap_i ap) => [|i] //; exact: some_Kz_spd.
  split; first by move=> i; split; [exact: proper_grow_u|rewrite paddedE; exact: (grow_mean Hc Ku Su (Hu i))].
  split; first by move=> i; split; [exact: proper_grow_z|rewrite paddedE; exact: (grow_mean Hc Kz Sz (Hz i))].
  split; first exact: elbo_grow.
  split; first by rewrite p_u_grow; exact: (grow_kl Hc Ku Su (Hu _) Pu).
  split; first by rewrite p_z_grow; exact: (grow_kl Hc Kz Sz (Hz _) Pz).
  by move=> i; exact: predict_grow.
Qed.
Print Assumptions C117_posterior.

Lemma nondecreasing_last (l : seq R) : (0 < size l)%N -> nondecreasing l -> (nth R0 l 0 <= last R0 l)%Re.
Proof.
  move=> S H; rewrite (last_nth R0).
  have A k : (k < size l)%N -> (nth R0 l 0 <= nth R0 l k)%Re.
    elim: k => [|k IH] L; first exact: Rle_refl.
    by apply: Rle_trans (IH (ltnW L)) (H _ L).
  by case: l S H A => [//|x l] _ _ A; apply: (A (size l)).
Qed.

Definition pick_bound (co : option string) (a b c : R) : res R :=
  match co with None => Ok a | Some "z"%string => Ok b | Some "u"%string => Ok c | Some _ => Err ValueError end.
Lemma pick_cases co a b c v : pick_bound co a b c = Ok v ->
  (v = a /\ forall x y z, pick_bound co x y z = Ok x) \/ (v = b /\ forall x y z, pick_bound co x y z = Ok y)
  \/ (v = c /\ forall x y z, pick_bound co x y z = Ok z).
Proof.
  case: co => [[|[[] [] [] [] [] [] [] []] [|d t]]|] //= [<-]; intuition.
Qed.
Lemma elbo_pick chol n nu nz (m : gp nu nz) (ts : terms n nu nz) ap co a b c :
  elbo chol m ts ap None = Ok a -> elbo chol m ts ap (Some "z"%string) = Ok b -> elbo chol m ts ap (Some "u"%string) = Ok c ->
  elbo chol m ts ap co = pick_bound co a b c.
Proof. by rewrite /elbo => - [->] [->] [->]. Qed.

(** Before any conditioning: the best bound with more inducing variables is at least that with
    fewer, collapsed or not; a fit of the larger model that starts at the posterior of the smaller
    one ends at least as high. *)
Theorem C117_bounds :
  forall chol, chol_ok chol ->
  forall n nu nz nu' nz' (s : 'I_nu -> 'I_nu') (r : 'I_nz -> 'I_nz') (G' : gp nu' nz') (D' : integrals n nu' nz') y,
    injective s -> injective r -> well_posed G' D' ->
    let G := some_gp s r G' in
    let data := construct_terms chol G (some_integrals s r D') y in
    let data' := construct_terms chol G' D' y in
    let state a b (ap : approx a b) := ap_i ap = 0%N /\ (forall i, proper (ap_qs_u ap i)) /\ (forall i, proper (ap_qs_z ap i)) in
    (forall collapsed ap v, state _ _ ap -> elbo chol G data ap collapsed = Ok v ->
       exists ap' v', state _ _ ap' /\ elbo chol G' data' ap' collapsed = Ok v' /\ (v <= v')%Re)
    /\ (forall collapsed b, (forall ap' v', state _ _ ap' -> elbo chol G' data' ap' collapsed = Ok v' -> (v' <= b)%Re) ->
         forall ap v, state _ _ ap -> elbo chol G data ap collapsed = Ok v -> (v <= b)%Re)
    /\ (forall ap iters, state _ _ ap ->
         exists ap' v, state _ _ ap' /\ elbo chol G data (fit_mean_field_ca chol G data iters ap).1 None = Ok v
         /\ forall iters', exists v', elbo chol G' data' (fit_mean_field_ca chol G' data' iters' ap').1 None = Ok v' /\ (v <= v')%Re).
Proof.
  move=> chol Hc n nu nz nu' nz' s r G' D' y Is Ir WP G data data' state.
  have [Ku [Kz [No _]]] := WP.
  have Wm : well_posed G (some_integrals s r D') by exact: some_well_posed.
  have [Mu [Mz _]] := Wm.
  have A := A_sum_psd Hc y Wm; have B := B_sum_psd Hc y Wm.
  have Up ap (Ha : state _ _ ap) qu qz : proper qu -> proper qz ->
      let ap1 := with_qs (grow_state s r G' ap) (grow_u s G' qu) (grow_z r G' qz) in
      state _ _ ap1 /\ elbo chol G' data' ap1 None = Ok (elbo_at chol G data (p_u G ap) (p_z G ap) qu qz).
    case: Ha => I0 [Hu Hz] Hqu Hqz ap1.
    have Pqu := proper_grow_u Is Ku Hqu; have Pqz := proper_grow_z Ir Kz Hqz.
    split.
      split=> //; split=> i /=; [case: (i == _) => //; exact: proper_grow_u|case: (i == _) => //; exact: proper_grow_z].
    rewrite /elbo; congr Ok.
    have -> : p_u G' ap1 = grow_u s G' (p_u G ap) by rewrite -(p_u_grow s r) /p_u /= I0.
    have -> : p_z G' ap1 = grow_z r G' (p_z G ap) by rewrite -(p_z_grow s r) /p_z /= I0.
    have -> : q_u ap1 = grow_u s G' qu by rewrite /q_u /= /set_q_u /= eqxx.
    have -> : q_z ap1 = grow_z r G' qz by rewrite /q_z /= /set_q_z /= eqxx.
    by apply: elbo_at_grow => //; rewrite /proper /p_u /p_z I0.
  have P1 collapsed ap v : state _ _ ap -> elbo chol G data ap collapsed = Ok v ->
       exists ap' v', state _ _ ap' /\ elbo chol G' data' ap' collapsed = Ok v' /\ (v <= v')%Re.
    move=> Ha; have [I0 [Hu Hz]] := Ha.
    have Hqu : proper (q_u ap) by exact: Hu. have Hqz : proper (q_z ap) by exact: Hz.
    have Hf := f_spd Hc Mu No A Hqz; have Hg := g_spd Hc Mz No B Hqu.
    have Step qu qz : proper qu -> proper qz -> exists ap' w vz vu, state _ _ ap'
        /\ elbo chol G' data' ap' None = Ok w /\ elbo chol G' data' ap' (Some "z"%string) = Ok vz /\ elbo chol G' data' ap' (Some "u"%string) = Ok vu
        /\ w = elbo_at chol G data (p_u G ap) (p_z G ap) qu qz /\ (w <= vz)%Re /\ (w <= vu)%Re.
      move=> H1 H2; have [S1 E1] := Up _ Ha _ _ H1 H2; move: S1 E1; set ap1 := with_qs _ _ _ => S1 E1.
      have [J0 [Ju Jz]] := S1.
      have [w [vz [vu [Ew [Evz [Evu [Lz [_ [Lu _]]]]]]]]] := C46_collapsed Hc y WP J0 (Ju _) (Jz _).
      exists ap1, w, vz, vu; repeat split=> //.
      by move: Ew; rewrite E1 => - [<-].
    rewrite (@elbo_pick chol n nu nz G data ap collapsed _ _ _ erefl erefl erefl) => /pick_cases [[-> E]|[[-> E]|[-> E]]].
    - have [ap' [w [vz [vu [S1 [E1 [E2 [E3 [Ew _]]]]]]]]] := Step _ _ Hqu Hqz.
      by exists ap', w; rewrite (elbo_pick _ E1 E2 E3) E -Ew; split=> //; split=> //; exact: Rle_refl.
    - have [ap' [w [vz [vu [S1 [E1 [E2 [E3 [Ew [L _]]]]]]]]]] := Step _ _ Hqu Hg.
      by exists ap', vz; rewrite (elbo_pick _ E1 E2 E3) E -Ew.
    - have [ap' [w [vz [vu [S1 [E1 [E2 [E3 [Ew [_ L]]]]]]]]]] := Step _ _ Hf Hqz.
      by exists ap', vu; rewrite (elbo_pick _ E1 E2 E3) E -Ew.
  split; first exact: P1.
  split.
    move=> c b H ap v Ha E; have [ap' [v' [S1 [E1 L]]]] := P1 _ _ _ Ha E.
    by apply: Rle_trans L (H _ _ S1 E1).
  move=> ap iters Ha; have [I0 [Hu Hz]] := Ha.
  have [N [L [F1 F2]]] := ca_loop_run Hc Mu Mz No A B iters (Hu (ap_i ap)) (Hz (ap_i ap)).
  have [S1 E1] := Up _ Ha _ _ F1 F2; move: S1 E1; set ap1 := with_qs _ _ _ => S1 E1.
  exists ap1; eexists; split=> //; split.
    rewrite /elbo /fit_mean_field_ca; congr Ok; rewrite /q_u /q_z /p_u /p_z /= I0 /=; reflexivity.
  move=> iters'; have [J0 [Ju Jz]] := S1.
  have [_ [_ H]] := @C45_ascent chol Hc _ _ _ G' D' y ap1 WP J0.
  have [vs [Nd [Sz [Vs Ev]]]] := H iters' (Ju _) (Jz _).
  exists (last R0 vs); split=> //.
  have S0 : (0 < size vs)%N by rewrite Sz.
  apply: Rle_trans (nondecreasing_last S0 Nd); apply: Req_le.
  have V0 := Vs _ S0; cbn [nth fst snd] in V0.
  have Eq : elbo chol G' data' (with_qs ap1 (q_u ap1) (q_z ap1)) None = elbo chol G' data' ap1 None.
    by rewrite /elbo /with_qs /set_q_z /set_q_u {1 3}/q_u {1 3}/q_z /p_u /p_z; cbn [ap_i ap_qs_u ap_qs_z]; rewrite J0 /=.
  move: V0; rewrite Eq E1 => - [<-]; rewrite -/data -[ap_qs_u ap (ap_i ap)]/(q_u ap) -[ap_qs_z ap (ap_i ap)]/(q_z ap).
  move: (ca_loop chol G data iters (q_u ap) (q_z ap)) => w; cbn [fst snd].
  by rewrite /p_u /p_z {1}/q_u {1}/q_z /set_q_z /set_q_u; cbn [ap_i ap_qs_u ap_qs_z]; rewrite !eqxx I0.
Qed.
Print Assumptions C117_bounds.

(** The structured approximation, for more inducing variables of the excitation: given the filter,
    the evidence that the structured bound averages is at least as high, and so are the estimates
    of that bound. *)
Theorem C117_structured :
  forall chol, chol_ok chol ->
  forall n nu nz nz' (r : 'I_nz -> 'I_nz') (G' : gp nu nz') (D' : integrals n nu nz') y,
    injective r -> well_posed G' D' ->
    let G := some_gp id r G' in
    let data := construct_terms chol G (some_integrals id r D') y in
    let data' := construct_terms chol G' D' y in
    (forall u, (log_Z_u chol G data u <= log_Z_u chol G' data' u)%Re)
    /\ (forall (ap : approx nu nz) (ap' : approx nu nz') us v, ap_i ap' = ap_i ap -> ap_qs_u ap' = ap_qs_u ap ->
         elbo_collapsed_z chol G data ap us = Ok v ->
         exists v', elbo_collapsed_z chol G' data' ap' us = Ok v' /\ (v <= v')%Re).
Proof.
  move=> chol Hc n nu nz nz' r G' D' y Ir WP G data data'.
  have L u : (log_Z_u chol G data u <= log_Z_u chol G' data' u)%Re by exact: log_Z_grow.
  split=> // ap ap' us v Ei Eq; case: us => [//|u us].
  rewrite /elbo_collapsed_z; cbn [map]; case=> <-; eexists; split; first reflexivity.
  have -> : kl chol (q_u ap') (p_u G' ap') = kl chol (q_u ap) (p_u G ap).
    by rewrite /q_u /p_u Ei Eq; congr (kl _ _); case: (ap_i ap) => // ; rewrite /= entries_id2.
  apply: Rplus_le_compat_r; cbn [size]; rewrite !size_map /Rdiv; apply: Rmult_le_compat_r.
    by apply: Rlt_le; apply: Rinv_0_lt_compat; exact: (lt_0_INR (size us).+1 (PeanoNat.Nat.lt_0_succ _)).
  rewrite !big_cons !big_map; apply: Rplus_le_compat => //; exact: sumR_le.
Qed.
Print Assumptions C117_structured.

(** The conditions are met: models with three and two inducing points and frequencies that keep
    some of them, and a model whose approximations can be fitted. *)
Example C117_witness :
  (forall causal, exists m, good_gpcm m /\ g_causal m = causal
     /\ g_t_u m = [:: 0%Re; 1%Re; 2%Re] /\ g_t_z m = [:: 0%Re; 1%Re]
     /\ List.NoDup [:: 2%Re; 0%Re] /\ List.NoDup [:: 1%Re]
     /\ List.incl [:: 2%Re; 0%Re] (g_t_u m) /\ List.incl [:: 1%Re] (g_t_z m))
  /\ well_rgpcm RgpcmProps.toy /\ in_support RgpcmProps.toy [:: 3%Re]
  /\ List.NoDup [:: 2%BZ; 0%BZ] /\ List.incl [:: 2%BZ; 0%BZ] (r_ms RgpcmProps.toy)
  /\ List.NoDup [:: 1%Re] /\ List.incl [:: 1%Re] (r_t_u RgpcmProps.toy)
  /\ chol_ok some_chol /\ well_posed gp1 ig1
  /\ injective (fun _ : 'I_1 => ord0 : 'I_2) /\ injective (fun i : 'I_1 => i)
  /\ K_u (some_gp (fun _ : 'I_1 => ord0 : 'I_2) (fun i : 'I_1 => i) gp1) ord0 ord0 = 2%Re.
Proof.
  have [W1 [W2 [W3 [W4 W5]]]] := C114_witness.
  split.
    move=> causal; have [m [G [Ec [Eu [Ez _]]]]] := W1 causal; exists m; rewrite Eu Ez.
    split=> //; split=> //; split=> //; split=> //.
    split; first by repeat (constructor; [simpl; intuition; lra|]); constructor.
    split; first by repeat (constructor; [simpl; intuition; lra|]); constructor.
    by split=> x /=; intuition.
  split=> //; split=> //.
  split; first by repeat (constructor; [simpl; intuition; discriminate|]); constructor.
  split; first by move=> x /=; intuition.
  split; first by repeat (constructor; [simpl; intuition; lra|]); constructor.
  split; first by move=> x /=; intuition.
  split; first exact: some_chol_ok; split; first exact: gp1_well_posed.
  split; first by move=> i j _; rewrite (ord1 i) (ord1 j).
  split; first by move=> i j.
  by rewrite /= !mxE.
Qed.
