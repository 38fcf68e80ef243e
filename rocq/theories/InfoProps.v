(** The property C118: observations add information, one by one. *)
From Coq Require Import Reals ZArith List Lra String Permutation.
From mathcomp Require Import all_ssreflect all_algebra.
From Verif Require Import Py RMat RChol RTac NormalModel NormalProofs ApproxModel ApproxSpec ApproxProofs ApproxProofs2 ApproxProps EvidenceModel.
From Verif Require Import GpcmModel GpcmBridge RgpcmModel RgpcmBridge OrderSpec OrderLists OrderProofs InfoSpec InfoProofs GrowProofs GrowGp.
Set Implicit Arguments.
Unset Strict Implicit.
Unset Printing Implicit Defensive.
Import GRing.Theory.
Local Open Scope ring_scope.
Delimit Scope R_scope with Re.

(** In natural parameters the posteriors differ from the prior by a sum of what every observation
    alone would add to the prior; the same holds for the expected log-likelihood in the ELBO. *)
Theorem C118_additive :
  forall chol, chol_ok chol ->
  forall n nu nz (m : gp nu nz) (D : integrals n nu nz) y,
    let data := construct_terms chol m D y in
    let one i := construct_terms chol m (only D i) (fun _ => y i) in
    (forall z, gain (K_u m) (q_u_optimal m data z) = \sum_i gain (K_u m) (q_u_optimal m (one i) z))
    /\ (forall u, gain (K_z m) (q_z_optimal m data u) = \sum_i gain (K_z m) (q_z_optimal m (one i) u))
    /\ (forall q, gain (K_u m) (q_u_optimal_mean_field chol m data q) = \sum_i gain (K_u m) (q_u_optimal_mean_field chol m (one i) q))
    /\ (forall q, gain (K_z m) (q_z_optimal_mean_field chol m data q) = \sum_i gain (K_z m) (q_z_optimal_mean_field chol m (one i) q))
    /\ (forall ap, spd (K_u m) -> spd (K_z m) ->
         let kls := (kl chol (q_u ap) (p_u m ap) + kl chol (q_z ap) (p_z m ap))%Re in
         exists v vs, elbo chol m data ap None = Ok v
           /\ (forall i, elbo chol m (one i) ap None = Ok (vs i))
           /\ (v + kls)%Re = \sum_i (vs i + kls)%Re).
Proof.
  move=> chol Hc n nu nz m D y data one.
  have pairs (V W : zmodType) (F : 'I_n -> V) (G : 'I_n -> W) : \sum_i (F i, G i) = (\sum_i F i, \sum_i G i).
    by elim/big_rec3: _ => [//|i a b c _ ->].
  have G1 k (K : 'M[R]_k) (l : 'I_n -> 'cV[R]_k) (P : 'I_n -> 'M[R]_k) c (q : natnormal k) (q1 : 'I_n -> natnormal k) :
      q = NatNormal (c *: \sum_i l i) (K + c *: \sum_i P i) ->
      (forall i, q1 i = NatNormal (c *: \sum_(j < 1) l i) (K + c *: \sum_(j < 1) P i)) -> gain K q = \sum_i gain K (q1 i).
    move=> -> E; rewrite /gain /= addrC addKr.
    rewrite (eq_bigr (fun i => (c *: l i, c *: P i))); last by move=> i _; rewrite E /= !big_ord1 addrC addKr.
    by rewrite pairs !scaler_sumr.
  split; first by move=> z; apply: G1; [exact: q_u_gain|move=> i; exact: q_u_gain].
  split; first by move=> u; apply: G1; [exact: q_z_gain|move=> i; exact: q_z_gain].
  split; first by move=> q; apply: G1; [exact: q_u_mf_gain|move=> i; exact: q_u_mf_gain].
  split; first by move=> q; apply: G1; [exact: q_z_mf_gain|move=> i; exact: q_z_mf_gain].
  move=> ap Ku Kz kls; eexists; eexists; split; first reflexivity; split; first by move=> i; reflexivity.
  rewrite /data /one elbo_at_errors.
  set a := mean chol (q_u ap); set b := m2 chol (q_u ap); set c := mean chol (q_z ap); set d := m2 chol (q_z ap).
  have Er : errors chol m D y a b c d = \sum_i errors chol m (only D i) (fun=> y i) a b c d.
    apply: eq_bigr => i _; rewrite /errors big_ord1.
    have SP : same_point D i (only D i) ord0 by [].
    by rewrite (moments_point chol m y (fun=> y i) a b c d SP).
  rewrite (eq_bigr (fun i => (- (1 / 2) * ln (2 * PI * noise m))%Re + (- (1 / 2) / noise m)%Re * errors chol m (only D i) (fun=> y i) a b c d)).
    rewrite big_split /= sumr_const card_ord -mulr_natr -INRE -big_distrr /= -Er /kls.
    move: (errors _ _ _ _ _ _ _ _) => e; move: (kl _ _ _) (kl _ _ _) => k1 k2; rewrite !RplusE !RmultE; lra.
  move=> i _; rewrite elbo_at_errors /kls -/a -/b -/c -/d; change (INR 1) with R1.
  move: (errors _ _ _ _ _ _ _ _) => e; move: (kl _ _ _) (kl _ _ _) => k1 k2; rewrite !RplusE !RmultE; lra.
Qed.
Print Assumptions C118_additive.

(** More observations make every posterior at least as certain. *)
Theorem C118_more :
  forall chol, chol_ok chol ->
  forall n n' nu nz (m : gp nu nz) (D : integrals n nu nz) y (D' : integrals n' nu nz) y',
    well_posed m D -> well_posed m D' -> more_observations D y D' y' ->
    let data := construct_terms chol m D y in
    let data' := construct_terms chol m D' y' in
    (forall z, at_least_as_certain chol (q_u_optimal m data' z) (q_u_optimal m data z))
    /\ (forall u, at_least_as_certain chol (q_z_optimal m data' u) (q_z_optimal m data u))
    /\ (forall q, proper q -> at_least_as_certain chol (q_u_optimal_mean_field chol m data' q) (q_u_optimal_mean_field chol m data q))
    /\ (forall q, proper q -> at_least_as_certain chol (q_z_optimal_mean_field chol m data' q) (q_z_optimal_mean_field chol m data q)).
Proof.
  move=> chol Hc n n' nu nz m D y D' y' WP WP' [Eux [s [Is Hs]]] data data'.
  have [Ku [Kz [No _]]] := WP.
  have A := A_sum_psd Hc y WP; have B := B_sum_psd Hc y WP; have A' := A_sum_psd Hc y' WP'; have B' := B_sum_psd Hc y' WP'.
  have G k (K : 'M[R]_k) (P : 'I_n -> 'M[R]_k) (P' : 'I_n' -> 'M[R]_k) l l' q q' :
      q = NatNormal l (K + (/ noise m)%Re *: \sum_i P i) -> q' = NatNormal l' (K + (/ noise m)%Re *: \sum_i P' i) ->
      proper q -> proper q' -> (forall i, P i = P' (s i)) -> (forall j, psd (P' j)) -> at_least_as_certain chol q' q.
    move=> Eq Eq' Hq Hq' E HP x; rewrite !(varE Hc) //; apply: inv_anti => //.
    rewrite Eq Eq' /= opprD addrACA subrr add0r -scalerBr; apply: psd_scale; last exact: psd_rest Is E HP.
    by apply: Rlt_le; apply: Rinv_0_lt_compat.
  have Pu x2 i : prec_u chol m D y x2 i = prec_u chol m D' y' x2 (s i).
    by have [[_ [_ [_ Eu]]] _] := Hs i; rewrite /prec_u /A_at /= Eux Eu.
  have Pz x2 i : prec_z chol m D y x2 i = prec_z chol m D' y' x2 (s i).
    by have [[_ [_ [Eh Eu]]] _] := Hs i; rewrite /prec_z /B_at /= Eh Eu.
  split.
    move=> z; apply: G; [exact: q_u_gain|exact: q_u_gain|exact: q_optimal_spd|exact: q_optimal_spd|exact: Pu|].
    by move=> j; apply: prec_u_psd => //; exact: psd_outer.
  split.
    move=> u; apply: G; [exact: q_z_gain|exact: q_z_gain|exact: q_optimal_spd|exact: q_optimal_spd|exact: Pz|].
    by move=> j; apply: prec_z_psd => //; exact: psd_outer.
  split.
    move=> q Hq; apply: G; [exact: q_u_mf_gain|exact: q_u_mf_gain|exact: f_spd|exact: f_spd|exact: Pu|].
    by move=> j; apply: prec_u_psd => //; exact: m2_psd.
  move=> q Hq; apply: G; [exact: q_z_mf_gain|exact: q_z_mf_gain|exact: g_spd|exact: g_spd|exact: Pz|].
  by move=> j; apply: prec_z_psd => //; exact: m2_psd.
Qed.
Print Assumptions C118_more.

(** Every posterior is at least as certain as the prior, whatever was observed, and so is what
    coordinate ascent returns, however it was started. *)
Theorem C118_prior :
  forall chol, chol_ok chol ->
  forall n nu nz (m : gp nu nz) (D : integrals n nu nz) y, well_posed m D ->
    let data := construct_terms chol m D y in
    let prior_u := NatNormal 0 (K_u m) in
    let prior_z := NatNormal 0 (K_z m) in
    (forall z, at_least_as_certain chol (q_u_optimal m data z) prior_u)
    /\ (forall u, at_least_as_certain chol (q_z_optimal m data u) prior_z)
    /\ (forall q, proper q -> at_least_as_certain chol (q_u_optimal_mean_field chol m data q) prior_u)
    /\ (forall q, proper q -> at_least_as_certain chol (q_z_optimal_mean_field chol m data q) prior_z)
    /\ (forall ap iters, (0 < iters)%N -> proper (q_u ap) -> proper (q_z ap) ->
         at_least_as_certain chol (q_u (fit_mean_field_ca chol m data iters ap).1) prior_u
         /\ at_least_as_certain chol (q_z (fit_mean_field_ca chol m data iters ap).1) prior_z).
Proof.
  move=> chol Hc n nu nz m D y WP data prior_u prior_z; have [Ku [Kz [No J]]] := WP.
  pose D0 : integrals 0 nu nz := Integrals (fun _ => R0) (ig_ux D) (fun _ => 0) (fun _ => 0).
  pose y0 : 'I_0 -> R := fun _ => R0.
  have W0 : well_posed m D0 by split=> //; split=> //; split=> //; split; [exact: (proj1 J)|split=> - []].
  have M0 : more_observations D0 y0 D y by split=> //; exists (fun i : 'I_0 => match (ltac:(by case: i) : False) with end); split=> - [].
  have [C1 [C2 [C3 C4]]] := C118_more Hc W0 WP M0.
  have E1 z : q_u_optimal m (construct_terms chol m D0 y0) z = prior_u by rewrite q_u_gain !big_ord0 !scaler0 addr0.
  have E2 u : q_z_optimal m (construct_terms chol m D0 y0) u = prior_z by rewrite q_z_gain !big_ord0 !scaler0 addr0.
  have E3 q : q_u_optimal_mean_field chol m (construct_terms chol m D0 y0) q = prior_u by rewrite q_u_mf_gain !big_ord0 !scaler0 addr0.
  have E4 q : q_z_optimal_mean_field chol m (construct_terms chol m D0 y0) q = prior_z by rewrite q_z_mf_gain !big_ord0 !scaler0 addr0.
  have {}C1 z := C1 z; have {}C3 q Hq := C3 q Hq.
  have F1 z : at_least_as_certain chol (q_u_optimal m data z) prior_u by rewrite -(E1 z); exact: C1.
  have F2 u : at_least_as_certain chol (q_z_optimal m data u) prior_z by rewrite -(E2 u); exact: C2.
  have F3 q : proper q -> at_least_as_certain chol (q_u_optimal_mean_field chol m data q) prior_u by move=> H; rewrite -(E3 q); exact: C3.
  have F4 q : proper q -> at_least_as_certain chol (q_z_optimal_mean_field chol m data q) prior_z by move=> H; rewrite -(E4 q); exact: C4.
  do 4!split=> //.
  move=> ap iters Hi Hu Hz.
  have A := A_sum_psd Hc y WP; have B := B_sum_psd Hc y WP.
  have Loop k qu qz : proper qu -> proper qz ->
      at_least_as_certain chol (ca_loop chol m data k.+1 qu qz).1.1 prior_u /\ at_least_as_certain chol (ca_loop chol m data k.+1 qu qz).1.2 prior_z.
    elim: k qu qz => [|k IH] qu qz Pu Pz.
      have Pf : proper (q_u_optimal_mean_field chol m data qz) by exact: f_spd.
      have [G1 G2] := (F3 _ Pz, F4 _ Pf).
      by cbn [ca_loop]; case: Rlt_dec => ?; cbn [is_left fst snd].
    have Pf : proper (q_u_optimal_mean_field chol m data qz) by exact: f_spd.
    have Pg : proper (q_z_optimal_mean_field chol m data (q_u_optimal_mean_field chol m data qz)) by exact: g_spd.
    have [I1 I2] := IH _ _ Pf Pg; have [G1 G2] := (F3 _ Pz, F4 _ Pf).
    move: I1 I2; move: (k.+1) => k1 I1 I2; cbn [ca_loop]; case: Rlt_dec => ?; cbn [is_left fst snd]; by [].
  case: iters Hi => [//|k] _; have [L1 L2] := Loop k _ _ Hu Hz.
  rewrite /fit_mean_field_ca; move: L1 L2; move: (ca_loop _ _ _ _ _ _) => w L1 L2; cbn [fst snd].
  by rewrite /q_u /q_z /set_q_z /set_q_u; cbn [ap_i ap_qs_u ap_qs_z]; rewrite !eqxx.
Qed.
Print Assumptions C118_prior.

(** The GPCM, the CGPCM and the RGPCM with more data have more observations. *)
Lemma sub_index (data data' rest : list (R * R)) : Permutation data' (data ++ rest)%list ->
  exists s : 'I_(List.length (times data)) -> 'I_(List.length (times data')), injective s /\
    forall i : 'I_(List.length (times data)), List.nth i data (R0, R0) = List.nth (s i) data' (R0, R0).
Proof.
  move=> P; have [s [[g gK Kg] Es]] := perm_index P.
  have L : (List.length (times data) <= List.length (times (data ++ rest)%list))%N.
    by rewrite /times !List.map_length List.app_length; apply: leq_addr.
  exists (fun i => s (widen_ord L i)); split.
    by move=> i j /(can_inj gK) [] E; apply: val_inj.
  move=> i; rewrite -Es /= List.app_nth1 //; apply/ltP; case: i => i /=; by rewrite /times List.map_length.
Qed.

Section More.
Variables (nu nz : nat) (hx : list R -> res (list R)) (ux : res (list (list R))) (hz uz : list R -> res (list (list (list R)))).
Hypotheses (Phx : pointwise hx) (Phz : pointwise hz) (Puz : pointwise uz).
Lemma all_more data data' rest D' : Permutation data' (data ++ rest)%list -> all_integrals nu nz hx ux hz uz (times data') = Ok D' ->
  exists D, all_integrals nu nz hx ux hz uz (times data) = Ok D /\ more_observations D (observed (data:=data)) D' (observed (data:=data')).
Proof.
  move=> P E'; have [|D E] := all_sub Phx Phz Puz (t':=times data) E'.
    move=> x /List.in_map_iff [p [<- Hp]]; apply: List.in_map; apply: (Permutation_in _ (Permutation_sym P)).
    by apply: List.in_or_app; left.
  exists D; split=> //; have [s [Is Es]] := sub_index P; split.
    have [h [x [a [b [[_ Ex _ _] ->]]]]] := all_inv E; have [h' [x' [a' [b' [[_ Ex' _ _] ->]]]]] := all_inv E'.
    by move: Ex'; rewrite Ex => - [->].
  exists s; split=> // i.
  have N (l : list (R * R)) k : List.nth k (times l) R0 = (List.nth k l (R0, R0)).1 by rewrite /times -(List.map_nth fst).
  have M (l : list (R * R)) k : List.nth k (List.map snd l) R0 = (List.nth k l (R0, R0)).2 by rewrite -(List.map_nth snd).
  split; first by apply: (all_point Phx Phz Puz E E'); rewrite !N Es.
  by rewrite /observed !M Es.
Qed.
End More.

Theorem C118_gpcm :
  forall (N : numdom) (so : setorder) (ofR : R -> N) (m : gpcm) (data data' rest : list (R * R)) D',
    Permutation data' (data ++ rest)%list -> gpcm_integrals so ofR m (times data') = Ok D' ->
    exists D, gpcm_integrals so ofR m (times data) = Ok D
    /\ more_observations D (observed (data:=data)) D' (observed (data:=data')).
Proof.
  move=> N so ofR m data data' rest D' P; rewrite gpcm_all => E.
  have [D H] := all_more (@hx_pointwise N so ofR m) (@hz_pointwise N so ofR m) (@uz_pointwise N so ofR m) P E.
  by exists D; rewrite gpcm_all.
Qed.
Print Assumptions C118_gpcm.

Theorem C118_rgpcm :
  forall (argsort : list Z -> list nat) (m : rgpcm) (data data' rest : list (R * R)) D',
    Permutation data' (data ++ rest)%list -> rgpcm_integrals argsort m (times data') = Ok D' ->
    exists D, rgpcm_integrals argsort m (times data) = Ok D
    /\ more_observations D (observed (data:=data)) D' (observed (data:=data')).
Proof.
  move=> argsort m data data' rest D' P; rewrite rgpcm_all => E.
  have [D H] := all_more (@rhx_pointwise m) (@rhz_pointwise argsort m) (@ruz_pointwise argsort m) P E.
  by exists D; rewrite rgpcm_all.
Qed.
Print Assumptions C118_rgpcm.

(** The conditions are met: two observations in either order with one of them alone, and the
    small model of ApproxProps.v with one of its two observations; the other observation
    adds the expected precision to that of u. *)
Example C118_witness : Permutation [:: (0, 3); (1, 4)]%Re ([:: (1, 4)]%Re ++ [:: (0, 3)]%Re)%list
  /\ chol_ok some_chol /\ well_posed gp1 ig1 /\ well_posed gp1 (only ig1 ord_max)
  /\ more_observations (only ig1 ord_max) (fun _ => 1%Re) ig1 (fun i => INR i)
  /\ gain (K_u gp1) (q_u_optimal gp1 (construct_terms some_chol gp1 (only ig1 ord_max) (fun _ => 1%Re)) (const_mx 1%Re)) =
     (0, ig_ux ig1)
  /\ proper (q_u ap1).
Proof.
  have W := gp1_well_posed.
  split; first exact: perm_swap.
  split; first exact: some_chol_ok; split=> //.
  have [W1 [W2 [W3 [S1 [S2 J]]]]] := W.
  split; first by split=> //; split=> //; split=> //; split=> //; split=> [i|i x w]; [exact: S2|exact: (J ord_max)].
  split; first by split=> //; exists (fun _ => ord_max); split=> [i j _|i]; [rewrite (ord1 i) (ord1 j)|].
  split; last exact: (proj1 (proj2 ap1_proper)).
  have Z : ig_uz (only ig1 ord_max) = fun _ => 0.
    by apply: FunctionalExtensionality.functional_extensionality => i; apply/matrixP => a b; rewrite !mxE.
  rewrite /gain q_u_gain /prec_u /A_at; cbn [nn_lam nn_prec]; rewrite !big_ord1 Z !mul0mx !scaler0 addr0.
  cbn [construct_terms ts_I_ux ts_K_z_squeezed noise gp1]; rewrite Z !mul0mx subr0 Rinv_1 scale1r addrC addKr.
  by [].
Qed.
