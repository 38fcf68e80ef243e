(** The property C119: without data, posteriors and predictions are those of the prior. *)
From Coq Require Import Reals ZArith List Lra String.
From mathcomp Require Import all_ssreflect all_algebra.
From Verif Require Import Py RMat RChol RTac NormalModel NormalProofs ApproxModel ApproxSpec ApproxProofs ApproxProofs2 ApproxProps EvidenceModel.
From Verif Require Import GpcmModel GpcmBridge GpcmWell RgpcmModel RgpcmBridge RgpcmWell UnitProps GpcmUnitProps GrowProofs GrowGp InfoProofs RgpcmEndProps ReorderProps.
From Verif Require ExpPolyIntProofs GpcmTotal GpcmSpec GpcmGood GpcmProps2 GpcmProps RgpcmProps RgpcmProps2 RgpcmReorder RgpcmSpec GpcmEndProps.
Set Implicit Arguments.
Unset Strict Implicit.
Unset Printing Implicit Defensive.
Import GRing.Theory.
Local Open Scope ring_scope.
Delimit Scope R_scope with Re.
Delimit Scope Z_scope with BZ.

(** Before any conditioning a prediction has mean zero and the variance of the process plus that
    of the noise: nothing of the approximation with inducing variables is left in it. *)
Theorem C119_prior :
  forall chol, chol_ok chol ->
  forall n nu nz (m : gp nu nz) (P : integrals n nu nz) y (ap : approx nu nz) i,
    spd (K_u m) -> spd (K_z m) -> ap_i ap = 0%N ->
    predict_mean_field chol m (construct_terms chol m P y) ap i = (0%Re, (ig_hx P i + noise m)%Re).
Proof.
  move=> chol Hc n nu nz m P y ap i Ku Kz I0.
  rewrite /predict_mean_field (moments_gap Hc) // /p_u /p_z I0.
  have M k (K : 'M[R]_k) : spd K -> mean chol (NatNormal 0 K) = 0 by move=> H; rewrite (meanE Hc) //= mulmx0.
  have M2 k (K : 'M[R]_k) : spd K -> m2 chol (NatNormal 0 K) - invmx K = 0.
    by move=> H; rewrite (m2E Hc) // M // mul0mx addr0 subrr.
  rewrite !M // !M2 // !sum_mul0l trmx0 !mul0mx mxE; cbn [fst snd]; congr pair; rewrite ?R0E; ring.
Qed.
Print Assumptions C119_prior.

(** Without observations the posteriors are the priors, after a fit from any start too; the bounds
    are minus the KL divergences, and so zero exactly at the prior. *)
Theorem C119_no_data :
  forall chol, chol_ok chol ->
  forall nu nz (m : gp nu nz) (D : integrals 0 nu nz) y,
    spd (K_u m) -> spd (K_z m) ->
    let data := construct_terms chol m D y in
    let prior_u := NatNormal 0 (K_u m) in
    let prior_z := NatNormal 0 (K_z m) in
    (forall z, q_u_optimal m data z = prior_u) /\ (forall u, q_z_optimal m data u = prior_z)
    /\ (forall q, q_u_optimal_mean_field chol m data q = prior_u) /\ (forall q, q_z_optimal_mean_field chol m data q = prior_z)
    /\ (forall ap iters, (0 < iters)%N -> let ap' := (fit_mean_field_ca chol m data iters ap).1 in q_u ap' = prior_u /\ q_z ap' = prior_z)
    /\ (forall ap, elbo chol m data ap None = Ok (- kl chol (q_u ap) (p_u m ap) - kl chol (q_z ap) (p_z m ap))%Re)
    /\ (forall ap, ap_i ap = 0%N -> proper (q_u ap) -> proper (q_z ap) ->
         elbo chol m data ap None = Ok R0 <-> q_u ap = prior_u /\ q_z ap = prior_z)
    /\ (forall u, log_Z_u chol m data u = R0)
    /\ (forall ap us, us <> [::] -> elbo_collapsed_z chol m data ap us = Ok (- kl chol (q_u ap) (p_u m ap))%Re)
    (* what is predicted after conditioning on no data, with either approximation *)
    /\ (forall n' (P : integrals n' nu nz) y' ap iters i, ap_i ap = 0%N -> (0 < iters)%N ->
         predict_mean_field chol m (construct_terms chol m P y') (condition (fit_mean_field_ca chol m data iters ap).1) i = (0%Re, (ig_hx P i + noise m)%Re))
    /\ (forall n' (P : integrals n' nu nz) y' us i, (predict_structured chol m data (construct_terms chol m P y') us i).1 = R0).
Proof.
  move=> chol Hc nu nz m D y Ku Kz data prior_u prior_z.
  have E1 z : q_u_optimal m data z = prior_u by rewrite q_u_gain !big_ord0 !scaler0 addr0.
  have E2 u : q_z_optimal m data u = prior_z by rewrite q_z_gain !big_ord0 !scaler0 addr0.
  have E3 q : q_u_optimal_mean_field chol m data q = prior_u by rewrite q_u_mf_gain !big_ord0 !scaler0 addr0.
  have E4 q : q_z_optimal_mean_field chol m data q = prior_z by rewrite q_z_mf_gain !big_ord0 !scaler0 addr0.
  have L k qu qz : (ca_loop chol m data k.+1 qu qz).1 = (prior_u, prior_z).
    elim: k qu qz => [|k IH] qu qz; first by cbn [ca_loop]; rewrite E3 E4; case: Rlt_dec.
    have := IH prior_u prior_z; move: (k.+1) => k1 Ek; cbn [ca_loop]; rewrite E3 E4; case: Rlt_dec => ?; cbn [is_left fst snd]; by [].
  have Fit ap iters : (0 < iters)%N -> let ap' := (fit_mean_field_ca chol m data iters ap).1 in ap_i ap' = ap_i ap /\ q_u ap' = prior_u /\ q_z ap' = prior_z.
    case: iters => [//|k] _; rewrite /fit_mean_field_ca L; cbn [fst snd].
    by rewrite /q_u /q_z /set_q_z /set_q_u; cbn [ap_i ap_qs_u ap_qs_z]; rewrite !eqxx.
  have El ap : elbo chol m data ap None = Ok (- kl chol (q_u ap) (p_u m ap) - kl chol (q_z ap) (p_z m ap))%Re.
    rewrite /elbo /data elbo_at_errors /errors big_ord0 /=; congr Ok; rewrite R0E; ring.
  do 4!split=> //.
  split; first by move=> ap iters Hi; have [_ []] := Fit ap iters Hi.
  split=> //.
  split.
    move=> ap I0 Hu Hz; rewrite El /p_u /p_z I0.
    have K1 := kl_ge0 Hc Hu (Ku : spd (nn_prec prior_u)); have K2 := kl_ge0 Hc Hz (Kz : spd (nn_prec prior_z)).
    split=> [[E]|[-> ->]]; last by rewrite !(kl_refl Hc) //; congr Ok; ring.
    have Z1 : kl chol (q_u ap) prior_u = R0 by move: K1 K2 E; rewrite -/prior_u -/prior_z; move: (kl _ _ _) (kl _ _ _) => *; lra.
    have Z2 : kl chol (q_z ap) prior_z = R0 by move: K1 K2 E; rewrite -/prior_u -/prior_z; move: (kl _ _ _) (kl _ _ _) => *; lra.
    by split; [exact: (@kl_eq0 chol Hc _ _ prior_u Hu Ku Z1)|exact: (@kl_eq0 chol Hc _ _ prior_z Hz Kz Z2)].
  have LZ u : log_Z_u chol m data u = R0.
    rewrite /log_Z_u E2; cbn [nn_prec nn_lam prior_z]; rewrite (iqfE Hc) // dot0l A_sumE c_sumE !big_ord0 mul0mx sum_mul0r /=.
    rewrite R0E; move: (logdet _ _) => l; rewrite /Rdiv; ring.
  split=> //.
  split.
    move=> ap us Nu; rewrite /elbo_collapsed_z; case: us Nu => [//|u us] _; cbn [map]; congr Ok.
    rewrite LZ (_ : [seq log_Z_u chol m data v | v <- us] = [seq R0 | v <- us]); last by apply: eq_map => v; exact: LZ.
    rewrite big_cons big_map big1_eq /=; rewrite R0E RplusE /Rdiv; ring.
  have Mean k (K : 'M[R]_k) : spd K -> mean chol (NatNormal 0 K) = 0 by move=> H; rewrite (meanE Hc) //= mulmx0.
  split.
    move=> n' P y' ap iters i I0 Hi; have [Ei [Eu Ez]] := Fit ap iters Hi.
    rewrite -(C119_prior Hc P y' (ap := ap) i Ku Kz I0) /predict_mean_field; move: Ei Eu Ez; move: (fit_mean_field_ca _ _ _ _ _).1 => ap1 Ei Eu Ez.
    have -> : p_u m (condition ap1) = p_u m ap by rewrite [RHS]/p_u I0; exact: Eu.
    by have -> : p_z m (condition ap1) = p_z m ap by rewrite [RHS]/p_z I0; exact: Ez.
  move=> n' P y' us i; rewrite /predict_structured; cbn [fst snd].
  rewrite (eq_bigr (fun _ => R0)); last first.
    by move=> u _; rewrite E2 Mean // /predict_moments; cbn [fst]; rewrite mulmx0 mxE.
  by rewrite big1_eq R0E /Rdiv Rmult_0_l.
Qed.
Print Assumptions C119_no_data.

(** The predictions of a GPCM or CGPCM that was not conditioned: the same at all times; the
    variance is the power of the process, which is one by default, plus that of the noise. *)
Theorem C119_gpcm :
  forall chol, chol_ok chol ->
  forall (N : numdom) (so : setorder) (ofR : R -> N) (m : gpcm) (t : list R) G P y ap,
    (forall r, val (ofR r) = r) -> GpcmProps.tensors N -> GpcmGood.good_gpcm m ->
    gpcm_gp so ofR m = Ok G -> gpcm_integrals so ofR m t = Ok P -> ap_i ap = 0%N ->
    exists v, compute_i_hx N so ofR m None None = Ok v
      /\ (forall i, predict_mean_field chol G (construct_terms chol G P y) ap i = (0%Re, (v + g_noise m)%Re))
      /\ (forall a, new_gpcm a = Ok m -> a_alpha_t a = None -> v = 1%Re).
Proof.
  move=> chol Hc N so ofR m t G P y ap Ho Te Gm EG EP I0.
  have [[Ku [Kz _]] _] := gpcm_well Ho Gm EG EP.
  have M : GpcmSpec.moderate (g_alpha m) by case: Gm => - [[]].
  have [v Ev] := GpcmTotal.i_hx_total N so ofR Ho Te m (Some R0) (Some R0) M.
  exists v; split; first exact: Ev.
  split=> [i|a Ea Na]; last first.
    exact: (proj1 (GpcmProps.C16_unit_power N so ofR a m R0 Ho Ea Na M) v Ev).
  rewrite (C119_prior Hc) // (GpcmEndProps.gp_noise EG); congr (_, Rplus _ _).
  move: EP; rewrite /gpcm_integrals => EP; have [hx [Ehx {}EP]] := bindP EP.
  have [ux [_ {}EP]] := bindP EP; have [hz [_ {}EP]] := bindP EP; have [uz [_ {}EP]] := bindP EP.
  case: EP => <-; cbn [ig_hx].
  have Hi : (i < List.length t)%coq_nat by apply/ltP.
  have Ei := RgpcmReorder.mapM_nth _ _ _ i R0 R0 Ehx Hi.
  have [_ [_ [S _]]] := GpcmProps2.C23_i_hx N ofR m (List.nth i t R0) (List.nth i t R0) Ho M.
  by apply: (S so so _ _ _ _ Ei Ev); left; lra.
Qed.
Print Assumptions C119_gpcm.

(** And those of an RGPCM. *)
Theorem C119_rgpcm :
  forall chol, chol_ok chol ->
  forall argsort, RgpcmSpec.argsorts argsort ->
  forall (m : rgpcm) (t : list R) G P y ap,
    well_rgpcm m -> rgpcm_gp m = Ok G -> rgpcm_integrals argsort m t = Ok P -> ap_i ap = 0%N ->
    (forall i, predict_mean_field chol G (construct_terms chol G P y) ap i
               = (0%Re, (r_alpha_t m ^ 2 / (2 * r_alpha m) + r_noise m)%Re))
    /\ (forall a, new_rgpcm a = Ok m -> ra_alpha_t a = None -> (r_alpha_t m ^ 2 / (2 * r_alpha m) = 1)%Re).
Proof.
  move=> chol Hc argsort Has m t G P y ap W EG EP I0.
  have [P0 EP0] := rgpcm_integrals_total Has W [::].
  have S0 : in_support m [::] by [].
  have [[Ku [Kz _]] _] := rgpcm_well Has W S0 EG EP0.
  have Pa : (0 < r_alpha m)%Re by case: (W) => -[[]].
  have V s : rcompute_i_hx m (Some s) (Some s) = Ok (r_alpha_t m ^ 2 / (2 * r_alpha m))%Re.
    rewrite /rcompute_i_hx ExpPolyIntProofs.rdiv_ok; last by lra.
    rewrite Rminus_diag_eq // Rabs_R0 Rmult_0_r exp_0; congr Ok; field; lra.
  split=> [i|a Ea Na]; last by have := RgpcmProps2.C16_rgpcm_unit_power a m R0 Ea Na; rewrite V; case.
  rewrite (C119_prior Hc) // (rgp_noise EG); congr (_, Rplus _ _).
  move: EP; rewrite /rgpcm_integrals => EP; have [hx [Ehx {}EP]] := bindP EP.
  have [ux [_ {}EP]] := bindP EP; have [hz [_ {}EP]] := bindP EP; have [uz [_ {}EP]] := bindP EP.
  case: EP => <-; cbn [ig_hx].
  have Hi : (i < List.length t)%coq_nat by apply/ltP.
  have := RgpcmReorder.mapM_nth _ _ _ i R0 R0 Ehx Hi.
  by rewrite V; case.
Qed.
Print Assumptions C119_rgpcm.

Example C119_witness :
  (forall causal, exists m, new_gpcm (default_args causal 1 1 [:: 0%Re; 1%Re]) = Ok m /\ GpcmGood.good_gpcm m)
  /\ (forall causal, a_alpha_t (default_args causal 1 1 [:: 0%Re; 1%Re]) = None)
  /\ (exists m, new_rgpcm (rdefault_args 1 1 [:: 0%Re; 5%Re]) = Ok m /\ well_rgpcm m)
  /\ chol_ok some_chol /\ spd (K_u gp1) /\ spd (K_z gp1) /\ ap_i ap1 = 0%N
  /\ (predict_mean_field some_chol gp1 (construct_terms some_chol gp1 ig1 (fun _ => 7%Re)) ap1 ord0).1 = 0%Re
  (* after conditioning on data the mean is another one *)
  /\ (forall i, (predict_mean_field some_chol gp1 (construct_terms some_chol gp1 ig1 (fun _ => 7%Re)) (condition ap1) i).1
                = ((mean some_chol (q_u (condition ap1)))^T *m ig_uz ig1 i *m mean some_chol (q_z (condition ap1))) ord0 ord0).
Proof.
  have [Ku [Kz _]] := gp1_well_posed.
  split.
    move=> causal; apply: (GpcmGood.default_good causal 1 1 [:: 0%Re; 1%Re] 0 1); try (simpl; lra); simpl; try by (left || right; left).
    by move=> a b [<-|[<-|[]]] [<-|[<-|[]]]; lra.
  split=> //.
  split; first by have [m [E [W _]]] := C99_witness; exists m.
  split; first exact: some_chol_ok; split=> //; split=> //; split=> //.
  by rewrite (C119_prior some_chol_ok).
Qed.
