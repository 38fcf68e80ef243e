(** The property C86: the GPCM and the CGPCM from their constructors to their predictions. *)
From Coq Require Import Reals ZArith List String Lra.
From mathcomp Require Import all_ssreflect all_algebra.
From Verif Require Import Py ExpPolyModel ExpPolyIntModel ExpPolyIntProofs RMat RChol RTac NormalModel NormalProofs ApproxModel ApproxSpec ApproxProofs ApproxProofs2 ApproxProofs3 ApproxProps.
From Verif Require Import GpcmModel GpcmSpec GpcmGood GpcmBridge GpcmWell.
From Verif Require GpcmProps.
Set Implicit Arguments.
Unset Strict Implicit.
Unset Printing Implicit Defensive.
Import GRing.Theory.
Local Open Scope ring_scope.
Delimit Scope R_scope with Re.

(** C86: the constructors give models in the range of the guarantees. *)
Theorem C86_default :
  forall (causal : bool) (w s : R) (data : list R) (x y : R),
    (/ 10 ^ 5 <= w <= 10 ^ 5)%Re -> (/ 10 ^ 5 <= s)%Re -> (s ^ 2 < 2 * w ^ 2)%Re ->
    List.In x data -> List.In y data -> (s < 2 * (y - x))%Re ->
    (forall a b, List.In a data -> List.In b data -> (a - b <= 10 ^ 5)%Re) ->
    exists m, new_gpcm (default_args causal w s data) = Ok m
      /\ (moderate_model m /\ (0 < g_gamma m)%Re /\ g_alpha_t m <> 0%Re /\ g_omega_t m <> 0%Re
          /\ List.NoDup (g_t_u m) /\ List.NoDup (g_t_z m) /\ (0 < g_noise m)%Re).
Proof. exact: default_good. Qed.
Print Assumptions C86_default.

(** C86: what the approximations get from such a model is well posed, for all data times. *)
Theorem C86_well_posed :
  forall (N : numdom) (so : setorder) (ofR : R -> N) (m : gpcm) (t : list R),
    (forall r, val (ofR r) = r) -> good_gpcm m ->
    (GpcmProps.tensors N ->
       (exists G, gpcm_gp so ofR m = Ok G) /\ (exists I, gpcm_integrals so ofR m t = Ok I))
    /\ forall G I, gpcm_gp so ofR m = Ok G -> gpcm_integrals so ofR m t = Ok I ->
       well_posed G I /\ residual_nonneg G I.
Proof.
  move=> N so ofR m t Ho Hm; split=> [T|G I HG HI]; last exact: (gpcm_well Ho Hm HG HI).
  by split; [exact: gpcm_gp_total|exact: gpcm_integrals_total].
Qed.
Print Assumptions C86_well_posed.

Lemma gp_noise (N : numdom) (so : setorder) (ofR : R -> N) m G : gpcm_gp so ofR m = Ok G -> noise G = g_noise m.
Proof.
  rewrite /gpcm_gp => H; have [Kz [EKz {}H]] := bindP H; have [Ku [EKu {H} [<-]]] := bindP H; by [].
Qed.

Lemma nondecreasing_ends vs : nondecreasing vs -> (nth R0 vs 0 <= last R0 vs)%Re.
Proof.
  case: vs => [|v vs] H; first exact: Rle_refl.
  have A k : (k < (size vs).+1)%N -> (v <= nth R0 (v :: vs) k)%Re.
    elim: k => [_|k IH Hk]; first exact: Rle_refl.
    exact: Rle_trans (IH (ltnW Hk)) (H k Hk).
  rewrite -nth_last; exact: A.
Qed.

(** C86: fitting and prediction with such a model, at all times and for all observations.
    [s0] is a fresh approximation with proper initial posteriors. *)
Theorem C86_prediction :
  forall chol, chol_ok chol ->
  forall (N : numdom) (so : setorder) (ofR : R -> N) (m : gpcm) (t t' : list R) G (D : integrals (List.length t) _ _)
         (P : integrals (List.length t') _ _) (y : 'I_(List.length t) -> R) (y' : 'I_(List.length t') -> R) s0,
    (forall r, val (ofR r) = r) -> good_gpcm m ->
    gpcm_gp so ofR m = Ok G -> gpcm_integrals so ofR m t = Ok D -> gpcm_integrals so ofR m t' = Ok P ->
    ap_i s0 = 0%N -> proper (q_u s0) -> proper (q_z s0) ->
    let data := construct_terms chol G D y in
    let new := construct_terms chol G P y' in
    (* the structured approximation: every conditional is a proper distribution and no predictive
       variance is below the noise, whatever the samples of u are *)
    (forall u z, proper (q_z_optimal G data u) /\ proper (q_u_optimal G data z))
    /\ (forall us i, (0 < size us)%N -> (g_noise m <= (predict_structured chol G data new us i).2)%Re)
    (* the mean-field approximation: coordinate ascent never decreases the ELBO, keeps the
       posteriors proper, and no predictive variance is below the noise, before the fit and after
       fitting and conditioning *)
    /\ (forall iters, let s1 := (fit_mean_field_ca chol G data iters s0).1 in
         (exists v v', elbo chol G data s0 None = Ok v /\ elbo chol G data s1 None = Ok v' /\ (v <= v')%Re)
         /\ proper (q_u s1) /\ proper (q_z s1)
         /\ forall i, (g_noise m <= (predict_mean_field chol G new s0 i).2)%Re
                   /\ (g_noise m <= (predict_mean_field chol G new (condition s1) i).2)%Re).
Proof.
  move=> chol Hc N so ofR m t t' G D P y y' s0 Ho Hm HG HD HP I0 Hu Hz data new.
  have [WD _] := gpcm_well Ho Hm HG HD; have [WP RP] := gpcm_well Ho Hm HG HP.
  have [HKu [HKz [Hn J]]] := WD; have PA := A_sum_psd Hc y WD; have PB := B_sum_psd Hc y WD.
  have Var := proj1 (proj2 (C56_variance Hc)); rewrite -(gp_noise HG).
  split; [|split].
  - exact: (proj2 (proj2 (C44_conditionals Hc y WD))).
  - move=> us i Hs; exact: (proj1 (Var _ _ _ _ G D P y y' us i s0 WD WP RP Hs)).
  - move=> iters s1; have [Mono [L [Pu Pz]]] := ca_loop_run Hc HKu HKz Hn PA PB iters Hu Hz.
    have Q1 : q_u s1 = (ca_loop chol G data iters (q_u s0) (q_z s0)).1.1.
      by rewrite /s1 /fit_mean_field_ca /q_u /set_q_z /set_q_u /= eqxx.
    have Q2 : q_z s1 = (ca_loop chol G data iters (q_u s0) (q_z s0)).1.2.
      by rewrite /s1 /fit_mean_field_ca /q_z /set_q_z /set_q_u /= eqxx.
    have P1 : proper (q_u s1) by rewrite Q1.
    have P2 : proper (q_z s1) by rewrite Q2.
    have I1 : ap_i s1 = 0%N by [].
    split; [|split; [|split]] => //.
      have [_ [_ E]] := C45_ascent Hc y WD I0; have [vs [Hmono [Hsize [Hvs Hlast]]]] := E iters Hu Hz.
      have V0 := Hvs 0%N; rewrite Hsize /= in V0; have {}V0 := V0 isT.
      exists (nth R0 vs 0), (last R0 vs); split; [|split] => //; last exact: nondecreasing_ends.
      by rewrite -V0 /elbo /with_qs /p_u /p_z /= I0 /q_u /q_z /set_q_u /set_q_z /= ?eqxx I0 ?eqxx.
    move=> i; split.
      apply: (proj2 (Var _ _ _ _ G D P y y' [:: 0] i s0 WD WP RP isT)); by rewrite /p_u /p_z I0.
    apply: (proj2 (Var _ _ _ _ G D P y y' [:: 0] i (condition s1) WD WP RP isT)).
      exact: P1.
    exact: P2.
Qed.
Print Assumptions C86_prediction.

(** The models of the witness of C84, causal or not, with data at two times. *)
Example C86_witness :
  forall causal, exists m, new_gpcm (default_args causal 1 1 [:: 0%Re; 1%Re]) = Ok m /\ good_gpcm m.
Proof.
  move=> causal; apply: (@C86_default causal 1 1 _ 0%Re 1%Re); rewrite /=; try lra; auto.
  by move=> a b [<-|[<-|[]]] [<-|[<-|[]]]; lra.
Qed.
