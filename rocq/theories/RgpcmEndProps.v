(** The property C99: the RGPCM from its constructor to its predictions. *)
From Coq Require Import Reals ZArith List String Lra.
From mathcomp Require Import all_ssreflect all_algebra.
From Verif Require Import Py RMat RChol RTac NormalModel NormalProofs ApproxModel ApproxSpec ApproxProofs ApproxProofs2 ApproxProofs3 ApproxProps.
From Verif Require Import RgpcmModel GpcmBridge GpcmWell KernelProofs RgpcmBridge RgpcmWell GpcmEndProps.
From Verif Require RgpcmSpec RgpcmGood.
Set Implicit Arguments.
Unset Strict Implicit.
Unset Printing Implicit Defensive.
Import GRing.Theory.
Local Open Scope ring_scope.
Delimit Scope R_scope with Re.

Lemma ok_well m t : RgpcmGood.ok_rgpcm m t -> (r_alpha m - r_gamma m)%Re <> r_lam m -> well_rgpcm m /\ in_support m t.
Proof.
  move=> [[Pa [Pg Pl]] [Na [Ng [Hga [ND [Pu [Hab [HM [NDs [Hms [Pn Hsup]]]]]]]]]]] N; split=> //.
  split=> //; split=> //; split=> //; split=> //; split; first lra.
  by split=> //; apply: RgpcmGood.no_exception.
Qed.

(** C99: the constructor gives models in the range of the guarantees, and its data lie in the
    support, if the scale is at most the window. *)
Theorem C99_default :
  forall (w s : R) (data : list R) (x : R), (0 < s <= w)%Re -> List.In x data ->
    exists m, new_rgpcm (rdefault_args w s data) = Ok m /\
      [/\ (0 < r_alpha m)%Re, (0 < r_gamma m < r_alpha m)%Re & (0 < r_lam m)%Re] /\
      r_alpha_t m <> 0%Re /\ r_gamma_t m <> 0%Re /\ ((r_gamma m - r_alpha m) ^ 2 <> r_lam m ^ 2)%Re /\
      List.NoDup (r_t_u m) /\ (forall u, List.In u (r_t_u m) -> (0 <= u)%Re) /\
      (r_a m < r_b m)%Re /\ Z.le Z0 (r_m_max m) /\ List.NoDup (r_ms m) /\ (forall k, List.In k (r_ms m) -> Z.le Z0 k) /\
      (0 < r_noise m)%Re /\
      (forall t u, List.In t data -> List.In u (r_t_u m) -> (r_a m <= t <= r_b m /\ r_a m <= t - u <= r_b m)%Re) /\
      well_rgpcm m /\ in_support m data.
Proof.
  move=> w s data x Hs Hx; have [|m [Hm [Ea [El K]]]] := RgpcmGood.default_ok w s data x _ Hx; first lra.
  have [[Pa [Pg Pl]] [Na [Ng [Hga [ND [Pu [Hab [HM [NDs [Hms [Pn Hsup]]]]]]]]]]] := K.
  have N : (r_alpha m - r_gamma m)%Re <> r_lam m.
    by rewrite Ea El; apply: RgpcmGood.no_exception_default => //; rewrite -Ea.
  have [W S] := ok_well K N; exists m.
  have T : forall t u, List.In t data -> List.In u (r_t_u m) -> (r_a m <= t <= r_b m /\ r_a m <= t - u <= r_b m)%Re.
    move=> t u Ht Hu; have [T1 T2] := Hsup t Ht; have := T2 u Hu; have := Pu u Hu; lra.
  have E : ((r_gamma m - r_alpha m) ^ 2 <> r_lam m ^ 2)%Re by apply: RgpcmGood.no_exception.
  exact: (conj Hm (conj (And3 Pa (conj Pg Hga) Pl) (conj Na (conj Ng (conj E (conj ND (conj Pu (conj Hab (conj HM (conj NDs (conj Hms (conj Pn (conj T (conj W S)))))))))))))).
Qed.
Print Assumptions C99_default.

(** C99: so does learning, away from the singularity of [compute_I_ux], as long as the inducing
    points stay distinct and between zero and the largest constructed one. *)
Theorem C99_learned :
  forall (w s : R) (data : list R) (x : R) m (p : rparams), (0 < s < 4 * w)%Re -> List.In x data ->
    new_rgpcm (rdefault_args w s data) = Ok m -> rparams_ok m p ->
    List.NoDup (p_t_u p) -> (forall u, List.In u (p_t_u p) -> (0 <= u)%Re /\ exists u', List.In u' (r_t_u m) /\ (u <= u')%Re) ->
    (p_alpha p - p_alpha p / p_gamma_factor p)%Re <> p_lam p ->
    exists m', rprior m p = Ok m' /\ well_rgpcm m' /\ in_support m' data.
Proof.
  move=> w s data x m p Hs Hx Hm Hp ND Hu N; have [m0 [Hm0 [_ [_ K]]]] := RgpcmGood.default_ok w s data x Hs Hx.
  have E : m0 = m by move: Hm0; rewrite Hm => -[].
  subst m0; have [m' [E' [Ea [El [Eg K']]]]] := RgpcmGood.learned_ok m data p K Hp ND Hu.
  by exists m'; split=> //; apply: ok_well => //; rewrite Ea El Eg.
Qed.
Print Assumptions C99_learned.

(** C99: what the approximations get from such a model is well posed, for all times of the support. *)
Theorem C99_well_posed :
  forall (argsort : list Z -> list nat) (m : rgpcm) (t : list R),
    RgpcmSpec.argsorts argsort -> well_rgpcm m ->
    (exists G, rgpcm_gp m = Ok G) /\ (exists I, rgpcm_integrals argsort m t = Ok I)
    /\ forall G I, in_support m t -> rgpcm_gp m = Ok G -> rgpcm_integrals argsort m t = Ok I ->
       well_posed G I /\ residual_nonneg G I.
Proof.
  move=> argsort m t Ha Hm; split; first exact: rgpcm_gp_total; split; first exact: rgpcm_integrals_total.
  move=> G I Hs HG HI; exact: (rgpcm_well Ha Hm Hs HG HI).
Qed.
Print Assumptions C99_well_posed.

Lemma rgp_noise m G : rgpcm_gp m = Ok G -> noise G = r_noise m.
Proof. rewrite /rgpcm_gp => H; have [Kz [EKz {}H]] := bindP H; have [Ku [EKu {H} [<-]]] := bindP H; by []. Qed.

(** C99: fitting and prediction with such a model, at all times of the support and for all
    observations.  [s0] is a fresh approximation with proper initial posteriors. *)
Theorem C99_prediction :
  forall chol, chol_ok chol ->
  forall (argsort : list Z -> list nat) (m : rgpcm) (t t' : list R) G (D : integrals (List.length t) _ _)
         (P : integrals (List.length t') _ _) (y : 'I_(List.length t) -> R) (y' : 'I_(List.length t') -> R) s0,
    RgpcmSpec.argsorts argsort -> well_rgpcm m -> in_support m t -> in_support m t' ->
    rgpcm_gp m = Ok G -> rgpcm_integrals argsort m t = Ok D -> rgpcm_integrals argsort m t' = Ok P ->
    ap_i s0 = 0%N -> proper (q_u s0) -> proper (q_z s0) ->
    let data := construct_terms chol G D y in
    let new := construct_terms chol G P y' in
    (* the structured approximation: every conditional is a proper distribution and no predictive
       variance is below the noise, whatever the samples of u are *)
    (forall u z, proper (q_z_optimal G data u) /\ proper (q_u_optimal G data z))
    /\ (forall us i, (0 < size us)%N -> (r_noise m <= (predict_structured chol G data new us i).2)%Re)
    (* the mean-field approximation: coordinate ascent never decreases the ELBO, keeps the
       posteriors proper, and no predictive variance is below the noise, before the fit and after
       fitting and conditioning *)
    /\ (forall iters, let s1 := (fit_mean_field_ca chol G data iters s0).1 in
         (exists v v', elbo chol G data s0 None = Ok v /\ elbo chol G data s1 None = Ok v' /\ (v <= v')%Re)
         /\ proper (q_u s1) /\ proper (q_z s1)
         /\ forall i, (r_noise m <= (predict_mean_field chol G new s0 i).2)%Re
                   /\ (r_noise m <= (predict_mean_field chol G new (condition s1) i).2)%Re).
Proof.
  move=> chol Hc argsort m t t' G D P y y' s0 Ha Hm St St' HG HD HP I0 Hu Hz data new.
  have [WD _] := rgpcm_well Ha Hm St HG HD; have [WP RP] := rgpcm_well Ha Hm St' HG HP.
  have [HKu [HKz [Hn J]]] := WD; have PA := A_sum_psd Hc y WD; have PB := B_sum_psd Hc y WD.
  have Var := proj1 (proj2 (C56_variance Hc)); rewrite -(rgp_noise HG).
  split; [|split].
  - exact: (proj2 (proj2 (C44_conditionals Hc y WD))).
  - move=> us i Hs; exact: (proj1 (Var _ _ _ _ G D P y y' us i s0 WD WP RP Hs)).
  - move=> iters s1; have [Mono [L [Pu Pz]]] := ca_loop_run Hc HKu HKz Hn PA PB iters Hu Hz.
    have Q1 : q_u s1 = (ca_loop chol G data iters (q_u s0) (q_z s0)).1.1.
      by rewrite /s1 /fit_mean_field_ca /q_u /set_q_z /set_q_u /= eqxx.
    have Q2 : q_z s1 = (ca_loop chol G data iters (q_u s0) (q_z s0)).1.2.
      by rewrite /s1 /fit_mean_field_ca /q_z /set_q_z /set_q_u /= eqxx.
    have P1 : proper (q_u s1) by rewrite Q1.
    have P2 : proper (q_z s1) by rewrite Q2.
    have I1 : ap_i s1 = 0%N by [].
    split; [|split; [|split]] => //.
      have [_ [_ E]] := C45_ascent Hc y WD I0; have [vs [Hmono [Hsize [Hvs Hlast]]]] := E iters Hu Hz.
      have V0 := Hvs 0%N; rewrite Hsize /= in V0; have {}V0 := V0 isT.
      exists (nth R0 vs 0), (last R0 vs); split; [|split] => //; last exact: nondecreasing_ends.
      by rewrite -V0 /elbo /with_qs /p_u /p_z /= I0 /q_u /q_z /set_q_u /set_q_z /= ?eqxx I0 ?eqxx.
    move=> i; split.
      apply: (proj2 (Var _ _ _ _ G D P y y' [:: 0] i s0 WD WP RP isT)); by rewrite /p_u /p_z I0.
    apply: (proj2 (Var _ _ _ _ G D P y y' [:: 0] i (condition s1) WD WP RP isT)).
      exact: P1.
    exact: P2.
Qed.
Print Assumptions C99_prediction.

(** Data at two times; the data and the times between them are in the support. *)
Example C99_witness : exists m, new_rgpcm (rdefault_args 1 1 [:: 0%Re; 5%Re]) = Ok m /\ well_rgpcm m /\ in_support m [:: 0%Re; 5%Re].
Proof.
  have [||m [Hm H]] := @C99_default 1%Re 1%Re [:: 0%Re; 5%Re] 0%Re; [lra|by left|].
  by exists m; split=> //; do 12 (destruct H as [_ H]).
Qed.

(** The parameters after a step of learning. *)
Example C99_learned_witness : exists m p m', new_rgpcm (rdefault_args 1 1 [:: 0%Re; 5%Re]) = Ok m /\ rparams_ok m p
  /\ rprior m p = Ok m' /\ well_rgpcm m' /\ in_support m' [:: 0%Re; 5%Re].
Proof.
  have In0 : List.In 0%Re [:: 0%Re; 5%Re] by left.
  have H4 : (0 < 1 < 4 * 1)%Re by lra.
  have [m [Hm [Ea [_ K]]]] := RgpcmGood.default_ok 1%Re 1%Re [:: 0%Re; 5%Re] 0%Re H4 In0.
  have Hp := RgpcmGood.learned_witness 1%Re 1%Re _ _ m H4 In0 Hm.
  have [[Pa _] [_ [_ [_ [ND [Pu _]]]]]] := K.
  have [|u Hu|/=|m' [Hm' [W S]]] := @C99_learned 1%Re 1%Re _ _ m _ H4 In0 Hm Hp; [exact: ND| | |].
  - by split; [exact: Pu|exists u; split=> //; right].
  - lra.
  - exists m; eexists; exists m'; split; [exact: Hm|split; [exact: Hp|split; [exact: Hm'|by split]]].
Qed.
