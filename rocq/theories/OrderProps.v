(** The property C105: the order of the observations does not matter, and neither do the other
    times at which predictions are asked for. *)
From Coq Require Import Reals ZArith List String Permutation Lra.
From mathcomp Require Import all_ssreflect all_algebra.
From Verif Require Import Py ExpPolyModel ExpPolyIntModel RMat NormalModel ApproxModel ApproxProps EvidenceModel GpcmModel GpcmBridge RgpcmModel RgpcmBridge.
From Verif Require Import OrderSpec OrderProofs OrderLists.
Set Implicit Arguments.
Unset Strict Implicit.
Unset Printing Implicit Defensive.
Import GRing.Theory.
Local Open Scope ring_scope.
Delimit Scope R_scope with Re.

(** Everything that is computed from data does not depend on their order: the optimal
    posteriors, the evidence lower bounds, the result and the callbacks of coordinate ascent,
    the chain of the Gibbs sampler and the predictions of the structured approximation. *)
Theorem C105_order :
  forall chol n n' nu nz (m : gp nu nz) (D : integrals n nu nz) y (D' : integrals n' nu nz) y',
    same_observations D y D' y' ->
    let data := construct_terms chol m D y in
    let data' := construct_terms chol m D' y' in
    (forall z, q_u_optimal m data z = q_u_optimal m data' z)
    /\ (forall u, q_z_optimal m data u = q_z_optimal m data' u)
    /\ (forall q, q_u_optimal_mean_field chol m data q = q_u_optimal_mean_field chol m data' q)
    /\ (forall q, q_z_optimal_mean_field chol m data q = q_z_optimal_mean_field chol m data' q)
    /\ (forall s collapsed, elbo chol m data s collapsed = elbo chol m data' s collapsed)
    /\ (forall u, log_Z_u chol m data u = log_Z_u chol m data' u)
    /\ (forall s us, elbo_collapsed_z chol m data s us = elbo_collapsed_z chol m data' s us)
    /\ (forall s noises u z, elbo_gibbs chol m data s noises u z = elbo_gibbs chol m data' s noises u z)
    /\ (forall iters s, fit_mean_field_ca chol m data iters s = fit_mean_field_ca chol m data' iters s)
    /\ (forall k (new : terms k nu nz) us i, predict_structured chol m data new us i = predict_structured chol m data' new us i).
Proof.
  move=> chol n n' nu nz m D y D' y' H data data'.
  split; first by move=> z; exact: (qu_same chol m H).
  split; first by move=> u; exact: (qz_same chol m H).
  split; first by move=> q; exact: (qum_same chol m H).
  split; first by move=> q; exact: (qzm_same chol m H).
  split; first by move=> s c; exact: (elbo_same chol m H).
  split; first by move=> u; exact: (log_Z_u_same chol m H).
  split.
    move=> s us; rewrite /elbo_collapsed_z.
    by rewrite (eq_map (log_Z_u_same chol m H)).
  split.
    move=> s noises u z; rewrite /elbo_gibbs.
    by rewrite (gibbs_same chol m H) (log_Z_u_same chol m H).
  split.
    move=> iters s; rewrite /fit_mean_field_ca.
    by rewrite (ca_same chol m H).
  by move=> k new us i; exact: (predict_same chol m H).
Qed.
Print Assumptions C105_order.

(** A GPCM gives the same observations in another order for data in another order. *)
Theorem C105_gpcm :
  forall (N : numdom) (so : setorder) (ofR : R -> N) (m : gpcm) (data data' : list (R * R)) D,
    Permutation data data' -> gpcm_integrals so ofR m (times data) = Ok D ->
    exists D', gpcm_integrals so ofR m (times data') = Ok D'
    /\ same_observations D (observed (data:=data)) D' (observed (data:=data')).
Proof.
  move=> N so ofR m data data' D P; rewrite gpcm_all => E.
  have [D' H] := all_order (@hx_pointwise N so ofR m) (@hz_pointwise N so ofR m) (@uz_pointwise N so ofR m) P E.
  by exists D'; rewrite gpcm_all.
Qed.
Print Assumptions C105_gpcm.

(** Likewise an RGPCM. *)
Theorem C105_rgpcm :
  forall (argsort : list Z -> list nat) (m : rgpcm) (data data' : list (R * R)) D,
    Permutation data data' -> rgpcm_integrals argsort m (times data) = Ok D ->
    exists D', rgpcm_integrals argsort m (times data') = Ok D'
    /\ same_observations D (observed (data:=data)) D' (observed (data:=data')).
Proof.
  move=> argsort m data data' D P; rewrite rgpcm_all => E.
  have [D' H] := all_order (@rhx_pointwise m) (@rhz_pointwise argsort m) (@ruz_pointwise argsort m) P E.
  by exists D'; rewrite rgpcm_all.
Qed.
Print Assumptions C105_rgpcm.

(** The constructors do not look at the order of the times either. *)
Theorem C105_constructors :
  forall t t', Permutation t t' ->
    (forall a, new_gpcm (with_t a t) = new_gpcm (with_t a t'))
    /\ (forall a, new_rgpcm (rwith_t a t) = new_rgpcm (rwith_t a t')).
Proof.
  move=> t t' P; split=> a.
  - rewrite /new_gpcm /init_t_z /extend_t_z /= (lmin_perm P) (lmax_perm P); reflexivity.
  - rewrite /new_rgpcm /rinit_a /rinit_b /= (lmin_perm P) (lmax_perm P); reflexivity.
Qed.
Print Assumptions C105_constructors.

(** A prediction at a time does not depend on the other times that are asked for: it is the
    prediction for that time alone. *)
Theorem C105_times :
  forall chol n,
    (forall (N : numdom) (so : setorder) (ofR : R -> N) (m : gpcm) (t : list R) P (y : 'I_(List.length t) -> R) (y1 : 'I_1 -> R) (i : 'I_(List.length t)),
      gpcm_integrals so ofR m t = Ok P ->
      exists P1, gpcm_integrals so ofR m [:: List.nth i t R0] = Ok P1
      /\ forall G, let all := construct_terms chol G P y in let one := construct_terms chol G P1 y1 in
         (forall s, predict_mean_field chol G all s i = predict_mean_field chol G one s ord0)
         /\ forall (data : terms n _ _) us, predict_structured chol G data all us i = predict_structured chol G data one us ord0)
    /\ (forall (argsort : list Z -> list nat) (m : rgpcm) (t : list R) P (y : 'I_(List.length t) -> R) (y1 : 'I_1 -> R) (i : 'I_(List.length t)),
      rgpcm_integrals argsort m t = Ok P ->
      exists P1, rgpcm_integrals argsort m [:: List.nth i t R0] = Ok P1
      /\ forall G, let all := construct_terms chol G P y in let one := construct_terms chol G P1 y1 in
         (forall s, predict_mean_field chol G all s i = predict_mean_field chol G one s ord0)
         /\ forall (data : terms n _ _) us, predict_structured chol G data all us i = predict_structured chol G data one us ord0).
Proof.
  have Pred chol n k nu nz (D : integrals k nu nz) y (D' : integrals 1 nu nz) y' i : same_point D i D' ord0 ->
    forall G, let all := construct_terms chol G D y in let one := construct_terms chol G D' y' in
         (forall s, predict_mean_field chol G all s i = predict_mean_field chol G one s ord0)
         /\ forall (data : terms n _ _) us, predict_structured chol G data all us i = predict_structured chol G data one us ord0.
    move=> H G all one; split=> [s|data us].
      by rewrite /predict_mean_field (moments_point _ _ _ y' _ _ _ _ H).
    rewrite /predict_structured; cbn zeta.
    have S1 : \sum_(u <- us) (predict_moments chol G all u (u *m u^T) (mean chol (q_z_optimal G data u)) (m2 chol (q_z_optimal G data u)) i).1
            = \sum_(u <- us) (predict_moments chol G one u (u *m u^T) (mean chol (q_z_optimal G data u)) (m2 chol (q_z_optimal G data u)) ord0).1.
      by apply: eq_bigr => u _; rewrite /all /one (moments_point _ _ _ y' _ _ _ _ H).
    have S2 : \sum_(u <- us) (predict_moments chol G all u (u *m u^T) (mean chol (q_z_optimal G data u)) (m2 chol (q_z_optimal G data u)) i).2
            = \sum_(u <- us) (predict_moments chol G one u (u *m u^T) (mean chol (q_z_optimal G data u)) (m2 chol (q_z_optimal G data u)) ord0).2.
      by apply: eq_bigr => u _; rewrite /all /one (moments_point _ _ _ y' _ _ _ _ H).
    by rewrite S1 S2.
  have Sub (t : list R) (i : 'I_(List.length t)) : forall x, List.In x [:: List.nth i t R0] -> List.In x t.
    by move=> x [<-|//]; apply: List.nth_In; apply/ltP.
  move=> chol n; split.
  - move=> N so ofR m t P y y1 i; rewrite gpcm_all => E.
    have [P1 E1] := all_sub (@hx_pointwise N so ofR m) (@hz_pointwise N so ofR m) (@uz_pointwise N so ofR m) E (@Sub t i).
    exists P1; rewrite gpcm_all; split=> //; apply: Pred.
    by apply: all_point E E1 _; [exact: hx_pointwise|exact: hz_pointwise|exact: uz_pointwise|].
  - move=> argsort m t P y y1 i; rewrite rgpcm_all => E.
    have [P1 E1] := all_sub (@rhx_pointwise m) (@rhz_pointwise argsort m) (@ruz_pointwise argsort m) E (@Sub t i).
    exists P1; rewrite rgpcm_all; split=> //; apply: Pred.
    by apply: all_point E E1 _; [exact: rhx_pointwise|exact: rhz_pointwise|exact: ruz_pointwise|].
Qed.
Print Assumptions C105_times.

(** Non-vacuity: two observations in either order (C86_well_posed gives integrals for every
    data set), and the two points of the small model of ApproxProps.v with its points swapped. *)
Example C105_witness : Permutation [:: (0, 3); (1, 4)]%Re [:: (1, 4); (0, 3)]%Re
  /\ same_observations ig1 (fun i => INR i)
       (Integrals (fun i => ig_hx ig1 (rev_ord i)) (ig_ux ig1) (fun i => ig_hz ig1 (rev_ord i)) (fun i => ig_uz ig1 (rev_ord i)))
       (fun i => INR (rev_ord i)).
Proof.
  split; first exact: perm_swap.
  by split=> //; exists (@rev_ord 2); split=> //; exists (@rev_ord 2); exact: rev_ordK.
Qed.
