(** C112: the error lines of the plotted predictions. *)
From Coq Require Import Reals List Lra.
From mathcomp Require Import all_ssreflect all_algebra.
From Verif Require Import RMat RChol NormalModel ApproxModel ApproxSpec ApproxProps.
From Verif Require ExperimentModel.
Set Implicit Arguments.
Unset Strict Implicit.
Unset Printing Implicit Defensive.
Import GRing.Theory.
Local Open Scope ring_scope.
Delimit Scope R_scope with Re.

(** The variance of the function, without noise, behind a prediction: of the moments of a mean-field approximation ... *)
Definition function_variance_mean_field (chol : forall n, 'M[R]_n -> 'M[R]_n) n nu nz (m : gp nu nz) (ts : terms n nu nz)
    (ap : approx nu nz) (i : 'I_n) : R :=
  let mm := predict_moments chol m ts (mean chol (p_u m ap)) (m2 chol (p_u m ap)) (mean chol (p_z m ap)) (m2 chol (p_z m ap)) i in
  (mm.2 - mm.1 ^ 2)%Re.

(** ... and of the mixture of the moments for the samples of a structured approximation. *)
Definition function_variance_structured (chol : forall n, 'M[R]_n -> 'M[R]_n) n n' nu nz (m : gp nu nz) (tsd : terms n nu nz)
    (ts : terms n' nu nz) (us : seq 'cV[R]_nu) (i : 'I_n') : R :=
  let mm u := let q := q_z_optimal m tsd u in predict_moments chol m ts u (u *m u^T) (mean chol q) (m2 chol q) i in
  ((\sum_(u <- us) (mm u).2) / INR (size us) - ((\sum_(u <- us) (mm u).1) / INR (size us)) ^ 2)%Re.

Lemma lines_aux (vf noise : R) : (0 < noise)%Re -> (0 <= vf)%Re ->
  let b := ExperimentModel.error_lines (vf + noise) noise in
  ((ExperimentModel.narrow b = sqrt (vf + noise) /\ ExperimentModel.wide b = 2 * sqrt (vf + noise)
    /\ 2 * sqrt (vf + noise) < ExperimentModel.dashed b <= sqrt 2 * (2 * sqrt (vf + noise)))
   /\ ExperimentModel.dashed b = 2 * sqrt (vf + 2 * noise))%Re.
Proof.
  move=> Hn Hv; rewrite /ExperimentModel.error_lines /=.
  have -> : (noise + sqrt (vf + noise) * (sqrt (vf + noise) * 1))%Re = (vf + 2 * noise)%Re.
    by rewrite Rmult_1_r sqrt_sqrt; lra.
  do ![split=> //].
  - by apply: Rmult_lt_compat_l; [lra|apply: sqrt_lt_1; lra].
  - have -> : (sqrt 2 * (2 * sqrt (vf + noise)))%Re = (2 * (sqrt 2 * sqrt (vf + noise)))%Re by ring.
    apply: Rmult_le_compat_l; first lra.
    by rewrite -sqrt_mult; try lra; apply: sqrt_le_1; lra.
Qed.

(** A well-posed model, prediction by either approximation: the bands are one and two standard deviations of a new
    observation, and the dashed lines are beyond them, by a factor of at most the square root of two. *)
Definition lines_claim (var vf noise : R) : Prop :=
  let b := ExperimentModel.error_lines var noise in
  (ExperimentModel.narrow b = sqrt (vf + noise) /\ ExperimentModel.wide b = 2 * sqrt (vf + noise)
   /\ 2 * sqrt (vf + noise) < ExperimentModel.dashed b <= sqrt 2 * (2 * sqrt (vf + noise)))%Re.

Lemma var_split (x y n : R) : (x - y * y + n)%Re = ((x - y ^ 2) + n)%Re. Proof. ring. Qed.
Lemma var_nonneg (x n : R) : (n <= x + n)%Re -> (0 <= x)%Re. Proof. lra. Qed.

Theorem C112_error_lines_partial :
  forall chol, chol_ok chol ->
  forall n n' nu nz (m : gp nu nz) (ig : integrals n nu nz) (ig' : integrals n' nu nz) y y' (i : 'I_n'),
    well_posed m ig -> well_posed m ig' -> residual_nonneg m ig' ->
    let data := construct_terms chol m ig y in
    let new := construct_terms chol m ig' y' in
    (forall us : seq 'cV[R]_nu, (0 < size us)%N ->
       lines_claim (predict_structured chol m data new us i).2 (function_variance_structured chol m data new us i) (noise m))
    /\ (forall ap : approx nu nz, proper (p_u m ap) -> proper (p_z m ap) ->
       lines_claim (predict_mean_field chol m new ap i).2 (function_variance_mean_field chol m new ap i) (noise m)).
Proof.
  move=> chol Hc n n' nu nz m ig ig' y y' i WP WP' RN data new; have [_ [_ [Hn _]]] := WP.
  have [_ [V _]] := C56_variance Hc; split.
  - move=> us Hs; pose ap := Approx 0 (fun _ => NatNormal 0 (K_u m)) (fun _ => NatNormal 0 (K_z m)).
    have [H _] := V n n' nu nz m ig ig' y y' us i ap WP WP' RN Hs.
    have E : (predict_structured chol m data new us i).2 = (function_variance_structured chol m data new us i + noise m)%Re.
      exact: var_split.
    by rewrite -/data -/new E in H; rewrite E; have [] := lines_aux Hn (var_nonneg H).
  - move=> ap Pu Pz; have [_ H] := V n n' nu nz m ig ig' y y' [:: 0] i ap WP WP' RN isT.
    have E : (predict_mean_field chol m new ap i).2 = (function_variance_mean_field chol m new ap i + noise m)%Re.
      exact: var_split.
    have H' : (noise m <= (predict_mean_field chol m new ap i).2)%Re := H Pu Pz.
    rewrite E in H'; rewrite E.
    by have [] := lines_aux Hn (var_nonneg H').
Qed.
Print Assumptions C112_error_lines_partial.

(** Full claim: the dashed lines, which are to show the error of the model and the noise, are at two standard deviations of
    a new observation. It fails for every well-posed model: the variance of a prediction already has the noise in it, and
    the lines count it twice. *)
Theorem C112_error_lines_refuted :
  forall chol, chol_ok chol ->
  forall n n' nu nz (m : gp nu nz) (ig : integrals n nu nz) (ig' : integrals n' nu nz) y y' (i : 'I_n'),
    well_posed m ig -> well_posed m ig' -> residual_nonneg m ig' ->
    let data := construct_terms chol m ig y in
    let new := construct_terms chol m ig' y' in
    forall us : seq 'cV[R]_nu, (0 < size us)%N ->
      let vf := function_variance_structured chol m data new us i in
      let lines := ExperimentModel.dashed (ExperimentModel.error_lines (predict_structured chol m data new us i).2 (noise m)) in
      lines = (2 * sqrt (vf + 2 * noise m))%Re /\ lines <> (2 * sqrt (vf + noise m))%Re.
Proof.
  move=> chol Hc n n' nu nz m ig ig' y y' i WP WP' RN data new us Hs vf lines; have [_ [_ [Hn _]]] := WP.
  have [_ [V _]] := C56_variance Hc; pose ap := Approx 0 (fun _ => NatNormal 0 (K_u m)) (fun _ => NatNormal 0 (K_z m)).
  have [H _] := V n n' nu nz m ig ig' y y' us i ap WP WP' RN Hs.
  have E : (predict_structured chol m data new us i).2 = (vf + noise m)%Re by exact: var_split.
  rewrite -/data -/new E in H; rewrite /lines E.
  have [[_ [_ [L _]]] D] := lines_aux Hn (var_nonneg H); split=> // F; rewrite F in L; exact: (Rlt_irrefl _ L).
Qed.
Print Assumptions C112_error_lines_refuted.

(** The hypotheses hold of the model and the approximation of the witness of C56. *)
Example C112_witness : chol_ok some_chol /\ well_posed gp1 ig1 /\ residual_nonneg gp1 ig1
  /\ proper (p_u gp1 ap1) /\ proper (p_z gp1 ap1).
Proof. exact: C56_witness. Qed.
