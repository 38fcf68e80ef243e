(** C88, C89: the minimum-phase transform of a filter. *)
From Coq Require Import Reals List Arith Lra Lia Psatz.
From Verif Require Import Py UtilSpec UtilProofs MinPhaseModel MinPhaseSpec MinPhaseProofs.
Import ListNotations.
Local Open Scope R_scope.

(** C88: for every filter whose response vanishes nowhere on the grid, [min_phase] returns the one
    and only filter with the gains of the given one and minimum phase. *)
Theorem C88_min_phase h : h <> [] -> (forall k, (k < length h)%nat -> gain2 h k <> 0) ->
  exists g, min_phase h = Ok (Some g) /\ forall g', (same_gains g' h /\ minimum_phase g') <-> g' = g.
Proof.
  intros Ne Nz. destruct (min_phase_ok h Ne Nz) as [g [E [G M]]]. exists g. split; [exact E|]. intros g'. split.
  - intros [G' M']. apply minimum_phase_unique; auto. destruct G as [L G], G' as [L' G']. split; [congruence|].
    intros k Hk. rewrite L in Hk. now rewrite G, G'.
  - intros ->. auto.
Qed.
Print Assumptions C88_min_phase.

(** C88: it is a vector of [nan]s exactly when the response vanishes somewhere on the grid, and the
    empty filter is refused. *)
Theorem C88_nan h : (min_phase h = Ok None <-> h <> [] /\ exists k, (k < length h)%nat /\ gain2 h k = 0)
  /\ (min_phase h = Err ValueError <-> h = []).
Proof.
  destruct h as [|a t]; [split; split; try easy; intros [H _]; easy|]. set (h := a :: t). assert (Ne : h <> []) by easy.
  assert (D : (exists k, (k < length h)%nat /\ gain2 h k = 0) \/ forall k, (k < length h)%nat -> gain2 h k <> 0).
  { generalize (length h). induction n as [|n [[k [Hk E]]|IH]].
    - right. lia.
    - left. exists k. split; [lia|exact E].
    - destruct (Req_dec (gain2 h n) 0) as [Z|Z]; [left; exists n; auto with arith|]. right. intros k Hk.
      destruct (Nat.eq_dec k n) as [->|]; [exact Z|]. apply IH. lia. }
  destruct D as [D|D].
  - rewrite (min_phase_nan h Ne D). split; split; try easy.
  - destruct (min_phase_ok h Ne D) as [g [-> _]]. split; split; try easy. intros [_ [k [Hk Z]]]. now destruct (D k Hk).
Qed.
Print Assumptions C88_nan.

(** C88: the transform keeps the length and the energy, changes nothing when applied again, and
    depends on the filter through its gains only: in particular not on a circular shift. *)
Theorem C88_transform h g : min_phase h = Ok (Some g) ->
  length g = length h /\ energy g = energy h /\ min_phase g = Ok (Some g)
  /\ (forall h', same_gains h' h -> min_phase h' = Ok (Some g)).
Proof.
  intros E. assert (Ne : h <> []) by (intros ->; easy).
  assert (Nz : forall k, (k < length h)%nat -> gain2 h k <> 0).
  { intros k Hk Z. rewrite (min_phase_nan h Ne) in E; [easy|eauto]. }
  destruct (C88_min_phase h Ne Nz) as [g1 [E1 U]]. rewrite E1 in E. injection E as ->.
  assert (Q : forall h', same_gains h' h -> min_phase h' = Ok (Some g)).
  { intros h' [L G]. assert (Ne' : h' <> []) by (intros ->; destruct h; easy).
    assert (Nz' : forall k, (k < length h')%nat -> gain2 h' k <> 0) by (intros k Hk; rewrite L in Hk; rewrite G; auto).
    destruct (C88_min_phase h' Ne' Nz') as [g2 [-> U2]]. do 2 f_equal. apply U. destruct (proj2 (U2 g2) eq_refl) as [[L2 G2] M2].
    split; [|exact M2]. split; [congruence|]. intros k Hk. rewrite G2 by (now rewrite L). now apply G. }
  destruct (proj2 (U g) eq_refl) as [G M]. split; [apply G|]. split; [now apply same_gains_energy|]. split; [apply Q; exact G|exact Q].
Qed.
Print Assumptions C88_transform.

Lemma gains_120 k : gain2 [1; 2; 0] k = 5 + 4 * cos (2 * PI * INR 1 * INR k / 3).
Proof.
  unfold gain2, response_re, response_im. cbn [length total nth].
  replace (INR 3) with 3 by (cbn; lra). set (t := 2 * PI * INR 1 * INR k / 3).
  replace (2 * PI * INR 0 * INR k / 3) with 0 by (cbn; field). rewrite cos_0, sin_0.
  pose proof (sin2_cos2 t) as Q. unfold Rsqr in Q.
  transitivity (1 + 4 * cos t + 4 * (sin t * sin t + cos t * cos t)); [ring|rewrite Q; ring].
Qed.
Lemma nonzero_120 k : gain2 [1; 2; 0] k <> 0.
Proof. rewrite gains_120. pose proof (COS_bound (2 * PI * INR 1 * INR k / 3)). lra. Qed.

(** The hypotheses are met by a filter that is not constant, and both outcomes occur. *)
Example C88_witness : (exists g, min_phase [1; 2; 0] = Ok (Some g)) /\ min_phase [1; -1] = Ok None.
Proof.
  split.
  - destruct (C88_min_phase [1; 2; 0]) as [g [E _]]; [easy|intros; apply nonzero_120|]. eauto.
  - apply C88_nan. split; [easy|]. exists O. split; [cbn; lia|]. unfold gain2, response_re, response_im. cbn [length total nth].
    replace (2 * PI * INR 0 * INR 0 / INR 2) with 0 by (cbn; field). replace (2 * PI * INR 1 * INR 0 / INR 2) with 0 by (cbn; field).
    rewrite cos_0, sin_0. ring.
Qed.

(** C89, refuted: the minimum-phase version of a filter does not generate a process with the same
    covariance.  The filters (1, 2, 0) and (2, 0, 1) are given the same minimum-phase version, while
    their autocorrelations differ at lag two. *)
Theorem C89_refuted : exists h g d, min_phase h = Ok (Some g) /\ (d < length h)%nat /\ autocorrelation g d <> autocorrelation h d.
Proof.
  destruct (C88_min_phase [1; 2; 0]) as [g [E _]]; [easy|intros; apply nonzero_120|].
  pose proof (proj2 (proj2 (proj2 (C88_transform _ _ E))) _ (rotated_same [1; 2; 0] 1 ltac:(cbn; lia))) as E'.
  change (rotated [1; 2; 0] 1) with [2; 0; 1] in E'.
  destruct (Req_dec (autocorrelation g 2) (autocorrelation [1; 2; 0] 2)) as [Q|Q].
  - exists [2; 0; 1], g, 2%nat. split; [exact E'|]. split; [cbn; lia|]. rewrite Q. unfold autocorrelation. cbn [length Nat.sub total nth Nat.add]. lra.
  - exists [1; 2; 0], g, 2%nat. split; [exact E|]. split; [cbn; lia|exact Q].
Qed.
Print Assumptions C89_refuted.

(** C89, what holds: the circular autocorrelation is kept at every lag. *)
Theorem C89_partial h g d : min_phase h = Ok (Some g) -> (d < length h)%nat ->
  circular_autocorrelation g d = circular_autocorrelation h d.
Proof.
  intros E Hd. apply same_gains_circular; [|exact Hd].
  assert (Ne : h <> []) by (intros ->; easy).
  assert (Nz : forall k, (k < length h)%nat -> gain2 h k <> 0).
  { intros k Hk Z. rewrite (min_phase_nan h Ne) in E; [easy|eauto]. }
  destruct (C88_min_phase h Ne Nz) as [g1 [E1 U]]. rewrite E1 in E. injection E as ->. now apply (U g).
Qed.
Print Assumptions C89_partial.

Example C89_witness : exists g, min_phase [1; 2; 0] = Ok (Some g) /\ circular_autocorrelation g 1 = 2.
Proof.
  destruct C88_witness as [[g E] _]. exists g. split; [exact E|]. rewrite (C89_partial _ _ 1 E) by (cbn; lia).
  unfold circular_autocorrelation. cbn. lra.
Qed.
