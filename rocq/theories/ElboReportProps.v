(** The property C133: the ELBOs that an experiment reports. *)
From Coq Require Import List Bool Arith Permutation Lia.
From Verif Require Import ElboReportModel.
Import ListNotations.

Section Props.
Variables Params Data State Value : Type.
Variable fit_ca : Params -> Data -> Params.
Variable collapsed_z : Params -> Data -> State -> State * Value.
Variable mean_field_bound : Params -> Data -> Value.
Variable structured : nat -> bool.
Local Notation world := (world Params State).
Local Notation w_params := (w_params Params State).
Local Notation w_state := (w_state Params State).
Local Notation elbo := (elbo Params Data State Value fit_ca collapsed_z mean_field_bound structured).
Local Notation analyse_elbos := (analyse_elbos Params Data State Value fit_ca collapsed_z mean_field_bound structured).

(** Specification: the reports on models with parameters [p], from a random state to a random state.  Every
    structured model starts with the state that the previous one left, and no model sees what was done
    to another one. *)
Inductive reports (p : nat -> Params) (d : Data) : list nat -> State -> list Value -> State -> Prop :=
| reports_none s : reports p d [] s [] s
| reports_mean_field i l s vs s' :
    structured i = false -> reports p d l s vs s' -> reports p d (i :: l) s (mean_field_bound (p i) d :: vs) s'
| reports_structured i l s e s1 vs s' :
    structured i = true -> collapsed_z (fit_ca (p i) d) d s = (s1, e) -> reports p d l s1 vs s' ->
    reports p d (i :: l) s (e :: vs) s'.

(** Calling [model.elbo(t, y)] for the models one after the other. *)
Fixpoint one_by_one (models : list nat) (d : Data) (w : world) : world * list Value :=
  match models with
  | [] => (w, [])
  | i :: l => let (w, e) := elbo i d w in let (w, es) := one_by_one l d w in (w, e :: es)
  end.

Lemma analyse_acc models d : forall w acc,
  fold_left (fun '(w, printed) i =>
               let '(w, (state, e)) := elbo_from Params Data State Value fit_ca collapsed_z mean_field_bound structured i d (w_state w) w in
               (set_state Params State w state, printed ++ [e])) models (w, acc)
  = let (w', es) := one_by_one models d w in (w', acc ++ es).
Proof.
  induction models as [|i l IH]; intros w acc; [cbn; now rewrite app_nil_r|].
  cbn [fold_left one_by_one]. unfold ElboReportModel.elbo.
  destruct (elbo_from _ _ _ _ _ _ _ _ i d (w_state w) w) as [w1 [s e]].
  rewrite IH. destruct (one_by_one l d _) as [w2 es]. now rewrite <- app_assoc.
Qed.

Lemma reports_ext p q d l s vs s' : (forall i, In i l -> p i = q i) -> reports p d l s vs s' -> reports q d l s vs s'.
Proof.
  intros E R. induction R as [s|i l s vs s' S R IH|i l s e s1 vs s' S C R IH].
  - constructor.
  - rewrite (E i) by now left. constructor; auto. apply IH. intros; apply E; now right.
  - econstructor; eauto.
    + rewrite <- (E i) by now left. exact C.
    + apply IH. intros; apply E; now right.
Qed.

Lemma one_by_one_reports models d : NoDup models -> forall w,
  let (w', es) := one_by_one models d w in
  reports (w_params w) d models (w_state w) es (w_state w')
  /\ forall j, w_params w' j = if existsb (Nat.eqb j) models && structured j then fit_ca (w_params w j) d else w_params w j.
Proof.
  induction 1 as [|i l N ND IH]; intros w; cbn [one_by_one].
  - split; [constructor|reflexivity].
  - unfold ElboReportModel.elbo, elbo_from. destruct (structured i) eqn:S.
    + cbn [ElboReportModel.w_params set_params]. rewrite Nat.eqb_refl.
      destruct (collapsed_z (fit_ca (w_params w i) d) d (w_state w)) as [s1 e] eqn:C.
      match goal with |- context [one_by_one l d ?w1] => specialize (IH w1); set (w2 := w1) in * end.
      destruct (one_by_one l d w2) as [w' es]. destruct IH as [R P]. cbn in R, P. split.
      * eapply reports_structured; eauto. eapply reports_ext; [|exact R].
        intros j Hj. cbn. destruct (Nat.eqb_spec j i) as [->|]; [contradiction|reflexivity].
      * intros j. rewrite P. cbn [existsb]. destruct (Nat.eqb_spec j i) as [->|Nj]; cbn [orb]; [|reflexivity].
        assert (F : existsb (Nat.eqb i) l = false).
        { destruct (existsb (Nat.eqb i) l) eqn:X; [|reflexivity]. apply existsb_exists in X. destruct X as (k & Ik & Ek).
          apply Nat.eqb_eq in Ek. subst. contradiction. }
        now rewrite F, S.
    + match goal with |- context [one_by_one l d ?w1] => specialize (IH w1); set (w2 := w1) in * end.
      destruct (one_by_one l d w2) as [w' es]. destruct IH as [R P]. cbn in R, P. split.
      * now constructor.
      * intros j. rewrite P. cbn [existsb]. destruct (Nat.eqb_spec j i) as [->|Nj]; cbn [orb]; [|reflexivity].
        now rewrite S, !andb_false_r.
Qed.

(** C133: the report is what [model.elbo(t, y)] gives, called for one model after the other; random states
    are handed on from model to model and to whatever follows; every value depends on the parameters of
    its model before the report and on that state only; and no model is changed except for the structured
    ones in the list. *)
Theorem C133_report :
  forall models d w, let (w', printed) := analyse_elbos models d w in
    one_by_one models d w = (w', printed)
    /\ (NoDup models ->
        reports (w_params w) d models (w_state w) printed (w_state w')
        /\ (forall j, (In j models -> structured j = false) -> w_params w' j = w_params w j)
        /\ (forall j, In j models -> structured j = true -> w_params w' j = fit_ca (w_params w j) d)).
Proof.
  intros models d w. unfold ElboReportModel.analyse_elbos. rewrite analyse_acc.
  pose proof (one_by_one_reports models d) as O. destruct (one_by_one models d w) as [w' es] eqn:E. cbn [app].
  split; [reflexivity|]. intros ND. specialize (O ND w). rewrite E in O. destruct O as [R P]. split; [exact R|]. split.
  - intros j Hj. rewrite P. destruct (existsb (Nat.eqb j) models) eqn:X; [|reflexivity].
    apply existsb_exists in X. destruct X as (k & Ik & Ek). apply Nat.eqb_eq in Ek. subst. now rewrite Hj.
  - intros j Ij Sj. rewrite P, Sj. assert (X : existsb (Nat.eqb j) models = true).
    { apply existsb_exists. exists j. split; [exact Ij|apply Nat.eqb_refl]. }
    now rewrite X.
Qed.

(** With the mean-field scheme the report does not depend on the random state, which it leaves alone, nor
    the value of a model on the others or on the order. *)
Theorem C133_mean_field :
  forall models d w, (forall i, In i models -> structured i = false) ->
    analyse_elbos models d w = (w, map (fun i => mean_field_bound (w_params w i) d) models).
Proof.
  intros models d w M. unfold ElboReportModel.analyse_elbos. rewrite analyse_acc.
  enough (E : one_by_one models d w = (w, map (fun i => mean_field_bound (w_params w i) d) models)) by now rewrite E.
  induction models as [|i l IH]; [reflexivity|]. cbn [one_by_one map].
  unfold ElboReportModel.elbo, elbo_from. rewrite (M i) by now left. destruct w as [p s]. cbn in *.
  unfold set_state. cbn. rewrite IH; [reflexivity|]. intros; apply M; now right.
Qed.

(** With the structured scheme a second report differs from the first only by its random state, if coordinate
    ascent had converged. *)
Theorem C133_again :
  forall models d w, NoDup models -> (forall p d, fit_ca (fit_ca p d) d = fit_ca p d) ->
    let w1 := fst (analyse_elbos models d w) in let w2 := fst (analyse_elbos models d w1) in
    (forall j, w_params w2 j = w_params w1 j)
    /\ reports (w_params w) d models (w_state w1) (snd (analyse_elbos models d w1)) (w_state w2).
Proof.
  intros models d w ND F. cbv zeta.
  pose proof (C133_report models d w) as A. destruct (analyse_elbos models d w) as [w1 e1]. cbn [fst].
  pose proof (C133_report models d w1) as B. destruct (analyse_elbos models d w1) as [w2 e2]. cbn [fst snd].
  destruct A as [_ A]. destruct (A ND) as (_ & A1 & A2). destruct B as [_ B]. destruct (B ND) as (R & B1 & B2).
  split.
  - intros j. destruct (in_dec Nat.eq_dec j models) as [Ij|Nj]; [|apply B1; contradiction].
    destruct (structured j) eqn:S; [|now apply B1]. rewrite B2, A2 by auto. apply F.
  - clear B1 B2 B. revert R. generalize (w_state w1) e2 (w_state w2). intros s es s' R.
    assert (G : forall l, incl l models -> forall s es s', reports (w_params w1) d l s es s' -> reports (w_params w) d l s es s').
    { clear R s es s'. intros l Hl s es s' R. induction R as [s|i l s vs s' S R IH|i l s e s1 vs s' S C R IH].
      - constructor.
      - rewrite A1 by (intros; exact S). constructor; auto. apply IH. intros x Hx. apply Hl. now right.
      - assert (Ii : In i models) by (apply Hl; now left). rewrite (A2 i Ii S), F in C.
        apply (reports_structured _ _ _ _ _ _ _ _ _ S C).
        apply IH. intros x Hx. apply Hl. now right. }
    exact (G models (incl_refl _) s es s' R).
Qed.
End Props.
Print Assumptions C133_report.
Print Assumptions C133_mean_field.
Print Assumptions C133_again.

(** Not vacuous: two structured models and a mean-field one between them; the state counts the draws,
    coordinate ascent rounds parameters to tens, and the value is the sum of parameter and state. *)
Example C133_witness :
  let fit p (d : unit) := p / 10 * 10 in
  let z p (d : unit) s := (S s, p + s) in
  let st i := negb (Nat.eqb i 1) in
  (forall p d, fit (fit p d) d = fit p d)
  /\ NoDup [0; 1; 2]
  /\ snd (ElboReportModel.analyse_elbos nat unit nat nat fit z (fun p _ => p) st [0; 1; 2] tt (World nat nat (fun i => 11 * (i + 1)) 5)) = [15; 22; 36].
Proof.
  cbv zeta. split; [|split].
  - intros p _. now rewrite Nat.div_mul by discriminate.
  - repeat constructor; cbn; lia.
  - reflexivity.
Qed.
