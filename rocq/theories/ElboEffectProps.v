(** The property C131: what computing the ELBO does to later predictions, for the structured scheme.
    The model is that of FitModel.v. *)
From Coq Require Import ZArith List Bool String Lia Arith.
From Verif Require Import Py FitModel.
Import ListNotations.

Section Props.
Variables H U Z_ S DU DZ Data Times Out : Type.
Local Notation vars := (vars H U Z_ DU DZ).
Variable ca_iterations : H -> Data -> Z -> DU -> DZ -> DU * DZ.
Variable prior_u : H -> nat -> S -> list U.
Variable prior_z : H -> nat -> S -> list Z_.
Variable predict_with : H -> Data -> Times -> list U -> Out.
Variable kernel_with : H -> Times -> U -> Out.
Variable features_with : H -> list Z_ -> Out.
Variable prior_u_dist : H -> DU.
Variable filter_with : H -> DU -> Times -> nat -> S -> Out.

Local Notation hypers := (hypers H U Z_ DU DZ).
Local Notation q_u := (vq_u H U Z_ DU DZ).
Local Notation q_z := (vq_z H U Z_ DU DZ).
Local Notation samples_u := (vs_u H U Z_ DU DZ).
Local Notation samples_z := (vs_z H U Z_ DU DZ).
Local Notation elbo_effect := (elbo_structured_effect H U Z_ DU DZ Data ca_iterations).
Local Notation instance := (instance H U Z_ DU DZ Data).
Local Notation Instance := (Instance H U Z_ DU DZ Data).
Local Notation condition := (condition H U Z_ DU DZ Data).
Local Notation predict_structured := (predict_structured H U Z_ S DU DZ Data Times Out prior_u predict_with).
Local Notation sample_kernel_structured := (sample_kernel_structured H U Z_ S DU DZ Data Times Out prior_u kernel_with).
Local Notation predict_z_structured := (predict_z_structured H U Z_ S DU DZ Data Out prior_z features_with).
Local Notation predict_filter := (predict_filter H U Z_ S DU DZ Data Times Out prior_u_dist filter_with).

(** The model after [model.elbo(t, y)], with the observations [d']. *)
Definition after_elbo (i : instance) (d' : Data) : instance :=
  Instance (elbo_effect (in_q_i _ _ _ _ _ _ i) d' (in_vs _ _ _ _ _ _ i)) (in_q_i _ _ _ _ _ _ i) (in_ts _ _ _ _ _ _ i).

(** That all predictions of a model, after conditioning, are the same if the ELBO was computed before. *)
Definition filter_untouched (i : instance) (d d' : Data) : Prop :=
  forall t num s, predict_filter (condition (after_elbo i d') d) t num s = predict_filter (condition i d) t num s.

(** C131, refuted: the prediction of the filter is made from what coordinate ascent finds when the ELBO
    is computed, and otherwise from the parameters of the posterior as they were; it changes whenever
    these give other filters. *)
Theorem C131_filter_refuted :
  forall i d d',
    let vs := in_vs _ _ _ _ _ _ i in let q_i := in_q_i _ _ _ _ _ _ i in
    let found := fst (ca_iterations (hypers vs) d' 5000 (q_u vs q_i) (q_z vs q_i)) in
    (forall t num s,
       predict_filter (condition (after_elbo i d') d) t num s = filter_with (hypers vs) found t num s
       /\ predict_filter (condition i d) t num s = filter_with (hypers vs) (q_u vs q_i) t num s)
    /\ ((exists t num s, filter_with (hypers vs) found t num s <> filter_with (hypers vs) (q_u vs q_i) t num s)
        -> ~ filter_untouched i d d').
Proof.
  intros [vs q ts] d d'. cbn [in_vs in_q_i]. set (found := fst _).
  assert (E : forall t num s,
       predict_filter (condition (after_elbo (Instance vs q ts) d') d) t num s = filter_with (hypers vs) found t num s
       /\ predict_filter (condition (Instance vs q ts) d) t num s = filter_with (hypers vs) (q_u vs q) t num s).
  { intros t num s. split; [|reflexivity].
    unfold after_elbo, elbo_structured_effect, fit_mean_field_ca, FitModel.predict_filter, p_u, FitModel.condition. cbn [in_vs in_q_i].
    unfold found. destruct (ca_iterations _ _ _ _ _) as [a b]. cbn. now rewrite Nat.eqb_refl. }
  split; [exact E|]. intros (t & num & s & N) F. apply N. destruct (E t num s) as [E1 E2]. rewrite <- E1, <- E2. apply F.
Qed.

(** What is true: predictions of the function, the kernel and the Fourier features are the same, before
    and after conditioning; so are the hyperparameters, all samples and all other posteriors; and a
    second computation changes nothing further if coordinate ascent had converged. *)
Theorem C131_predictions_partial :
  forall (i : instance) d',
    (forall t num s, predict_structured (after_elbo i d') t num s = predict_structured i t num s
       /\ sample_kernel_structured (after_elbo i d') t num s = sample_kernel_structured i t num s
       /\ predict_z_structured (after_elbo i d') num s = predict_z_structured i num s)
    /\ (forall d t num s, predict_structured (condition (after_elbo i d') d) t num s = predict_structured (condition i d) t num s
       /\ sample_kernel_structured (condition (after_elbo i d') d) t num s = sample_kernel_structured (condition i d) t num s
       /\ predict_z_structured (condition (after_elbo i d') d) num s = predict_z_structured (condition i d) num s)
    (* before conditioning the filter is not affected *)
    /\ (forall t num s, predict_filter (after_elbo i d') t num s = predict_filter i t num s)
    /\ (let vs := in_vs _ _ _ _ _ _ i in let vs' := in_vs _ _ _ _ _ _ (after_elbo i d') in
        hypers vs' = hypers vs /\ samples_u vs' = samples_u vs /\ samples_z vs' = samples_z vs
        /\ (forall j, j <> in_q_i _ _ _ _ _ _ i -> q_u vs' j = q_u vs j /\ q_z vs' j = q_z vs j))
    /\ ((forall h d n u z, let r := ca_iterations h d n u z in ca_iterations h d n (fst r) (snd r) = r) ->
        let vs1 := in_vs _ _ _ _ _ _ (after_elbo i d') in let vs2 := in_vs _ _ _ _ _ _ (after_elbo (after_elbo i d') d') in
        forall j, q_u vs2 j = q_u vs1 j /\ q_z vs2 j = q_z vs1 j).
Proof.
  intros [vs q ts] d'. unfold after_elbo. cbn [in_vs in_q_i in_ts]. unfold elbo_structured_effect, fit_mean_field_ca.
  destruct (ca_iterations (hypers vs) d' 5000 (q_u vs q) (q_z vs q)) as [a b] eqn:E.
  split; [intros; repeat split|]. split; [intros; repeat split|].
  split.
  { intros t num s. unfold FitModel.predict_filter, p_u. cbn [in_q_i in_vs]. destruct q as [|j]; [reflexivity|].
    cbn. replace (Nat.eqb j (Datatypes.S j)) with false; [reflexivity|]. symmetry. apply Nat.eqb_neq. lia. }
  split.
  { cbn. repeat split; intros; apply Nat.eqb_neq in H0; now rewrite H0. }
  intros C. specialize (C (hypers vs) d' 5000%Z (q_u vs q) (q_z vs q)). rewrite E in C. cbn in C.
  cbn. rewrite !Nat.eqb_refl, C. cbn. intros j. destruct (Nat.eqb j q); auto.
Qed.
End Props.
Print Assumptions C131_filter_refuted.
Print Assumptions C131_predictions_partial.

(** Not vacuous: a model in which coordinate ascent moves the posterior from -1 to the number of the
    observations, and the filter that is reported is its mean. *)
Example C131_witness :
  let ca (h : unit) (d : list Z) (n : Z) (u z : Z) := (Z.of_nat (List.length d), z) in
  let i := Instance unit unit unit Z Z (list Z) (Vars unit unit unit Z Z tt (fun _ => -1)%Z (fun _ => 0)%Z (fun _ => None) (fun _ => None)) 0 None in
  ~ filter_untouched unit unit unit unit Z Z (list Z) unit Z ca (fun _ => 0%Z) (fun _ u _ _ _ => u) i [1%Z] [1%Z]
  /\ (forall h d n u z, let r := ca h d n u z in ca h d n (fst r) (snd r) = r).
Proof.
  intros ca i. split; [|reflexivity].
  apply (C131_filter_refuted unit unit unit unit Z Z (list Z) unit Z ca (fun _ => 0%Z) (fun _ u _ _ _ => u) i [1%Z] [1%Z]).
  exists tt, 0%nat, tt. cbn. discriminate.
Qed.
