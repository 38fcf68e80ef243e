(** C48-C51, C54, C55, C69, C71, C80-C83: fitting, conditioning, predicting and persistence. *)
From Coq Require Import ZArith List Bool String Lia Arith.
From Verif Require Import Py FitModel FitSpec FitProofs.
Import ListNotations.
Local Open Scope list_scope.

Section Props.
Variables H U Z_ S DU DZ Data Times Out : Type.
Variable sample_u : H -> Data -> S -> Z_ -> S * U.
Variable sample_z : H -> Data -> S -> U -> S * Z_.
Variable sample_q_u : DU -> S -> S * U.
Variable sample_q_z : DZ -> S -> S * Z_.
Local Notation vars := (vars H U Z_ DU DZ).
Variable adam : list excluded -> Z -> Data -> vars * S * U * Z_ -> vars * S * U * Z_.
Variable l_bfgs_b : list excluded -> Z -> option string -> Data -> vars * S -> vars * S.
Variable ca_iterations : H -> Data -> Z -> DU -> DZ -> DU * DZ.
Variable q_z_optimal_mean_field : H -> Data -> DU -> DZ.
Variable prior_u : H -> nat -> S -> list U.
Variable prior_z : H -> nat -> S -> list Z_.
Variable predict_with : H -> Data -> Times -> list U -> Out.
Variable kernel_with : H -> Times -> U -> Out.
Variable features_with : H -> list Z_ -> Out.
Variable features_mean_field : DZ -> Out.
Variable prior_u_dist : H -> DU.
Variable prior_z_dist : H -> DZ.
Variable filter_with : H -> DU -> Times -> nat -> S -> Out.

Local Notation hypers := (hypers H U Z_ DU DZ).
Local Notation q_u := (vq_u H U Z_ DU DZ).
Local Notation q_z := (vq_z H U Z_ DU DZ).
Local Notation samples_u := (vs_u H U Z_ DU DZ).
Local Notation samples_z := (vs_z H U Z_ DU DZ).
Local Notation fit_structured :=
  (fit_structured H U Z_ S DU DZ Data sample_u sample_z sample_q_u sample_q_z adam).
Local Notation fit :=
  (fit H U Z_ S DU DZ Data sample_u sample_z sample_q_u sample_q_z adam l_bfgs_b ca_iterations
     q_z_optimal_mean_field).
Local Notation instance := (instance H U Z_ DU DZ Data).
Local Notation Instance := (Instance H U Z_ DU DZ Data).
Local Notation condition := (condition H U Z_ DU DZ Data).
Local Notation predict_structured :=
  (predict_structured H U Z_ S DU DZ Data Times Out prior_u predict_with).
Local Notation sample_kernel_structured :=
  (sample_kernel_structured H U Z_ S DU DZ Data Times Out prior_u kernel_with).
Local Notation predict_fourier :=
  (predict_fourier H U Z_ S DU DZ Data Out prior_z features_with features_mean_field prior_z_dist).
Local Notation predict_filter :=
  (predict_filter H U Z_ S DU DZ Data Times Out prior_u_dist filter_with).
Local Notation chain h d := (gibbs_chain S U Z_ (sample_u h d) (sample_z h d)).

(** The burn-in: draws from the current posteriors, then half of the iterations. *)
Definition burn_in (vs : vars) (q_i : nat) (d : Data) (s : S) (iters : Z) : S * U * Z_ :=
  let (s1, u) := sample_q_u (q_u vs q_i) s in
  let (s2, z) := sample_q_z (q_z vs q_i) s1 in
  chain (hypers vs) d (Z.to_nat (iters / 2)) (s2, u, z).

(** What optimisation of the hyperparameters makes of the variables and the chain, and for how
    many iterations it runs. *)
Definition hyper_iters (o : opt_hypers) (iters num_samples : Z) : Z :=
  match o with HBool _ => iters / num_samples | HInt n => n end.
Definition after_hypers (vs : vars) (q_i : nat) (d : Data) (s : S) (iters : Z) (o : opt_hypers)
    (num_samples : Z) : vars * S * U * Z_ :=
  let '(s, u, z) := burn_in vs q_i d s iters in
  if truthy o then
    adam (flat_map (fun i => [ExU i; ExZ i]) (seq 0 (Datatypes.S q_i)))
      (hyper_iters o iters num_samples) d (vs, s, u, z)
  else (vs, s, u, z).

(** The number of Gibbs steps between stored samples. *)
Definition thinning (iters : Z) : nat := if (1000 <? iters)%Z then Z.to_nat (iters / 1000) else 1%nat.

Lemma last_of_snoc {A} (l : list A) x : last_of (l ++ [x]) = Ok x.
Proof. unfold last_of. rewrite rev_app_distr. reflexivity. Qed.
Lemma last_of_map_seq {A} (f : nat -> A) n : last_of (map f (seq 0 (Datatypes.S n))) = Ok (f n).
Proof. rewrite seq_S, map_app. cbn [map]. apply last_of_snoc. Qed.

(** The variables after hyperparameters have been optimised, the stored samples and the rest. *)
Lemma fit_structured_eq vs q_i d s iters o num_samples :
  (2 <= iters)%Z -> (o = HBool true -> num_samples <> 0%Z) ->
  let '(vs1, s1, u1, z1) := after_hypers vs q_i d s iters o num_samples in
  let x := chain (hypers vs1) d in
  fit_structured vs q_i d s iters o num_samples
  = Ok (set_samples H U Z_ DU DZ vs1 q_i
      (map (fun j => snd (fst (x (Datatypes.S (j * thinning iters)) (s1, u1, z1)))) (seq 0 1000))
      (map (fun j => snd (x (Datatypes.S (j * thinning iters)) (s1, u1, z1))) (seq 0 1000))).
Proof.
  intros Hi Ho. unfold after_hypers, burn_in, fit_structured, FitModel.fit_structured, gibbs_sample.
  destruct (sample_q_u (q_u vs q_i) s) as [sa ua].
  destruct (sample_q_z (q_z vs q_i) sa) as [sb zb].
  assert (E := loop_chain H U Z_ S Data sample_u sample_z (hypers vs) d None (Z.to_nat (iters / 2)) 0 (sb, ua, zb)).
  unfold st, uu, zz in E. cbn [fst snd] in E. rewrite E. clear E.
  rewrite indices_all.
  assert (Hn : exists n, Z.to_nat (iters / 2) = Datatypes.S n).
  { exists (Nat.pred (Z.to_nat (iters / 2))).
    assert (1 <= iters / 2)%Z by (apply Z.div_le_lower_bound; lia). lia. }
  destruct Hn as [n Hn]. rewrite Hn, !last_of_map_seq. cbn [bind].
  destruct (chain (hypers vs) d (Datatypes.S n) (sb, ua, zb)) as [[sc uc] zc]. cbn [fst snd].
  assert (Ex : forall names,
    names = flat_map (fun i => [ExU i; ExZ i]) (seq 0 q_i) ++ [ExU q_i; ExZ q_i] ->
    names = flat_map (fun i => [ExU i; ExZ i]) (seq 0 (Datatypes.S q_i))).
  { intros names ->. rewrite seq_S, flat_map_app. reflexivity. }
  assert (R : forall vs1 s1 u1 z1,
    (let thousands := if (1000 <? iters)%Z then (iters / 1000)%Z else 1%Z in
     let '(_, us, zs) :=
       gibbs_loop H U Z_ S Data sample_u sample_z (hypers vs1) d (Some thousands) 0
         (Z.to_nat (thousands * 1000)) s1 u1 z1 in
     Ok (set_samples H U Z_ DU DZ vs1 q_i us zs))
    = Ok (set_samples H U Z_ DU DZ vs1 q_i
      (map (fun j => snd (fst (chain (hypers vs1) d (Datatypes.S (j * thinning iters)) (s1, u1, z1)))) (seq 0 1000))
      (map (fun j => snd (chain (hypers vs1) d (Datatypes.S (j * thinning iters)) (s1, u1, z1))) (seq 0 1000)))).
  { intros vs1 s1 u1 z1. cbv zeta.
    assert (Ht : (if (1000 <? iters)%Z then (iters / 1000)%Z else 1%Z) = Z.of_nat (thinning iters)).
    { unfold thinning. destruct (1000 <? iters)%Z; [|reflexivity].
      rewrite Z2Nat.id; [reflexivity|]. apply Z.div_pos; lia. }
    assert (Hp : (0 < thinning iters)%nat).
    { unfold thinning. destruct (Z.ltb_spec 1000 iters); [|lia].
      assert (1 <= iters / 1000)%Z by (apply Z.div_le_lower_bound; lia). lia. }
    rewrite Ht. generalize dependent (thinning iters). intros th _ Hp.
    replace (Z.to_nat (Z.of_nat th * 1000)) with (1000 * th)%nat by lia.
    assert (E := loop_chain H U Z_ S Data sample_u sample_z (hypers vs1) d (Some (Z.of_nat th)) (1000 * th) 0 (s1, u1, z1)).
    unfold st, uu, zz in E. cbn [fst snd] in E. rewrite E. clear E.
    assert (I := indices_blocks th Hp 1000 0 0). rewrite Nat.mul_0_l in I. cbn [Z.of_nat] in I. rewrite I.
    rewrite !map_map. do 2 f_equal. }
  destruct (truthy o) eqn:To.
  - assert (Hh : match o with HBool _ => floordiv iters num_samples | HInt m => Ok m end
                 = Ok (hyper_iters o iters num_samples)).
    { destruct o as [b|m]; [|reflexivity]. cbn in To. subst b. unfold floordiv, hyper_iters.
      destruct (Z.eqb_spec num_samples 0) as [E|E]; [destruct (Ho eq_refl E)|reflexivity]. }
    rewrite Hh. cbn [bind ignore_qs]. rewrite (Ex _ eq_refl).
    destruct (adam _ _ _ _) as [[[vs1 s1] u1] z1]. apply R.
  - cbn [bind]. apply R.
Qed.

Lemma nth_map_seq {A} (f : nat -> A) n j : (j < n)%nat -> nth_error (map f (seq 0 n)) j = Some (f j).
Proof.
  intros L. rewrite nth_error_map. rewrite (nth_error_nth' _ 0%nat) by (rewrite seq_length; exact L).
  rewrite seq_nth by exact L. reflexivity.
Qed.

(** C48: for at least two iterations (and a non-zero [num_samples] if that is divided by), fitting
    ends, and exactly 1000 samples of u and of z are stored.  With [thinning iters] steps between
    stored samples, sample [j] is the state of the Gibbs chain, run with the fitted
    hyperparameters, after [1 + j * thinning iters] steps from where the burn-in or the
    optimisation of the hyperparameters left it. *)
Theorem C48_thousand_samples : forall vs q_i d s iters o num_samples,
  (2 <= iters)%Z -> (o = HBool true -> num_samples <> 0%Z) ->
  let '(vs1, s1, u1, z1) := after_hypers vs q_i d s iters o num_samples in
  exists fitted us zs,
    fit_structured vs q_i d s iters o num_samples = Ok fitted /\
    samples_u fitted q_i = Some us /\ samples_z fitted q_i = Some zs /\
    List.length us = 1000%nat /\ List.length zs = 1000%nat /\
    (forall j, (j < 1000)%nat -> exists sj uj zj,
       chain (hypers fitted) d (1 + j * thinning iters) (s1, u1, z1) = (sj, uj, zj) /\
       nth_error us j = Some uj /\ nth_error zs j = Some zj) /\
    hypers fitted = hypers vs1 /\
    (forall i, q_u fitted i = q_u vs1 i /\ q_z fitted i = q_z vs1 i) /\
    (forall i, i <> q_i -> samples_u fitted i = samples_u vs1 i /\ samples_z fitted i = samples_z vs1 i).
Proof.
  intros vs q_i d s iters o num_samples Hi Ho.
  generalize (fit_structured_eq vs q_i d s iters o num_samples Hi Ho).
  destruct (after_hypers vs q_i d s iters o num_samples) as [[[vs1 s1] u1] z1]. cbv zeta.
  generalize (thinning iters). intros th E.
  do 3 eexists. split; [exact E|]. unfold set_samples. cbn [vs_u vs_z vq_u vq_z FitModel.hypers].
  rewrite Nat.eqb_refl. split; [reflexivity|]. split; [reflexivity|].
  split; [rewrite map_length; apply seq_length|]. split; [rewrite map_length; apply seq_length|].
  split.
  { intros j Hj. rewrite !nth_map_seq by exact Hj. change (1 + j * th)%nat with (Datatypes.S (j * th)).
    destruct (chain (hypers vs1) d (Datatypes.S (j * th)) (s1, u1, z1)) as [[sj uj] zj].
    exists sj, uj, zj. repeat split; reflexivity. }
  split; [reflexivity|]. split; [intros; split; reflexivity|].
  intros i Ni. apply Nat.eqb_neq in Ni. rewrite Ni. split; reflexivity.
Qed.

(** C49, refuted: one iteration (and zero) is refused with an [IndexError]. *)
Theorem C49_refuted : forall vs q_i d s iters o num_samples, (iters <= 1)%Z ->
  fit_structured vs q_i d s iters o num_samples = Err IndexError.
Proof.
  intros vs q_i d s iters o num_samples Hi. unfold FitModel.fit_structured, gibbs_sample.
  destruct (sample_q_u _ _) as [sa ua]. destruct (sample_q_z _ _) as [sb zb].
  assert (E : Z.to_nat (iters / 2) = 0%nat).
  { assert (iters / 2 < 1)%Z by (apply Z.div_lt_upper_bound; lia). lia. }
  rewrite E. reflexivity.
Qed.

(** C49: from two iterations on fitting with the default [num_samples] completes. *)
Theorem C49_partial : forall vs q_i d s iters o, (2 <= iters)%Z ->
  exists fitted, fit_structured vs q_i d s iters o 5 = Ok fitted.
Proof.
  intros vs q_i d s iters o Hi.
  generalize (C48_thousand_samples vs q_i d s iters o 5 Hi ltac:(discriminate)).
  destruct (after_hypers vs q_i d s iters o 5) as [[[vs1 s1] u1] z1].
  intros (f & us & zs & E & _). exists f. exact E.
Qed.

(** C50, refuted: two of the documented schemes cannot be fitted, whatever the data. *)
Theorem C50_refuted : forall vs q_i d s iters,
  In "mean-field-gradient"%string documented_schemes /\
  In "mean-field-ca-gradient"%string documented_schemes /\
  fit "mean-field-gradient" vs q_i d s (FitArgs iters None None None) = Err TypeError /\
  fit "mean-field-ca-gradient" vs q_i d s (FitArgs iters None None None) = Err ValueError.
Proof. intros. cbn. tauto. Qed.

(** C50: all others can be, from two iterations on, in any letter case. *)
Theorem C50_partial : forall scheme vs q_i d s iters,
  In (lower scheme) (undocumented_scheme :: documented_schemes) ->
  lower scheme <> "mean-field-gradient"%string -> lower scheme <> "mean-field-ca-gradient"%string ->
  (match iters with Some n => (2 <= n)%Z | None => True end) ->
  exists fitted, fit scheme vs q_i d s (FitArgs iters None None None) = Ok fitted.
Proof.
  intros scheme vs q_i d s iters I N1 N2 Hi.
  unfold FitModel.fit, resolve_scheme. cbn [fa_iters fa_rate fa_optimise_hypers fa_num_samples].
  set (n := match iters with Some n => n | None => 5000%Z end).
  assert (Hn : (2 <= n)%Z) by (subst n; destruct iters; lia).
  assert (C : forall a b c : vars, True) by auto.
  destruct I as [<-|[<-|[<-|[E|[<-|[E|[<-|[]]]]]]]];
    [| | |symmetry in E; contradiction| |symmetry in E; contradiction|]; cbn -[FitModel.fit_structured].
  - destruct (l_bfgs_b _ _ _ _) as [vs1 s1]. eexists. reflexivity.
  - apply C49_partial, Hn.
  - eexists. reflexivity.
  - destruct (l_bfgs_b _ _ _ _) as [vs1 s1]. eexists. reflexivity.
  - destruct (l_bfgs_b _ _ _ _) as [vs1 s1]. eexists. reflexivity.
Qed.
(** C54: after fitting and conditioning, predictions and samples of the kernel use exactly the
    first [min num 1000] of the stored samples. *)
Theorem C54_partial : forall vs q_i d s iters o num_samples fitted ts d' t num s',
  fit_structured vs q_i d s iters o num_samples = Ok fitted -> (1 <= num)%nat ->
  let i := condition (Instance fitted q_i ts) d' in
  exists us, samples_u fitted q_i = Some us /\ List.length (firstn num us) = Nat.min num 1000 /\
    predict_structured i t num s' = Ok (predict_with (hypers fitted) d' t (firstn num us)) /\
    sample_kernel_structured i t num s' = Ok (map (kernel_with (hypers fitted) t) (firstn num us)).
Proof.
  intros vs q_i d s iters o num_samples fitted ts d' t num s' F Hn i.
  assert (Hi : (2 <= iters)%Z).
  { destruct (Z.le_gt_cases iters 1) as [L|L]; [|lia]. rewrite (C49_refuted _ _ _ _ _ _ _ L) in F. discriminate. }
  assert (Ho : o = HBool true -> num_samples <> 0%Z).
  { intros -> ->. revert F. unfold FitModel.fit_structured.
    destruct (gibbs_sample _ _ _ _ _ _ _ _ _ _ _ _ _ _ _ _ _ _ _) as [[sa us] zs].
    destruct (last_of us); cbn [bind]; [|discriminate]. destruct (last_of zs); cbn [bind]; [|discriminate].
    discriminate. }
  generalize (C48_thousand_samples vs q_i d s iters o num_samples Hi Ho).
  destruct (after_hypers vs q_i d s iters o num_samples) as [[[vs1 s1] u1] z1].
  intros (f & us & zs & E & Eu & _ & Lu & _). rewrite E in F. injection F as ->.
  exists us. split; [exact Eu|]. split; [rewrite firstn_length, Lu; reflexivity|].
  assert (C : columns us num = firstn num us).
  { unfold columns. destruct (Nat.min_spec (List.length us) num) as [[L ->]|[L ->]]; [|reflexivity].
    rewrite !firstn_all2 by lia. reflexivity. }
  unfold FitModel.predict_structured, FitModel.sample_kernel_structured, FitModel.sample_p_u, i, FitModel.condition.
  cbn [in_q_i in_vs in_ts]. rewrite Eu. cbn [bind]. rewrite C.
  destruct us as [|u us]; [discriminate|]. destruct num as [|num]; [lia|]. split; reflexivity.
Qed.

(** On an unconditioned model, samples of the kernel use fresh samples of the prior... *)
Theorem C54_unconditioned_partial : forall vs ts t num s,
  prior_u (hypers vs) num s <> [] ->
  sample_kernel_structured (Instance vs 0 ts) t num s
  = Ok (map (kernel_with (hypers vs) t) (prior_u (hypers vs) num s)).
Proof.
  intros vs ts t num s N. unfold FitModel.sample_kernel_structured, FitModel.sample_p_u. cbn [in_q_i in_vs bind].
  destruct (prior_u (hypers vs) num s); [contradiction|reflexivity].
Qed.

(** C54, refuted: ... but predictions fail, because they need the terms of the observations. *)
Theorem C54_refuted : forall vs t num s,
  prior_u (hypers vs) num s <> [] ->
  predict_structured (Instance vs 0 None) t num s = Err AttributeError.
Proof.
  intros vs t num s N. unfold FitModel.predict_structured, FitModel.sample_p_u. cbn [in_q_i in_vs in_ts bind].
  destruct (prior_u (hypers vs) num s); [contradiction|reflexivity].
Qed.

(** C55, refuted: with a mean-field scheme, Fourier features can never be predicted. *)
Theorem C55_refuted : forall scheme i num s,
  In (lower scheme) (undocumented_scheme :: documented_schemes) -> lower scheme <> "structured"%string ->
  predict_fourier scheme i num s = Err TypeError.
Proof.
  intros scheme i num s I N. unfold FitModel.predict_fourier, resolve_scheme.
  destruct I as [<-|[E|I]]; [reflexivity|symmetry in E; contradiction|].
  cbn [documented_schemes In] in I. destruct I as [<-|[<-|[<-|[<-|[<-|[]]]]]]; reflexivity.
Qed.

(** C55: with the structured scheme they can, after fitting and conditioning, and are those of the
    first [min num 1000] stored samples of z. *)
Theorem C55_partial : forall scheme vs q_i d s iters fitted ts d' num s',
  lower scheme = "structured"%string ->
  fit scheme vs q_i d s (FitArgs (Some iters) None None None) = Ok fitted -> (1 <= num)%nat ->
  exists zs, samples_z fitted q_i = Some zs /\ List.length (firstn num zs) = Nat.min num 1000 /\
    predict_fourier scheme (condition (Instance fitted q_i ts) d') num s'
    = Ok (features_with (hypers fitted) (firstn num zs)).
Proof.
  intros scheme vs q_i d s iters fitted ts d' num s' E F Hn.
  unfold FitModel.fit, FitModel.predict_fourier, resolve_scheme in *. rewrite E in *.
  cbn [String.eqb Ascii.eqb Bool.eqb bind fa_iters fa_optimise_hypers fa_num_samples] in *.
  assert (Hi : (2 <= iters)%Z).
  { destruct (Z.le_gt_cases iters 1) as [L|L]; [|lia]. rewrite (C49_refuted _ _ _ _ _ _ _ L) in F. discriminate. }
  generalize (C48_thousand_samples vs q_i d s iters (HBool true) 5 Hi ltac:(discriminate)).
  destruct (after_hypers vs q_i d s iters (HBool true) 5) as [[[vs1 s1] u1] z1].
  intros (f & us & zs & Ef & _ & Ez & _ & Lz & _). rewrite Ef in F. injection F as ->.
  exists zs. split; [exact Ez|]. split; [rewrite firstn_length, Lz; reflexivity|].
  assert (C : columns zs num = firstn num zs).
  { unfold columns. destruct (Nat.min_spec (List.length zs) num) as [[L ->]|[L ->]]; [|reflexivity].
    rewrite !firstn_all2 by lia. reflexivity. }
  unfold predict_z_structured, sample_p_z, FitModel.condition. cbn [in_q_i in_vs]. rewrite Ez. cbn [bind]. rewrite C.
  destruct zs as [|z zs]; [discriminate|]. destruct num as [|num]; [lia|]. reflexivity.
Qed.

(** C80, refuted: asking a mean-field scheme to keep its hyperparameters, as the command-line flag
    does, is a [TypeError]. *)
Theorem C80_refuted : forall scheme vs q_i d s iters,
  In (lower scheme) (undocumented_scheme :: documented_schemes) -> lower scheme <> "structured"%string ->
  fit scheme vs q_i d s (train_config iters true) = Err TypeError.
Proof.
  intros scheme vs q_i d s iters I N. unfold FitModel.fit, resolve_scheme.
  destruct I as [<-|[E|I]]; [reflexivity|symmetry in E; contradiction|].
  cbn [documented_schemes In] in I. destruct I as [<-|[<-|[<-|[<-|[<-|[]]]]]]; reflexivity.
Qed.

(** C80: the structured scheme keeps them. *)
Theorem C80_partial : forall scheme vs q_i d s n,
  lower scheme = "structured"%string -> (2 <= n)%Z ->
  exists fitted, fit scheme vs q_i d s (train_config (Some n) true) = Ok fitted /\
    hypers fitted = hypers vs /\
    (forall i, q_u fitted i = q_u vs i /\ q_z fitted i = q_z vs i).
Proof.
  intros scheme vs q_i d s n E Hn. unfold FitModel.fit, resolve_scheme. rewrite E.
  cbn [String.eqb Ascii.eqb Bool.eqb bind].
  assert (Ei : match fa_iters (train_config (Some n) true) with Some m => m | None => 5000%Z end = n).
  { unfold train_config. cbn [fa_iters]. destruct n; try reflexivity. lia. }
  rewrite Ei. cbn [train_config fa_optimise_hypers fa_num_samples negb].
  generalize (C48_thousand_samples vs q_i d s n (HBool false) 5 Hn ltac:(discriminate)).
  unfold after_hypers. destruct (burn_in vs q_i d s n) as [[s1 u1] z1]. cbn [truthy].
  intros (f & us & zs & Ef & _ & _ & _ & _ & _ & Eh & Eq & _).
  exists f. split; [exact Ef|]. split; [exact Eh|exact Eq].
Qed.

(** What is assumed of the optimisers: posteriors that are excluded are not changed, and stored
    samples, which are hidden, are not changed either. *)
Definition keeps_excluded (names : list excluded) (v w : vars) : Prop :=
  (forall i, In (ExU i) names -> q_u w i = q_u v i) /\
  (forall i, In (ExZ i) names -> q_z w i = q_z v i) /\
  (forall i, samples_u w i = samples_u v i) /\ (forall i, samples_z w i = samples_z v i).
Definition adam_respects_names : Prop := forall names n d v s u z,
  keeps_excluded names v (fst (fst (fst (adam names n d (v, s, u, z))))).
Definition l_bfgs_b_respects_names : Prop := forall names n c d v s,
  keeps_excluded names v (fst (l_bfgs_b names n c d (v, s))).

Lemma after_hypers_keeps vs q_i d s iters o num_samples : adam_respects_names ->
  let '(vs1, _, _, _) := after_hypers vs q_i d s iters o num_samples in
  (forall i, (i <= q_i)%nat -> q_u vs1 i = q_u vs i /\ q_z vs1 i = q_z vs i) /\
  (forall i, samples_u vs1 i = samples_u vs i /\ samples_z vs1 i = samples_z vs i).
Proof.
  intros A. unfold after_hypers. destruct (burn_in vs q_i d s iters) as [[sa ua] za].
  destruct (truthy o); [|split; intros; split; reflexivity].
  specialize (A (flat_map (fun i => [ExU i; ExZ i]) (seq 0 (Datatypes.S q_i)))
                (hyper_iters o iters num_samples) d vs sa ua za).
  destruct (adam _ _ _ _) as [[[vs1 s1] u1] z1]. cbn [fst] in A. destruct A as (A1 & A2 & A3 & A4).
  split; [|intros i; split; auto].
  intros i Hi. split; [apply A1|apply A2]; apply previous_names; cbn [index_of]; lia.
Qed.

Lemma ca_keeps q_i d n vs i : i <> q_i ->
  same_posterior i vs (fit_mean_field_ca H U Z_ DU DZ Data ca_iterations q_i d n vs).
Proof.
  intros N. unfold fit_mean_field_ca. destruct (ca_iterations _ _ _ _ _) as [a b].
  apply Nat.eqb_neq in N. repeat split; cbn; rewrite ?N; reflexivity.
Qed.
Lemma same_trans i (a b c : vars) : same_posterior i a b -> same_posterior i b c -> same_posterior i a c.
Proof. intros (A1 & A2 & A3 & A4) (B1 & B2 & B3 & B4). repeat split; congruence. Qed.
Lemma bfgs_keeps q_i cur names n c d v s i : l_bfgs_b_respects_names ->
  ignore_qs q_i (Some true) cur = Ok names -> (i < q_i)%nat ->
  same_posterior i v (fst (l_bfgs_b names n c d (v, s))).
Proof.
  intros L E Hi. destruct (L names n c d v s) as (A1 & A2 & A3 & A4).
  assert (I : forall e, index_of e = i -> In e names).
  { intros e He. assert (P : In e (flat_map (fun i => [ExU i; ExZ i]) (seq 0 q_i))).
    { apply previous_names. lia. }
    unfold ignore_qs in E. destruct cur as [[[]|x]|]; try discriminate.
    - injection E as <-. apply in_or_app. left. exact P.
    - repeat match type of E with
      | context [match ?x with _ => _ end] => destruct x; try discriminate
      end; injection E as <-; apply in_or_app; left; exact P. }
  repeat split; symmetry; auto.
Qed.

(** C82: fitting a model with any scheme leaves the posteriors of all earlier conditionings, and
    their samples, as they were. *)
Theorem C82_earlier_posteriors_kept : adam_respects_names -> l_bfgs_b_respects_names ->
  forall scheme vs q_i d s args fitted,
  fit scheme vs q_i d s args = Ok fitted -> forall i, (i < q_i)%nat -> same_posterior i vs fitted.
Proof.
  intros A L scheme vs q_i d s args fitted F i Hi. unfold FitModel.fit in F.
  destruct (resolve_scheme scheme) as [[|method]|] eqn:R; cbn [bind] in F; [| |discriminate].
  - revert F. generalize (match fa_iters args with Some n => n | None => 5000%Z end). intros n.
    generalize (match fa_optimise_hypers args with Some o => o | None => HBool true end). intros o.
    generalize (match fa_num_samples args with Some n => n | None => 5%Z end). intros ns F.
    destruct (Z.le_gt_cases n 1) as [Ln|Ln].
    { rewrite (C49_refuted _ _ _ _ _ _ _ Ln) in F. discriminate. }
    assert (Ho : o = HBool true -> ns <> 0%Z).
    { intros -> ->. revert F. unfold FitModel.fit_structured.
      destruct (gibbs_sample _ _ _ _ _ _ _ _ _ _ _ _ _ _ _ _ _ _ _) as [[sa us] zs].
      destruct (last_of us); cbn [bind]; [|discriminate]. destruct (last_of zs); cbn [bind]; [|discriminate].
      discriminate. }
    generalize (C48_thousand_samples vs q_i d s n o ns ltac:(lia) Ho).
    generalize (after_hypers_keeps vs q_i d s n o ns A).
    destruct (after_hypers vs q_i d s n o ns) as [[[vs1 s1] u1] z1]. intros [K1 K2].
    intros (f & us & zs & Ef & _ & _ & _ & _ & _ & _ & Eq & Es). rewrite Ef in F. injection F as ->.
    destruct (Eq i) as [Eq1 Eq2]. destruct (Es i ltac:(lia)) as [Es1 Es2].
    destruct (K1 i ltac:(lia)) as [K3 K4]. destruct (K2 i) as [K5 K6].
    repeat split; congruence.
  - destruct (fa_rate args), (fa_optimise_hypers args), (fa_num_samples args); try discriminate.
    revert F. generalize (match fa_iters args with Some n => n | None => 5000%Z end). intros n.
    unfold fit_mean_field.
    destruct (method =? "ca")%string.
    { intros F. injection F as <-. apply ca_keeps. lia. }
    destruct (method =? "bfgs")%string; [discriminate|].
    destruct ((method =? "ca-collapsed-bfgs")%string || (method =? "collapsed-bfgs")%string)%bool; [|discriminate].
    destruct (ignore_qs q_i (Some true) (Some (CStr "z"))) as [names|] eqn:E; cbn [bind]; [|discriminate].
    assert (Kz : forall v, same_posterior i v (update_q_z H U Z_ DU DZ Data q_z_optimal_mean_field q_i d v)).
    { intros v. assert (N : Nat.eqb i q_i = false) by (apply Nat.eqb_neq; lia).
      repeat split; cbn; rewrite ?N; reflexivity. }
    intros F.
    pose (pre := if (method =? "ca-collapsed-bfgs")%string
                 then fit_mean_field_ca H U Z_ DU DZ Data ca_iterations q_i d n vs else vs).
    fold pre in F.
    assert (K1 : same_posterior i vs pre).
    { unfold pre. destruct (method =? "ca-collapsed-bfgs")%string; [apply ca_keeps; lia|repeat split]. }
    assert (K2 := bfgs_keeps q_i _ names (n / 5) (Some "z"%string) d pre s i L E Hi).
    destruct (l_bfgs_b names (n / 5) (Some "z"%string) d (pre, s)) as [v2 s2]. cbn [fst] in K2.
    injection F as <-.
    apply (same_trans i _ _ _ K1). apply (same_trans i _ _ _ K2). apply (same_trans i _ _ _ (Kz v2)).
    destruct (method =? "ca-collapsed-bfgs")%string; [apply ca_keeps; lia|repeat split].
Qed.

(** C83, refuted: after fitting the structured scheme and conditioning, predictions of the filter
    do not depend on the observations that were fitted (nor on how they were fitted), given the
    hyperparameters: they use what the parameters of the posterior were before. *)
Theorem C83_refuted : adam_respects_names ->
  forall vs q_i d s iters o num_samples fitted ts t num s',
  fit_structured vs q_i d s iters o num_samples = Ok fitted ->
  predict_filter (condition (Instance fitted q_i ts) d) t num s'
  = filter_with (hypers fitted) (q_u vs q_i) t num s'.
Proof.
  intros A vs q_i d s iters o num_samples fitted ts t num s' F.
  assert (Hi : (2 <= iters)%Z).
  { destruct (Z.le_gt_cases iters 1) as [L|L]; [|lia]. rewrite (C49_refuted _ _ _ _ _ _ _ L) in F. discriminate. }
  assert (Ho : o = HBool true -> num_samples <> 0%Z).
  { intros -> ->. revert F. unfold FitModel.fit_structured.
    destruct (gibbs_sample _ _ _ _ _ _ _ _ _ _ _ _ _ _ _ _ _ _ _) as [[sa us] zs].
    destruct (last_of us); cbn [bind]; [|discriminate]. destruct (last_of zs); cbn [bind]; [|discriminate].
    discriminate. }
  generalize (C48_thousand_samples vs q_i d s iters o num_samples Hi Ho).
  generalize (after_hypers_keeps vs q_i d s iters o num_samples A).
  destruct (after_hypers vs q_i d s iters o num_samples) as [[[vs1 s1] u1] z1]. intros [K1 _].
  intros (f & us & zs & Ef & _ & _ & _ & _ & _ & _ & Eq & _). rewrite Ef in F. injection F as ->.
  unfold FitModel.predict_filter, p_u, FitModel.condition. cbn [in_q_i in_vs].
  f_equal. destruct (Eq q_i) as [-> _]. apply (K1 q_i). lia.
Qed.

(** C83: with coordinate ascent they are those of the fitted posterior. *)
Theorem C83_partial : forall scheme vs q_i d s n fitted ts t num s',
  lower scheme = "mean-field-ca"%string ->
  fit scheme vs q_i d s (FitArgs (Some n) None None None) = Ok fitted ->
  predict_filter (condition (Instance fitted q_i ts) d) t num s'
  = filter_with (hypers vs) (fst (ca_iterations (hypers vs) d n (q_u vs q_i) (q_z vs q_i))) t num s'.
Proof.
  intros scheme vs q_i d s n fitted ts t num s' E F.
  unfold FitModel.fit, resolve_scheme in F. rewrite E in F. cbn in F. injection F as <-.
  unfold FitModel.predict_filter, p_u, FitModel.condition, fit_mean_field_ca. cbn [in_q_i in_vs].
  destruct (ca_iterations _ _ _ _ _) as [a b]. cbn. rewrite Nat.eqb_refl. reflexivity.
Qed.
End Props.
Print Assumptions C48_thousand_samples.
Print Assumptions C49_refuted.
Print Assumptions C49_partial.
Print Assumptions C50_refuted.
Print Assumptions C50_partial.
Print Assumptions C54_partial.
Print Assumptions C54_unconditioned_partial.
Print Assumptions C54_refuted.
Print Assumptions C55_refuted.
Print Assumptions C55_partial.
Print Assumptions C80_refuted.
Print Assumptions C80_partial.
Print Assumptions C82_earlier_posteriors_kept.
Print Assumptions C83_refuted.
Print Assumptions C83_partial.

(** Exactly these names are accepted. *)
Theorem C50_names : forall scheme,
  (exists a, resolve_scheme scheme = Ok a) <-> In (lower scheme) (undocumented_scheme :: documented_schemes).
Proof.
  intros scheme. unfold resolve_scheme. generalize (lower scheme). intros l. clear scheme.
  repeat match goal with
  | |- context [String.eqb l ?x] =>
      let E := fresh in destruct (String.eqb_spec l x) as [E|E];
      [subst l; cbn; split; [intros _; tauto|intros _; eexists; reflexivity]|]
  end.
  split.
  - intros [a A]. discriminate.
  - intros I. exfalso. cbn in I. unfold undocumented_scheme in I. intuition congruence.
Qed.
Print Assumptions C50_names.

(** C51, refuted: [current=False], which is documented, is refused. *)
Theorem C51_refuted : forall q_i previous,
  documented_current (CBool false) /\ ignore_qs q_i (Some previous) (Some (CBool false)) = Err ValueError.
Proof. intros. split; reflexivity. Qed.
Print Assumptions C51_refuted.

(** C51: every other documented value excludes, without repetition, exactly the documented
    posteriors. *)
Theorem C51_partial : forall q_i previous current,
  documented_current current -> current <> CBool false ->
  exists names, ignore_qs q_i (Some previous) (Some current) = Ok names /\ NoDup names /\
    forall e, In e names <->
      (previous = true /\ (index_of e < q_i)%nat) \/ (index_of e = q_i /\ selected_now current e).
Proof.
  intros q_i previous current D N.
  assert (P : forall e, In e (if previous then flat_map (fun i => [ExU i; ExZ i]) (seq 0 q_i) else [])
              <-> previous = true /\ (index_of e < q_i)%nat).
  { intros e. destruct previous; [rewrite previous_names; tauto|].
    split; [intros []|intros [F _]; discriminate]. }
  assert (ND : NoDup (if previous then flat_map (fun i => [ExU i; ExZ i]) (seq 0 q_i) else [])).
  { destruct previous; [apply previous_nodup|constructor]. }
  unfold ignore_qs.
  set (l := if previous then flat_map (fun i => [ExU i; ExZ i]) (seq 0 q_i) else []) in *.
  assert (NA : forall r, NoDup r -> (forall e, In e r -> index_of e = q_i) -> NoDup (l ++ r)).
  { clear - P ND. induction r as [|e r IH] using rev_ind; intros Nr A; [rewrite app_nil_r; exact ND|].
    rewrite app_assoc. apply NoDup_rev in Nr. rewrite rev_app_distr in Nr. inversion_clear Nr as [|? ? Ne Nr2].
    apply NoDup_rev in Nr2. rewrite rev_involutive in Nr2. rewrite <- in_rev in Ne.
    assert (IH2 : NoDup (l ++ r)) by (apply IH; [exact Nr2|intros; apply A, in_or_app; left; assumption]).
    apply NoDup_Add with (a := e) (l := l ++ r).
    - rewrite <- (app_nil_r (l ++ r)) at 1. apply Add_app.
    - split; [exact IH2|]. intros I. apply in_app_or in I. destruct I as [I|I]; [|contradiction].
      apply P in I. assert (index_of e = q_i) by (apply A, in_or_app; right; left; reflexivity). lia. }
  destruct current as [[]|str]; [|congruence|].
  - eexists. split; [reflexivity|]. split.
    + apply NA; [repeat constructor; cbn; intuition congruence|]. intros e [<-|[<-|[]]]; reflexivity.
    + intros e. rewrite in_app_iff, P. cbn [In selected_now].
      destruct e as [i|i]; cbn [index_of]; intuition (try congruence); subst; auto.
  - destruct D as [->| ->].
    + eexists. split; [reflexivity|]. split.
      * apply NA; [repeat constructor; cbn; intuition congruence|]. intros e [<-|[]]; reflexivity.
      * intros e. rewrite in_app_iff, P. cbn [In selected_now].
        destruct e as [i|i]; cbn [index_of]; intuition (try congruence); subst; auto.
    + eexists. split; [reflexivity|]. split.
      * apply NA; [repeat constructor; cbn; intuition congruence|]. intros e [<-|[]]; reflexivity.
      * intros e. rewrite in_app_iff, P. cbn [In selected_now].
        destruct e as [i|i]; cbn [index_of]; intuition (try congruence); subst; auto.
Qed.
Print Assumptions C51_partial.

(** C71: [build_models] succeeds exactly if every requested name is known; the result then has
    exactly one model for each requested family, in the order GPCM, CGPCM, RGPCM. *)
Theorem C71_build_models : forall requested,
  ((exists models, build_models requested = Ok models) <->
   (forall n, In n requested -> exists f, n = family_name f)) /\
  (forall models, build_models requested = Ok models ->
   models = filter (fun f => if in_dec string_dec (family_name f) requested then true else false)
              [FGPCM; FCGPCM; FRGPCM]) /\
  (forall e, build_models requested = Err e -> e = ValueError).
Proof.
  intros requested. unfold build_models.
  assert (R : forall s l, elem s l = true -> forall t, In t l <-> t = s \/ In t (remove_name s l)).
  { intros s l E t. rewrite remove_In. apply elem_In in E. destruct (string_dec t s); [subst; tauto|tauto]. }
  assert (Q : forall s l, elem s l = false -> ~ In s l).
  { intros s l E I. apply elem_In in I. congruence. }
  assert (K : forall s t l, s <> t -> elem s (remove_name t l) = elem s l).
  { intros s t l N. apply eq_true_iff_eq. rewrite !elem_In, remove_In. tauto. }
  cbn [filter family_name].
  assert (W : forall s, (if in_dec string_dec s requested then true else false) = elem s requested).
  { intros s. destruct (in_dec string_dec s requested) as [I|I].
    - symmetry. apply elem_In, I.
    - destruct (elem s requested) eqn:E; [|reflexivity]. apply elem_In in E. contradiction. }
  rewrite !W. clear W.
  set (l0 := requested) at 1.
  assert (Body : forall (models : list family) rest,
    (forall n, In n requested <-> (exists f, In f models /\ n = family_name f) \/ In n rest) ->
    (forall f, ~ In (family_name f) rest) ->
    models = filter (fun f => elem (family_name f) requested) [FGPCM; FCGPCM; FRGPCM] ->
    ((exists ms, match rest with [] => Ok models | _ => Err ValueError end = Ok ms) <->
      (forall n, In n requested -> exists f, n = family_name f)) /\
    (forall ms, match rest with [] => Ok models | _ => Err ValueError end = Ok ms ->
      ms = filter (fun f => elem (family_name f) requested) [FGPCM; FCGPCM; FRGPCM]) /\
    (forall e, match rest with [] => Ok models | _ => Err ValueError end = Err e -> e = ValueError)).
  { intros models rest P N E. destruct rest as [|x rest].
    - split; [|split].
      + split; [|intros _; exists models; reflexivity]. intros _ n I. apply P in I.
        destruct I as [(f & _ & F)|[]]. exists f. exact F.
      + intros ms M. injection M as <-. exact E.
      + discriminate.
    - split; [|split].
      + split; [intros [ms M]; discriminate|]. intros A. exfalso.
        destruct (A x) as [f F]; [apply P; right; left; reflexivity|].
        apply (N f). rewrite <- F. left. reflexivity.
      + discriminate.
      + intros e M. injection M as <-. reflexivity. }
  cbn [filter family_name] in Body. subst l0.
  destruct (elem "gpcm" requested) eqn:E1; destruct (elem "cgpcm" requested) eqn:E2;
    destruct (elem "gprv" requested) eqn:E3;
    rewrite ?(K "cgpcm"%string "gpcm"%string), ?E2 by discriminate;
    rewrite ?(K "gprv"%string "cgpcm"%string), ?(K "gprv"%string "gpcm"%string), ?E3 by discriminate;
    apply Body; try reflexivity.
  all: try (intros [] I; cbn [family_name] in I; rewrite ?remove_In in I;
    first [ apply elem_In in E1; tauto | tauto
          | destruct I as [I ?]; apply elem_In in I; congruence
          | destruct I as [[I ?] ?]; apply elem_In in I; congruence
          | apply elem_In in I; congruence ]).
  all: intros n; rewrite ?remove_In; cbn [app In]; split;
    [ intros I; destruct (string_dec n "gpcm"); [subst|destruct (string_dec n "cgpcm"); [subst|destruct (string_dec n "gprv"); [subst|]]];
      first [ exfalso; apply elem_In in I; congruence | right; tauto
            | left; exists FGPCM; cbn; tauto | left; exists FCGPCM; cbn; tauto | left; exists FRGPCM; cbn; tauto ]
    | intros [(f & F & ->)|I];
      [ repeat (destruct F as [<-|F]; [apply elem_In; assumption|]); destruct F
      | tauto ] ].
Qed.
Print Assumptions C71_build_models.

Example C71_witness :
  build_models ["gprv"; "gpcm"; "gprv"]%string = Ok [FGPCM; FRGPCM] /\
  build_models ["gpcm"; "unknown"]%string = Err ValueError.
Proof. split; reflexivity. Qed.

(** C69: loading what was saved gives every saved variable its saved value and keeps its visibility
    if it existed; what did not exist is created hidden; what was not saved is as before; loading
    again changes nothing; names stay unique. *)
Theorem C69_save_load : forall (V : Type) (saved s : store V),
  NoDup (names V saved) ->
  let s' := load V s (save V saved) in
  (forall n v, lookup V saved n = Some v ->
     lookup V s' n = Some (Variable_ V (value V v)
       (match lookup V s n with Some w => visible V w | None => false end))) /\
  (forall n, lookup V saved n = None -> lookup V s' n = lookup V s n) /\
  (forall n, lookup V (load V s' (save V saved)) n = lookup V s' n) /\
  (NoDup (names V s) -> NoDup (names V s')).
Proof.
  intros V saved s N s'.
  assert (L : forall n v, lookup V saved n = Some v ->
     lookup V s' n = Some (Variable_ V (value V v)
       (match lookup V s n with Some w => visible V w | None => false end))).
  { intros n v E. unfold s'. rewrite lookup_load, last_value_save, E by exact N. reflexivity. }
  assert (L0 : forall n, lookup V saved n = None -> lookup V s' n = lookup V s n).
  { intros n E. unfold s'. rewrite lookup_load, last_value_save, E by exact N. reflexivity. }
  split; [exact L|]. split; [exact L0|]. split.
  - intros n. rewrite lookup_load, last_value_save by exact N.
    destruct (lookup V saved n) as [v|] eqn:E; [|reflexivity]. cbn [option_map]. rewrite (L n v E). reflexivity.
  - unfold s', load. generalize (save V saved). clear. intros data. revert s.
    induction data as [|[n x] data IH]; intros s Ns; [exact Ns|].
    cbn [fold_left]. apply IH. unfold load1. cbn [fst snd].
    destruct (lookup V s n) as [v|] eqn:E; [rewrite assign_names; exact Ns|].
    unfold names. rewrite map_app. cbn [map fst].
    apply NoDup_Add with (a := n) (l := map fst s); [rewrite <- (app_nil_r (map fst s)) at 1; apply Add_app|].
    split; [exact Ns|]. intros I. apply (lookup_In V s n) in I. contradiction.
Qed.
Print Assumptions C69_save_load.

Example C69_witness :
  let saved := [("noise", Variable_ nat 3 true); ("q_u", Variable_ nat 5 false)]%string in
  let s := [("noise", Variable_ nat 1 true); ("scale", Variable_ nat 2 true)]%string in
  NoDup (names nat saved) /\
  load nat s (save nat saved)
  = [("noise", Variable_ nat 3 true); ("scale", Variable_ nat 2 true); ("q_u", Variable_ nat 5 false)]%string.
Proof. split; [repeat constructor; cbn; intuition congruence|reflexivity]. Qed.

(** C81, refuted: a model that has been loaded before it was first instantiated cannot be
    optimised any more: none of the loaded variables is visible to optimisers, also after the
    model declares its variables with their constraints. *)
Theorem C81_refuted : forall (V : Type) (saved : store V) (declared : list (string * V)),
  NoDup (names V saved) -> (forall n x, In (n, x) declared -> In n (names V saved)) ->
  optimised V (fold_left (fun s p => get_or_init V s (fst p) (snd p)) declared (load V [] (save V saved))) = [].
Proof.
  intros V saved declared N D.
  set (s0 := load V [] (save V saved)).
  assert (F : forall n, In n (names V saved) -> lookup V s0 n <> None).
  { intros n I. apply lookup_In in I. destruct (lookup V saved n) as [v|] eqn:E; [|contradiction].
    destruct (C69_save_load V saved [] N) as (L & _). fold s0 in L. rewrite (L n v E). discriminate. }
  assert (G : fold_left (fun s p => get_or_init V s (fst p) (snd p)) declared s0 = s0).
  { revert D. induction declared as [|[n x] l IH]; intros D; [reflexivity|]. cbn [fold_left fst snd].
    unfold get_or_init at 2. destruct (lookup V s0 n) eqn:E.
    - apply IH. intros m y I. apply (D m y). right. exact I.
    - exfalso. apply (F n); [apply (D n x); left; reflexivity|exact E]. }
  rewrite G. subst s0. clear. unfold load. generalize (save V saved). intros data.
  assert (P : forall s, optimised V s = [] -> optimised V (fold_left (load1 V) data s) = []).
  { induction data as [|[n x] data IH]; intros s E; [exact E|]. cbn [fold_left]. apply IH.
    unfold load1. cbn [fst snd]. destruct (lookup V s n) as [v|].
    - clear IH. induction s as [|[m w] s IH]; [reflexivity|].
      unfold optimised in *. cbn [filter snd] in E. destruct (visible V w) eqn:Vw; [discriminate|].
      cbn [assign]. destruct (n =? m)%string; cbn [filter snd visible]; rewrite Vw; [exact E|apply IH, E].
    - unfold optimised in *. rewrite filter_app, map_app, E. reflexivity. }
  apply P. reflexivity.
Qed.
Print Assumptions C81_refuted.

(** C81: if the model was instantiated before loading, exactly the same variables are optimised as
    before. *)
Theorem C81_partial : forall (V : Type) (saved s : store V),
  NoDup (names V saved) -> NoDup (names V s) ->
  forall n, In n (optimised V (load V s (save V saved))) <-> In n (optimised V s).
Proof.
  intros V saved s N Ns n.
  assert (O : forall t : store V, NoDup (names V t) -> In n (optimised V t) <->
            exists v, lookup V t n = Some v /\ visible V v = true).
  { clear. intros t Nt. unfold optimised. rewrite in_map_iff. split.
    - intros ([m v] & <- & I). apply filter_In in I. cbn [snd fst] in *. destruct I as [I Vv].
      exists v. split; [|exact Vv]. induction t as [|[k w] t IH]; [destruct I|].
      inversion_clear Nt. cbn [lookup]. destruct I as [I|I].
      + injection I as -> ->. rewrite String.eqb_refl. reflexivity.
      + destruct (String.eqb_spec m k) as [->|_]; [|apply IH; assumption].
        exfalso. apply H. apply (in_map fst) in I. exact I.
    - intros (v & L & Vv). exists (n, v). split; [reflexivity|]. apply filter_In. split; [|exact Vv].
      clear Nt. induction t as [|[k w] t IH]; [discriminate|]. cbn [lookup] in L.
      destruct (String.eqb_spec n k) as [->|_]; [injection L as ->; left; reflexivity|right; apply IH, L]. }
  destruct (C69_save_load V saved s N) as (L & L0 & _ & Nd).
  rewrite (O _ (Nd Ns)), (O _ Ns).
  destruct (lookup V saved n) as [v|] eqn:E.
  - rewrite (L n v E). destruct (lookup V s n) as [w|].
    + split; intros (x & X & Y); injection X as <-; eexists; (split; [reflexivity|]); assumption.
    + split; intros (x & X & Y); [injection X as <-|]; discriminate.
  - rewrite (L0 n E). reflexivity.
Qed.
Print Assumptions C81_partial.

(** A concrete run: the random state counts the draws, every draw is the state.  With 4000
    iterations, 2000 steps are burn-in, and samples are stored every fourth step after that; the
    optimiser, which changes nothing but the hyperparameters, respects excluded names. *)
Definition count_u (h : nat) (d : unit) (s z : Z) : Z * Z := ((s + 1)%Z, (s + 1)%Z).
Definition count_q (q : unit) (s : Z) : Z * Z := ((s + 1)%Z, (s + 1)%Z).
Definition toy_adam (names : list excluded) (n : Z) (d : unit)
    (x : vars nat Z Z unit unit * Z * Z * Z) : vars nat Z Z unit unit * Z * Z * Z :=
  let '(v, s, u, z) := x in
  (Vars _ _ _ _ _ 7%nat (vq_u _ _ _ _ _ v) (vq_z _ _ _ _ _ v) (vs_u _ _ _ _ _ v) (vs_z _ _ _ _ _ v), s, u, z).
Definition toy_vars : vars nat Z Z unit unit :=
  Vars _ _ _ _ _ 0%nat (fun _ => tt) (fun _ => tt) (fun _ => None) (fun _ => None).
Example C48_witness :
  adam_respects_names nat Z Z Z unit unit unit toy_adam /\
  exists fitted us,
    fit_structured nat Z Z Z unit unit unit count_u count_u count_q count_q toy_adam
      toy_vars 2%nat tt 0%Z 4000%Z (HBool true) 5%Z = Ok fitted /\
    hypers _ _ _ _ _ fitted = 7%nat /\
    vs_u _ _ _ _ _ fitted 2%nat = Some us /\ vs_u _ _ _ _ _ fitted 1%nat = None /\
    firstn 3 us = [4003; 4011; 4019]%Z /\ nth_error us 999%nat = Some 11995%Z /\ nth_error us 1000%nat = None.
Proof.
  split.
  - intros names n d v s u z. repeat split.
  - do 2 eexists. split; [vm_compute; reflexivity|]. repeat split; vm_compute; reflexivity.
Qed.
