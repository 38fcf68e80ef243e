(** The constructor of a non-causal GPCM for data in reverse. *)
From Coq Require Import Reals ZArith List Bool Lia Lra.
From Verif Require Import Py ExpPolyModel ExpPolyIntModel ListFacts GpcmModel OrderSpec ReorderSpec ReverseSpec.
Import ListNotations.
Local Open Scope R_scope.

Lemma fold_back d (f g : R -> R -> R) l x : (forall a b, g (d - a) (d - b) = d - f a b) ->
  fold_left g (map (back d) l) (d - x) = d - fold_left f l x.
Proof. intros H. revert x. induction l as [|y l IH]; intros x; simpl; auto. unfold back at 2. now rewrite H, IH. Qed.
Lemma lmin_back d l : lmin (map (back d) l) = bind (lmax l) (fun x => Ok (d - x)).
Proof.
  destruct l as [|x l]; simpl; auto. unfold back at 2. f_equal. apply fold_back. intros a b. unfold Rmin, Rmax.
  destruct (Rle_dec (d - a) (d - b)), (Rle_dec a b); lra.
Qed.
Lemma lmax_back d l : lmax (map (back d) l) = bind (lmin l) (fun x => Ok (d - x)).
Proof.
  destruct l as [|x l]; simpl; auto. unfold back at 2. f_equal. apply fold_back. intros a b. unfold Rmin, Rmax.
  destruct (Rle_dec (d - a) (d - b)), (Rle_dec a b); lra.
Qed.

Lemma linspace_length a b n l : linspace a b n = Ok l -> List.length l = Z.to_nat n.
Proof. unfold linspace. destruct (n <? 0)%Z; [discriminate|]. intros E. injection E as <-. now rewrite map_length, seq_length. Qed.
Lemma linspace_back d a b n l : linspace a b n = Ok l -> List.length l <> 1%nat -> linspace (d - b) (d - a) n = Ok (rev (map (back d) l)).
Proof.
  intros H L. pose proof (linspace_length _ _ _ _ H) as Ln. unfold linspace in *. destruct (n <? 0)%Z eqn:En; [discriminate|]. apply Z.ltb_ge in En.
  injection H as H. f_equal. apply (nth_ext _ _ 0 0).
  - rewrite rev_length, !map_length, seq_length. lia.
  - rewrite map_length, seq_length. intros i Hi.
    rewrite rev_nth by (rewrite map_length; lia). rewrite map_length.
    rewrite <- Ln in Hi. set (k := List.length l) in *.
    assert (G : forall x y j, (j < k)%nat -> nth j (map (fun i => if Nat.eqb i 0 then x else x + INR i * ((y - x) / (IZR n - 1))) (seq 0 (Z.to_nat n))) 0 = x + INR j * ((y - x) / (IZR n - 1))).
    { intros x y j Hj. set (F := fun i => if Nat.eqb i 0 then x else x + INR i * ((y - x) / (IZR n - 1))).
      rewrite (nth_indep _ 0 (F 0%nat)) by (rewrite map_length, seq_length; lia). rewrite map_nth, seq_nth by lia. unfold F. simpl.
      destruct j; simpl; [ring|reflexivity]. }
    rewrite G by lia. rewrite (nth_indep _ 0 (back d 0)) by (rewrite map_length; fold k; lia). rewrite map_nth, <- H, G by lia.
    unfold back. replace (k - S i)%nat with (k - 1 - i)%nat by lia. rewrite !minus_INR by lia.
    assert (Ek : IZR n = INR k) by (rewrite Ln, INR_IZR_INZ, Z2Nat.id; auto). rewrite Ek. simpl (INR 1).
    assert (INR k - 1 <> 0). { replace 1 with (INR 1) by reflexivity. apply Rminus_eq_contra. apply not_INR. lia. }
    field. auto.
Qed.

Lemma linspace_step {A} a b n l (F : R -> res A) : linspace a b n = Ok l ->
  bind (item l 1) (fun z1 => bind (item l 0) (fun z0 => F (z1 - z0))) =
  match Z.to_nat n with O | S O => Err IndexError | _ => F ((b - a) / (IZR n - 1)) end.
Proof.
  unfold linspace. destruct (n <? 0)%Z; [discriminate|]. intros E. injection E as <-.
  destruct (Z.to_nat n) as [|[|k]]; simpl; auto. f_equal. ring.
Qed.

Section Init.
Context (d : R) (a : gpcm_args) (t : list R).
Hypothesis (Nc : a_causal a = false) (Nu : a_t_u a = None) (Nz : a_t_z a = None) (Et : a_t a = Some t).
Notation a' := (with_t a (map (back d) t)).

Lemma init_t_u_lin al nu : init_t_u a al = Ok nu -> exists x n, linspace (- x) x n = Ok (snd nu).
Proof.
  unfold init_t_u. rewrite Nu, Nc. intros H. destruct (factor_to_scale al) as [fs|]; [|discriminate]. cbn [bind] in H. cbv zeta in H.
  destruct (match a_n_u a with Some n => Ok n | None => _ end) as [n|]; [|discriminate]. cbn [bind] in H.
  destruct (linspace (- (2 * fs)) (2 * fs) _) eqn:E; [|discriminate]. cbn [bind] in H. injection H as <-. simpl. eauto.
Qed.

Lemma init_t_z_back nz : init_t_z a = Ok nz -> exists lo hi n l', lmin t = Ok lo /\ lmax t = Ok hi /\ linspace lo hi n = Ok (snd nz) /\ fst nz = n
  /\ init_t_z a' = Ok (n, l') /\ linspace (d - hi) (d - lo) n = Ok l'.
Proof.
  unfold init_t_z. simpl. rewrite Nz, Et. simpl. rewrite lmin_back, lmax_back. intros H.
  destruct (lmax t) as [hi|]; [|destruct (a_n_z a), (lmin t); discriminate]. destruct (lmin t) as [lo|]; [|destruct (a_n_z a); discriminate]. simpl in *.
  exists lo, hi.
  assert (L : forall n l, linspace lo hi n = Ok l -> exists l', linspace (d - hi) (d - lo) n = Ok l').
  { intros n l. unfold linspace. destruct (n <? 0)%Z; [discriminate|]. eauto. }
  destruct (a_n_z a) as [n|]; simpl in *.
  - destruct (linspace lo hi n) as [l|] eqn:E; [|discriminate]. injection H as <-. simpl. destruct (L _ _ E) as [l' El]. exists n, l'. rewrite El. cbn [bind]. repeat split; auto.
  - destruct (a_scale a) as [s|]; [|discriminate]. simpl in *. replace (d - lo - (d - hi)) with (hi - lo) by ring.
    destruct (rdiv (2 * (hi - lo)) s) as [q|]; [|discriminate]. simpl in *.
    destruct (linspace lo hi _) as [l|] eqn:E; [|discriminate]. injection H as <-. simpl. destruct (L _ _ E) as [l' El].
    do 2 eexists. rewrite El. cbn [bind]. repeat split; auto.
Qed.

Lemma extend_back al nz0 nz : init_t_z a = Ok nz0 -> extend_t_z a al nz0 = Ok nz -> List.length (snd nz) <> 1%nat ->
  exists x y n, linspace x y n = Ok (snd nz) /\ fst nz = n /\ bind (init_t_z a') (extend_t_z a' al) = Ok (n, rev (map (back d) (snd nz))).
Proof.
  intros H0 H L. destruct (init_t_z_back nz0 H0) as (lo & hi & n & l' & E1 & E2 & E3 & E4 & E5 & E6).
  rewrite E5. cbn [bind]. unfold extend_t_z in *. cbn [with_t a_t a_causal a_extend_t_z]. cbv zeta in *. destruct (a_extend_t_z a).
  - destruct (factor_to_scale al) as [fs|]; [|discriminate]. rewrite Et in H. cbv zeta in *. cbn [bind given fst snd with_t a_t a_causal a_extend_t_z] in *. rewrite lmin_back, lmax_back.
    rewrite E1, E2 in *. cbn [bind given fst snd with_t a_t a_causal a_extend_t_z] in *. rewrite E4 in H. replace (d - lo - (d - hi)) with (hi - lo) by ring.
    destruct (rdiv (hi - lo) (IZR n - 1)) as [dt|]; [|discriminate]. cbn [bind given fst snd with_t a_t a_causal a_extend_t_z] in *.
    destruct (rdiv (2 * fs) dt) as [q|]; [|discriminate]. cbn [bind given fst snd with_t a_t a_causal a_extend_t_z] in *. rewrite Nc in *.
    destruct (linspace (lo - IZR (iceil q) * dt) (hi + IZR (iceil q) * dt) (n + 2 * iceil q)) as [l|] eqn:E; cbn [bind] in H; [|discriminate H].
    injection H as <-. cbn [bind given fst snd with_t a_t a_causal a_extend_t_z] in *. exists (lo - IZR (iceil q) * dt), (hi + IZR (iceil q) * dt), (n + 2 * iceil q)%Z. split; auto. split; auto.
    replace (d - hi - IZR (iceil q) * dt) with (d - (hi + IZR (iceil q) * dt)) by ring.
    replace (d - lo + IZR (iceil q) * dt) with (d - (lo - IZR (iceil q) * dt)) by ring.
    now rewrite (linspace_back d _ _ _ _ E).
  - injection H as <-. exists lo, hi, n. split; auto. split; auto. rewrite (linspace_back d _ _ _ _ E3 L) in E6. now injection E6 as <-.
Qed.

Lemma new_back m : new_gpcm a = Ok m -> List.length (g_t_u m) <> 1%nat -> List.length (g_t_z m) <> 1%nat ->
  new_gpcm a' = Ok (mirrored d m) /\ rev (map (back 0) (g_t_u m)) = g_t_u m.
Proof.
  unfold new_gpcm. intros H.
  destruct (init_alpha a) as [al|] eqn:Ea; [|discriminate]. cbn [bind] in H.
  destruct (init_alpha_t a al) as [at_|] eqn:Eat; [|discriminate]. cbn [bind] in H.
  destruct (init_gamma a al) as [ga|] eqn:Eg; [|discriminate]. cbn [bind] in H.
  destruct (factor_to_scale al) as [fs|] eqn:Ef; [|discriminate]. cbn [bind] in H. cbv zeta in H.
  destruct (init_t_u a al) as [nu|] eqn:Eu; [|discriminate]. cbn [bind] in H.
  destruct (init_t_z a) as [nz0|] eqn:Ez0; [|discriminate]. cbn [bind] in H.
  destruct (extend_t_z a al nz0) as [nz|] eqn:Ez; [|discriminate]. cbn [bind] in H.
  destruct (init_omega a (snd nz)) as [om|] eqn:Eo; [|discriminate]. cbn [bind] in H.
  destruct (quartic_root (2 * om / PI)) as [omt|] eqn:Eq; [|discriminate]. cbn [bind] in H. injection H as <-.
  cbn [g_t_u g_t_z]. intros Lu Lz.
  destruct (init_t_u_lin al nu Eu) as (x & n & Lx). pose proof (linspace_back 0 _ _ _ _ Lx Lu) as Sx.
  rewrite Rminus_0_l, Rminus_0_l, Ropp_involutive, Lx in Sx. injection Sx as Sx.
  destruct (extend_back al nz0 nz Ez0 Ez Lz) as (p & q & k & E1 & E2 & E3).
  assert (Eo' : init_omega a' (rev (map (back d) (snd nz))) = Ok om).
  { rewrite <- Eo. unfold init_omega. simpl. destruct (a_omega a); auto.
    rewrite (linspace_step _ _ _ _ (fun s => scale_to_factor (/ 2 * s)) (linspace_back d _ _ _ _ E1 Lz)).
    rewrite (linspace_step _ _ _ _ (fun s => scale_to_factor (/ 2 * s)) E1).
    now replace (d - p - (d - q)) with (q - p) by ring. }
  split; [|auto].
  change (init_alpha a') with (init_alpha a). rewrite Ea. cbn [bind].
  change (init_alpha_t a' al) with (init_alpha_t a al). rewrite Eat. cbn [bind].
  change (init_gamma a' al) with (init_gamma a al). rewrite Eg. cbn [bind]. rewrite Ef. cbn [bind].
  change (init_t_u a' al) with (init_t_u a al). rewrite Eu. cbn [bind].
  destruct (init_t_z a') as [w|]; [|discriminate E3]. cbn [bind] in *. rewrite E3. cbn [bind fst snd]. rewrite Eo'. cbn [bind]. rewrite Eq. cbn [bind].
  unfold mirrored, with_points. simpl. now rewrite E2, <- Sx.
Qed.
End Init.

(** The automatic models have more than one inducing point. *)
From Verif Require Import GpcmInit GpcmProps GpcmGood.
Lemma default_many w s data m : new_gpcm (default_args false w s data) = Ok m -> 0 < s -> s < 4 * w -> List.length (g_t_u m) <> 1%nat.
Proof.
  intros H Ps Sw. destruct (new_gpcm_inv _ m H) as [_ [_ [_ [_ [Hu _]]]]]. unfold init_t_u in Hu.
  cbn [default_args a_t_u a_n_u a_window a_scale a_n_u_cap a_causal given bind] in Hu.
  destruct (factor_to_scale (g_alpha m)) as [fs|]; [|discriminate]. cbn [bind] in Hu. cbv zeta in Hu.
  unfold rdiv in Hu. destruct (Reqb s 0) eqn:E; [discriminate|]. cbn [bind] in Hu.
  assert (Q : (2 <= iceil (2 * 2 * w / s))%Z). { apply iceil_ge2. apply Rmult_lt_reg_r with s; auto. field_simplify; lra. }
  set (n := if (_ >? 300)%Z then _ else _) in Hu. assert (Hn : (2 <= n)%Z) by (unfold n; destruct (_ >? 300)%Z; lia).
  set (k := if (n mod 2 =? 0)%Z then _ else _) in Hu. assert (Hk : (2 <= k)%Z) by (unfold k; destruct (n mod 2 =? 0)%Z; lia).
  destruct (linspace _ _ k) as [l|] eqn:L; [|discriminate]. cbn [bind] in Hu. injection Hu as _ Hu. rewrite <- Hu, (linspace_length _ _ _ _ L). lia.
Qed.
