(** Proofs about the constructor of the GPCM. *)
From Coq Require Import Reals ZArith List Bool String Lia Lra Psatz.
From Coquelicot Require Import Coquelicot.
From Verif Require Import Py ExpPolyModel ListFacts ExpPolyProofs ExpPolySpec ExpPolyIntModel ExpPolyIntProofs.
From Verif Require Import GpcmModel GpcmSpec.
Import ListNotations.
Local Open Scope R_scope.

(** * Helpers *)
Lemma iceil_spec x : x <= IZR (iceil x) < x + 1.
Proof.
  unfold iceil. pose proof (archimed (- x)) as [A B]. rewrite minus_IZR. lra.
Qed.

Lemma iceil_unique x n : IZR n - 1 < x <= IZR n -> iceil x = n.
Proof.
  intros [A B]. pose proof (iceil_spec x) as [C D].
  assert (IZR (iceil x) < IZR n + 1) by lra. assert (IZR n < IZR (iceil x) + 1) by lra.
  rewrite <- plus_IZR in *. apply lt_IZR in H, H0. lia.
Qed.

Lemma iceil_mono x n : x <= IZR n -> (iceil x <= n)%Z.
Proof.
  intros H. pose proof (iceil_spec x) as [_ D].
  assert (IZR (iceil x) < IZR (n + 1)) by (rewrite plus_IZR; lra). apply lt_IZR in H0. lia.
Qed.

Lemma iceil_pos x : 0 < x -> (1 <= iceil x)%Z.
Proof. intros H. pose proof (iceil_spec x) as [C _]. assert (0 < IZR (iceil x)) by lra. apply lt_IZR in H0. lia. Qed.

Lemma linspace_grid a b n l :
  linspace a b n = Ok l ->
  (0 <= n)%Z /\ grid l a ((b - a) / (IZR n - 1)) (Z.to_nat n) /\ List.length l = Z.to_nat n.
Proof.
  unfold linspace. destruct (n <? 0)%Z eqn:E; [discriminate|]. apply Z.ltb_ge in E. intros H. injection H as <-.
  assert (L : List.length (map (fun i => if Nat.eqb i 0 then a else a + INR i * ((b - a) / (IZR n - 1))) (seq 0 (Z.to_nat n))) = Z.to_nat n).
  { now rewrite map_length, seq_length. }
  split; [auto|]. split; [|auto]. split; [auto|]. intros i x Hx.
  assert (Hi : (i < Z.to_nat n)%nat). { rewrite <- L. apply nth_error_Some. congruence. }
  rewrite nth_error_map in Hx. rewrite (nth_error_nth' _ 0%nat) in Hx by (rewrite seq_length; auto).
  rewrite seq_nth in Hx by auto. simpl in Hx. injection Hx as <-.
  destruct (Nat.eqb_spec i 0) as [->|]; [simpl; ring|reflexivity].
Qed.

Lemma grid_In l a d n i : grid l a d n -> (i < n)%nat -> In (a + INR i * d) l.
Proof.
  intros [L H] Hi. destruct (nth_error l i) as [x|] eqn:E.
  - rewrite <- (H i x E). eapply nth_error_In; eauto.
  - apply nth_error_None in E. lia.
Qed.

Lemma grid_mem l a d n x : grid l a d n -> In x l -> exists i, (i < n)%nat /\ x = a + INR i * d.
Proof.
  intros [L H] Hx. apply In_nth_error in Hx. destruct Hx as [i Hi]. exists i. split; [|now apply H].
  rewrite <- L. apply nth_error_Some. congruence.
Qed.

Lemma INR_Z n : (0 <= n)%Z -> INR (Z.to_nat n) = IZR n.
Proof. intros H. rewrite INR_IZR_INZ, Z2Nat.id; auto. Qed.

(** * Conversions *)
Lemma scale_to_factor_pos s : 0 < s -> exists f, scale_to_factor s = Ok f /\ f = PI / (4 * s ^ 2) /\ 0 < f.
Proof.
  intros H. unfold scale_to_factor. rewrite rdiv_ok by nra. eexists. split; [reflexivity|].
  pose proof PI_RGT_0. split; [field; lra|]. apply Rdiv_lt_0_compat; nra.
Qed.

Lemma factor_to_scale_pos f : 0 < f -> exists s, factor_to_scale f = Ok s /\ 0 < s /\ 4 * f * s ^ 2 = PI.
Proof.
  intros H. unfold factor_to_scale. destruct (Rlt_dec f 0); [lra|]. pose proof PI_RGT_0.
  assert (Q : 0 < 4 * f / PI) by (apply Rdiv_lt_0_compat; lra).
  assert (Sq : 0 < sqrt (4 * f / PI)) by now apply sqrt_lt_R0.
  rewrite rdiv_ok by lra. eexists. split; [reflexivity|]. split.
  - apply Rdiv_lt_0_compat; lra.
  - replace ((1 / sqrt (4 * f / PI)) ^ 2) with (1 / (sqrt (4 * f / PI) * sqrt (4 * f / PI))) by (field; lra).
    rewrite sqrt_sqrt by lra. field. lra.
Qed.

Lemma sq_inj x y : 0 < x -> 0 < y -> x ^ 2 = y ^ 2 -> x = y.
Proof. intros Hx Hy E. apply Rsqr_inj; unfold Rsqr; lra. Qed.

Lemma factor_scale_unique f s t : 0 < f -> 0 < s -> factor_to_scale f = Ok t -> 4 * f * s ^ 2 = PI -> t = s.
Proof.
  intros Hf Hs H E. destruct (factor_to_scale_pos f Hf) as [t' [H' [Pt Et]]]. rewrite H in H'. injection H' as <-.
  apply sq_inj; auto. apply Rmult_eq_reg_l with (4 * f); lra.
Qed.

(** * Unit power *)
Lemma quartic_root_sq x r : 0 <= x -> quartic_root x = Ok r -> r ^ 2 = sqrt x /\ 0 <= r.
Proof.
  intros Hx. unfold quartic_root. destruct (Rlt_dec x 0); [lra|]. intros H. injection H as <-. split; [|apply sqrt_pos].
  simpl. rewrite Rmult_1_r. apply sqrt_sqrt, sqrt_pos.
Qed.

Lemma sqrt_prod_1 x y : 0 < x -> 0 < y -> x * y = 1 -> sqrt x * sqrt y = 1.
Proof. intros A B C. rewrite <- sqrt_mult by lra. rewrite C. apply sqrt_1. Qed.

(** * Inversion of the constructor *)
Lemma new_gpcm_inv a m : new_gpcm a = Ok m ->
  g_causal m = a_causal a
  /\ init_alpha a = Ok (g_alpha m)
  /\ init_alpha_t a (g_alpha m) = Ok (g_alpha_t m)
  /\ init_gamma a (g_alpha m) = Ok (g_gamma m)
  /\ init_t_u a (g_alpha m) = Ok (g_n_u m, g_t_u m)
  /\ (exists nz0, init_t_z a = Ok nz0 /\ extend_t_z a (g_alpha m) nz0 = Ok (g_n_z m, g_t_z m))
  /\ init_omega a (g_t_z m) = Ok (g_omega m)
  /\ quartic_root (2 * g_omega m / PI) = Ok (g_omega_t m)
  /\ (exists fs, factor_to_scale (g_alpha m) = Ok fs /\ g_extent m = 4 * fs).
Proof.
  unfold new_gpcm. intros H.
  apply bind_Ok in H. destruct H as [alpha [H1 H]]. apply bind_Ok in H. destruct H as [alpha_t [H2 H]].
  apply bind_Ok in H. destruct H as [gamma [H3 H]]. apply bind_Ok in H. destruct H as [fs [H4 H]].
  apply bind_Ok in H. destruct H as [[n_u t_u] [H5 H]]. apply bind_Ok in H. destruct H as [nz0 [H6 H]].
  apply bind_Ok in H. destruct H as [[n_z t_z] [H7 H]]. apply bind_Ok in H. destruct H as [omega [H8 H]].
  apply bind_Ok in H. destruct H as [omega_t [H9 H]]. injection H as <-. simpl.
  repeat split; eauto.
Qed.

(** * The grids *)

(** The number of inducing points for the filter that the user asks for, or that the
    constructor chooses: four per wiggle within the window, capped. *)
Definition requested_n_u (a : gpcm_args) (r : Z) : Prop :=
  match a_n_u a with
  | Some n => r = n
  | None => exists w s, a_window a = Some w /\ a_scale a = Some s /\ s <> 0
             /\ r = Z.min (a_n_u_cap a) (iceil (4 * w / s))
  end.

Definition requested_n_z (a : gpcm_args) (lo hi : R) (r : Z) : Prop :=
  match a_n_z a with
  | Some n => r = n
  | None => exists s, a_scale a = Some s /\ s <> 0 /\ r = Z.min (a_n_z_cap a) (iceil (2 * (hi - lo) / s))
  end.

Lemma rdiv_inv x y z : rdiv x y = Ok z -> y <> 0 /\ z = x / y.
Proof. unfold rdiv. destruct (Reqb y 0) eqn:E; [discriminate|]. intros H. injection H as <-. split; auto.
  intros ->. unfold Reqb in E. destruct (Req_EM_T 0 0); congruence. Qed.

Lemma given_inv {A} (o : option A) x : given o = Ok x -> o = Some x.
Proof. destruct o; simpl; [|discriminate]. intros H. now injection H as <-. Qed.

Lemma cap_min n c : (if (n >? c)%Z then c else n) = Z.min c n.
Proof. destruct (Z.gtb_spec n c); lia. Qed.

Lemma t_u_inv a alpha n_u t_u :
  0 < alpha -> a_t_u a = None -> init_t_u a alpha = Ok (n_u, t_u) ->
  exists r L, requested_n_u a r /\ 0 < L /\ alpha * L ^ 2 = PI
    /\ if a_causal a
       then n_u = (r + 2)%Z /\ r <> 1%Z /\ (0 <= n_u)%Z
            /\ grid t_u (- 2 * (L / (IZR r - 1))) ((L - - 2 * (L / (IZR r - 1))) / (IZR n_u - 1)) (Z.to_nat n_u)
       else n_u = (if Z.even r then r + 1 else r)%Z /\ (0 <= n_u)%Z
            /\ grid t_u (- L) ((L - - L) / (IZR n_u - 1)) (Z.to_nat n_u).
Proof.
  intros Ha N H. unfold init_t_u in H. rewrite N in H.
  apply bind_Ok in H. destruct H as [fs [Hf H]].
  destruct (factor_to_scale_pos alpha Ha) as [fs' [Hf' [Pf Ef]]]. rewrite Hf in Hf'. injection Hf' as <-.
  apply bind_Ok in H. destruct H as [r [Hr H]].
  exists r, (2 * fs). split; [|split; [lra|split; [nra|]]].
  - unfold requested_n_u. destruct (a_n_u a) as [n|]; [now injection Hr|].
    apply bind_Ok in Hr. destruct Hr as [w [Hw Hr]]. apply bind_Ok in Hr. destruct Hr as [s [Hs Hr]].
    apply bind_Ok in Hr. destruct Hr as [q [Hq Hr]]. apply given_inv in Hw, Hs. apply rdiv_inv in Hq. destruct Hq as [Ns ->].
    injection Hr as <-. do 2 eexists. repeat split; [eauto|eauto|auto|]. rewrite cap_min.
    replace (2 * 2 * w / s) with (4 * w / s) by (field; auto). reflexivity.
  - destruct (a_causal a).
    + apply bind_Ok in H. destruct H as [d [Hd H]]. apply rdiv_inv in Hd. destruct Hd as [Nd ->].
      apply bind_Ok in H. destruct H as [l [Hl H]]. injection H as <- <-.
      destruct (linspace_grid _ _ _ _ Hl) as [P [G _]]. repeat split; auto; try apply G.
      intros ->. apply Nd. ring.
    + apply bind_Ok in H. destruct H as [l [Hl H]]. injection H as <- <-.
      replace (if (r mod 2 =? 0)%Z then (r + 1)%Z else r) with (if Z.even r then (r + 1)%Z else r) in *.
      2:{ rewrite Zmod_even. now destruct (Z.even r). }
      destruct (linspace_grid _ _ _ _ Hl) as [P [G _]]. repeat split; auto; apply G.
Qed.

Lemma t_z_inv a n_z t_z :
  a_t_z a = None -> init_t_z a = Ok (n_z, t_z) ->
  exists t lo hi, a_t a = Some t /\ lmin t = Ok lo /\ lmax t = Ok hi
    /\ requested_n_z a lo hi n_z /\ (0 <= n_z)%Z /\ grid t_z lo ((hi - lo) / (IZR n_z - 1)) (Z.to_nat n_z).
Proof.
  intros N H. unfold init_t_z in H. rewrite N in H.
  apply bind_Ok in H. destruct H as [t [Ht H]]. apply given_inv in Ht.
  apply bind_Ok in H. destruct H as [n [Hn H]].
  apply bind_Ok in H. destruct H as [lo [Hlo H]]. apply bind_Ok in H. destruct H as [hi [Hhi H]].
  apply bind_Ok in H. destruct H as [l [Hl H]]. injection H as -> ->.
  exists t, lo, hi. destruct (linspace_grid _ _ _ _ Hl) as [P [G _]]. repeat split; auto; try apply G.
  unfold requested_n_z. destruct (a_n_z a) as [n|]; [now injection Hn|].
  rewrite Hhi, Hlo in Hn. simpl in Hn.
  apply bind_Ok in Hn. destruct Hn as [s [Hs Hn]]. apply given_inv in Hs.
  apply bind_Ok in Hn. destruct Hn as [q [Hq Hn]]. apply rdiv_inv in Hq. destruct Hq as [Ns ->].
  injection Hn as <-. exists s. rewrite cap_min. auto.
Qed.

(** [lmin] and [lmax] are the minimum and the maximum. *)
Lemma fold_min l x : let r := fold_left Rmin l x in In r (x :: l) /\ forall y, In y (x :: l) -> r <= y.
Proof.
  revert x. induction l as [|z l IH]; intros x; simpl.
  - split; auto. intros y [->|[]]. lra.
  - destruct (IH (Rmin x z)) as [I L]. split.
    + destruct I as [<-|I]; [|auto]. unfold Rmin. destruct (Rle_dec x z); auto.
    + intros y [<-|[<-|Hy]].
      * eapply Rle_trans; [apply L; now left|apply Rmin_l].
      * eapply Rle_trans; [apply L; now left|apply Rmin_r].
      * apply L. now right.
Qed.

Lemma fold_max l x : let r := fold_left Rmax l x in In r (x :: l) /\ forall y, In y (x :: l) -> y <= r.
Proof.
  revert x. induction l as [|z l IH]; intros x; simpl.
  - split; auto. intros y [->|[]]. lra.
  - destruct (IH (Rmax x z)) as [I L]. split.
    + destruct I as [<-|I]; [|auto]. unfold Rmax. destruct (Rle_dec x z); auto.
    + intros y [<-|[<-|Hy]].
      * eapply Rle_trans; [apply Rmax_l|apply L; now left].
      * eapply Rle_trans; [apply Rmax_r|apply L; now left].
      * apply L. now right.
Qed.

Lemma lmin_spec l r : lmin l = Ok r -> In r l /\ forall y, In y l -> r <= y.
Proof. destruct l as [|x l]; [discriminate|]. simpl. intros H. injection H as <-. apply fold_min. Qed.
Lemma lmax_spec l r : lmax l = Ok r -> In r l /\ forall y, In y l -> y <= r.
Proof. destruct l as [|x l]; [discriminate|]. simpl. intros H. injection H as <-. apply fold_max. Qed.

Lemma extend_inv a alpha nz0 t lo hi n_z t_z :
  0 < alpha -> a_extend_t_z a = true -> a_t a = Some t -> lmin t = Ok lo -> lmax t = Ok hi ->
  extend_t_z a alpha nz0 = Ok (n_z, t_z) ->
  exists L k, 0 < L /\ alpha * L ^ 2 = PI
    /\ let d := (hi - lo) / (IZR (fst nz0) - 1) in
       d <> 0 /\ L / d <= IZR k < L / d + 1 /\ (0 <= n_z)%Z
       /\ if a_causal a
          then n_z = (fst nz0 + k)%Z /\ grid t_z (lo - IZR k * d) ((hi - (lo - IZR k * d)) / (IZR n_z - 1)) (Z.to_nat n_z)
          else n_z = (fst nz0 + 2 * k)%Z
               /\ grid t_z (lo - IZR k * d) (((hi + IZR k * d) - (lo - IZR k * d)) / (IZR n_z - 1)) (Z.to_nat n_z).
Proof.
  intros Ha E Et Elo Ehi H. unfold extend_t_z in H. rewrite E in H.
  apply bind_Ok in H. destruct H as [fs [Hf H]].
  destruct (factor_to_scale_pos alpha Ha) as [fs' [Hf' [Pf Ef]]]. rewrite Hf in Hf'. injection Hf' as <-.
  apply bind_Ok in H. destruct H as [t' [Ht H]]. apply given_inv in Ht. rewrite Et in Ht. injection Ht as <-.
  rewrite Ehi, Elo in H. cbn [bind] in H.
  apply bind_Ok in H. destruct H as [d [Hd H]]. apply rdiv_inv in Hd. destruct Hd as [Nd ->].
  apply bind_Ok in H. destruct H as [q [Hq H]]. apply rdiv_inv in Hq. destruct Hq as [Nq ->].
  exists (2 * fs), (iceil (2 * fs / ((hi - lo) / (IZR (fst nz0) - 1)))).
  split; [lra|]. split; [nra|]. cbv zeta. split; [exact Nq|].
  split; [apply iceil_spec|].
  destruct (a_causal a).
  - apply bind_Ok in H. destruct H as [l [Hl H]]. injection H as <- <-.
    destruct (linspace_grid _ _ _ _ Hl) as [P [G _]]. repeat split; auto; apply G.
  - apply bind_Ok in H. destruct H as [l [Hl H]]. injection H as <- <-.
    destruct (linspace_grid _ _ _ _ Hl) as [P [G _]]. repeat split; auto; apply G.
Qed.
