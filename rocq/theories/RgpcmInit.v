(** The constructor of rgpcm.py. *)
From Coq Require Import Reals ZArith List Bool Lia Lra Psatz.
From Verif Require Import Py ListFacts ExpPolyModel ExpPolyIntModel ExpPolyIntProofs GpcmModel GpcmSpec GpcmInit GpcmProps.
From Verif Require Import RgpcmModel RgpcmSpec.
Import ListNotations.
Local Open Scope R_scope.

Lemma new_rgpcm_inv a m : new_rgpcm a = Ok m ->
  rinit_alpha a = Ok (r_alpha m)
  /\ rinit_alpha_t a (r_alpha m) = Ok (r_alpha_t m)
  /\ rinit_lam a = Ok (r_lam m)
  /\ rinit_t_u a (r_alpha m) = Ok (r_n_u m, r_t_u m)
  /\ rinit_a a (r_t_u m) = Ok (r_a m)
  /\ rinit_b a = Ok (r_b m)
  /\ rinit_m_max a (r_a m) (r_b m) = Ok (r_m_max m)
  /\ r_ms m = rinit_ms a (r_m_max m)
  /\ r_n_z m = Z.of_nat (List.length (r_ms m))
  /\ (exists gamma, rinit_gamma a (r_t_u m) = Ok gamma /\ rinit_gamma_t a gamma = Ok (r_gamma_t m)
        /\ r_gamma m = Rmin gamma (r_alpha m / (3 / 2))).
Proof.
  unfold new_rgpcm. intros H.
  apply bind_Ok in H. destruct H as [alpha [H1 H]]. apply bind_Ok in H. destruct H as [alpha_t [H2 H]].
  apply bind_Ok in H. destruct H as [lam [H3 H]]. apply bind_Ok in H. destruct H as [ex [H4 H]].
  apply bind_Ok in H. destruct H as [[n_u t_u] [H5 H]]. apply bind_Ok in H. destruct H as [lo [H6 H]].
  apply bind_Ok in H. destruct H as [hi [H7 H]]. apply bind_Ok in H. destruct H as [mm [H8 H]]. cbv zeta in H.
  apply bind_Ok in H. destruct H as [ga [H9 H]]. apply bind_Ok in H. destruct H as [gt [H10 H]]. injection H as <-. simpl.
  repeat split; eauto.
Qed.

(** The number of inducing points of the filter. *)
Definition rrequested_n_u (a : rgpcm_args) (r : Z) : Prop :=
  match ra_n_u a with
  | Some n => r = n
  | None => exists w s, ra_window a = Some w /\ ra_scale a = Some s /\ s <> 0
             /\ r = Z.min (ra_n_u_cap a) (iceil (4 * w / s))
  end.

Lemma rt_u_inv a alpha n_u t_u :
  0 < alpha -> ra_t_u a = None -> rinit_t_u a alpha = Ok (n_u, t_u) ->
  rrequested_n_u a n_u /\ (0 <= n_u)%Z /\ grid t_u 0 (PI / alpha / (IZR n_u - 1)) (Z.to_nat n_u).
Proof.
  intros Ha N H. unfold rinit_t_u in H. rewrite N in H. rewrite rdiv_ok in H by lra. cbn [bind] in H.
  apply bind_Ok in H. destruct H as [r [Hr H]]. apply bind_Ok in H. destruct H as [l [Hl H]]. injection H as <- <-.
  destruct (linspace_grid _ _ _ _ Hl) as [P [G _]]. rewrite Rminus_0_r in G. split; [|split; auto].
  unfold rrequested_n_u. destruct (ra_n_u a) as [n|]; [now injection Hr|].
  apply bind_Ok in Hr. destruct Hr as [w [Hw Hr]]. apply bind_Ok in Hr. destruct Hr as [s [Hs Hr]].
  apply bind_Ok in Hr. destruct Hr as [q [Hq Hr]]. apply given_inv in Hw, Hs. apply rdiv_inv in Hq. destruct Hq as [Ns ->].
  injection Hr as <-. do 2 eexists. repeat split; [eauto|eauto|auto|]. rewrite cap_min.
  replace (2 * 2 * w / s) with (4 * w / s) by (field; auto). reflexivity.
Qed.

Definition rasks_for_two (a : rgpcm_args) : Prop :=
  match ra_n_u a with
  | Some n => (2 <= n)%Z
  | None => (2 <= ra_n_u_cap a)%Z
            /\ exists w s, ra_window a = Some w /\ ra_scale a = Some s /\ 0 < s < 4 * w
  end.

Lemma four_windows w s : 0 < s < 4 * w -> 1 < 4 * w / s.
Proof. intros H. apply Rmult_lt_reg_r with s; [lra|]. unfold Rdiv. rewrite Rmult_assoc, Rinv_l by lra. lra. Qed.

Lemma rasks_requested a r : rasks_for_two a -> rrequested_n_u a r -> (2 <= r)%Z.
Proof.
  unfold rasks_for_two, rrequested_n_u. destruct (ra_n_u a) as [n|]; [intros A ->; exact A|].
  intros [C [w [s [Ew [Es Hs]]]]] [w' [s' [Ew' [Es' [_ ->]]]]].
  rewrite Ew in Ew'. rewrite Es in Es'. injection Ew' as <-. injection Es' as <-.
  pose proof (iceil_ge2 _ (four_windows w s Hs)). lia.
Qed.

Lemma np_sqrt_inv x y : np_sqrt x = Ok y -> 0 <= x /\ y = sqrt x.
Proof. unfold np_sqrt. destruct (Rlt_dec x 0); [discriminate|]. intros H. injection H as <-. split; [lra|auto]. Qed.

Lemma np_sqrt_ok x : 0 <= x -> np_sqrt x = Ok (sqrt x).
Proof. intros H. unfold np_sqrt. destruct (Rlt_dec x 0); [lra|auto]. Qed.

(** The number of points that the constructor chooses. *)
Definition auto_n_u (w s : R) : Z := Z.min 300 (iceil (4 * w / s)).

Lemma rdefault_returns w s t lo hi :
  0 < s < 4 * w -> lmin t = Ok lo -> lmax t = Ok hi ->
  let n := auto_n_u w s in
  let g := (IZR n - 1) / (2 * PI * w) in
  exists m, new_rgpcm (rdefault_args w s t) = Ok m
    /\ r_alpha m = 1 / w /\ r_lam m = 1 / s /\ r_alpha_t m = sqrt (2 * (1 / w))
    /\ r_n_u m = n /\ grid (r_t_u m) 0 (PI * w / (IZR n - 1)) (Z.to_nat n)
    /\ r_a m = lo - PI * w /\ r_b m = hi
    /\ r_m_max m = Z.min 150 (iceil ((1 / s) * (hi - (lo - PI * w))))
    /\ r_ms m = zrange (2 * r_m_max m + 1)
    /\ r_gamma_t m = sqrt (2 * g)
    /\ r_gamma m = Rmin g (2 / (3 * w)).
Proof.
  intros Hs Elo Ehi n g. pose proof PI_RGT_0 as Pi.
  assert (N2 : (2 <= n)%Z) by (unfold n, auto_n_u; pose proof (iceil_ge2 _ (four_windows w s Hs)); lia).
  apply IZR_le in N2 as N2'.
  unfold new_rgpcm, rinit_alpha, rinit_alpha_t, rinit_lam, rinit_t_u, rinit_a, rinit_b, rinit_m_max, rinit_ms, rinit_gamma, rinit_gamma_t.
  cbn [rdefault_args ra_noise ra_alpha ra_alpha_t ra_window ra_lam ra_gamma ra_gamma_t ra_a ra_b ra_m_max ra_m_max_cap ra_n_z ra_scale ra_ms ra_n_u ra_n_u_cap ra_t_u ra_t given bind].
  rewrite rdiv_ok by lra. cbn [bind].
  assert (Pw : 0 < 1 / w) by (apply Rdiv_lt_0_compat; lra).
  rewrite np_sqrt_ok by lra. cbn [bind]. rewrite rdiv_ok by lra. cbn [bind]. rewrite rdiv_ok by lra. cbn [bind].
  rewrite rdiv_ok by lra. cbn [bind]. rewrite rdiv_ok by lra. cbn [bind]. rewrite cap_min.
  replace (2 * 2 * w / s) with (4 * w / s) by (field; lra). change (Z.min 300 (iceil (4 * w / s))) with n.
  destruct (linspace_total 0 (PI / (1 / w)) n ltac:(lia)) as [l Hl]. rewrite Hl. cbn [bind snd fst].
  destruct (linspace_grid _ _ _ _ Hl) as [_ [G Len]]. rewrite Rminus_0_r in G.
  replace (PI / (1 / w)) with (PI * w) in G by (field; lra). set (d := PI * w / (IZR n - 1)) in *.
  assert (Pd : 0 < d) by (apply Rdiv_lt_0_compat; [nra|lra]).
  rewrite Elo, Ehi. cbn [bind].
  assert (exists mu, lmax l = Ok mu) as [mu Hmu].
  { destruct l; [simpl in Len; lia|]. simpl. eauto. }
  assert (mu = PI * w).
  { destruct (lmax_spec _ _ Hmu) as [I Mx]. destruct (grid_mem _ _ _ _ _ G I) as [i [Hi ->]].
    assert (EL : PI * w = 0 + INR (Z.to_nat n - 1) * d).
    { rewrite minus_INR by lia. rewrite INR_Z by lia. unfold d. simpl. field. lra. }
    pose proof (Mx _ (grid_In _ _ _ _ (Z.to_nat n - 1) G ltac:(lia))) as Le.
    assert (INR i <= INR (Z.to_nat n - 1)) by (apply le_INR; lia). nra. }
  subst mu. rewrite Hmu. cbn [bind]. rewrite cap_min.
  unfold item. rewrite (nth_grid _ _ _ _ 1%nat G) by lia. rewrite (nth_grid _ _ _ _ 0%nat G) by lia. cbn [bind].
  simpl INR. replace (2 * (0 + 1 * d - (0 + 0 * d))) with (2 * d) by ring. rewrite rdiv_ok by lra. cbn [bind].
  assert (Eg : 1 / (2 * d) = g) by (unfold d, g; field; lra). rewrite Eg.
  assert (Pg : 0 < g) by (unfold g; apply Rdiv_lt_0_compat; nra).
  rewrite np_sqrt_ok by lra. cbn [bind]. eexists. split; [reflexivity|].
  cbn [r_alpha r_lam r_alpha_t r_n_u r_t_u r_a r_b r_m_max r_ms r_gamma_t r_gamma].
  repeat split; auto; try apply G. f_equal. field. lra.
Qed.
