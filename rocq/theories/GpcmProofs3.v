(** The entries of the tensors that the GPCM computes. *)
From Coq Require Import Reals ZArith List Bool String Lia Lra Psatz.
From Coquelicot Require Import Coquelicot.
From Verif Require Import Py ExpPolyModel ListFacts ExpPolyProofs ExpPolySpec ExpPolyProofs2.
From Verif Require Import Gauss Gauss2 Gauss3 ExpPolyIntModel ExpPolyIntProofs ExpPolyIntSpec ExpPolyIntProofs2 ExpPolyIntProofs3.
From Verif Require Import GpcmModel GpcmSpec GpcmProofs GpcmProofs2.
Import ListNotations.
Local Open Scope string_scope.
Local Open Scope R_scope.

Lemma kwargs_in l x v : kwargs l x = Some v -> kwargs l x = Some (match kwargs l x with Some r => r | None => 0 end).
Proof. now intros ->. Qed.

(** The environment that a list of keyword arguments describes. *)
Definition kenv (l : list (string * R)) : string -> R :=
  fun x => match kwargs l x with Some r => r | None => 0 end.

Ltac names_in H :=
  simpl in H; repeat (destruct H as [H|H]; [try (subst; (reflexivity || congruence))|]); try (now destruct H).

Section Proofs.
Context (N : numdom) (so : setorder) (ofR : R -> N).
Hypothesis val_ofR : forall r, val (ofR r) = r.

Lemma moderate_pos x : moderate x -> 0 < x.
Proof. intros [H _]. pose proof e12_pos. lra. Qed.

Lemma i_hx_spec m t1 t2 v :
  moderate (g_alpha m) ->
  compute_i_hx N so ofR m (Some t1) (Some t2) = Ok v ->
  is_integral (fun tau => kh m (t1 - tau) (t2 - tau)) m_infty (upto m (Rmin t1 t2)) v.
Proof.
  intros M H. unfold compute_i_hx in H.
  apply bind_Ok in H. destruct H as [e [He H]]. apply bind_Ok in H. destruct H as [up [Hu H]].
  set (kw := [("t1", t1); ("t2", t2); ("min_t1_t2", Rmin t1 t2)]) in *.
  pose proof (moderate_pos _ M) as P. destruct M as [M1 M2].
  pose proof (k_h_is N so ofR val_ofR m _ _ _ He) as E. simpl fv in E.
  eapply is_integral_ext; [|eapply (box_tau N so ofR val_ofR m e _ _ _ "min_t1_t2" (kwargs kw) (kenv kw) v
     (-2 * g_alpha m) (2 * g_alpha m * (t1 + t2)) (- g_alpha m * (t1 ^ 2 + t2 ^ 2) - g_gamma m * (t1 - t2) ^ 2) up E Hu)]; auto.
  - intros tau. cbv beta. unfold kh. f_equal. f_equal. simpl den. unfold kenv, kwargs, kw, rebind. simpl. ring.
  - discriminate.
  - intros y Hy Ny. names_in Hy.
  - intros z. simpl den. unfold kenv, kwargs, kw, rebind. simpl. ring.
  - lra.
  - pose proof e12_ge. split; lra.
Qed.

Lemma I_ux_entry m e up t1 t2 u1 u2 v :
  moderate_filter m ->
  I_ux_expq N so ofR m = Ok e -> upper_limit N so m "min_t1_t2" = Ok up ->
  integrate_box N so ofR e [("tau", LInf, up)]
    (kwargs [("t1", t1); ("t2", t2); ("t_u_1", u1); ("t_u_2", u2); ("min_t1_t2", Rmin t1 t2)]) = Ok v ->
  is_integral (fun tau => kh m (t1 - tau) u1 * kh m u2 (t2 - tau)) m_infty (upto m (Rmin t1 t2)) v.
Proof.
  intros [M M'] He Hu H.
  apply bind_Ok in He. destruct He as [e1 [He1 He]]. apply bind_Ok in He. destruct He as [e2 [He2 He]].
  set (kw := [("t1", t1); ("t2", t2); ("t_u_1", u1); ("t_u_2", u2); ("min_t1_t2", Rmin t1 t2)]) in *.
  pose proof (moderate_pos _ M) as P. pose proof (moderate_pos _ M') as P'. destruct M as [M1 M2], M' as [M1' M2'].
  pose proof (mul_is N so _ _ _ _ _ _ _ _ _ (k_h_is N so ofR val_ofR m _ _ _ He1) (k_h_is N so ofR val_ofR m _ _ _ He2) He) as E.
  simpl fv in E.
  set (al := g_alpha m) in *. set (ga := g_gamma m) in *.
  eapply is_integral_ext; [|eapply (box_tau N so ofR val_ofR m e _ _ _ "min_t1_t2" (kwargs kw) (kenv kw) v
     (-2 * (al + ga)) (2 * (al + ga) * (t1 + t2) - 2 * ga * (u1 + u2))
     (- al * (t1 ^ 2 + u1 ^ 2) - ga * (t1 - u1) ^ 2 - al * (u2 ^ 2 + t2 ^ 2) - ga * (u2 - t2) ^ 2) up E Hu)]; auto.
  - intros tau. cbv beta. unfold kh. fold al ga. rewrite exp_plus. simpl den. unfold kenv, kwargs, kw, rebind. simpl.
    set (X := exp _). set (Y := exp _). set (X' := exp _). set (Y' := exp _).
    replace X with X'; [replace Y with Y'|]; [ring| |]; unfold X, X', Y, Y'; f_equal; ring.
  - discriminate.
  - intros y Hy Ny. names_in Hy.
  - intros z. simpl den. unfold kenv, kwargs, kw, rebind. simpl. ring.
  - lra.
  - pose proof e12_ge. split; lra.
Qed.

Lemma I_uz_entry m e1 e2 e up t u z v :
  moderate_model m ->
  k_h N so ofR m (ESub (v_ N "t") (v_ N "tau")) (v_ N "t_u") = Ok e1 ->
  k_xs N so ofR m (v_ N "tau") (v_ N "t_z") = Ok e2 ->
  exppoly_mul N so e1 e2 = Ok e -> upper_limit N so m "t" = Ok up ->
  integrate_box N so ofR e [("tau", LInf, up)] (kwargs [("t", t); ("t_u", u); ("t_z", z)]) = Ok v ->
  is_integral (fun tau => kh m (t - tau) u * kxs m tau z) m_infty (upto m t) v.
Proof.
  intros [[M M'] O] He1 He2 He Hu H.
  set (kw := [("t", t); ("t_u", u); ("t_z", z)]) in *.
  pose proof (moderate_pos _ M) as P. pose proof (moderate_pos _ M') as P'. pose proof (moderate_pos _ O) as PO.
  destruct M as [M1 M2], M' as [M1' M2'], O as [O1 O2].
  pose proof (mul_is N so _ _ _ _ _ _ _ _ _ (k_h_is N so ofR val_ofR m _ _ _ He1) (k_xs_is N so ofR val_ofR m _ _ _ He2) He) as E.
  simpl fv in E.
  set (al := g_alpha m) in *. set (ga := g_gamma m) in *. set (om := g_omega m) in *.
  eapply is_integral_ext; [|eapply (box_tau N so ofR val_ofR m e _ _ _ "t" (kwargs kw) (kenv kw) v
     (- (al + ga + om)) (2 * (al + ga) * t - 2 * ga * u + 2 * om * z)
     (- al * (t ^ 2 + u ^ 2) - ga * (t - u) ^ 2 - om * z ^ 2) up E Hu)]; auto.
  - intros tau. cbv beta. unfold kh, kxs. fold al ga om. rewrite exp_plus. simpl den. unfold kenv, kwargs, kw, rebind. simpl.
    set (X := exp _). set (Y := exp _). set (X' := exp _). set (Y' := exp _).
    replace X with X'; [replace Y with Y'|]; [ring| |]; unfold X, X', Y, Y'; f_equal; ring.
  - discriminate.
  - intros y Hy Ny. names_in Hy.
  - intros w. simpl den. unfold kenv, kwargs, kw, rebind. simpl. ring.
  - lra.
  - pose proof e12_ge. split; lra.
Qed.

Lemma I_hz_entry m e1 e2 e3 e12 e up1 up2 t z1 z2 v :
  moderate_model m ->
  k_h N so ofR m (ESub (v_ N "t") (v_ N "tau1")) (ESub (v_ N "t") (v_ N "tau2")) = Ok e1 ->
  k_xs N so ofR m (v_ N "tau1") (v_ N "t_z_1") = Ok e2 ->
  k_xs N so ofR m (v_ N "t_z_2") (v_ N "tau2") = Ok e3 ->
  exppoly_mul N so e1 e2 = Ok e12 -> exppoly_mul N so e12 e3 = Ok e ->
  upper_limit N so m "t" = Ok up1 -> upper_limit N so m "t" = Ok up2 ->
  integrate_box N so ofR e [("tau1", LInf, up1); ("tau2", LInf, up2)] (kwargs [("t", t); ("t_z_1", z1); ("t_z_2", z2)]) = Ok v ->
  is_integral2 (fun tau1 tau2 => kh m (t - tau1) (t - tau2) * kxs m tau1 z1 * kxs m z2 tau2)
    m_infty (upto m t) m_infty (upto m t) v.
Proof.
  intros [[M M'] O] He1 He2 He3 He12 He Hu1 Hu2 H.
  set (kw := [("t", t); ("t_z_1", z1); ("t_z_2", z2)]) in *.
  pose proof (moderate_pos _ M) as P. pose proof (moderate_pos _ M') as P'. pose proof (moderate_pos _ O) as PO.
  destruct M as [M1 M2], M' as [M1' M2'], O as [O1 O2].
  pose proof (mul_is N so _ _ _ _ _ _ _ _ _
    (mul_is N so _ _ _ _ _ _ _ _ _ (k_h_is N so ofR val_ofR m _ _ _ He1) (k_xs_is N so ofR val_ofR m _ _ _ He2) He12)
    (k_xs_is N so ofR val_ofR m _ _ _ He3) He) as E.
  simpl fv in E.
  set (al := g_alpha m) in *. set (ga := g_gamma m) in *. set (om := g_omega m) in *.
  pose proof e12_ge as EG. pose proof e12_pos as EP.
  set (p := al + om). set (q := al + 2 * ga + om).
  assert (Hp : / 10 ^ 12 <= p <= 2 * 10 ^ 12) by (unfold p; lra).
  assert (Hq : / 10 ^ 12 <= q <= 2 * 10 ^ 12) by (unfold q; lra).
  assert (Pp : 0 < p) by lra. assert (Pq : 0 < q) by lra.
  assert (Hdet : 4 * (- (al + ga + om)) * (- (al + ga + om)) - (2 * ga) ^ 2 = 4 * p * q) by (unfold p, q; ring).
  assert (Ppq : 0 < p * q) by nra.
  assert (Hs : al + ga + om = (p + q) / 2) by (unfold p, q; field).
  assert (R1 : -2 * - (al + ga + om) / (4 * p * q) = / 4 * (/ p + / q)).
  { rewrite Hs. field. lra. }
  assert (Ip : / (2 * 10 ^ 12) <= / p) by (apply Rinv_le_contravar; lra).
  assert (Iq : / (2 * 10 ^ 12) <= / q) by (apply Rinv_le_contravar; lra).
  assert (I2 : / (2 * 10 ^ 12) = / 2 * / 10 ^ 12) by (rewrite Rinv_mult_distr; lra).
  rewrite I2 in Ip, Iq.
  set (E12 := 10 ^ 12) in *. set (ep := / E12) in *.
  assert (F26 : / (E12 * (E12 * 100)) = ep * (ep * / 100)).
  { unfold ep. rewrite Rinv_mult_distr by nra. f_equal. rewrite Rinv_mult_distr by nra. reflexivity. }
  assert (Rlow : / 4 * ep <= / 4 * (/ p + / q)) by lra.
  assert (Epe : ep <= / 1000000) by (unfold ep; apply Rinv_le_contravar; lra).
  eapply is_integral2_ext; [|eapply (box_tau12 N so ofR val_ofR m e _ _ _ (kwargs kw) (kenv kw) v
     (- (al + ga + om)) (2 * ga) (- (al + ga + om)) up1 up2
     (fun env => 2 * al * env "t" + 2 * om * env "t_z_1")
     (fun env => 2 * al * env "t" + 2 * om * env "t_z_2")
     (fun env => - 2 * al * env "t" ^ 2 - om * env "t_z_1" ^ 2 - om * env "t_z_2" ^ 2) E Hu1 Hu2 H)].
  - intros tau1 tau2. cbv beta. unfold kh, kxs. fold al ga om. rewrite !exp_plus. simpl den. unfold kenv, kwargs, kw, rebind. simpl.
    set (X := exp _). set (Y := exp _). set (Z := exp _). set (X' := exp _). set (Y' := exp _). set (Z' := exp _).
    replace X with X'; [replace Y with Y'; [replace Z with Z'|]|]; [ring| | |]; unfold X, X', Y, Y', Z, Z'; f_equal; ring.
  - intros y Hy Ny Ny'. names_in Hy.
  - intros _. reflexivity.
  - intros env w1 w2. simpl den. unfold rebind. simpl. ring.
  - intros env x w [->| ->]; repeat split; reflexivity.
  - lra.
  - lra.
  - rewrite Hdet. nra.
  - unfold E12 in *. lra.
  - unfold E12 in *. lra.
  - rewrite Hdet. apply floor_ok. fold E12. rewrite F26. nra.
  - rewrite Hdet, R1. apply floor_ok. fold E12. rewrite F26. nra.
  - rewrite Hdet, R1. apply floor_ok. fold E12. rewrite F26. nra.
  - rewrite Hdet, R1. apply floor_ok. fold E12. rewrite F26. set (r := / 4 * (/ p + / q)) in *. nra.
Qed.

Lemma K_z_entry m e1 e2 e t1 t2 v :
  moderate (g_omega m) ->
  k_xs N so ofR m (v_ N "t1") (v_ N "tau") = Ok e1 ->
  k_xs N so ofR m (v_ N "tau") (v_ N "t2") = Ok e2 ->
  exppoly_mul N so e1 e2 = Ok e ->
  integrate N so ofR e ["tau"] (kwargs [("t1", t1); ("t2", t2)]) = Ok v ->
  is_integral (fun tau => kxs m t1 tau * kxs m tau t2) m_infty p_infty v.
Proof.
  intros O He1 He2 He H.
  set (kw := [("t1", t1); ("t2", t2)]) in *.
  pose proof (moderate_pos _ O) as PO. destruct O as [O1 O2].
  pose proof (mul_is N so _ _ _ _ _ _ _ _ _ (k_xs_is N so ofR val_ofR m _ _ _ He1) (k_xs_is N so ofR val_ofR m _ _ _ He2) He) as E.
  simpl fv in E. set (om := g_omega m) in *.
  unfold integrate, integrate_names in H. simpl in H.
  apply bind_Ok in H. destruct H as [e' [H1 H]]. apply bind_Ok in H1. destruct H1 as [e0 [H1 H2]]. injection H2 as <-.
  eapply is_integral_ext; [|apply (integrate1_eval N so ofR val_ofR e e0 _ _ _ "tau" (kwargs kw) (kenv kw) v
     (-2 * om) (2 * om * (t1 + t2)) (- om * (t1 ^ 2 + t2 ^ 2)) E H1 H)].
  - intros tau. cbv beta. unfold kxs. fold om. rewrite exp_plus. simpl den. unfold kenv, kwargs, kw, rebind. simpl.
    set (X := exp _). set (Y := exp _). set (X' := exp _). set (Y' := exp _).
    replace X with X'; [replace Y with Y'|]; [ring| |]; unfold X, X', Y, Y'; f_equal; ring.
  - intros y Hy Ny. names_in Hy.
  - intros w. simpl den. unfold kenv, kwargs, kw, rebind. simpl. ring.
  - lra.
  - pose proof e12_ge. lra.
Qed.

Lemma K_u_entry m e t1 t2 v :
  k_h N so ofR m (v_ N "t1") (v_ N "t2") = Ok e ->
  exppoly_eval N (kwargs [("t1", t1); ("t2", t2)]) e = Ok v -> v = kh m t1 t2.
Proof.
  intros He H. set (kw := [("t1", t1); ("t2", t2)]) in *.
  destruct (k_h_is N so ofR val_ofR m _ _ _ He) as [W [Nn [Vc Vh]]]. simpl fv in Nn.
  rewrite (eval_bound N e (kwargs kw) (kenv kw) v); auto.
  - rewrite Vc, Vh. unfold kh. f_equal. f_equal. simpl den. unfold kenv, kwargs, kw. simpl. ring.
  - intros n Hn. apply Nn in Hn. names_in Hn.
Qed.
End Proofs.
