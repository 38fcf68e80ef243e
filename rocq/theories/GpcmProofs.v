(** Proofs about the integrals of the GPCM. *)
From Coq Require Import Reals ZArith List Bool String Lia Lra Psatz.
From Coquelicot Require Import Coquelicot.
From Verif Require Import Py ExpPolyModel ListFacts ExpPolyProofs ExpPolySpec ExpPolyProofs2.
From Verif Require Import Gauss Gauss2 Gauss3 ExpPolyIntModel ExpPolyIntProofs ExpPolyIntSpec ExpPolyIntProofs2 ExpPolyIntProofs3.
From Verif Require Import GpcmModel GpcmSpec.
Import ListNotations.
Local Open Scope string_scope.
Local Open Scope R_scope.

(** * Numerical floors *)
Lemma e30 : 10 ^ 30 = 10 ^ 12 * (10 ^ 12 * 10 ^ 6).
Proof. rewrite <- !pow_add. reflexivity. Qed.
Lemma e12_ge : 1000000 <= 10 ^ 12.
Proof. replace 1000000 with (10 ^ 6) by ring. apply Rle_pow; [lra|lia]. Qed.
Lemma e6 : 10 ^ 6 = 1000000. Proof. ring. Qed.

(** Anything above 1e-26 is above the floor. *)
Lemma floor_ok x : / (10 ^ 12 * (10 ^ 12 * 100)) <= x -> / 10 ^ 30 <= x.
Proof.
  pose proof e12_ge. intros H0. rewrite e30, e6. set (E := 10 ^ 12) in *.
  eapply Rle_trans; [|exact H0].
  apply Rinv_le_contravar; [nra|]. nra.
Qed.

Lemma floor_PI_div x : x < 0 -> - x <= 10 ^ 12 * 100 -> / 10 ^ 30 <= - PI / x.
Proof.
  intros Hx H. apply floor_ok. pose proof e12_ge. set (E := 10 ^ 12) in *.
  replace (- PI / x) with (PI * / - x) by (field; lra).
  assert (PI > 2) by (pose proof PI2_1; lra).
  apply Rle_trans with (1 * / (E * 100)).
  - rewrite Rmult_1_l. apply Rinv_le_contravar; nra.
  - apply Rmult_le_compat; try lra.
    + left. apply Rinv_0_lt_compat. nra.
    + apply Rinv_le_contravar; lra.
Qed.

Lemma floor_small x : / 10 ^ 12 <= x -> / 10 ^ 30 <= x.
Proof.
  intros H. apply floor_ok. eapply Rle_trans; [|exact H]. pose proof e12_ge.
  apply Rinv_le_contravar; nra.
Qed.

Lemma e12_pos : 0 < / 10 ^ 12.
Proof. apply Rinv_0_lt_compat. apply pow_lt. lra. Qed.

Section Proofs.
Context (N : numdom) (so : setorder) (ofR : R -> N).
Hypothesis val_ofR : forall r, val (ofR r) = r.

(** * Values of the exponentiated polynomials *)

Definition ep_is (e : exppoly N) (c : R) (h : (string -> R) -> R) (names : list string) : Prop :=
  wf_poly N (epoly e) /\ (forall x, In x (pnames N (epoly e)) -> In x names)
  /\ val (econst e) = c /\ forall env, pval N env (epoly e) = h env.

Lemma mk_is c o e (p : pexpr N) :
  run N so p = Ok o -> mkExpPoly N c o = Ok e -> ep_is e (val c) (fun env => den N env p) (fv N p).
Proof.
  intros H1 H2. destruct (run_spec N so p o H1) as [W [Nn V]].
  destruct o as [d|q]; simpl in *; [discriminate|]. injection H2 as <-.
  split; [exact W|]. split; [exact Nn|]. split; [reflexivity|exact V].
Qed.

Lemma k_h_is m p q e : k_h N so ofR m p q = Ok e ->
  ep_is e (g_alpha_t m ^ 2)
    (fun env => - g_alpha m * (den N env p ^ 2 + den N env q ^ 2) - g_gamma m * (den N env p - den N env q) ^ 2)
    (fv N p ++ fv N q).
Proof.
  intros H. unfold k_h in H. apply bind_Ok in H. destruct H as [o [H1 H2]].
  destruct (mk_is _ _ _ _ H1 H2) as [W [Nn [Vc Vp]]]. split; [exact W|].
  split.
  { intros x Hx. apply Nn in Hx. simpl in Hx. rewrite !in_app_iff in *. tauto. }
  split; [now rewrite Vc, val_ofR|].
  intros env. rewrite Vp. simpl den. rewrite !val_ofR.
  change (Z.to_nat 2) with 2%nat. change (Pos.to_nat 2) with 2%nat. ring.
Qed.

Lemma k_xs_is m p q e : k_xs N so ofR m p q = Ok e ->
  ep_is e (g_omega_t m) (fun env => - g_omega m * (den N env p - den N env q) ^ 2) (fv N p ++ fv N q).
Proof.
  intros H. unfold k_xs in H. apply bind_Ok in H. destruct H as [o [H1 H2]].
  destruct (mk_is _ _ _ _ H1 H2) as [W [Nn [Vc Vp]]]. split; [exact W|].
  split.
  { intros x Hx. apply Nn in Hx. simpl in Hx. rewrite !in_app_iff in *. tauto. }
  split; [now rewrite Vc, val_ofR|].
  intros env. rewrite Vp. simpl den. rewrite !val_ofR.
  change (Z.to_nat 2) with 2%nat. change (Pos.to_nat 2) with 2%nat. ring.
Qed.

Lemma mul_is e1 e2 e c1 c2 h1 h2 n1 n2 :
  ep_is e1 c1 h1 n1 -> ep_is e2 c2 h2 n2 -> exppoly_mul N so e1 e2 = Ok e ->
  ep_is e (c1 * c2) (fun env => h1 env + h2 env) (n1 ++ n2).
Proof.
  intros [W1 [N1 [C1 V1]]] [W2 [N2 [C2 V2]]] H. unfold exppoly_mul in H.
  apply bind_Ok in H. destruct H as [p [H1 H2]]. injection H2 as <-. unfold ep_is; simpl.
  split; [eapply poly_add_wf; [| |exact H1]; auto|].
  split.
  { intros x Hx. apply in_app_iff. destruct (poly_add_names N so _ _ _ _ W1 W2 H1 Hx); [left|right]; auto. }
  split; [now rewrite val_mul, C1, C2|].
  intros env. rewrite (poly_add_val N so env _ _ _ W1 W2 H1). now rewrite V1, V2.
Qed.

Lemma ep_is_ext e c h h' n : ep_is e c h n -> (forall env, h env = h' env) -> ep_is e c h' n.
Proof. intros [A [B [D E]]] H. repeat split; auto; try apply A. intros env. now rewrite E. Qed.

(** * One-dimensional integrals *)

Lemma lim_var_inv x l : lim_var N so x = Ok l ->
  exists p, l = LObj (OPoly p) /\ built N p /\ (forall y, In y (pnames N p) -> y = x)
            /\ forall env, pval N env p = env x.
Proof.
  unfold lim_var, v_. simpl. intros H. apply bind_Ok in H. destruct H as [o [H1 H2]]. injection H2 as <-.
  apply bind_Ok in H1. destruct H1 as [p [H1 H2]]. injection H2 as <-. exists p.
  destruct (pvar_spec N so x 1 p H1) as [W [Nn [_ V]]].
  split; [reflexivity|]. split; [eapply built_var; eauto|]. split; [exact Nn|].
  intros env. rewrite V. change (Z.to_nat 1) with 1%nat. ring.
Qed.

Lemma lim_var_upper x l bound env :
  lim_var N so x = Ok l -> ~ In x bound ->
  exists o, l = LObj o /\ upper_is N bound env l (env x) /\ forall y, In y (onames N o) -> y = x.
Proof.
  intros H Hx. destruct (lim_var_inv x l H) as [p [-> [B [Nn V]]]]. exists (OPoly p).
  split; [reflexivity|]. split; [|exact Nn].
  split; [exact B|]. split.
  { intros y Hy. simpl. destruct (poly_is_function_of N p y) eqn:E; auto.
    apply poly_is_function_of_names in E. apply Nn in E. congruence. }
  exists (env x). split; [reflexivity|]. simpl. change (evalp N env p = Ok (env x)). now rewrite evalp_eq, V.
Qed.

Lemma integrate1_eval e e1 c h names x m env v a b d :
  ep_is e c h names ->
  integrate1 N so ofR e x = Ok e1 -> exppoly_eval N m e1 = Ok v ->
  (forall y, In y names -> y <> x -> m y = Some (env y)) ->
  (forall z, h (rebind env x z) = a * z ^ 2 + b * z + d) ->
  a < 0 -> - a <= 10 ^ 12 * 100 ->
  is_integral (fun z => c * exp (h (rebind env x z))) m_infty p_infty v.
Proof.
  intros [W [Nn [Vc Vh]]] H Hv Hm Hq Ha F.
  destruct (integrate1_inv N so ofR val_ofR e e1 x W H) as (a' & pa & pb & pc & _ & _ & _ & _ & _ & _ & W1 & N1 & _).
  destruct (integrate1_spec N so ofR val_ofR e e1 x env a b d W H) as [I _]; auto.
  { intros z. now rewrite Vh. }
  { now apply floor_PI_div. }
  assert (Ev : v = val (econst e1) * exp (pval N env (epoly e1))).
  { unfold exppoly_eval in Hv. rewrite (poly_eval_bound N m (epoly e1)) in Hv.
    - simpl in Hv. injection Hv as <-. do 2 f_equal. apply pval_ext. intros n Hn.
      destruct (N1 n Hn) as [A A']. unfold env_of. rewrite (Hm n (Nn n A)); auto.
    - intros n Hn. destruct (N1 n Hn) as [A A']. rewrite (Hm n (Nn n A)); [discriminate|]; auto. }
  subst v. eapply is_integral_ext; [|exact I]. intros z. cbv beta. now rewrite Vh, Vc.
Qed.

Lemma box_tau mo e c h names x m env v a b d up :
  ep_is e c h names ->
  upper_limit N so mo x = Ok up -> x <> "tau" ->
  integrate_box N so ofR e [("tau", LInf, up)] m = Ok v ->
  (forall y, In y names -> y <> "tau" -> m y = Some (env y)) ->
  (g_causal mo = true -> m x = Some (env x)) ->
  (forall z, h (rebind env "tau" z) = a * z ^ 2 + b * z + d) ->
  a < 0 -> / 10 ^ 12 <= - a <= 10 ^ 12 * 100 ->
  is_integral (fun z => c * exp (h (rebind env "tau" z))) m_infty (upto mo (env x)) v.
Proof.
  intros E U Hx H Hm Hmx Hq Ha [F1 F2]. unfold upper_limit, upto in *. destruct (g_causal mo).
  - pose proof E as E'. destruct E' as [W [Nn [Vc Vh]]].
    destruct (lim_var_upper x up ["tau"] env U) as [o [-> [HU No]]].
    { intros [A|[]]. congruence. }
    eapply is_integral_ext; [|eapply (box1_spec N so ofR e "tau" LInf o m env a b d v m_infty (env x))]; auto.
    + intros z. cbv beta. now rewrite Vh, Vc.
    + reflexivity.
    + intros y Hy [A|[A|A]]; [now apply Hm; auto|discriminate|]. apply No in A. subst. auto.
    + intros z. now rewrite Vh.
    + now apply floor_PI_div.
    + apply floor_small; auto.
  - injection U as <-. rewrite box_infinite_first in H. simpl in H.
    unfold integrate_names in H. simpl in H. apply bind_Ok in H. destruct H as [e' [H1 H]].
    apply bind_Ok in H1. destruct H1 as [e1 [H1 H2]]. injection H2 as <-.
    apply (integrate1_eval e e1 c h names "tau" m env v a b d); auto.
Qed.

End Proofs.
