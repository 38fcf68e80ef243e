(** Proofs about the integrals of the GPCM: two-dimensional integrals and the tensors. *)
From Coq Require Import Reals ZArith List Bool String Lia Lra Psatz.
From Coquelicot Require Import Coquelicot.
From Verif Require Import Py ExpPolyModel ListFacts ExpPolyProofs ExpPolySpec ExpPolyProofs2.
From Verif Require Import Gauss Gauss2 Gauss3 Fubini ExpPolyIntModel ExpPolyIntProofs ExpPolyIntSpec ExpPolyIntProofs2 ExpPolyIntProofs3.
From Verif Require Import GpcmModel GpcmSpec GpcmProofs.
Import ListNotations.
Local Open Scope string_scope.
Local Open Scope R_scope.

Section Proofs.
Context (N : numdom) (so : setorder) (ofR : R -> N).
Hypothesis val_ofR : forall r, val (ofR r) = r.

Lemma eval_bound (e : exppoly N) m env v :
  (forall n, In n (pnames N (epoly e)) -> m n = Some (env n)) ->
  exppoly_eval N m e = Ok v -> v = val (econst e) * exp (pval N env (epoly e)).
Proof.
  intros Hm Hv. unfold exppoly_eval in Hv. rewrite (poly_eval_bound N m (epoly e)) in Hv.
  - simpl in Hv. injection Hv as <-. do 2 f_equal. apply pval_ext. intros n Hn. unfold env_of. now rewrite (Hm n Hn).
  - intros n Hn. rewrite (Hm n Hn). discriminate.
Qed.

(** Both variables of [compute_I_hz], over the plane or the quadrant. *)
Lemma box_tau12 mo e c h names m env v a11 a12 a22 up1 up2 (b1 b2 d : (string -> R) -> R) :
  ep_is N e c h names ->
  upper_limit N so mo "t" = Ok up1 -> upper_limit N so mo "t" = Ok up2 ->
  integrate_box N so ofR e [("tau1", LInf, up1); ("tau2", LInf, up2)] m = Ok v ->
  (forall y, In y names -> y <> "tau1" -> y <> "tau2" -> m y = Some (env y)) ->
  (g_causal mo = true -> m "t" = Some (env "t")) ->
  (forall env z1 z2, h (rebind (rebind env "tau1" z1) "tau2" z2)
      = a11 * z1 ^ 2 + a12 * z1 * z2 + a22 * z2 ^ 2 + b1 env * z1 + b2 env * z2 + d env) ->
  (forall env x z, x = "tau1" \/ x = "tau2" ->
      b1 (rebind env x z) = b1 env /\ b2 (rebind env x z) = b2 env /\ d (rebind env x z) = d env) ->
  let det := 4 * a11 * a22 - a12 ^ 2 in
  a11 < 0 -> a22 < 0 -> 0 < det ->
  - a11 <= 10 ^ 12 * 100 -> - a22 <= 10 ^ 12 * 100 ->
  / 10 ^ 30 <= det -> / 10 ^ 30 <= -2 * a22 / det -> / 10 ^ 30 <= -2 * a11 / det ->
  / 10 ^ 30 <= (-2 * a22 / det) * (-2 * a11 / det) ->
  is_integral2 (fun z1 z2 => c * exp (h (rebind (rebind env "tau1" z1) "tau2" z2)))
     m_infty (upto mo (env "t")) m_infty (upto mo (env "t")) v.
Proof.
  intros E U1 U2 H Hm Hmt Hq Hb det Ha1 Ha2 Hd F1 F2 G0 G1 G2 G3.
  assert (Nxy : "tau1" <> "tau2") by discriminate.
  rewrite U1 in U2. injection U2 as <-.
  pose proof E as E'. destruct E' as [W [Nn [Vc Vh]]].
  unfold upper_limit, upto in *. destruct (g_causal mo).
  - destruct (lim_var_upper N so "t" up1 ["tau1"; "tau2"] env U1) as [o [-> [HU No]]].
    { intros [A|[A|[]]]; discriminate. }
    eapply is_integral2_ext; [|eapply (box2_spec N so ofR e "tau1" "tau2" LInf o LInf o m env a11 a12 a22 (b1 env) (b2 env) (d env) v m_infty (env "t") m_infty (env "t"))]; auto.
    + intros z1 z2. cbv beta. now rewrite Vh, Vc.
    + reflexivity.
    + reflexivity.
    + intros w Hw1 Hw2 [A|[A|[A|[A|A]]]]; try discriminate; [now apply Hm; auto| |]; apply No in A; subst; auto.
    + intros z1 z2. now rewrite Vh.
  - injection U1 as <-. rewrite box_infinite_first in H. simpl in H.
    apply bind_Ok in H. destruct H as [e' [H1 H]]. cbn in H.
    set (q := fun env z1 => a11 * z1 ^ 2 + (a12 * env "tau2" + b1 env) * z1 + (a22 * env "tau2" ^ 2 + b2 env * env "tau2" + d env)).
    assert (Hq1 : forall env z, h (rebind env "tau1" z) = q env z).
    { intros env' z.
      assert (X : h (rebind env' "tau1" z) = h (rebind (rebind env' "tau1" z) "tau2" (env' "tau2"))).
      { rewrite <- !Vh. apply pval_ext. intros n _. unfold rebind.
        destruct (String.eqb_spec n "tau2"); subst; reflexivity. }
      rewrite X, Hq. unfold q. ring. }
    set (a' := a22 - a12 ^ 2 / (4 * a11)).
    assert (Ea' : a' = det / (4 * a11)) by (unfold a', det; field; lra).
    assert (Ha' : a' < 0).
    { rewrite Ea'. apply Ropp_lt_cancel. replace (- (det / (4 * a11))) with (det / (4 * - a11)) by (field; lra).
      rewrite Ropp_0. apply Rdiv_lt_0_compat; lra. }
    destruct (integrate_names_spec N so ofR val_ofR ["tau1"; "tau2"] e e' W H1
       (fun env => (d env - b1 env ^ 2 / (4 * a11)) - (b2 env - a12 * b1 env / (2 * a11)) ^ 2 / (4 * a'))) as [Ve' [W' [N' I]]].
    { simpl. exists a11, (fun env => a12 * env "tau2" + b1 env), (fun env => a22 * env "tau2" ^ 2 + b2 env * env "tau2" + d env).
      split; [lra|]. split; [now apply floor_PI_div|]. split.
      { intros env' z. now rewrite Vh, Hq1. }
      exists a', (fun env => b2 env - a12 * b1 env / (2 * a11)), (fun env => d env - b1 env ^ 2 / (4 * a11)).
      split; [lra|]. split.
      { apply floor_PI_div; [lra|]. unfold a'.
        assert (0 <= a12 ^ 2 / (4 * - a11)). { apply Rdiv_le_0_compat; [apply pow2_ge_0|lra]. }
        replace (a12 ^ 2 / (4 * a11)) with (- (a12 ^ 2 / (4 * - a11))) by (field; lra). lra. }
      split.
      { intros env' z. cbv beta. destruct (Hb env' "tau2" z (or_intror eq_refl)) as [-> [-> ->]].
        change (rebind env' "tau2" z "tau2") with z. unfold a'. field. lra. }
      intros env'. reflexivity. }
    assert (Ev : v = val (econst e') * exp (pval N env (epoly e'))).
    { eapply eval_bound; [|exact H]. intros n Hn. destruct (N' n Hn) as [A A']. apply Hm; auto.
      - intros ->. apply A'. simpl. auto.
      - intros ->. apply A'. simpl. auto. }
    destruct (I env) as [g [Hg [g2 [Hg2 E2]]]].
    assert (I2 : is_integral2 (fun z2 z1 => c * exp (h (rebind (rebind env "tau2" z2) "tau1" z1))) m_infty p_infty m_infty p_infty v).
    { exists (fun z2 => g (rebind env "tau2" z2)). split.
      - intros z2. eapply is_integral_ext; [|apply Hg]. intros z1. cbv beta. now rewrite Vc, Vh.
      - rewrite Ev, E2. apply Hg2. }
    pose proof (is_integral2_scal c _ _ _ _ _ _ (gauss_plane a22 a12 a11 (b2 env) (b1 env) (d env) Ha1 ltac:(unfold det in Hd; lra))) as J.
    pose proof (is_integral2_scal c _ _ _ _ _ _ (gauss_plane a11 a12 a22 (b1 env) (b2 env) (d env) Ha2 ltac:(unfold det in Hd; lra))) as J'.
    assert (Ev' : v = c * plane_val a11 a12 a22 (b1 env) (b2 env) (d env)).
    { rewrite <- plane_val_sym. eapply is_integral2_unique; [exact I2|].
      eapply is_integral2_ext; [|exact J]. intros z2 z1. cbv beta. f_equal. f_equal.
      assert (X : h (rebind (rebind env "tau2" z2) "tau1" z1) = h (rebind (rebind env "tau1" z1) "tau2" z2)).
      { rewrite <- !Vh. apply pval_ext. intros n _. rewrite rebind_comm; auto. }
      rewrite X, Hq. ring. }
    rewrite Ev'. eapply is_integral2_ext; [|exact J']. intros z1 z2. cbv beta. now rewrite Hq.
Qed.

(** * Tensors *)

Lemma mapM_nth {A B} (f : A -> res B) l r :
  mapM f l = Ok r ->
  List.length r = List.length l
  /\ forall i y, nth_error r i = Some y -> exists x, nth_error l i = Some x /\ f x = Ok y.
Proof.
  intros H. apply mapM_Ok in H. split.
  - induction H; simpl; congruence.
  - induction H as [|x y l r E H IH]; intros [|i] z Hz; simpl in *; try discriminate.
    + injection Hz as <-. eauto.
    + apply IH. exact Hz.
Qed.

Lemma mapM2_at {A B C} (f : A -> B -> res C) la lb r :
  mapM (fun a => mapM (f a) lb) la = Ok r ->
  shape2 r (List.length la) (List.length lb)
  /\ forall i j y, at2 r i j = Some y ->
       exists a b, nth_error la i = Some a /\ nth_error lb j = Some b /\ f a b = Ok y.
Proof.
  intros H. split.
  - split; [apply (mapM_nth _ _ _ H)|]. apply mapM_Ok in H. apply Forall_forall. intros x Hx.
    destruct (Forall2_In_r _ _ _ _ H Hx) as [a [_ E]]. apply (mapM_nth _ _ _ E).
  - intros i j y Hy. unfold at2 in Hy. destruct (nth_error r i) as [x|] eqn:E; [|discriminate].
    destruct (proj2 (mapM_nth _ _ _ H) i x E) as [a [Ha Hx]].
    destruct (proj2 (mapM_nth _ _ _ Hx) j y Hy) as [b [Hb Hf]]. eauto.
Qed.

Lemma mapM3_at {A B C D} (f : A -> B -> C -> res D) la lb lc r :
  mapM (fun a => mapM (fun b => mapM (f a b) lc) lb) la = Ok r ->
  shape3 r (List.length la) (List.length lb) (List.length lc)
  /\ forall i j k y, at3 r i j k = Some y ->
       exists a b c, nth_error la i = Some a /\ nth_error lb j = Some b /\ nth_error lc k = Some c /\ f a b c = Ok y.
Proof.
  intros H. split.
  - split; [apply (mapM_nth _ _ _ H)|]. apply mapM_Ok in H. apply Forall_forall. intros x Hx.
    destruct (Forall2_In_r _ _ _ _ H Hx) as [a [_ E]]. apply (mapM2_at _ _ _ _ E).
  - intros i j k y Hy. unfold at3 in Hy. destruct (nth_error r i) as [x|] eqn:E; [|discriminate].
    destruct (proj2 (mapM_nth _ _ _ H) i x E) as [a [Ha Hx]].
    destruct (proj2 (mapM2_at _ _ _ _ Hx) j k y Hy) as [b [c [Hb [Hc Hf]]]]. exists a, b, c. auto.
Qed.

Lemma mapM4_at {A B C D E} (f : A -> B -> C -> D -> res E) la lb lc ld r :
  mapM (fun a => mapM (fun b => mapM (fun c => mapM (f a b c) ld) lc) lb) la = Ok r ->
  shape4 r (List.length la) (List.length lb) (List.length lc) (List.length ld)
  /\ forall i j k l y, at4 r i j k l = Some y ->
       exists a b c d, nth_error la i = Some a /\ nth_error lb j = Some b /\ nth_error lc k = Some c
          /\ nth_error ld l = Some d /\ f a b c d = Ok y.
Proof.
  intros H. split.
  - split; [apply (mapM_nth _ _ _ H)|]. apply mapM_Ok in H. apply Forall_forall. intros x Hx.
    destruct (Forall2_In_r _ _ _ _ H Hx) as [a [_ Ha]]. apply (mapM3_at _ _ _ _ _ Ha).
  - intros i j k l y Hy. unfold at4 in Hy. destruct (nth_error r i) as [x|] eqn:Ex; [|discriminate].
    destruct (proj2 (mapM_nth _ _ _ H) i x Ex) as [a [Ha Hx]].
    destruct (proj2 (mapM3_at _ _ _ _ _ Hx) j k l y Hy) as [b [c [d [Hb [Hc [Hd Hf]]]]]]. exists a, b, c, d. auto.
Qed.

End Proofs.
