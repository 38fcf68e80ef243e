(** The integrals of the GPCM are returned whenever constants are tensors (or floats that never
    compare as the number zero), for every order in which sets are iterated. *)
From Coq Require Import Reals ZArith List Bool String Lia Lra Psatz.
From Coquelicot Require Import Coquelicot.
From Verif Require Import Py ExpPolyModel ListFacts ExpPolyProofs ExpPolySpec ExpPolyProofs2 ExpPolySupport.
From Verif Require Import Gauss Gauss2 Gauss3 ExpPolyIntModel ExpPolyIntProofs ExpPolyIntSpec ExpPolyIntProofs2 ExpPolyIntProofs3.
From Verif Require Import GpcmModel GpcmSpec GpcmProofs GpcmProofs2 GpcmProofs3.
Import ListNotations.
Local Open Scope string_scope.
Local Open Scope R_scope.

Section Total.
Context (N : numdom) (so : setorder) (ofR : R -> N).
Hypothesis val_ofR : forall r, val (ofR r) = r.
Hypothesis tensor : forall c : N, isz c = false.

Definition hassq (x : string) (lo : monos) : bool := existsb (fun K => Nat.eqb (powsum x K) 2) lo.

Lemma highest_sq p x lo up :
  wf_poly N p -> sup N p lo up -> deg2 up = true -> hassq x lo = true -> poly_highest_power N p x = Ok 2%nat.
Proof.
  intros W S D Hs. unfold hassq in Hs. apply existsb_exists in Hs. destruct Hs as [K [HK E]]. apply Nat.eqb_eq in E.
  pose proof S as [A B].
  destruct (B _ HK) as [t [Ht Et]].
  destruct (poly_highest_power_total N p x) as [k Hk]; [intros ->; destruct Ht|].
  destruct (poly_highest_power_spec N p x k Hk) as [_ [U [s [Hs Es]]]].
  pose proof W as [W' _]. rewrite Forall_forall in W'.
  rewrite Hk. f_equal.
  assert (L : (2 <= k)%nat).
  { specialize (U t Ht). rewrite term_highest_power_spec in U by auto. rewrite (meq_powsum x _ _ Et) in U. lia. }
  assert (k <= 2)%nat; [|lia].
  rewrite term_highest_power_spec in Es by auto. destruct (A s Hs) as [M [HM EM]].
  unfold deg2 in D. rewrite forallb_forall in D. specialize (D M HM). apply Nat.leb_le in D.
  rewrite (meq_powsum x _ _ EM) in Es. rewrite (wd_split x M) in D. lia.
Qed.

Lemma sup_nonempty p lo up K : sup N p lo up -> In K lo -> p <> [].
Proof. intros [_ B] H ->. destruct (B K H) as [r [[] _]]. Qed.

(** Exponentiated polynomials with their monomials. *)
Definition es (e : exppoly N) (lo up : monos) : Prop := wf_poly N (epoly e) /\ sup N (epoly e) lo up.

Lemma mk_total (p : pexpr N) c ms :
  legal N p -> esup N p = Some ms -> exists o e, run N so p = Ok o /\ mkExpPoly N c o = Ok e /\ es e ms ms.
Proof.
  intros L E. destruct (run_total_tensor N tensor so p L) as [o [Ho _]].
  destruct (run_sup N so tensor p o ms Ho E) as [q [-> [W S]]]. exists (OPoly q). eexists. split; [exact Ho|].
  split; [reflexivity|]. split; auto.
Qed.

Lemma k_h_total m p q ms :
  legal N (k_h_expr N ofR m p q) -> esup N (k_h_expr N ofR m p q) = Some ms ->
  exists e, k_h N so ofR m p q = Ok e /\ es e ms ms.
Proof.
  intros L E. destruct (mk_total _ (ofR (g_alpha_t m ^ 2)) ms L E) as [o [e [H1 [H2 H3]]]].
  exists e. split; auto. unfold k_h. rewrite H1. exact H2.
Qed.

Lemma k_xs_total m p q ms :
  legal N (k_xs_expr N ofR m p q) -> esup N (k_xs_expr N ofR m p q) = Some ms ->
  exists e, k_xs N so ofR m p q = Ok e /\ es e ms ms.
Proof.
  intros L E. destruct (mk_total _ (ofR (g_omega_t m)) ms L E) as [o [e [H1 [H2 H3]]]].
  exists e. split; auto. unfold k_xs. rewrite H1. exact H2.
Qed.

Lemma mul_total e1 e2 l1 u1 l2 u2 :
  es e1 l1 u1 -> es e2 l2 u2 -> exists e, exppoly_mul N so e1 e2 = Ok e /\ es e (l1 ++ l2)%list (u1 ++ u2)%list.
Proof.
  intros [W1 S1] [W2 S2]. unfold exppoly_mul. destruct (poly_add_total N so _ _ W1 W2) as [p Hp].
  rewrite Hp. simpl. eexists. split; [reflexivity|]. split; simpl.
  - eapply poly_add_wf; [| |exact Hp]; auto.
  - eapply (poly_add_sup N so tensor _ _ _ _ _ _ _ W1 W2 Hp S1 S2).
Qed.

Lemma lim_var_total x : exists p, lim_var N so x = Ok (LObj (OPoly p)) /\ wf_poly N p /\ sup N p [[Factor x 1]] [[Factor x 1]].
Proof.
  unfold lim_var. destruct (run_total_tensor N tensor so (v_ N x)) as [o [Ho _]]; [simpl; lia|].
  destruct (run_sup N so tensor (v_ N x) o _ Ho eq_refl) as [p [-> [W S]]]. rewrite Ho. exists p. split; [reflexivity|]. split; auto.
Qed.

Definition shift_monos (x t : string) : monos := [[Factor x 1]; [Factor t 1]].

Lemma translate_total e x t u lo up K :
  es e lo up -> In K lo -> wf_poly N u -> sup N u [[Factor t 1]] [[Factor t 1]] ->
  exists f, exppoly_translate_var N so e x u = Ok f /\ es f (msubst x (shift_monos x t) lo) ([] :: msubst x (shift_monos x t) up).
Proof.
  intros [W S] HK Wu Su. unfold exppoly_translate_var.
  destruct (pvar_total N so x 1 ltac:(lia)) as [vx Hv]. rewrite Hv. cbn [bind].
  pose proof (pvar_sup N so tensor x 1 vx Hv) as Sv. change (Z.to_nat 1) with 1%nat in Sv.
  destruct (pvar_spec N so x 1 vx Hv) as [Wv _].
  destruct (poly_add_total N so vx u Wv Wu) as [q Hq]. rewrite Hq. cbn [bind].
  pose proof (poly_add_wf N so _ _ _ Wv Wu Hq) as Wq.
  pose proof (poly_add_sup N so tensor _ _ _ _ _ _ _ Wv Wu Hq Sv Su) as Sq.
  destruct (subst_total_tensor N tensor so (epoly e) x q W) as [r [Hr [Wr _]]]; auto.
  { eapply sup_nonempty; eauto. }
  { eapply sup_nonempty; [exact Sq|]. now left. }
  rewrite Hr. cbn [bind mkExpPoly]. eexists. split; [reflexivity|]. split; [exact Wr|]. cbn [epoly].
  eapply (poly_substitute_sup N so tensor _ _ _ _ _ _ _ _ W Wq Hr S Sq).
Qed.

Lemma integrate1_sup e e1 x lo up :
  es e lo up -> integrate1 N so ofR e x = Ok e1 ->
  es e1 (mmul [[]] (mpow (mcollect x 1 lo) 2) ++ mreject x lo)%list (mmul [[]] (mpow (mcollect x 1 up) 2) ++ mreject x up)%list.
Proof.
  intros [W S] H. unfold integrate1 in H.
  apply bind_Ok in H. destruct H as [[] [_ H]].
  apply bind_Ok in H. destruct H as [pa [Ca H]].
  apply bind_Ok in H. destruct H as [pb [Cb H]].
  apply bind_Ok in H. destruct H as [pc [Cc H]].
  destruct (negb (poly_is_constant N pa)); [discriminate|].
  apply bind_Ok in H. destruct H as [a [_ H]].
  apply bind_Ok in H. destruct H as [r [_ H]].
  apply bind_Ok in H. destruct H as [q [_ H]].
  apply bind_Ok in H. destruct H as [t [Ht H]].
  apply bind_Ok in H. destruct H as [tp [Htp H]].
  apply bind_Ok in H. destruct H as [b2 [Hb2 H]].
  apply bind_Ok in H. destruct H as [pr [Hpr H]].
  apply bind_Ok in H. destruct H as [s [Hs H]]. injection H as <-.
  destruct (poly_collect_spec N so _ _ _ W Cb) as [Wb _]. destruct (poly_reject_spec N so _ _ _ W Cc) as [Wc _].
  assert (Wt : wf_term N t) by (eapply mkTerm_wf; [|exact Ht]; constructor).
  assert (Wtp : wf_poly N tp). { eapply mkPoly_wf; [|exact Htp]. constructor; auto. }
  assert (Stp : sup N tp [[]] [[]]).
  { eapply mkPoly_sup; [exact tensor| |exact Htp|]; [constructor; auto|]. apply sup_single.
    eapply mkTerm_meq; [exact tensor| |exact Ht]. constructor. }
  pose proof (poly_collect_sup N so tensor _ _ _ _ _ _ (le_n 1) W Cb S) as Sb.
  pose proof (poly_reject_sup N so tensor _ _ _ _ _ W Cc S) as Sc.
  destruct b2 as [c2|b2].
  { unfold poly_pow in Hb2. simpl in Hb2. destruct (poly_mul N so pb pb); simpl in Hb2; discriminate. }
  simpl in Hpr.
  pose proof (poly_pow_sup N so tensor pb 2 b2 _ _ Wb Hb2 Sb) as Sb2.
  destruct (poly_pow_spec N so pb 2 _ Wb Hb2) as [Wb2 _].
  pose proof (poly_mul_sup N so tensor _ _ _ _ _ _ _ Wtp Wb2 Hpr Stp Sb2) as Spr.
  destruct (poly_mul_spec N so _ _ _ Wtp Wb2 Hpr) as [Wpr _].
  split; cbn [epoly].
  - eapply poly_add_wf; [| |exact Hs]; auto.
  - eapply (poly_add_sup N so tensor _ _ _ _ _ _ _ Wpr Wc Hs Spr Sc).
Qed.

Lemma integrate1_ok e x lo up env a b c :
  es e lo up -> deg2 up = true -> hassq x lo = true ->
  (forall z, pval N (rebind env x z) (epoly e) = a * z ^ 2 + b * z + c) -> a <> 0 ->
  exists e1, integrate1 N so ofR e x = Ok e1.
Proof.
  intros [W S] D Hs Hq Ha.
  destruct (poly_collect_total N so (epoly e) (Factor x 2) W) as [pa Ca].
  destruct (poly_collect_total N so (epoly e) (Factor x 1) W) as [pb Cb].
  destruct (poly_reject_total N so (epoly e) x W) as [pc Cc].
  destruct (coefs2 N so (epoly e) pa pb pc x env a b c W Hq Ca Cb Cc) as [E1 _].
  apply (integrate1_total N so ofR e x pa env a tensor W); auto.
  - eapply highest_sq; eauto.
  - eapply (collect_two_const N so tensor _ _ _ _ _ W S D Ca).
Qed.

Lemma exppoly_eval_total (e : exppoly N) m env :
  (forall n, In n (pnames N (epoly e)) -> m n = Some (env n)) -> exists v, exppoly_eval N m e = Ok v.
Proof. intros H. unfold exppoly_eval. rewrite (eval_total N (epoly e) m env H). simpl. eauto. Qed.

(** One variable over the line or a half-line. *)
Lemma box_tau_total mo e c h names x m env a b d lo up lim :
  ep_is N e c h names -> es e lo up -> deg2 up = true -> hassq "tau" lo = true ->
  deg2 ([] :: msubst "tau" (shift_monos "tau" x) up) = true ->
  hassq "tau" (msubst "tau" (shift_monos "tau" x) lo) = true ->
  upper_limit N so mo x = Ok lim -> x <> "tau" ->
  (forall y, In y names -> y <> "tau" -> m y = Some (env y)) ->
  (g_causal mo = true -> m x = Some (env x)) ->
  (forall z, h (rebind env "tau" z) = a * z ^ 2 + b * z + d) ->
  a <> 0 ->
  exists v, integrate_box N so ofR e [("tau", LInf, lim)] m = Ok v.
Proof.
  intros E S D Hs D' Hs' U Hx Hm Hmx Hq Ha. pose proof E as [W [Nn [Vc Vh]]].
  unfold upper_limit in U. destruct (g_causal mo).
  - pose proof (lim_var_inv N so x lim U) as [u [-> [Bu [Nu Vu]]]].
    destruct (lim_var_total x) as [u' [Hu' [Wu Su]]]. rewrite U in Hu'. injection Hu' as <-.
    assert (exists K, In K lo) as [K HK].
    { unfold hassq in Hs. apply existsb_exists in Hs. destruct Hs as [K [HK _]]. eauto. }
    destruct (translate_total e "tau" x u lo up K S HK Wu Su) as [f [Hf Sf]].
    pose proof Sf as [Wf Sf'].
    destruct (translate_spec N so e f u "tau" W Wu Hf) as [_ [Cf [Nf Vf]]].
    destruct (integrate_half1_total N so f "tau" m env a (2 * a * env x + b) (a * env x ^ 2 + b * env x + d)) as [v Hv]; auto.
    + intros y Hy Ny. destruct (Nf y Hy) as [A|[A|A]]; [auto|congruence|]. apply Nu in A. subst. auto.
    + intros z. rewrite Vf. rewrite Vu. unfold rebind at 3. simpl.
      assert (X : pval N (rebind (rebind env "tau" z) "tau" (z + env x)) (epoly e) = h (rebind env "tau" (z + env x))).
      { rewrite <- Vh. apply pval_ext. intros n _. unfold rebind. destruct (String.eqb n "tau"); reflexivity. }
      assert (Y : rebind env "tau" z x = env x).
      { unfold rebind. destruct (String.eqb_spec x "tau"); congruence. }
      rewrite Y, X, Hq. ring.
    + eapply highest_sq; eauto.
    + unfold integrate_box. cbn [foldM box_filter is_inf andb bind app]. unfold box_step.
      cbn [mapM bind]. unfold box_part. cbn [as_poly bind]. rewrite Hf. cbn [mapM bind app List.concat map fst foldM].
      unfold integrate_half. rewrite Hv. cbn [bind]. eauto.
  - injection U as <-. rewrite box_infinite_first. simpl. unfold integrate_names. simpl.
    destruct (integrate1_ok e "tau" lo up env a b d S D Hs) as [e1 He1]; auto.
    { intros z. now rewrite Vh. }
    rewrite He1. simpl.
    destruct (integrate1_inv N so ofR val_ofR e e1 "tau" W He1) as (a' & pa & pb & pc & _ & _ & _ & _ & _ & _ & W1 & N1 & _).
    apply (exppoly_eval_total e1 m env).
    intros n Hn. destruct (N1 n Hn) as [A A']. auto.
Qed.

Lemma foldM_one {A B} (f : A -> B -> res A) x a r : f a x = Ok r -> foldM f [x] a = Ok r.
Proof. intros H. simpl. rewrite H. reflexivity. Qed.

(** Two variables over the plane or a quadrant. *)
Lemma box_tau12_total mo e c h names m env a11 a12 a22 lo up lim1 lim2 (b1 b2 d : (string -> R) -> R) :
  let sh x ms := msubst x (shift_monos x "t") ms in
  ep_is N e c h names -> es e lo up ->
  deg2 up = true -> hassq "tau1" lo = true ->
  (let lo1 := (mmul [[]] (mpow (mcollect "tau1" 1 lo) 2) ++ mreject "tau1" lo)%list in
   let up1 := (mmul [[]] (mpow (mcollect "tau1" 1 up) 2) ++ mreject "tau1" up)%list in
   deg2 up1 = true /\ hassq "tau2" lo1 = true) ->
  (let lo1 := sh "tau2" (sh "tau1" lo) in let up1 := [] :: sh "tau2" ([] :: sh "tau1" up) in
   deg2 up1 = true /\ hassq "tau1" lo1 = true /\ hassq "tau2" lo1 = true) ->
  upper_limit N so mo "t" = Ok lim1 -> upper_limit N so mo "t" = Ok lim2 ->
  (forall y, In y names -> y <> "tau1" -> y <> "tau2" -> m y = Some (env y)) ->
  (g_causal mo = true -> m "t" = Some (env "t")) ->
  (forall env z1 z2, h (rebind (rebind env "tau1" z1) "tau2" z2)
      = a11 * z1 ^ 2 + a12 * z1 * z2 + a22 * z2 ^ 2 + b1 env * z1 + b2 env * z2 + d env) ->
  (forall env x z, x = "tau1" \/ x = "tau2" ->
      b1 (rebind env x z) = b1 env /\ b2 (rebind env x z) = b2 env /\ d (rebind env x z) = d env) ->
  a11 < 0 -> 0 < 4 * a11 * a22 - a12 ^ 2 -> / 10 ^ 30 <= - PI / a11 ->
  exists v, integrate_box N so ofR e [("tau1", LInf, lim1); ("tau2", LInf, lim2)] m = Ok v.
Proof.
  intros sh E S D Hs [D1 Hs1] [D2 [Hs21 Hs22]] U1 U2 Hm Hmt Hq Hb Ha Hdet Fl.
  pose proof E as [W [Nn [Vc Vh]]].
  rewrite U1 in U2. injection U2 as <-.
  assert (exists K, In K lo) as [K HK].
  { unfold hassq in Hs. apply existsb_exists in Hs. destruct Hs as [K [HK _]]. eauto. }
  assert (Nxy : "tau1" <> "tau2") by discriminate.
  unfold upper_limit in U1. destruct (g_causal mo).
  - pose proof (lim_var_inv N so "t" lim1 U1) as [u [-> [Bu [Nu Vu]]]].
    destruct (lim_var_total "t") as [u' [Hu' [Wu Su]]]. rewrite U1 in Hu'. injection Hu' as <-.
    destruct (translate_total e "tau1" "t" u lo up K S HK Wu Su) as [f [Hf Sf]].
    destruct (translate_spec N so e f u "tau1" W Wu Hf) as [Wf [Cf [Nf Vf]]].
    assert (exists K1, In K1 (sh "tau1" lo)) as [K1 HK1].
    { unfold hassq in Hs21. apply existsb_exists in Hs21. destruct Hs21 as [K1 [HK1 _]].
      unfold sh, msubst in HK1. apply in_flat_map in HK1. destruct HK1 as [K2 [HK2 _]]. exists K2. exact HK2. }
    destruct (translate_total f "tau2" "t" u _ _ K1 Sf HK1 Wu Su) as [g [Hg Sg]].
    destruct (translate_spec N so f g u "tau2" Wf Wu Hg) as [Wg [Cg [Ng Vg]]].
    destruct (poly_collect_total N so (epoly g) (Factor "tau1" 2) Wg) as [pxx Cx].
    destruct (poly_collect_total N so (epoly g) (Factor "tau2" 2) Wg) as [pyy Cy].
    set (t := env "t").
    destruct (integrate_half2_total N so g "tau1" "tau2" m env pxx pyy a11 a12 a22
      (2 * a11 * t + a12 * t + b1 env) (2 * a22 * t + a12 * t + b2 env)
      (a11 * t ^ 2 + a12 * t * t + a22 * t ^ 2 + b1 env * t + b2 env * t + d env)) as [v Hv]; auto.
    + intros y Hy Ny1 Ny2. destruct (Ng y Hy) as [A|[A|A]]; [|congruence|apply Nu in A; subst; auto].
      destruct (Nf y A) as [B|[B|B]]; [auto|congruence|apply Nu in B; subst; auto].
    + intros z1 z2. rewrite Vg, Vu. rewrite Vf, Vu.
      set (en := rebind _ "tau1" _).
      assert (X : pval N en (epoly e) = h (rebind (rebind env "tau1" (z1 + t)) "tau2" (z2 + t))).
      { rewrite <- Vh. apply pval_ext. intros n _. unfold en, rebind, t.
        destruct (String.eqb_spec n "tau1") as [->|N1]; [reflexivity|].
        destruct (String.eqb_spec n "tau2") as [->|N2]; [reflexivity|].
        reflexivity. }
      rewrite X, Hq. ring.
    + eapply highest_sq; eauto. apply Sg.
    + eapply highest_sq; eauto. apply Sg.
    + apply const_not_function. eapply (collect_two_const N so tensor _ _ _ _ _ Wg (proj2 Sg) D2 Cx).
    + apply const_not_function. eapply (collect_two_const N so tensor _ _ _ _ _ Wg (proj2 Sg) D2 Cy).
    + lra.
    + unfold integrate_box. cbn [foldM box_filter is_inf andb bind app]. unfold box_step.
      cbn [mapM bind]. unfold box_part. cbn [as_poly bind]. rewrite Hf. cbn [mapM bind app List.concat map fst foldM].
      rewrite Hg. cbn [mapM bind app List.concat map fst foldM].
      unfold integrate_half. rewrite Hv. cbn [bind]. eauto.
  - injection U1 as <-. rewrite box_infinite_first. simpl. unfold integrate_names. simpl.
    set (q := fun env z1 => a11 * z1 ^ 2 + (a12 * env "tau2" + b1 env) * z1 + (a22 * env "tau2" ^ 2 + b2 env * env "tau2" + d env)).
    assert (Hq1 : forall env z, h (rebind env "tau1" z) = q env z).
    { intros env' z.
      assert (X : h (rebind env' "tau1" z) = h (rebind (rebind env' "tau1" z) "tau2" (env' "tau2"))).
      { rewrite <- !Vh. apply pval_ext. intros n _. unfold rebind.
        destruct (String.eqb_spec n "tau2"); subst; reflexivity. }
      rewrite X, Hq. unfold q. ring. }
    destruct (integrate1_ok e "tau1" lo up env a11 (a12 * env "tau2" + b1 env) (a22 * env "tau2" ^ 2 + b2 env * env "tau2" + d env) S D Hs) as [e1 He1]; [|lra|].
    { intros z. now rewrite Vh, Hq1. }
    rewrite He1. simpl.
    destruct (integrate1_inv N so ofR val_ofR e e1 "tau1" W He1) as (a' & pa & pb & pc & _ & _ & _ & _ & _ & _ & W1 & N1 & _).
    pose proof (integrate1_sup e e1 "tau1" lo up S He1) as S1.
    assert (V1 : forall env, pval N env (epoly e1) = (a22 * env "tau2" ^ 2 + b2 env * env "tau2" + d env) - (a12 * env "tau2" + b1 env) ^ 2 / (4 * a11)).
    { intros env'. eapply (integrate1_spec N so ofR val_ofR e e1 "tau1" env'); auto. intros z. now rewrite Vh, Hq1. }
    destruct (integrate1_ok e1 "tau2" _ _ env ((4 * a11 * a22 - a12 ^ 2) / (4 * a11))
      (b2 env - a12 * b1 env / (2 * a11)) (d env - b1 env ^ 2 / (4 * a11)) S1 D1 Hs1) as [e2 He2].
    { intros z. rewrite V1. destruct (Hb env "tau2" z (or_intror eq_refl)) as [-> [-> ->]].
      change (rebind env "tau2" z "tau2") with z. field. lra. }
    { apply Rmult_integral_contrapositive_currified; [lra|]. apply Rinv_neq_0_compat. lra. }
    rewrite He2. simpl.
    destruct (integrate1_inv N so ofR val_ofR e1 e2 "tau2" W1 He2) as (a2' & pa2 & pb2 & pc2 & _ & _ & _ & _ & _ & _ & W2 & N2 & _).
    apply (exppoly_eval_total e2 m env). intros n Hn. destruct (N2 n Hn) as [A A']. destruct (N1 n A) as [B B']. auto.
Qed.

Lemma mapM_total {A B} (f : A -> res B) l : (forall x, In x l -> exists y, f x = Ok y) -> exists r, mapM f l = Ok r.
Proof.
  induction l as [|x l IH]; intros H; simpl; [eauto|].
  destruct (H x (or_introl eq_refl)) as [y Hy]. rewrite Hy. simpl.
  destruct IH as [r Hr]; [intros; apply H; now right|]. rewrite Hr. simpl. eauto.
Qed.

Lemma upper_limit_total m x : exists l, upper_limit N so m x = Ok l.
Proof. unfold upper_limit. destruct (g_causal m); [destruct (lim_var_total x) as [p [H _]]|]; eauto. Qed.

Ltac legal_tac := simpl; repeat split; lia.
Ltac kh_total m a b H E e S :=
  let K := fresh in
  assert (K := k_h_total m a b _ ltac:(legal_tac) eq_refl); cbn [k_h_expr v_ esup] in K; destruct K as [e [E S]].

Lemma i_hx_total m t1 t2 : moderate (g_alpha m) -> exists v, compute_i_hx N so ofR m t1 t2 = Ok v.
Proof.
  intros M. unfold compute_i_hx.
  set (s1 := match t1 with Some t => t | None => 0 end). set (s2 := match t2 with Some t => t | None => 0 end).
  destruct (k_h_total m (ESub (v_ N "t1") (v_ N "tau")) (ESub (v_ N "t2") (v_ N "tau")) _ ltac:(legal_tac) eq_refl) as [e [He S]].
  rewrite He. cbn [bind]. destruct (upper_limit_total m "min_t1_t2") as [up Hu]. rewrite Hu. cbn [bind].
  set (kw := [("t1", s1); ("t2", s2); ("min_t1_t2", Rmin s1 s2)]).
  pose proof (moderate_pos _ M) as P.
  pose proof (k_h_is N so ofR val_ofR m _ _ _ He) as E. simpl fv in E.
  eapply (box_tau_total m e _ _ _ "min_t1_t2" (kwargs kw) (kenv kw)
     (-2 * g_alpha m) (2 * g_alpha m * (s1 + s2)) (- g_alpha m * (s1 ^ 2 + s2 ^ 2) - g_gamma m * (s1 - s2) ^ 2) _ _ up E S); auto;
    try (vm_compute; reflexivity).
  - discriminate.
  - intros y Hy Ny. names_in Hy.
  - intros z. simpl den. unfold kenv, kwargs, kw, rebind. simpl. ring.
  - lra.
Qed.

Lemma I_ux_total m t1 t2 : moderate_filter m -> exists T, compute_I_ux4 N so ofR m t1 t2 = Ok T.
Proof.
  intros [M M']. unfold compute_I_ux4, I_ux_expq.
  destruct (k_h_total m (ESub (v_ N "t1") (v_ N "tau")) (v_ N "t_u_1") _ ltac:(legal_tac) eq_refl) as [e1 [He1 S1]].
  destruct (k_h_total m (v_ N "t_u_2") (ESub (v_ N "t2") (v_ N "tau")) _ ltac:(legal_tac) eq_refl) as [e2 [He2 S2]].
  rewrite He1, He2. cbn [bind].
  destruct (mul_total e1 e2 _ _ _ _ S1 S2) as [e [He S]]. rewrite He. cbn [bind].
  destruct (upper_limit_total m "min_t1_t2") as [up Hu]. rewrite Hu. cbn [bind].
  apply mapM_total. intros s1 _. apply mapM_total. intros s2 _. apply mapM_total. intros u1 _. apply mapM_total. intros u2 _.
  set (kw := [("t1", s1); ("t2", s2); ("t_u_1", u1); ("t_u_2", u2); ("min_t1_t2", Rmin s1 s2)]).
  pose proof (moderate_pos _ M) as P. pose proof (moderate_pos _ M') as P'.
  pose proof (mul_is N so _ _ _ _ _ _ _ _ _ (k_h_is N so ofR val_ofR m _ _ _ He1) (k_h_is N so ofR val_ofR m _ _ _ He2) He) as E.
  simpl fv in E. set (al := g_alpha m) in *. set (ga := g_gamma m) in *.
  eapply (box_tau_total m e _ _ _ "min_t1_t2" (kwargs kw) (kenv kw)
     (-2 * (al + ga)) (2 * (al + ga) * (s1 + s2) - 2 * ga * (u1 + u2))
     (- al * (s1 ^ 2 + u1 ^ 2) - ga * (s1 - u1) ^ 2 - al * (u2 ^ 2 + s2 ^ 2) - ga * (u2 - s2) ^ 2) _ _ up E S); auto;
    try (vm_compute; reflexivity).
  - discriminate.
  - intros y Hy Ny. names_in Hy.
  - intros z. simpl den. unfold kenv, kwargs, kw, rebind. simpl. ring.
  - lra.
Qed.

Lemma I_ux_default_total m : moderate_filter m -> exists T, compute_I_ux N so ofR m = Ok T.
Proof.
  intros M. unfold compute_I_ux. destruct (I_ux_total m None None M) as [T H]. rewrite H. cbn [bind].
  unfold compute_I_ux4 in H. apply bind_Ok in H. destruct H as [e [_ H]]. apply bind_Ok in H. destruct H as [up [_ H]].
  apply mapM4_at in H. destruct H as [[L F] _]. destruct T as [|T1 T]; [discriminate|].
  inversion F; subst. destruct H1 as [L1 _]. destruct T1; [discriminate|]. eauto.
Qed.

Lemma I_uz_total m t : moderate_model m -> exists T, compute_I_uz N so ofR m t = Ok T.
Proof.
  intros [[M M'] O]. unfold compute_I_uz.
  destruct (k_h_total m (ESub (v_ N "t") (v_ N "tau")) (v_ N "t_u") _ ltac:(legal_tac) eq_refl) as [e1 [He1 S1]].
  destruct (k_xs_total m (v_ N "tau") (v_ N "t_z") _ ltac:(legal_tac) eq_refl) as [e2 [He2 S2]].
  rewrite He1, He2. cbn [bind].
  destruct (mul_total e1 e2 _ _ _ _ S1 S2) as [e [He S]]. rewrite He. cbn [bind].
  destruct (upper_limit_total m "t") as [up Hu]. rewrite Hu. cbn [bind].
  apply mapM_total. intros s _. apply mapM_total. intros u _. apply mapM_total. intros z _.
  set (kw := [("t", s); ("t_u", u); ("t_z", z)]).
  pose proof (moderate_pos _ M) as P. pose proof (moderate_pos _ M') as P'. pose proof (moderate_pos _ O) as PO.
  pose proof (mul_is N so _ _ _ _ _ _ _ _ _ (k_h_is N so ofR val_ofR m _ _ _ He1) (k_xs_is N so ofR val_ofR m _ _ _ He2) He) as E.
  simpl fv in E. set (al := g_alpha m) in *. set (ga := g_gamma m) in *. set (om := g_omega m) in *.
  eapply (box_tau_total m e _ _ _ "t" (kwargs kw) (kenv kw)
     (- (al + ga + om)) (2 * (al + ga) * s - 2 * ga * u + 2 * om * z)
     (- al * (s ^ 2 + u ^ 2) - ga * (s - u) ^ 2 - om * z ^ 2) _ _ up E S); auto;
    try (vm_compute; reflexivity).
  - discriminate.
  - intros y Hy Ny. names_in Hy.
  - intros w. simpl den. unfold kenv, kwargs, kw, rebind. simpl. ring.
  - lra.
Qed.

Lemma I_hz_total m t : moderate_model m -> exists T, compute_I_hz N so ofR m t = Ok T.
Proof.
  intros [[M M'] O]. unfold compute_I_hz.
  destruct (k_h_total m (ESub (v_ N "t") (v_ N "tau1")) (ESub (v_ N "t") (v_ N "tau2")) _ ltac:(legal_tac) eq_refl) as [e1 [He1 S1]].
  destruct (k_xs_total m (v_ N "tau1") (v_ N "t_z_1") _ ltac:(legal_tac) eq_refl) as [e2 [He2 S2]].
  destruct (k_xs_total m (v_ N "t_z_2") (v_ N "tau2") _ ltac:(legal_tac) eq_refl) as [e3 [He3 S3]].
  rewrite He1, He2, He3. cbn [bind].
  destruct (mul_total e1 e2 _ _ _ _ S1 S2) as [e12 [He12 S12]]. rewrite He12. cbn [bind].
  destruct (mul_total e12 e3 _ _ _ _ S12 S3) as [e [He S]]. rewrite He. cbn [bind].
  destruct (upper_limit_total m "t") as [up Hu]. rewrite Hu. cbn [bind].
  apply mapM_total. intros s _. apply mapM_total. intros z1 _. apply mapM_total. intros z2 _.
  set (kw := [("t", s); ("t_z_1", z1); ("t_z_2", z2)]).
  pose proof (moderate_pos _ M) as P. pose proof (moderate_pos _ M') as P'. pose proof (moderate_pos _ O) as PO.
  destruct M as [M1 M2], M' as [M1' M2'], O as [O1 O2].
  pose proof (mul_is N so _ _ _ _ _ _ _ _ _
    (mul_is N so _ _ _ _ _ _ _ _ _ (k_h_is N so ofR val_ofR m _ _ _ He1) (k_xs_is N so ofR val_ofR m _ _ _ He2) He12)
    (k_xs_is N so ofR val_ofR m _ _ _ He3) He) as E.
  simpl fv in E. set (al := g_alpha m) in *. set (ga := g_gamma m) in *. set (om := g_omega m) in *.
  eapply (box_tau12_total m e _ _ _ (kwargs kw) (kenv kw)
     (- (al + ga + om)) (2 * ga) (- (al + ga + om)) _ _ up up
     (fun env => 2 * al * env "t" + 2 * om * env "t_z_1")
     (fun env => 2 * al * env "t" + 2 * om * env "t_z_2")
     (fun env => - 2 * al * env "t" ^ 2 - om * env "t_z_1" ^ 2 - om * env "t_z_2" ^ 2) E S); auto;
    try (vm_compute; repeat split; reflexivity).
  - intros y Hy Ny Ny'. names_in Hy.
  - intros env w1 w2. simpl den. unfold rebind. simpl. ring.
  - intros env x w [->| ->]; repeat split; reflexivity.
  - lra.
  - assert (0 < (al + om) * (al + 2 * ga + om)) by nra. nra.
  - apply floor_PI_div; [lra|]. pose proof e12_ge. lra.
Qed.

Lemma K_z_total m : moderate (g_omega m) -> exists T, compute_K_z N so ofR m = Ok T.
Proof.
  intros O. unfold compute_K_z.
  destruct (k_xs_total m (v_ N "t1") (v_ N "tau") _ ltac:(legal_tac) eq_refl) as [e1 [He1 S1]].
  destruct (k_xs_total m (v_ N "tau") (v_ N "t2") _ ltac:(legal_tac) eq_refl) as [e2 [He2 S2]].
  rewrite He1, He2. cbn [bind].
  destruct (mul_total e1 e2 _ _ _ _ S1 S2) as [e [He S]]. rewrite He. cbn [bind].
  apply mapM_total. intros t1 _. apply mapM_total. intros t2 _.
  set (kw := [("t1", t1); ("t2", t2)]).
  pose proof (moderate_pos _ O) as PO.
  pose proof (mul_is N so _ _ _ _ _ _ _ _ _ (k_xs_is N so ofR val_ofR m _ _ _ He1) (k_xs_is N so ofR val_ofR m _ _ _ He2) He) as E.
  pose proof E as [W [Nn [Vc Vh]]].
  simpl fv in E. set (om := g_omega m) in *.
  destruct (integrate1_ok e "tau" _ _ (kenv kw) (-2 * om) (2 * om * (t1 + t2)) (- om * (t1 ^ 2 + t2 ^ 2)) S) as [e' He'];
    try (vm_compute; reflexivity).
  - intros z. rewrite Vh. simpl den. unfold kenv, kwargs, kw, rebind. simpl. ring.
  - lra.
  - unfold integrate, integrate_names. simpl. rewrite He'. simpl.
    destruct (integrate1_inv N so ofR val_ofR e e' "tau" W He') as (a' & pa & pb & pc & _ & _ & _ & _ & _ & _ & W1 & N1 & _).
    apply (exppoly_eval_total e' (kwargs kw) (kenv kw)). intros n Hn. destruct (N1 n Hn) as [A A'].
    apply Nn in A. names_in A.
Qed.

Lemma K_u_total m : exists T, compute_K_u N so ofR m = Ok T.
Proof.
  unfold compute_K_u. destruct (k_h_total m (v_ N "t1") (v_ N "t2") _ ltac:(legal_tac) eq_refl) as [e [He S]].
  rewrite He. cbn [bind]. apply mapM_total. intros t1 _. apply mapM_total. intros t2 _.
  destruct (k_h_is N so ofR val_ofR m _ _ _ He) as [W [Nn _]]. simpl fv in Nn.
  apply (exppoly_eval_total e _ (kenv [("t1", t1); ("t2", t2)])). intros n Hn. apply Nn in Hn. names_in Hn.
Qed.

End Total.
