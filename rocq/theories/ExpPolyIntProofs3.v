(** Totality of the integration routines, and divergence. *)
From Coq Require Import Reals ZArith List Bool String Lia Lra Psatz.
From Coquelicot Require Import Coquelicot.
From Verif Require Import Py ExpPolyModel ListFacts ExpPolyProofs ExpPolySpec ExpPolyProofs2.
From Verif Require Import Gauss Gauss2 Gauss3 ExpPolyIntModel ExpPolyIntProofs ExpPolyIntSpec ExpPolyIntProofs2.
Import ListNotations.
Local Open Scope R_scope.

(** A function that is at least one has no integral over the line. *)
Lemma no_integral f v : (forall x, 1 <= f x) -> ~ is_integral f m_infty p_infty v.
Proof.
  intros Hf H.
  specialize (H (fun y => Rabs (y - v) < 1)).
  assert (L : locally v (fun y => Rabs (y - v) < 1)).
  { exists (mkposreal 1 Rlt_0_1). intros y Hy. exact Hy. }
  specialize (H L). destruct H as [P Q HP HQ K].
  destruct HP as [p HP]. destruct HQ as [q HQ].
  set (lo := Rmin (p - 1) 0). set (hi := Rmax (q + 1) (Rabs v + 2)).
  assert (A1 : P lo) by (apply HP; unfold lo; eapply Rle_lt_trans; [apply Rmin_l|lra]).
  assert (A2 : Q hi) by (apply HQ; unfold hi; eapply Rlt_le_trans; [|apply Rmax_l]; lra).
  destruct (K lo hi A1 A2) as [I [HI HB]]. simpl in HI.
  assert (lo <= 0) by apply Rmin_r. assert (Rabs v + 2 <= hi) by apply Rmax_r.
  pose proof (Rabs_pos v).
  assert (hi - lo <= I).
  { eapply (is_RInt_le (fun _ => 1) f lo hi); [lra| |exact HI|].
    - replace (hi - lo) with (scal (hi - lo) 1) by (unfold scal; simpl; unfold mult; simpl; ring). apply @is_RInt_const.
    - intros x _. apply Hf. }
  apply Rabs_def2 in HB. pose proof (Rle_abs v). lra.
Qed.

Section Total.
Context (N : numdom) (so : setorder) (ofR : R -> N).
Hypothesis val_ofR : forall r, val (ofR r) = r.

Lemma eval_total (p : poly N) m env :
  (forall n, In n (pnames N p) -> m n = Some (env n)) -> poly_eval N m p = Ok (pval N env p).
Proof.
  intros H. rewrite poly_eval_bound.
  - f_equal. apply pval_ext. intros n Hn. unfold env_of. now rewrite (H n Hn).
  - intros n Hn. rewrite (H n Hn). discriminate.
Qed.

Lemma integrate_half1_total (e : exppoly N) x m env a b c :
  wf_poly N (epoly e) ->
  (forall y, In y (pnames N (epoly e)) -> y <> x -> m y = Some (env y)) ->
  (forall z, pval N (rebind env x z) (epoly e) = a * z ^ 2 + b * z + c) ->
  poly_highest_power N (epoly e) x = Ok 2%nat -> a <> 0 ->
  exists v, integrate_half1 N so e x m = Ok v.
Proof.
  intros W Hm Hq Hp Ha. unfold integrate_half1, check_quadratic. rewrite Hp. simpl bind at 1.
  destruct (poly_collect_total N so (epoly e) (Factor x 2) W) as [pa Ca]. rewrite Ca.
  destruct (poly_collect_total N so (epoly e) (Factor x 1) W) as [pb Cb]. rewrite Cb.
  destruct (poly_reject_total N so (epoly e) x W) as [pc Cc]. rewrite Cc.
  destruct (poly_collect_spec N so _ _ _ W Ca) as [_ [Xa [Na _]]].
  destruct (poly_collect_spec N so _ _ _ W Cb) as [_ [Xb [Nb _]]].
  destruct (poly_reject_spec N so _ _ _ W Cc) as [_ [Xc [Nc _]]]. simpl in Xa, Xb.
  destruct (coefs2 N so (epoly e) pa pb pc x env a b c W Hq Ca Cb Cc) as [E1 [E2 E3]].
  cbn [bind].
  rewrite (eval_total pa m env), (eval_total pb m env), (eval_total pc m env).
  2: { intros n Hn. apply Hm; auto. intros ->. contradiction. }
  2: { intros n Hn. apply Hm; auto. intros ->. contradiction. }
  2: { intros n Hn. apply Hm; auto. intros ->. contradiction. }
  cbn [bind]. rewrite E1, E2. rewrite !rdiv_ok; auto.
  - cbn [bind]. eauto.
  - pose proof (safe_sqrt_pos (- a)). lra.
Qed.

Lemma integrate1_total (e : exppoly N) x pa env a :
  (forall c : N, isz c = false) ->
  wf_poly N (epoly e) ->
  poly_highest_power N (epoly e) x = Ok 2%nat ->
  poly_collect_for N so (epoly e) (Factor x 2) = Ok pa -> poly_is_constant N pa = true ->
  pval N env pa = a -> a <> 0 ->
  exists e', integrate1 N so ofR e x = Ok e'.
Proof.
  intros T W Hp Ca Ka Va Ha. unfold integrate1, check_quadratic. rewrite Hp. simpl bind at 1.
  rewrite Ca. cbn [bind].
  destruct (poly_collect_total N so (epoly e) (Factor x 1) W) as [pb Cb]. rewrite Cb. cbn [bind].
  destruct (poly_reject_total N so (epoly e) x W) as [pc Cc]. rewrite Cc. cbn [bind].
  rewrite Ka. simpl negb. cbv iota.
  assert (Nn : pnames N pa = []).
  { unfold poly_is_constant in Ka. rewrite forallb_forall in Ka. unfold pnames.
    destruct (flat_map (tnames N) pa) as [|n l] eqn:E; auto.
    assert (Hin : In n (flat_map (tnames N) pa)) by (rewrite E; now left).
    apply in_flat_map in Hin. destruct Hin as [t [Ht Hn]].
    specialize (Ka t Ht). unfold term_is_constant in Ka. apply Nat.eqb_eq in Ka.
    unfold tnames in Hn. destruct (tfactors t); [destruct Hn|discriminate]. }
  rewrite (eval_total pa _ env) by (rewrite Nn; intros n []).
  cbn [bind]. rewrite Va, !rdiv_ok by assumption. cbn [bind].
  destruct (mkTerm_total N so (ofR (- / 4 / a)) []) as [t Ht]; [constructor|]. rewrite Ht. cbn [bind].
  assert (Wt : wf_term N t) by (eapply mkTerm_wf; [|exact Ht]; constructor).
  destruct (mkPoly_total_tensor N so [t] T) as [tp Htp]; [constructor; auto|]. rewrite Htp. cbn [bind].
  assert (Wtp : wf_poly N tp). { eapply mkPoly_wf; [|exact Htp]. constructor; auto. }
  destruct (poly_collect_spec N so _ _ _ W Cb) as [Wb _].
  destruct (poly_reject_spec N so _ _ _ W Cc) as [Wc _].
  destruct (poly_mul_total_tensor N T so pb pb Wb Wb) as [b2 Hb2].
  assert (Hpow : poly_pow N so pb 2 = Ok (OPoly b2)).
  { unfold poly_pow. simpl. rewrite Hb2. reflexivity. }
  rewrite Hpow. cbn [bind]. simpl poly_mul_obj.
  assert (Wb2 : wf_poly N b2).
  { destruct (poly_pow_spec N so pb 2 _ Wb Hpow) as [A _]. exact A. }
  destruct (poly_mul_total_tensor N T so tp b2 Wtp Wb2) as [pr Hpr]. rewrite Hpr. cbn [bind].
  assert (Wpr : wf_poly N pr) by (apply (poly_mul_spec N so tp b2 pr Wtp Wb2 Hpr)).
  destruct (poly_add_total N so pr pc Wpr Wc) as [s Hs]. rewrite Hs. cbn [bind]. eauto.
Qed.

Lemma integrate_half2_total (e : exppoly N) x y m env pxx pyy a11 a12 a22 b1 b2 c :
  x <> y ->
  wf_poly N (epoly e) ->
  (forall w, In w (pnames N (epoly e)) -> w <> x -> w <> y -> m w = Some (env w)) ->
  (forall z1 z2, pval N (rebind (rebind env x z1) y z2) (epoly e)
     = a11 * z1 ^ 2 + a12 * z1 * z2 + a22 * z2 ^ 2 + b1 * z1 + b2 * z2 + c) ->
  poly_highest_power N (epoly e) x = Ok 2%nat -> poly_highest_power N (epoly e) y = Ok 2%nat ->
  poly_collect_for N so (epoly e) (Factor x 2) = Ok pxx -> poly_is_function_of N pxx y = false ->
  poly_collect_for N so (epoly e) (Factor y 2) = Ok pyy -> poly_is_function_of N pyy x = false ->
  4 * a11 * a22 - a12 ^ 2 <> 0 ->
  exists v, integrate_half2 N so e x y m = Ok v.
Proof.
  intros Nxy W Hm Hq Hx Hy Cx Fx Cy Fy Hd. unfold integrate_half2, check_quadratic.
  rewrite Hx, Hy. simpl bind at 1. simpl bind at 1. rewrite Cx, Cy. cbn [bind]. 
  set (p := epoly e) in *.
  destruct (poly_collect_total N so p (Factor x 1) W) as [p1 C1]. rewrite C1. cbn [bind].
  destruct (poly_collect_spec N so _ _ _ W C1) as [W1 [X1 [N1 _]]].
  destruct (poly_collect_total N so p1 (Factor y 1) W1) as [p12 C12]. rewrite C12. cbn [bind].
  destruct (poly_reject_total N so p1 y W1) as [pb1 Cb1]. rewrite Cb1. cbn [bind].
  destruct (poly_collect_total N so p (Factor y 1) W) as [p2 C2]. rewrite C2. cbn [bind].
  destruct (poly_collect_spec N so _ _ _ W C2) as [W2 [X2 [N2 _]]].
  destruct (poly_reject_total N so p2 x W2) as [pb2 Cb2]. rewrite Cb2. cbn [bind].
  destruct (poly_reject_total N so p x W) as [r1 Cr1]. rewrite Cr1. cbn [bind].
  destruct (poly_reject_spec N so _ _ _ W Cr1) as [Wr1 [Xr1 [Nr1 _]]].
  destruct (poly_reject_total N so r1 y Wr1) as [pc Cc]. rewrite Cc. cbn [bind].
  destruct (poly_collect_spec N so _ _ _ W Cx) as [Wxx [Xxx [Nxx _]]].
  destruct (poly_collect_spec N so _ _ _ W Cy) as [Wyy [Xyy [Nyy _]]].
  destruct (poly_collect_spec N so _ _ _ W1 C12) as [W12 [X12 [N12 _]]].
  destruct (poly_reject_spec N so _ _ _ W1 Cb1) as [Wb1 [Xb1 [Nb1 _]]].
  destruct (poly_reject_spec N so _ _ _ W2 Cb2) as [Wb2 [Xb2 [Nb2 _]]].
  destruct (poly_reject_spec N so _ _ _ Wr1 Cc) as [Wc [Xc [Nc _]]].
  simpl in X1, X2, Xxx, Xyy, X12.
  assert (Fx' : ~ In y (pnames N pxx)) by (intros F; apply poly_is_function_of_names in F; congruence).
  assert (Fy' : ~ In x (pnames N pyy)) by (intros F; apply poly_is_function_of_names in F; congruence).
  assert (Nx : forall q, (forall n, In n (pnames N q) -> In n (pnames N p)) -> ~ In x (pnames N q) -> ~ In y (pnames N q) ->
             poly_eval N m q = Ok (pval N env q)).
  { intros q A B D. apply eval_total. intros n Hn. apply Hm; auto; intros ->; contradiction. }
  rewrite (Nx pxx), (Nx pyy), (Nx p12), (Nx pb1), (Nx pb2), (Nx pc) by auto. cbn [bind]. cbv zeta.
  (* the determinant is the one of the quadratic form *)
  assert (Ex : forall z2, pval N (rebind env y z2) pxx = a11 /\ pval N (rebind env y z2) p1 = a12 * z2 + b1
               /\ pval N (rebind env y z2) r1 = a22 * z2 ^ 2 + b2 * z2 + c).
  { intros z2. apply (coefs2 N so p pxx p1 r1 x (rebind env y z2)); auto.
    intros z1. rewrite <- (pval_ext N (rebind (rebind env x z1) y z2)) by (intros n _; apply rebind_comm; exact Nxy).
    rewrite Hq. ring. }
  assert (Ey : forall z1, pval N (rebind env x z1) pyy = a22).
  { intros z1. destruct (poly_reject_total N so p y W) as [ry Cry].
    apply (coefs2 N so p pyy p2 ry y (rebind env x z1) a22 (a12 * z1 + b2) (a11 * z1 ^ 2 + b1 * z1 + c)); auto.
    intros z2. rewrite Hq. ring. }
  assert (E12 : pval N env p12 = a12).
  { destruct (poly_collect_total N so p1 (Factor y 2) W1) as [q2 Cq2].
    destruct (coefs2 N so p1 q2 p12 pb1 y env 0 a12 b1 W1) as [_ [A _]]; auto.
    intros z. destruct (Ex z) as [_ [-> _]]. ring. }
  assert (E11 : pval N env pxx = a11).
  { rewrite <- (pval_rebind_notin N env y 0) by assumption. apply Ex. }
  assert (E22 : pval N env pyy = a22).
  { rewrite <- (pval_rebind_notin N env x 0) by assumption. apply Ey. }
  rewrite E11, E22, E12.
  assert (D : -2 * a11 * (-2 * a22) - (-1 * a12) ^ 2 <> 0).
  { replace (-2 * a11 * (-2 * a22) - (-1 * a12) ^ 2) with (4 * a11 * a22 - a12 ^ 2) by ring. exact Hd. }
  assert (Q : forall z, safe_sqrt z <> 0) by (intros z; pose proof (safe_sqrt_pos z); lra).
  rewrite !(rdiv_ok _ _ D). cbn [bind]. rewrite !rdiv_ok by apply Q. cbn [bind].
  cbn [bind].
  rewrite ?rdiv_ok by apply Q. cbn [bind]. eauto.
Qed.

End Total.
