(** Proofs about the integration model. *)
From Coq Require Import Reals ZArith List Bool String Lia Lra Psatz.
From Coquelicot Require Import Coquelicot.
From Verif Require Import Py ExpPolyModel ListFacts ExpPolyProofs ExpPolySpec ExpPolyProofs2.
From Verif Require Import PolyIdent Gauss Gauss2 Gauss3 ExpPolyIntModel.
Import ListNotations.
Local Open Scope R_scope.

Lemma rebind_same env x v : rebind env x v x = v.
Proof. unfold rebind. now rewrite String.eqb_refl. Qed.
Lemma rebind_other env x v y : y <> x -> rebind env x v y = env y.
Proof. intros H. unfold rebind. apply String.eqb_neq in H. now rewrite H. Qed.

Lemma safe_sqrt_ok x : / 10 ^ 30 <= x -> safe_sqrt x = sqrt x.
Proof. intros H. unfold safe_sqrt. now rewrite Rmax_left. Qed.
Lemma safe_sqrt_pos x : 0 < safe_sqrt x.
Proof.
  unfold safe_sqrt. apply sqrt_lt_R0. eapply Rlt_le_trans; [|apply Rmax_r].
  apply Rinv_0_lt_compat. apply pow_lt. lra.
Qed.
Lemma floor_pos x : / 10 ^ 30 <= x -> 0 < x.
Proof. intros H. eapply Rlt_le_trans; [|exact H]. apply Rinv_0_lt_compat. apply pow_lt. lra. Qed.

Lemma rdiv_Ok x y z : rdiv x y = Ok z -> y <> 0 /\ z = x / y.
Proof.
  unfold rdiv. destruct (Reqb y 0) eqn:E; [discriminate|]. intros H. injection H as <-.
  split; auto. intros ->. assert (Reqb 0 0 = true) by now apply Reqb_eq. congruence.
Qed.

Lemma rdiv_ok x y : y <> 0 -> rdiv x y = Ok (x / y).
Proof. intros H. unfold rdiv. destruct (Reqb y 0) eqn:E; auto. apply Reqb_eq in E. congruence. Qed.

Section IntProofs.
Context (N : numdom) (so : setorder) (ofR : R -> N).
Hypothesis val_ofR : forall r, val (ofR r) = r.

(** ** Reading off coefficients *)

Lemma pval_rebind_notin env x z (p : poly N) : ~ In x (pnames N p) -> pval N (rebind env x z) p = pval N env p.
Proof. intros H. apply pval_ext. intros n Hn. apply rebind_other. intros ->. contradiction. Qed.

Lemma coefs (p : poly N) x env (n : nat) (co : nat -> R) :
  wf_poly N p ->
  (forall z, pval N (rebind env x z) p = rsum (map (fun j => co j * z ^ j) (seq 0 n))) ->
  (forall j r, (1 <= j < n)%nat -> poly_collect_for N so p (Factor x j) = Ok r -> pval N env r = co j)
  /\ (forall r, (1 <= n)%nat -> poly_reject N so p x = Ok r -> pval N env r = co 0%nat).
Proof.
  intros W H.
  destruct p as [|t0 p0] eqn:Ep.
  { (* no terms *)
    assert (Z : forall j, (j < n)%nat -> co j = 0).
    { apply poly_zero. intros z. rewrite <- H. reflexivity. }
    split.
    - intros j r Hj Hr. rewrite (Z j) by lia. unfold poly_collect_for in Hr. simpl in Hr.
      destruct (poly_collect_spec N so [] (Factor x j) r W Hr) as [Wr [_ [Nr V]]].
      rewrite <- (pval_rebind_notin env x 1).
      + specialize (V (rebind env x 1)). simpl in V. unfold fval in V. simpl in V.
        rewrite rebind_same, pow1 in V. rewrite Rmult_1_r in V. rewrite <- V. reflexivity.
      + intros F. apply Nr in F. destruct F.
    - intros r Hn Hr. rewrite (Z 0%nat) by lia.
      destruct (poly_reject_spec N so [] x r W Hr) as [_ [_ [_ V]]]. rewrite V. reflexivity. }
  rewrite <- Ep in *. assert (NE : p <> []) by (rewrite Ep; discriminate). clear Ep t0 p0.
  destruct (poly_highest_power_total N p x NE) as [k Hk].
  destruct (poly_reject_total N so p x W) as [r0 Hr0].
  set (cs := fun j => match poly_collect_for N so p (Factor x j) with Ok c => c | Err _ => [] end).
  assert (Hcs : forall j, poly_collect_for N so p (Factor x j) = Ok (cs j)).
  { intros j. unfold cs. destruct (poly_collect_total N so p (Factor x j) W) as [c ->]. auto. }
  set (d := fun j => match j with O => pval N env r0 | S _ => if (j <=? k)%nat then pval N env (cs j) else 0 end).
  set (M := S (Nat.max n k)).
  assert (E : forall z, rsum (map (fun j => (d j - (if (j <? n)%nat then co j else 0)) * z ^ j) (seq 0 M)) = 0).
  { intros z.
    assert (P : forall (f g : nat -> R) l, rsum (map (fun k => (f k - g k) * z ^ k) l)
                 = rsum (map (fun k => f k * z ^ k) l) - rsum (map (fun k => g k * z ^ k) l)).
    { clear. intros f g l. induction l as [|y l IHl]; simpl; [unfold rsum; simpl; ring|].
      rewrite !rsum_cons, IHl. ring. }
    rewrite P.
    assert (T : forall (f : nat -> R) m m', (m <= m')%nat -> (forall j, (m <= j < m')%nat -> f j = 0) ->
                  rsum (map (fun j => f j * z ^ j) (seq 0 m')) = rsum (map (fun j => f j * z ^ j) (seq 0 m))).
    { clear. intros f m m' L F. replace m' with (m + (m' - m))%nat by lia.
      rewrite seq_app, map_app, rsum_app.
      assert (G : forall l, (forall j, In j l -> f j = 0) -> rsum (map (fun j => f j * z ^ j) l) = 0).
      { intros l. induction l as [|y l IHl]; simpl; intros Hl; [reflexivity|].
        rewrite rsum_cons, IHl by auto. rewrite Hl by auto. ring. }
      rewrite (G (seq (0 + m) (m' - m))); [ring|]. intros j Hj. apply in_seq in Hj. apply F. lia. }
    rewrite (T (fun j => if (j <? n)%nat then co j else 0) n M).
    2: { unfold M; lia. }
    2: { intros j Hj. destruct (Nat.ltb_spec j n); [lia|reflexivity]. }
    replace (rsum (map (fun j => (if (j <? n)%nat then co j else 0) * z ^ j) (seq 0 n)))
      with (rsum (map (fun j => co j * z ^ j) (seq 0 n))).
    2: { f_equal. apply map_ext_in. intros j Hj. apply in_seq in Hj.
         destruct (Nat.ltb_spec j n); [reflexivity|lia]. }
    rewrite <- H.
    rewrite (T d (S k) M).
    2: { unfold M; lia. }
    2: { intros j Hj. unfold d. destruct j; [lia|]. destruct (Nat.leb_spec (S j) k); [lia|reflexivity]. }
    rewrite (decompose N so p x k r0 W Hk Hr0 cs (fun j _ => Hcs j) (rebind env x z)).
    change (seq 0 (S k)) with (0%nat :: seq 1 k). simpl map. rewrite rsum_cons.
    rewrite pval_rebind_notin.
    2: { apply (poly_reject_spec N so p x r0 W Hr0). }
    replace (map (fun j => pval N (rebind env x z) (cs j) * rebind env x z x ^ j) (seq 1 k))
      with (map (fun j => d j * z ^ j) (seq 1 k)).
    { change (d 0%nat) with (pval N env r0). ring. }
    apply map_ext_in. intros j Hj. apply in_seq in Hj. rewrite rebind_same, pval_rebind_notin.
    2: { destruct (poly_collect_spec N so p _ _ W (Hcs j)) as [_ [A _]]. exact A. }
    unfold d. destruct j; [lia|]. destruct (Nat.leb_spec (S j) k); [reflexivity|lia]. }
  pose proof (poly_zero M _ E) as Z.
  split.
  - intros j r Hj Hr. rewrite Hcs in Hr. injection Hr as <-.
    specialize (Z j ltac:(unfold M; lia)). cbv beta in Z. destruct (Nat.ltb_spec j n); [|lia].
    unfold d in Z. destruct j; [lia|]. destruct (Nat.leb_spec (S j) k); [lra|].
    (* beyond the highest power nothing is collected *)
    assert (CE : cs (S j) = []).
    { destruct (cs (S j)) as [|u c] eqn:Ec; auto. exfalso.
      destruct (proj1 (collect_nonempty N so p x (S j) (u :: c) W ltac:(lia) ltac:(rewrite <- Ec; apply Hcs))
                  ltac:(discriminate)) as [s [Hs Es]].
      destruct (poly_highest_power_spec N p x k Hk) as [_ [Hle _]]. specialize (Hle s Hs). lia. }
    rewrite CE. unfold pval, rsum; simpl. lra.
  - intros r Hn Hr. rewrite Hr0 in Hr. injection Hr as <-.
    specialize (Z 0%nat ltac:(unfold M; lia)). cbv beta in Z. destruct (Nat.ltb_spec 0 n); [|lia].
    simpl in Z. lra.
Qed.

Definition co3 (a b c : R) (j : nat) : R := match j with 0%nat => c | 1%nat => b | 2%nat => a | _ => 0 end.
Lemma co3_eq a b c z : a * z ^ 2 + b * z + c = rsum (map (fun j => co3 a b c j * z ^ j) (seq 0 3)).
Proof. simpl. rewrite !rsum_cons. unfold rsum; simpl. ring. Qed.

Lemma coefs2 (p pa pb pc : poly N) x env a b c :
  wf_poly N p ->
  (forall z, pval N (rebind env x z) p = a * z ^ 2 + b * z + c) ->
  poly_collect_for N so p (Factor x 2) = Ok pa -> poly_collect_for N so p (Factor x 1) = Ok pb ->
  poly_reject N so p x = Ok pc ->
  pval N env pa = a /\ pval N env pb = b /\ pval N env pc = c.
Proof.
  intros W H Ha Hb Hc.
  destruct (coefs p x env 3 (co3 a b c) W) as [A B].
  { intros z. rewrite H. apply co3_eq. }
  split; [|split].
  - apply (A 2%nat pa); auto.
  - apply (A 1%nat pb); auto.
  - apply (B pc); auto.
Qed.

(** ** Evaluation under a mapping *)

Lemma poly_eval_inv m (p : poly N) v :
  poly_eval N m p = Ok v -> v = pval N (env_of m) p /\ forall n, In n (pnames N p) -> m n <> None.
Proof.
  intros H. assert (B : forall n, In n (pnames N p) -> m n <> None).
  { intros n Hn E. rewrite (poly_eval_missing N m p n Hn E) in H. discriminate. }
  split; auto. rewrite (poly_eval_bound N m p B) in H. now injection H.
Qed.

Lemma exppoly_eval_inv m (e : exppoly N) v :
  exppoly_eval N m e = Ok v -> v = val (econst e) * exp (pval N (env_of m) (epoly e)).
Proof.
  intros H. apply bind_Ok in H. destruct H as [w [Hw H]]. injection H as <-.
  apply poly_eval_inv in Hw. destruct Hw as [-> _]. reflexivity.
Qed.

(** ** Whole line *)

Lemma integrate1_inv (e e' : exppoly N) x :
  wf_poly N (epoly e) -> integrate1 N so ofR e x = Ok e' ->
  exists a pa pb pc,
    poly_collect_for N so (epoly e) (Factor x 2) = Ok pa
    /\ poly_collect_for N so (epoly e) (Factor x 1) = Ok pb
    /\ poly_reject N so (epoly e) x = Ok pc
    /\ poly_highest_power N (epoly e) x = Ok 2%nat
    /\ (forall env, pval N env pa = a) /\ a <> 0
    /\ wf_poly N (epoly e')
    /\ (forall n, In n (pnames N (epoly e')) -> In n (pnames N (epoly e)) /\ n <> x)
    /\ val (econst e') = val (econst e) * safe_sqrt (- PI / a)
    /\ forall env, pval N env (epoly e') = - / 4 / a * pval N env pb ^ 2 + pval N env pc.
Proof.
  intros W H. unfold integrate1 in H.
  apply bind_Ok in H. destruct H as [[] [Hck H]].
  apply bind_Ok in H. destruct H as [pa [Ha H]].
  apply bind_Ok in H. destruct H as [pb [Hb H]].
  apply bind_Ok in H. destruct H as [pc [Hc H]].
  destruct (poly_is_constant N pa) eqn:Ec; [|discriminate]. simpl in H.
  apply bind_Ok in H. destruct H as [a [Hea H]].
  apply bind_Ok in H. destruct H as [r [Hr H]].
  apply bind_Ok in H. destruct H as [q [Hq H]].
  apply bind_Ok in H. destruct H as [t [Ht H]].
  apply bind_Ok in H. destruct H as [tp [Htp H]].
  apply bind_Ok in H. destruct H as [b2 [Hb2 H]].
  apply bind_Ok in H. destruct H as [pr [Hpr H]].
  apply bind_Ok in H. destruct H as [s [Hs H]].
  injection H as <-. simpl.
  apply rdiv_Ok in Hr. destruct Hr as [Na ->]. apply rdiv_Ok in Hq. destruct Hq as [_ ->].
  destruct (poly_collect_spec N so _ _ _ W Ha) as [Wa [Xa [Na' _]]].
  destruct (poly_collect_spec N so _ _ _ W Hb) as [Wb [Xb [Nb _]]].
  destruct (poly_reject_spec N so _ _ _ W Hc) as [Wc [Xc [Nc _]]]. simpl in Xa, Xb.
  assert (Ea : forall env, pval N env pa = a).
  { intros env. apply poly_eval_inv in Hea. destruct Hea as [-> _].
    apply pval_ext. intros n Hn. exfalso. unfold pnames in Hn. apply in_flat_map in Hn.
    destruct Hn as [u [Hu Hn]]. unfold poly_is_constant in Ec. rewrite forallb_forall in Ec.
    specialize (Ec u Hu). unfold term_is_constant in Ec. apply Nat.eqb_eq in Ec.
    unfold tnames in Hn. destruct (tfactors u); [destruct Hn|discriminate]. }
  destruct (pconst_spec N so (ofR (- / 4 / a))) as [tp' [Htp' [Wtp [Ntp Vtp]]]].
  unfold pconst in Htp'. rewrite Ht in Htp'. simpl in Htp'. rewrite Htp in Htp'. injection Htp' as <-.
  destruct (poly_pow_spec N so pb 2 b2 Wb Hb2) as [Wb2 [Nb2 [_ Vb2]]].
  destruct (poly_mul_obj_spec N so tp b2 pr Wtp Wb2 Hpr) as [Wpr [Npr Vpr]].
  exists a, pa, pb, pc. repeat split; auto.
  - unfold check_quadratic in Hck. apply bind_Ok in Hck. destruct Hck as [h [Hh E]].
    destruct (Nat.eqb h 2) eqn:E2; [|discriminate]. apply Nat.eqb_eq in E2. now subst.
  - eapply (poly_add_wf N so pr pc); eauto.
  - eapply (poly_add_wf N so pr pc); eauto.
  - apply (poly_add_names N so pr pc s n) in H; auto. destruct H as [H|H]; auto.
    destruct (Npr n H) as [H'|H']; [rewrite Ntp in H'; destruct H'|auto].
  - apply (poly_add_names N so pr pc s n) in H; auto. intros ->. destruct H as [H|H]; auto.
    destruct (Npr x H) as [H'|H']; [rewrite Ntp in H'; destruct H'|auto].
  - rewrite val_mul, val_ofR. reflexivity.
  - intros env. rewrite (poly_add_val N so env pr pc s); auto. rewrite Vpr, Vtp, Vb2, val_ofR. reflexivity.
Qed.

(** The value of one integration. *)
Lemma integrate1_spec (e e' : exppoly N) x env a b c :
  wf_poly N (epoly e) -> integrate1 N so ofR e x = Ok e' ->
  (forall z, pval N (rebind env x z) (epoly e) = a * z ^ 2 + b * z + c) ->
  a < 0 -> / 10 ^ 30 <= - PI / a ->
  is_integral (fun z => val (econst e) * exp (pval N (rebind env x z) (epoly e))) m_infty p_infty
     (val (econst e') * exp (pval N env (epoly e')))
  /\ pval N env (epoly e') = c - b ^ 2 / (4 * a).
Proof.
  intros W H Hq Ha Hf.
  destruct (integrate1_inv e e' x W H) as [a' [pa [pb [pc [Ca [Cb [Cc [_ [Va [_ [_ [_ [Ve' Vp']]]]]]]]]]]]].
  destruct (coefs2 (epoly e) pa pb pc x env a b c W Hq Ca Cb Cc) as [E1 [E2 E3]].
  rewrite Va in E1. subst a'. rewrite Vp', Ve', E2, E3. split.
  - eapply is_integral_ext.
    2: { rewrite Rmult_assoc. apply is_integral_scal.
         rewrite safe_sqrt_ok by exact Hf. replace (- / 4 / a * b ^ 2) with (- / 4 * b ^ 2 / a) by (field; lra).
         apply gauss_full. exact Ha. }
    intros z. unfold qf. now rewrite Hq.
  - field. lra.
Qed.

(** ** Up to zero, one variable *)

Lemma integrate_half1_spec (e : exppoly N) x m env a b c v :
  wf_poly N (epoly e) -> integrate_half1 N so e x m = Ok v ->
  (forall y, In y (pnames N (epoly e)) -> y <> x -> m y = Some (env y)) ->
  (forall z, pval N (rebind env x z) (epoly e) = a * z ^ 2 + b * z + c) ->
  a < 0 -> / 10 ^ 30 <= - PI / a -> / 10 ^ 30 <= - a ->
  is_integral (fun z => val (econst e) * exp (pval N (rebind env x z) (epoly e))) m_infty 0 v.
Proof.
  intros W H Hm Hq Ha Hf1 Hf2. unfold integrate_half1 in H.
  apply bind_Ok in H. destruct H as [[] [Hck H]].
  apply bind_Ok in H. destruct H as [pa [Ca H]].
  apply bind_Ok in H. destruct H as [pb [Cb H]].
  apply bind_Ok in H. destruct H as [pc [Cc H]].
  apply bind_Ok in H. destruct H as [va [Va H]].
  apply bind_Ok in H. destruct H as [vb [Vb H]].
  apply bind_Ok in H. destruct H as [vc [Vc H]].
  destruct (coefs2 (epoly e) pa pb pc x env a b c W Hq Ca Cb Cc) as [E1 [E2 E3]].
  destruct (poly_collect_spec N so _ _ _ W Ca) as [_ [Xa [Na _]]].
  destruct (poly_collect_spec N so _ _ _ W Cb) as [_ [Xb [Nb _]]].
  destruct (poly_reject_spec N so _ _ _ W Cc) as [_ [Xc [Nc _]]]. simpl in Xa, Xb.
  assert (G : forall q w, (forall n, In n (pnames N q) -> In n (pnames N (epoly e))) ->
             ~ In x (pnames N q) -> poly_eval N m q = Ok w -> w = pval N env q).
  { intros q w Nq Xq Hw. apply poly_eval_inv in Hw. destruct Hw as [-> _].
    apply pval_ext. intros n Hn. unfold env_of. rewrite Hm; auto. intros ->. contradiction. }
  apply (G pa) in Va; auto. apply (G pb) in Vb; auto. apply (G pc) in Vc; auto.
  rewrite E1 in Va. rewrite E2 in Vb. rewrite E3 in Vc. subst va vb vc.
  apply bind_Ok in H. destruct H as [r [Hr H]].
  apply bind_Ok in H. destruct H as [q [Hq' H]].
  apply bind_Ok in H. destruct H as [z [Hz H]]. injection H as <-.
  apply rdiv_Ok in Hr. destruct Hr as [_ ->]. apply rdiv_Ok in Hq'. destruct Hq' as [_ ->].
  apply rdiv_Ok in Hz. destruct Hz as [_ ->].
  rewrite !safe_sqrt_ok by assumption.
  eapply is_integral_ext.
  2: { replace (/ 2 * val (econst e) * sqrt (- PI / a) * exp (- / 4 * b ^ 2 / a + c) * (1 - erf (/ 2 * b / sqrt (- a))))
         with (val (econst e) * (/ 2 * sqrt (- PI / a) * exp (- / 4 * b ^ 2 / a + c) * (1 - erf (/ 2 * b / sqrt (- a)))))
         by ring.
       apply is_integral_scal. apply gauss_half. exact Ha. }
  intros z. unfold qf. now rewrite Hq.
Qed.

(** ** Up to zero, two variables *)

Lemma rebind_comm env x y u v n : x <> y -> rebind (rebind env x u) y v n = rebind (rebind env y v) x u n.
Proof.
  intros H. unfold rebind. destruct (String.eqb_spec n y), (String.eqb_spec n x); congruence.
Qed.

Lemma integrate_half2_spec (e : exppoly N) x y m env a11 a12 a22 b1 b2 c v :
  x <> y ->
  wf_poly N (epoly e) -> integrate_half2 N so e x y m = Ok v ->
  (forall w, In w (pnames N (epoly e)) -> w <> x -> w <> y -> m w = Some (env w)) ->
  (forall z1 z2, pval N (rebind (rebind env x z1) y z2) (epoly e)
     = a11 * z1 ^ 2 + a12 * z1 * z2 + a22 * z2 ^ 2 + b1 * z1 + b2 * z2 + c) ->
  a11 < 0 -> 0 < 4 * a11 * a22 - a12 ^ 2 ->
  let det := 4 * a11 * a22 - a12 ^ 2 in
  / 10 ^ 30 <= det -> / 10 ^ 30 <= -2 * a22 / det -> / 10 ^ 30 <= -2 * a11 / det ->
  / 10 ^ 30 <= (-2 * a22 / det) * (-2 * a11 / det) ->
  is_integral2 (fun z1 z2 => val (econst e) * exp (pval N (rebind (rebind env x z1) y z2) (epoly e)))
               m_infty 0 m_infty 0 v.
Proof.
  intros Nxy W H Hm Hq H11 Hdet det F0 F1 F2 F3. unfold integrate_half2 in H.
  set (p := epoly e) in *.
  apply bind_Ok in H. destruct H as [[] [Hck1 H]].
  apply bind_Ok in H. destruct H as [[] [Hck2 H]].
  apply bind_Ok in H. destruct H as [p11 [C11 H]].
  apply bind_Ok in H. destruct H as [p22 [C22 H]].
  apply bind_Ok in H. destruct H as [p1 [C1 H]].
  apply bind_Ok in H. destruct H as [p12 [C12 H]].
  apply bind_Ok in H. destruct H as [p1' [C1' H]]. rewrite C1 in C1'. injection C1' as <-.
  apply bind_Ok in H. destruct H as [pb1 [Cb1 H]].
  apply bind_Ok in H. destruct H as [p2 [C2 H]].
  apply bind_Ok in H. destruct H as [pb2 [Cb2 H]].
  apply bind_Ok in H. destruct H as [r1 [Cr1 H]].
  apply bind_Ok in H. destruct H as [pc [Cc H]].
  apply bind_Ok in H. destruct H as [v11 [V11 H]].
  apply bind_Ok in H. destruct H as [v22 [V22 H]].
  apply bind_Ok in H. destruct H as [v12 [V12 H]].
  apply bind_Ok in H. destruct H as [vb1 [Vb1 H]].
  apply bind_Ok in H. destruct H as [vb2 [Vb2 H]].
  apply bind_Ok in H. destruct H as [vc [Vc H]].
  cbv zeta in H.
  (* the mapping as an environment *)
  set (em := env_of m) in *.
  assert (Em : forall z1 z2, pval N (rebind (rebind em x z1) y z2) p
     = a11 * z1 ^ 2 + a12 * z1 * z2 + a22 * z2 ^ 2 + b1 * z1 + b2 * z2 + c).
  { intros z1 z2. rewrite <- Hq. apply pval_ext. intros n Hn. unfold rebind.
    destruct (String.eqb_spec n y); auto. destruct (String.eqb_spec n x); auto.
    unfold em, env_of. rewrite Hm; auto. }
  destruct (poly_collect_spec N so _ _ _ W C1) as [W1 [X1 [N1 _]]].
  destruct (poly_collect_spec N so _ _ _ W C2) as [W2 [X2 [N2 _]]].
  destruct (poly_reject_spec N so _ _ _ W Cr1) as [Wr1 [Xr1 [Nr1 _]]]. simpl in X1, X2.
  (* as a polynomial in x, for every value of y *)
  assert (Px : forall z2, pval N (rebind em y z2) p11 = a11
             /\ pval N (rebind em y z2) p1 = a12 * z2 + b1
             /\ pval N (rebind em y z2) r1 = a22 * z2 ^ 2 + b2 * z2 + c).
  { intros z2. apply (coefs2 p p11 p1 r1 x (rebind em y z2)); auto.
    intros z1. rewrite <- (pval_ext N (rebind (rebind em x z1) y z2)).
    - rewrite Em. ring.
    - intros n _. now apply rebind_comm. }
  (* as a polynomial in y, for every value of x *)
  destruct (poly_reject_total N so p y W) as [r2 Cr2].
  assert (Py : forall z1, pval N (rebind em x z1) p22 = a22
             /\ pval N (rebind em x z1) p2 = a12 * z1 + b2
             /\ pval N (rebind em x z1) r2 = a11 * z1 ^ 2 + b1 * z1 + c).
  { intros z1. apply (coefs2 p p22 p2 r2 y (rebind em x z1)); auto. intros z2. rewrite Em. ring. }
  assert (Id : forall w q, pval N (rebind em w (em w)) q = pval N em q).
  { intros w q. apply pval_ext. intros n _. unfold rebind. destruct (String.eqb_spec n w); congruence. }
  apply poly_eval_inv in V11. destruct V11 as [-> _].
  apply poly_eval_inv in V22. destruct V22 as [-> _].
  apply poly_eval_inv in V12. destruct V12 as [-> _].
  apply poly_eval_inv in Vb1. destruct Vb1 as [-> _].
  apply poly_eval_inv in Vb2. destruct Vb2 as [-> _].
  apply poly_eval_inv in Vc. destruct Vc as [-> _].
  fold em in H.
  assert (E11 : pval N em p11 = a11) by (rewrite <- (Id y); apply Px).
  assert (E22 : pval N em p22 = a22) by (rewrite <- (Id x); apply Py).
  assert (L1 : pval N em p12 = a12 /\ pval N em pb1 = b1).
  { destruct (coefs p1 y em 3 (co3 0 a12 b1) W1) as [A B].
    - intros z. rewrite <- co3_eq. destruct (Px z) as [_ [-> _]]. ring.
    - split; [apply (A 1%nat); auto|apply B; auto]. }
  assert (L2 : pval N em pb2 = b2).
  { destruct (coefs p2 x em 3 (co3 0 a12 b2) W2) as [A B].
    - intros z. rewrite <- co3_eq. destruct (Py z) as [_ [-> _]]. ring.
    - apply B; auto. }
  assert (L3 : pval N em pc = c).
  { destruct (coefs r1 y em 3 (co3 a22 b2 c) Wr1) as [A B].
    - intros z. rewrite <- co3_eq. apply Px.
    - apply B; auto. }
  destruct L1 as [E12 Eb1]. rewrite E11, E22, E12, Eb1, L2, L3 in H.
  apply bind_Ok in H. destruct H as [i11 [I11 H]].
  apply bind_Ok in H. destruct H as [i12 [I12 H]].
  apply bind_Ok in H. destruct H as [i22 [I22 H]].
  apply bind_Ok in H. destruct H as [x1 [X1' H]].
  apply bind_Ok in H. destruct H as [x2 [X2' H]].
  apply bind_Ok in H. destruct H as [rho [Rho H]].
  apply bind_Ok in H. destruct H as [dp [Dp H]]. injection H as <-.
  apply rdiv_Ok in I11. destruct I11 as [_ ->]. apply rdiv_Ok in I12. destruct I12 as [_ ->].
  apply rdiv_Ok in I22. destruct I22 as [_ ->].
  apply rdiv_Ok in X1'. destruct X1' as [_ ->]. apply rdiv_Ok in X2'. destruct X2' as [_ ->].
  apply rdiv_Ok in Rho. destruct Rho as [_ ->]. apply rdiv_Ok in Dp. destruct Dp as [_ ->].
  assert (Ed : -2 * a11 * (-2 * a22) - (-1 * a12) ^ 2 = det) by (unfold det; ring).
  rewrite !Ed.
  rewrite (safe_sqrt_ok det F0), (safe_sqrt_ok _ F1), (safe_sqrt_ok _ F2), (safe_sqrt_ok _ F3).
  rewrite Rmult_assoc.
  eapply is_integral2_ext.
  2: { apply is_integral2_scal. rewrite <- Ed. apply gauss_quadrant; auto. }
  intros z1 z2. unfold qf2. now rewrite Hq.
Qed.

(** ** Translation *)

Lemma translate_spec (e f : exppoly N) (q : poly N) x :
  wf_poly N (epoly e) -> wf_poly N q -> exppoly_translate_var N so e x q = Ok f ->
  wf_poly N (epoly f) /\ econst f = econst e
  /\ (forall n, In n (pnames N (epoly f)) -> In n (pnames N (epoly e)) \/ n = x \/ In n (pnames N q))
  /\ forall env, pval N env (epoly f) = pval N (rebind env x (env x + pval N env q)) (epoly e).
Proof.
  intros We Wq H. unfold exppoly_translate_var in H.
  apply bind_Ok in H. destruct H as [vx [Hvx H]].
  apply bind_Ok in H. destruct H as [xq [Hxq H]].
  apply bind_Ok in H. destruct H as [o [Ho H]].
  destruct (pvar_spec N so x 1 vx Hvx) as [Wvx [Nvx [_ Vvx]]].
  pose proof (poly_add_wf N so vx q xq Wvx Wq Hxq) as Wxq.
  destruct (poly_substitute_spec N so _ x xq o We Wxq Ho) as [Wo [No Vo]].
  destruct o as [c|r]; simpl in H; [discriminate|]. injection H as <-. simpl.
  split; [exact Wo|]. split; [reflexivity|]. split.
  - intros n Hn. destruct (No n Hn) as [[A _]|[A B]]; auto.
    apply (poly_add_names N so vx q xq n Wvx Wq Hxq) in A. destruct A as [A|A]; auto.
  - intros env. specialize (Vo env). simpl in Vo. rewrite Vo.
    rewrite (poly_add_val N so env vx q xq Wvx Wq Hxq), Vvx.
    change (Z.to_nat 1) with 1%nat. rewrite pow_1. reflexivity.
Qed.

Lemma as_poly_spec (o : obj N) p :
  wf_obj N o -> as_poly N so o = Ok p ->
  wf_poly N p /\ (forall n, In n (pnames N p) -> In n (onames N o)) /\ forall env, pval N env p = oval N env o.
Proof.
  destruct o as [c|q]; simpl; intros W H.
  - destruct (pconst_spec N so c) as [p' [E [Wp [Np V]]]]. rewrite E in H. injection H as <-.
    split; auto. split; auto. now rewrite Np.
  - injection H as <-. auto.
Qed.

End IntProofs.
