(** Proofs about [integrate] over several variables and [integrate_box]. *)
From Coq Require Import Reals ZArith List Bool String Lia Lra Psatz.
From Coquelicot Require Import Coquelicot.
From Verif Require Import Py ExpPolyModel ListFacts ExpPolyProofs ExpPolySpec ExpPolyProofs2.
From Verif Require Import Gauss Gauss2 Gauss3 ExpPolyIntModel ExpPolyIntProofs ExpPolyIntSpec.
Import ListNotations.
Local Open Scope R_scope.

Section IntProofs2.
Context (N : numdom) (so : setorder) (ofR : R -> N).
Hypothesis val_ofR : forall r, val (ofR r) = r.

Lemma eliminates_ext h1 h2 xs h' : (forall env, h1 env = h2 env) -> eliminates h1 xs h' -> eliminates h2 xs h'.
Proof.
  destruct xs as [|x xs]; intros E.
  - intros D env. rewrite D. apply E.
  - intros [a [b [c [A [B [D F]]]]]]. exists a, b, c. repeat split; auto.
    intros env z. now rewrite <- E.
Qed.

Lemma iterated_ext (f f' : (string -> R) -> R) xs env v : (forall e, f e = f' e) -> iterated f xs env v -> iterated f' xs env v.
Proof.
  destruct xs as [|x xs]; simpl; intros E.
  - intros ->. apply E.
  - intros [g [A B]]. exists g. split; auto. intros env'. eapply is_integral_ext; [|apply A]. intros z. apply E.
Qed.

Lemma integrate_names_spec xs : forall (e e' : exppoly N),
  wf_poly N (epoly e) -> integrate_names N so ofR e xs = Ok e' ->
  forall h', eliminates (fun env => pval N env (epoly e)) xs h' ->
  (forall env, pval N env (epoly e') = h' env) /\ wf_poly N (epoly e')
  /\ (forall n, In n (pnames N (epoly e')) -> In n (pnames N (epoly e)) /\ ~ In n xs)
  /\ forall env, iterated (fun env => val (econst e) * exp (pval N env (epoly e))) xs env
                          (val (econst e') * exp (pval N env (epoly e'))).
Proof.
  induction xs as [|x xs IH]; intros e e' W H h' D; unfold integrate_names in H; simpl in H.
  - injection H as <-. split; [intros env; symmetry; apply D|]. simpl. auto.
  - apply bind_Ok in H. destruct H as [e1 [H1 H]].
    destruct (integrate1_inv N so ofR val_ofR e e1 x W H1) as (a' & pa & pb & pc & _ & _ & _ & _ & _ & _ & W1 & N1 & _).
    destruct D as [a [b [c [Ha [Hf [Hq D]]]]]].
    assert (S : forall env, is_integral (fun z => val (econst e) * exp (pval N (rebind env x z) (epoly e))) m_infty p_infty
                   (val (econst e1) * exp (pval N env (epoly e1)))
                 /\ pval N env (epoly e1) = c env - b env ^ 2 / (4 * a)).
    { intros env. apply (integrate1_spec N so ofR val_ofR e e1 x env a (b env) (c env) W H1); auto. }
    destruct (IH e1 e' W1 H h') as [E' [W' [N' I']]].
    { eapply eliminates_ext; [|exact D]. intros env. simpl. symmetry. apply S. }
    split; auto. split; auto. split.
    + intros n Hn. destruct (N' n Hn) as [A B]. destruct (N1 n A) as [A' B']. split; auto.
      simpl. intros [->|F]; auto.
    + intros env. simpl. exists (fun env => val (econst e1) * exp (pval N env (epoly e1))). split; auto.
      intros env'. apply S.
Qed.

(** ** Boxes *)

Definition lim_wf (l : limit N) : Prop := match l with LInf => True | LObj o => wf_obj N o end.

Lemma built_obj_wf o : built_obj N o -> wf_obj N o.
Proof. destruct o; simpl; auto. apply built_wf. Qed.

Lemma oval_eval env o v : obj_eval N (fun y => Some (env y)) o = Ok v -> oval N env o = v.
Proof.
  intros H. rewrite (obj_eval_bound N _ o env) in H by reflexivity. now injection H.
Qed.

Lemma obj_depends_names o x : obj_depends N o x = true <-> In x (onames N o).
Proof.
  destruct o; simpl.
  - split; [discriminate|intros []].
  - apply poly_is_function_of_names.
Qed.

(** A translated part over a half line. *)
Lemma part1 (e q : exppoly N) (o : obj N) s x m env a b c v S :
  wf_poly N (epoly e) -> built_obj N o -> obj_depends N o x = false ->
  oval N env o = S ->
  as_poly N so o = Ok s -> exppoly_translate_var N so e x s = Ok q ->
  (forall y, y <> x -> In y (pnames N (epoly e)) \/ In y (onames N o) -> m y = Some (env y)) ->
  (forall z, pval N (rebind env x z) (epoly e) = a * z ^ 2 + b * z + c) ->
  a < 0 -> / 10 ^ 30 <= - PI / a -> / 10 ^ 30 <= - a ->
  forall q' , epoly q' = epoly q -> integrate_half1 N so q' x m = Ok v ->
  is_integral (fun z => val (econst q') * exp (pval N (rebind env x z) (epoly e))) m_infty S v.
Proof.
  intros W Bo Do So Hs Hq Hm Hquad Ha F1 F2 q' Eq H.
  destruct (as_poly_spec N so o s (built_obj_wf o Bo) Hs) as [Ws [Ns Vs]].
  destruct (translate_spec N so e q s x W Ws Hq) as [Wq [_ [Nq Vq]]].
  assert (Xo : ~ In x (onames N o)).
  { intros F. apply obj_depends_names in F. congruence. }
  assert (Vz : forall z, pval N (rebind env x z) (epoly q) = pval N (rebind env x (z + S)) (epoly e)).
  { intros z. rewrite Vq, rebind_same.
    assert (P : pval N (rebind env x z) s = S).
    { rewrite pval_rebind_notin by (intros F; apply Xo; auto). now rewrite Vs. }
    rewrite P. apply pval_ext. intros n _. unfold rebind. destruct (String.eqb n x); auto. }
  assert (I : is_integral (fun z => val (econst q') * exp (pval N (rebind env x z) (epoly q'))) m_infty 0 v).
  { eapply (integrate_half1_spec N so q' x m env a (2 * a * S + b) (a * S ^ 2 + b * S + c) v); eauto.
    - now rewrite Eq.
    - intros y Hy Ny. rewrite Eq in Hy. apply Hm; auto.
      destruct (Nq y Hy) as [A|[A|A]]; [auto|contradiction|auto].
    - intros z. rewrite Eq, Vz, Hquad. ring. }
  replace (Finite S) with (Finite (S + 0)) by (f_equal; ring).
  eapply is_integral_ext with (f := fun z => val (econst q') * exp (pval N (rebind env x ((z + - S) + S)) (epoly e))).
  { intros z. do 4 f_equal. ring. }
  apply (is_integral_shift (fun z => val (econst q') * exp (pval N (rebind env x (z + S)) (epoly e))) (- S) m_infty (S + 0)).
  simpl lim_affine. replace (1 * (S + 0) + - S) with 0 by ring.
  eapply is_integral_ext; [|exact I]. intros z. simpl. now rewrite Eq, Vz.
Qed.

(** Dito for two variables. *)
Lemma part2 (e q1 q1' q2 : exppoly N) (o1 o2 : obj N) s1 s2 x y m env a11 a12 a22 b1 b2 c v S1 S2 :
  x <> y ->
  wf_poly N (epoly e) -> built_obj N o1 -> built_obj N o2 ->
  obj_depends N o1 x = false -> obj_depends N o1 y = false ->
  obj_depends N o2 x = false -> obj_depends N o2 y = false ->
  oval N env o1 = S1 -> oval N env o2 = S2 ->
  as_poly N so o1 = Ok s1 -> as_poly N so o2 = Ok s2 ->
  exppoly_translate_var N so e x s1 = Ok q1 -> epoly q1' = epoly q1 ->
  exppoly_translate_var N so q1' y s2 = Ok q2 ->
  (forall w, w <> x -> w <> y -> In w (pnames N (epoly e)) \/ In w (onames N o1) \/ In w (onames N o2) -> m w = Some (env w)) ->
  (forall z1 z2, pval N (rebind (rebind env x z1) y z2) (epoly e)
     = a11 * z1 ^ 2 + a12 * z1 * z2 + a22 * z2 ^ 2 + b1 * z1 + b2 * z2 + c) ->
  a11 < 0 -> 0 < 4 * a11 * a22 - a12 ^ 2 ->
  let det := 4 * a11 * a22 - a12 ^ 2 in
  / 10 ^ 30 <= det -> / 10 ^ 30 <= -2 * a22 / det -> / 10 ^ 30 <= -2 * a11 / det ->
  / 10 ^ 30 <= (-2 * a22 / det) * (-2 * a11 / det) ->
  forall q2', epoly q2' = epoly q2 -> integrate_half2 N so q2' x y m = Ok v ->
  is_integral2 (fun z1 z2 => val (econst q2') * exp (pval N (rebind (rebind env x z1) y z2) (epoly e)))
               m_infty S1 m_infty S2 v.
Proof.
  intros Nxy W B1 B2 D1x D1y D2x D2y E1 E2 A1 A2 T1 Eq1 T2 Hm Hquad H11 Hdet det F0 F1 F2 F3 q2' Eq2 H.
  destruct (as_poly_spec N so o1 s1 (built_obj_wf o1 B1) A1) as [Ws1 [Ns1 Vs1]].
  destruct (as_poly_spec N so o2 s2 (built_obj_wf o2 B2) A2) as [Ws2 [Ns2 Vs2]].
  destruct (translate_spec N so e q1 s1 x W Ws1 T1) as [Wq1 [_ [Nq1 Vq1]]].
  assert (Wq1' : wf_poly N (epoly q1')) by now rewrite Eq1.
  destruct (translate_spec N so q1' q2 s2 y Wq1' Ws2 T2) as [Wq2 [_ [Nq2 Vq2]]].
  assert (X1 : ~ In x (pnames N s1)).
  { intros F. apply Ns1, obj_depends_names in F. congruence. }
  assert (Y1 : ~ In y (pnames N s1)).
  { intros F. apply Ns1, obj_depends_names in F. congruence. }
  assert (X2 : ~ In x (pnames N s2)).
  { intros F. apply Ns2, obj_depends_names in F. congruence. }
  assert (Y2 : ~ In y (pnames N s2)).
  { intros F. apply Ns2, obj_depends_names in F. congruence. }
  assert (Vz : forall z1 z2, pval N (rebind (rebind env x z1) y z2) (epoly q2)
                = pval N (rebind (rebind env x (z1 + S1)) y (z2 + S2)) (epoly e)).
  { intros z1 z2. rewrite Vq2, rebind_same.
    assert (P2 : pval N (rebind (rebind env x z1) y z2) s2 = S2).
    { rewrite !pval_rebind_notin by assumption. now rewrite Vs2. }
    rewrite P2, Eq1, Vq1.
    assert (P1 : pval N (rebind (rebind (rebind env x z1) y z2) y (z2 + S2)) s1 = S1).
    { rewrite !pval_rebind_notin by assumption. now rewrite Vs1. }
    rewrite P1. rewrite (rebind_other _ y _ x), (rebind_other _ y _ x), rebind_same by assumption.
    apply pval_ext. intros n _. unfold rebind.
    destruct (String.eqb_spec n x), (String.eqb_spec n y); congruence. }
  assert (I : is_integral2 (fun z1 z2 => val (econst q2') * exp (pval N (rebind (rebind env x z1) y z2) (epoly q2')))
                m_infty 0 m_infty 0 v).
  { eapply (integrate_half2_spec N so q2' x y m env a11 a12 a22
              (2 * a11 * S1 + a12 * S2 + b1) (2 * a22 * S2 + a12 * S1 + b2)
              (a11 * S1 ^ 2 + a12 * S1 * S2 + a22 * S2 ^ 2 + b1 * S1 + b2 * S2 + c) v); eauto.
    - now rewrite Eq2.
    - intros w Hw Wx Wy. rewrite Eq2 in Hw. apply Hm; auto.
      destruct (Nq2 w Hw) as [A|[A|A]]; [|contradiction|auto].
      rewrite Eq1 in A. destruct (Nq1 w A) as [A'|[A'|A']]; [auto|contradiction|auto].
    - intros z1 z2. rewrite Eq2, Vz, Hquad. ring. }
  eapply is_integral2_ext with (f1 := fun z1 z2 => val (econst q2')
      * exp (pval N (rebind (rebind env x ((z1 + - S1) + S1)) y ((z2 + - S2) + S2)) (epoly e))).
  { intros z1 z2. do 2 f_equal. f_equal. replace (z1 + - S1 + S1) with z1 by ring.
    replace (z2 + - S2 + S2) with z2 by ring. reflexivity. }
  apply (is_integral2_shift (fun z1 z2 => val (econst q2')
      * exp (pval N (rebind (rebind env x (z1 + S1)) y (z2 + S2)) (epoly e))) (- S1) (- S2) m_infty S1 m_infty S2).
  simpl lim_affine. replace (1 * S1 + - S1) with 0 by ring. replace (1 * S2 + - S2) with 0 by ring.
  eapply is_integral2_ext; [|exact I]. intros z1 z2. simpl. now rewrite Eq2, Vz.
Qed.


Lemma box_filter_spec nls : forall (e : exppoly N) acc,
  foldM (box_filter N so ofR) nls (e, acc)
  = do e' <- integrate_names N so ofR e (doubly_infinite nls); Ok (e', acc ++ others nls).
Proof.
  induction nls as [|[[x l] u] nls IH]; intros e acc.
  - simpl. now rewrite app_nil_r.
  - unfold doubly_infinite, others. simpl flat_map. fold (doubly_infinite nls) (others nls).
    unfold integrate_names.
    destruct l as [|ol], u as [|ou]; simpl; try (rewrite IH; unfold integrate_names; now rewrite <- app_assoc).
    destruct (integrate1 N so ofR e x) as [e1|er]; simpl; auto. now rewrite IH.
Qed.

Lemma others_idem (nls : list (string * limit N * limit N)) : others (others nls) = others nls.
Proof.
  induction nls as [|[[x l] u] nls IH]; auto.
  unfold others at 2 3. simpl. destruct l, u; simpl; fold (others nls); auto;
  unfold others; simpl; f_equal; exact IH.
Qed.
Lemma doubly_others (nls : list (string * limit N * limit N)) : doubly_infinite (others nls) = [].
Proof.
  induction nls as [|[[x l] u] nls IH]; auto.
  unfold others. simpl. destruct l, u; simpl; fold (others nls); auto.
Qed.

Lemma box_infinite_first (e : exppoly N) nls m :
  integrate_box N so ofR e nls m
  = do e' <- integrate_names N so ofR e (doubly_infinite nls); integrate_box N so ofR e' (others nls) m.
Proof.
  unfold integrate_box at 1. rewrite box_filter_spec.
  destruct (integrate_names N so ofR e (doubly_infinite nls)) as [e'|er]; simpl; auto.
  unfold integrate_box. rewrite box_filter_spec, doubly_others, others_idem. reflexivity.
Qed.

(** The value of a box with one entry left. *)
Lemma box1_inv (e : exppoly N) x (l : limit N) o m v :
  integrate_box N so ofR e [(x, l, LObj o)] m = Ok v ->
  exists u q vu, as_poly N so o = Ok u /\ exppoly_translate_var N so e x u = Ok q
    /\ integrate_half1 N so q x m = Ok vu
    /\ match l with
       | LInf => v = vu
       | LObj o' => exists w r r' vl, as_poly N so o' = Ok w /\ exppoly_translate_var N so e x w = Ok r
            /\ exppoly_neg N r = Ok r' /\ integrate_half1 N so r' x m = Ok vl /\ v = vu + vl
       end.
Proof.
  unfold integrate_box. rewrite box_filter_spec. destruct l as [|ol]; simpl; intros H.
  - apply bind_Ok in H. destruct H as [parts [Hp H]].
    apply bind_Ok in Hp. destruct Hp as [ps [Hp E]].
    apply bind_Ok in Hp. destruct Hp as [l1 [Hp E1]]. apply bind_Ok in Hp. destruct Hp as [l2 [Hp E2]].
    unfold box_part in Hp. apply bind_Ok in Hp. destruct Hp as [us [Hu Hl]].
    apply bind_Ok in Hu. destruct Hu as [u [Hu1 Hu2]]. apply bind_Ok in Hu2. destruct Hu2 as [q [Hq Hu2]].
    injection Hu2 as <-. injection Hl as <-. injection E2 as <-. injection E1 as <-. injection E as <-.
    simpl in H. apply bind_Ok in H. destruct H as [r [H E]]. apply bind_Ok in H. destruct H as [vu [H E']].
    injection E' as <-. injection E as <-.
    exists u, q, vu. repeat split; auto. ring.
  - apply bind_Ok in H. destruct H as [parts [Hp H]].
    apply bind_Ok in Hp. destruct Hp as [ps [Hp E]].
    apply bind_Ok in Hp. destruct Hp as [l1 [Hp E1]]. apply bind_Ok in Hp. destruct Hp as [l2 [Hp E2]].
    unfold box_part in Hp. apply bind_Ok in Hp. destruct Hp as [us [Hu Hl]].
    apply bind_Ok in Hu. destruct Hu as [u [Hu1 Hu2]]. apply bind_Ok in Hu2. destruct Hu2 as [q [Hq Hu2]].
    apply bind_Ok in Hl. destruct Hl as [ls [Hl E3]].
    apply bind_Ok in Hl. destruct Hl as [w [Hw Hl]]. apply bind_Ok in Hl. destruct Hl as [r [Hr Hl]].
    apply bind_Ok in Hl. destruct Hl as [r' [Hr' Hl]].
    injection Hu2 as <-. injection Hl as <-. injection E3 as <-. injection E2 as <-. injection E1 as <-. injection E as <-.
    simpl in H. apply bind_Ok in H. destruct H as [s1 [H E]]. apply bind_Ok in H. destruct H as [vu [H E']].
    injection E' as <-. apply bind_Ok in E. destruct E as [s2 [H2 E]]. apply bind_Ok in H2. destruct H2 as [vl [H2 E']].
    injection E' as <-. injection E as <-.
    exists u, q, vu. repeat split; auto. exists w, r, r', vl. repeat split; auto. ring.
Qed.

Lemma neg_spec (r r' : exppoly N) : exppoly_neg N r = Ok r' -> epoly r' = epoly r /\ val (econst r') = - val (econst r).
Proof. intros H. injection H as <-. simpl. split; auto. apply val_opp. Qed.

Lemma box1_spec (e : exppoly N) x l o m env a b c v L U :
  wf_poly N (epoly e) -> lower_is N [x] env l L -> upper_is N [x] env (LObj o) U ->
  (forall y, y <> x -> In y (pnames N (epoly e)) \/ lim_depends N l y = true \/ In y (onames N o) -> m y = Some (env y)) ->
  (forall z, pval N (rebind env x z) (epoly e) = a * z ^ 2 + b * z + c) ->
  a < 0 -> / 10 ^ 30 <= - PI / a -> / 10 ^ 30 <= - a ->
  integrate_box N so ofR e [(x, l, LObj o)] m = Ok v ->
  is_integral (fun z => val (econst e) * exp (pval N (rebind env x z) (epoly e))) L U v.
Proof.
  intros W HL [BU [DU [U' [-> EU]]]] Hm Hq Ha F1 F2 H.
  apply box1_inv in H. destruct H as (u & q & vu & Hu & Tu & Iu & H).
  apply oval_eval in EU.
  assert (DUx := DU x (or_introl eq_refl)).
  assert (Cq : val (econst q) = val (econst e)).
  { destruct (as_poly_spec N so o u (built_obj_wf o BU) Hu) as [Wu _].
    destruct (translate_spec N so e q u x W Wu Tu) as [_ [-> _]]. reflexivity. }
  pose proof (part1 e q o u x m env a b c vu U' W BU DUx EU Hu Tu
    ltac:(intros y Ny [A|A]; apply Hm; auto) Hq Ha F1 F2 q eq_refl Iu) as P.
  rewrite Cq in P.
  destruct l as [|ol].
  - red in HL. simpl in HL. subst L. now subst v.
  - destruct HL as [BL [DL [L' [-> EL]]]]. apply oval_eval in EL.
    destruct H as (w & r & r' & vl & Hw & Tw & Hr & Il & ->).
    assert (DLx := DL x (or_introl eq_refl)).
    destruct (neg_spec r r' Hr) as [Er Vr].
    assert (Cr : val (econst r') = - val (econst e)).
    { destruct (as_poly_spec N so ol w (built_obj_wf ol BL) Hw) as [Ww _].
      destruct (translate_spec N so e r w x W Ww Tw) as [_ [Ec _]]. rewrite Vr, Ec. reflexivity. }
    pose proof (part1 e r ol w x m env a b c vl L' W BL DLx EL Hw Tw
      ltac:(intros y Ny [A|A]; apply Hm; auto; right; left; now apply obj_depends_names) Hq Ha F1 F2 r' Er Il) as Q.
    rewrite Cr in Q.
    replace (vu + vl) with (vu - (-1) * vl) by ring.
    eapply is_integral_diff; [exact P|].
    eapply is_integral_ext; [|apply is_integral_scal; exact Q]. intros z. simpl. ring.
Qed.

(** An upper limit that is infinite: the value is minus the integral below the lower limit. *)
Lemma box_upper_inf (e : exppoly N) x o m env a b c v L :
  wf_poly N (epoly e) -> lower_is N [x] env (LObj o) L ->
  (forall y, y <> x -> In y (pnames N (epoly e)) \/ In y (onames N o) -> m y = Some (env y)) ->
  (forall z, pval N (rebind env x z) (epoly e) = a * z ^ 2 + b * z + c) ->
  a < 0 -> / 10 ^ 30 <= - PI / a -> / 10 ^ 30 <= - a ->
  integrate_box N so ofR e [(x, LObj o, LInf)] m = Ok v ->
  is_integral (fun z => val (econst e) * exp (pval N (rebind env x z) (epoly e))) m_infty L (- v).
Proof.
  intros W [BL [DL [L' [-> EL]]]] Hm Hq Ha F1 F2 H.
  unfold integrate_box in H. rewrite box_filter_spec in H. simpl in H.
  apply bind_Ok in H. destruct H as [parts [Hp H]].
  apply bind_Ok in Hp. destruct Hp as [ps [Hp E]].
  apply bind_Ok in Hp. destruct Hp as [l1 [Hp E1]]. apply bind_Ok in Hp. destruct Hp as [l2 [Hp E2]].
  unfold box_part in Hp. simpl in Hp. apply bind_Ok in Hp. destruct Hp as [ls [Hl E3]].
  apply bind_Ok in Hl. destruct Hl as [w [Hw Hl]]. apply bind_Ok in Hl. destruct Hl as [r [Hr Hl]].
  set (r' := {| econst := copp (econst r); epoly := epoly r |}) in Hl.
  assert (Hr' : exppoly_neg N r = Ok r') by reflexivity.
  injection Hl as <-. injection E3 as <-. injection E2 as <-. injection E1 as <-. injection E as <-.
  simpl in H. apply bind_Ok in H. destruct H as [s1 [H E]]. apply bind_Ok in H. destruct H as [vl [H E']].
  injection E' as <-. injection E as <-.
  apply oval_eval in EL. assert (DLx := DL x (or_introl eq_refl)).
  destruct (neg_spec r r' Hr') as [Er Vr].
  assert (Cr : val (econst r') = - val (econst e)).
  { destruct (as_poly_spec N so o w (built_obj_wf o BL) Hw) as [Ww _].
    destruct (translate_spec N so e r w x W Ww Hr) as [_ [Ec _]]. rewrite Vr, Ec. reflexivity. }
  pose proof (part1 e r o w x m env a b c vl L' W BL DLx EL Hw Hr Hm Hq Ha F1 F2 r' Er H) as Q.
  rewrite Cr in Q. replace (- (0 + vl)) with ((-1) * vl) by ring.
  eapply is_integral_ext; [|apply is_integral_scal; exact Q]. intros z. simpl. ring.
Qed.

(** ** Two entries left *)

Definition sum_parts (F : exppoly N -> res R) (parts : list (exppoly N)) (r : R) : res R :=
  foldM (fun result part => do v <- F part; Ok (result + v)) parts r.

Lemma sum_parts_shift F ps : forall r w, sum_parts F ps r = Ok w -> forall r', sum_parts F ps (r + r') = Ok (w + r').
Proof.
  induction ps as [|p ps IH]; intros r w H r'.
  - injection H as <-. reflexivity.
  - unfold sum_parts in *. simpl in *. destruct (F p) as [v1|]; simpl in *; [|discriminate].
    replace (r + r' + v1) with (r + v1 + r') by ring. now apply IH.
Qed.

Lemma sum_parts_app0 F ps1 : forall ps2 r v,
  sum_parts F (ps1 ++ ps2) r = Ok v -> exists r1, sum_parts F ps1 r = Ok r1 /\ sum_parts F ps2 r1 = Ok v.
Proof.
  induction ps1 as [|p ps IH]; intros ps2 r v H.
  - exists r. split; auto.
  - unfold sum_parts in *. simpl in *. destruct (F p) as [v1|]; simpl in *; [|discriminate]. now apply IH.
Qed.

Lemma sum_parts_app F ps1 ps2 v :
  sum_parts F (ps1 ++ ps2) 0 = Ok v ->
  exists v1 v2, sum_parts F ps1 0 = Ok v1 /\ sum_parts F ps2 0 = Ok v2 /\ v = v1 + v2.
Proof.
  intros H. apply sum_parts_app0 in H. destruct H as [r1 [A B]]. exists r1, (v - r1). split; auto. split; [|ring].
  pose proof (sum_parts_shift F ps2 _ _ B (- r1)) as K. rewrite Rplus_opp_r in K. exact K.
Qed.

Lemma sum_parts_one F p v : sum_parts F [p] 0 = Ok v -> F p = Ok v.
Proof.
  unfold sum_parts. simpl. destruct (F p) as [w|]; simpl; intros H; [|discriminate].
  injection H as <-. f_equal. ring.
Qed.

Lemma box_part_inv x l o (p : exppoly N) ps :
  box_part N so x l (LObj o) p = Ok ps ->
  exists u q, as_poly N so o = Ok u /\ exppoly_translate_var N so p x u = Ok q
    /\ match l with
       | LInf => ps = [q]
       | LObj o' => exists w r r', as_poly N so o' = Ok w /\ exppoly_translate_var N so p x w = Ok r
            /\ exppoly_neg N r = Ok r' /\ ps = [q] ++ [r']
       end.
Proof.
  unfold box_part. intros H. apply bind_Ok in H. destruct H as [us [Hu H]].
  apply bind_Ok in Hu. destruct Hu as [u [Hu1 Hu2]]. apply bind_Ok in Hu2. destruct Hu2 as [q [Hq Hu2]].
  injection Hu2 as <-. apply bind_Ok in H. destruct H as [ls [Hl E]]. injection E as <-.
  exists u, q. split; auto. split; auto. destruct l as [|o'].
  - injection Hl as <-. reflexivity.
  - apply bind_Ok in Hl. destruct Hl as [w [Hw Hl]]. apply bind_Ok in Hl. destruct Hl as [r [Hr Hl]].
    apply bind_Ok in Hl. destruct Hl as [r' [Hr' Hl]]. injection Hl as <-.
    exists w, r, r'. auto.
Qed.

Lemma box2_spec (e : exppoly N) x y l1 o1 l2 o2 m env a11 a12 a22 b1 b2 c v L1 U1 L2 U2 :
  x <> y ->
  wf_poly N (epoly e) ->
  lower_is N [x; y] env l1 L1 -> upper_is N [x; y] env (LObj o1) U1 ->
  lower_is N [x; y] env l2 L2 -> upper_is N [x; y] env (LObj o2) U2 ->
  (forall w, w <> x -> w <> y -> In w (pnames N (epoly e))
     \/ lim_depends N l1 w = true \/ In w (onames N o1) \/ lim_depends N l2 w = true \/ In w (onames N o2)
     -> m w = Some (env w)) ->
  (forall z1 z2, pval N (rebind (rebind env x z1) y z2) (epoly e)
     = a11 * z1 ^ 2 + a12 * z1 * z2 + a22 * z2 ^ 2 + b1 * z1 + b2 * z2 + c) ->
  a11 < 0 -> 0 < 4 * a11 * a22 - a12 ^ 2 ->
  let det := 4 * a11 * a22 - a12 ^ 2 in
  / 10 ^ 30 <= det -> / 10 ^ 30 <= -2 * a22 / det -> / 10 ^ 30 <= -2 * a11 / det ->
  / 10 ^ 30 <= (-2 * a22 / det) * (-2 * a11 / det) ->
  integrate_box N so ofR e [(x, l1, LObj o1); (y, l2, LObj o2)] m = Ok v ->
  is_integral2 (fun z1 z2 => val (econst e) * exp (pval N (rebind (rebind env x z1) y z2) (epoly e)))
               L1 U1 L2 U2 v.
Proof.
  intros Nxy W HL1 [BU1 [DU1 [U1' [-> EU1]]]] HL2 [BU2 [DU2 [U2' [-> EU2]]]] Hm Hq H11 Hdet det F0 F1 F2 F3 H.
  apply oval_eval in EU1. apply oval_eval in EU2.
  assert (Ix : In x [x; y]) by (left; auto). assert (Iy : In y [x; y]) by (right; left; auto).
  (* the inner variable *)
  assert (Inner : forall o s S (q q' : exppoly N) ps w,
    built_obj N o -> obj_depends N o x = false -> obj_depends N o y = false -> oval N env o = S ->
    (forall z, z <> x -> z <> y -> In z (onames N o) -> m z = Some (env z)) ->
    as_poly N so o = Ok s -> exppoly_translate_var N so e x s = Ok q -> epoly q' = epoly q ->
    box_part N so y l2 (LObj o2) q' = Ok ps -> sum_parts (fun p => integrate_half2 N so p x y m) ps 0 = Ok w ->
    is_integral2 (fun z1 z2 => val (econst q') * exp (pval N (rebind (rebind env x z1) y z2) (epoly e)))
      m_infty S L2 U2' w).
  { intros o s S q q' ps w Bo Dx Dy Eo Mo As Tq Eq Hb Hs.
    destruct (as_poly_spec N so o s (built_obj_wf o Bo) As) as [Ws _].
    destruct (translate_spec N so e q s x W Ws Tq) as [Wq _].
    assert (Wq' : wf_poly N (epoly q')) by now rewrite Eq.
    apply box_part_inv in Hb. destruct Hb as (u & t & Au & Tt & Hl).
    destruct (as_poly_spec N so o2 u (built_obj_wf o2 BU2) Au) as [Wu _].
    destruct (translate_spec N so q' t u y Wq' Wu Tt) as [_ [Ct _]].
    assert (P : forall r, integrate_half2 N so t x y m = Ok r ->
      is_integral2 (fun z1 z2 => val (econst q') * exp (pval N (rebind (rebind env x z1) y z2) (epoly e)))
        m_infty S m_infty U2' r).
    { intros r Hr. rewrite <- Ct.
      refine (part2 e q q' t o o2 s u x y m env a11 a12 a22 b1 b2 c r S U2' Nxy W Bo BU2 Dx Dy
        (DU2 x Ix) (DU2 y Iy) Eo EU2 As Au Tq Eq Tt _ Hq H11 Hdet F0 F1 F2 F3 t eq_refl Hr).
      intros z Zx Zy [A|[A|A]]; auto; apply Hm; auto. }
    destruct l2 as [|ol2].
    - red in HL2. simpl in HL2. subst L2 ps. apply sum_parts_one in Hs. now apply P.
    - destruct HL2 as [BL2 [DL2 [L2' [-> EL2]]]]. apply oval_eval in EL2.
      destruct Hl as (u' & r & r' & Au' & Tr & Nr & ->).
      apply sum_parts_app in Hs. destruct Hs as (v1 & v2 & S1 & S2 & ->).
      apply sum_parts_one in S1. apply sum_parts_one in S2.
      destruct (neg_spec r r' Nr) as [Er Vr].
      destruct (as_poly_spec N so ol2 u' (built_obj_wf ol2 BL2) Au') as [Wu' _].
      destruct (translate_spec N so q' r u' y Wq' Wu' Tr) as [_ [Cr _]].
      assert (Q : is_integral2 (fun z1 z2 => val (econst r') * exp (pval N (rebind (rebind env x z1) y z2) (epoly e)))
        m_infty S m_infty L2' v2).
      { refine (part2 e q q' r o ol2 s u' x y m env a11 a12 a22 b1 b2 c v2 S L2' Nxy W Bo BL2 Dx Dy
          (DL2 x Ix) (DL2 y Iy) Eo EL2 As Au' Tq Eq Tr _ Hq H11 Hdet F0 F1 F2 F3 r' Er S2).
        intros z Zx Zy [A|[A|A]]; auto; apply Hm; auto.
        do 3 right. left. now apply obj_depends_names. }
      replace (v1 + v2) with (v1 - (-1) * v2) by ring.
      eapply is_integral2_diff2; [apply P, S1|].
      eapply is_integral2_ext; [|apply is_integral2_scal; exact Q]. intros z1 z2. simpl. rewrite Vr, Cr. ring. }
  unfold integrate_box in H. rewrite box_filter_spec in H.
  assert (H' : (do parts <- foldM (box_step N so) [(x, l1, LObj o1); (y, l2, LObj o2)] [e];
                sum_parts (fun p => integrate_half2 N so p x y m) parts 0) = Ok v).
  { destruct l1, l2; exact H. }
  clear H. apply bind_Ok in H'. destruct H' as [parts [Hp H]].
  simpl in Hp. apply bind_Ok in Hp. destruct Hp as [ps1 [Hp1 Hp]].
  apply bind_Ok in Hp. destruct Hp as [ps2 [Hp2 Hp]]. injection Hp as <-.
  apply bind_Ok in Hp1. destruct Hp1 as [l [Hp1 E]]. injection E as <-.
  apply bind_Ok in Hp1. destruct Hp1 as [l' [Hp1 E]]. injection E as <-.
  simpl in Hp2. rewrite app_nil_r in Hp2.
  apply bind_Ok in Hp2. destruct Hp2 as [l [Hp2 E]]. injection E as <-.
  apply box_part_inv in Hp1. destruct Hp1 as (u & q & Au & Tq & Hl).
  destruct (as_poly_spec N so o1 u (built_obj_wf o1 BU1) Au) as [Wu _].
  destruct (translate_spec N so e q u x W Wu Tq) as [_ [Cq _]].
  assert (P : forall ps w, box_part N so y l2 (LObj o2) q = Ok ps ->
     sum_parts (fun p => integrate_half2 N so p x y m) ps 0 = Ok w ->
     is_integral2 (fun z1 z2 => val (econst e) * exp (pval N (rebind (rebind env x z1) y z2) (epoly e)))
      m_infty U1' L2 U2' w).
  { intros ps w Hb Hs. rewrite <- Cq.
    apply (Inner o1 u U1' q q ps w BU1 (DU1 x Ix) (DU1 y Iy) EU1); auto. }
  destruct l1 as [|ol1].
  - red in HL1. simpl in HL1. subst L1 l'. simpl in Hp2.
    apply bind_Ok in Hp2. destruct Hp2 as [ps [Hb E]]. injection E as <-. simpl in H. rewrite app_nil_r in H.
    eapply P; eauto.
  - destruct HL1 as [BL1 [DL1 [L1' [-> EL1]]]]. apply oval_eval in EL1.
    destruct Hl as (u' & r & r' & Au' & Tr & Nr & ->).
    simpl in Hp2. apply bind_Ok in Hp2. destruct Hp2 as [ps [Hb Hp2]].
    apply bind_Ok in Hp2. destruct Hp2 as [lr [Hp2 E]]. injection E as <-.
    apply bind_Ok in Hp2. destruct Hp2 as [ps' [Hb' E]]. injection E as <-.
    simpl in H. rewrite app_nil_r in H. apply sum_parts_app in H. destruct H as (v1 & v2 & S1 & S2 & ->).
    destruct (neg_spec r r' Nr) as [Er Vr].
    destruct (as_poly_spec N so ol1 u' (built_obj_wf ol1 BL1) Au') as [Wu' _].
    destruct (translate_spec N so e r u' x W Wu' Tr) as [_ [Cr _]].
    assert (Q : is_integral2 (fun z1 z2 => val (econst r') * exp (pval N (rebind (rebind env x z1) y z2) (epoly e)))
        m_infty L1' L2 U2' v2).
    { apply (Inner ol1 u' L1' r r' ps' v2 BL1 (DL1 x Ix) (DL1 y Iy) EL1); auto.
      intros z Zx Zy A. apply Hm; auto. right. left. now apply obj_depends_names. }
    replace (v1 + v2) with (v1 - (-1) * v2) by ring.
    eapply is_integral2_diff1; [eapply P; eauto|].
    eapply is_integral2_ext; [|apply is_integral2_scal; exact Q]. intros z1 z2. simpl. rewrite Vr, Cr. ring.
Qed.

End IntProofs2.
