(** The properties C09-C14 of exppoly.py, stated on the model. *)
From Coq Require Import Reals ZArith List Bool String Lia Lra Psatz.
From Coquelicot Require Import Coquelicot.
From Verif Require Import Py ExpPolyModel ListFacts ExpPolyProofs ExpPolySpec ExpPolyProofs2.
From Verif Require Import Gauss Gauss2 Gauss3 ExpPolyIntModel ExpPolyIntProofs ExpPolyIntSpec ExpPolyIntProofs2 ExpPolyIntProofs3.
Import ListNotations.
Local Open Scope string_scope.
Local Open Scope R_scope.

(** Helpers that relate the observable value to the proofs' [pval]. *)
Lemma evalp_fun (N : numdom) (p : poly N) (h : (string -> R) -> R) :
  (forall env, evalp N env p = Ok (h env)) -> forall env, pval N env p = h env.
Proof. intros H env. specialize (H env). rewrite evalp_eq in H. now injection H. Qed.
Lemma evale_fun (N : numdom) (e : exppoly N) (f : (string -> R) -> R) :
  (forall env, evale N env e = Ok (f env)) -> forall env, val (econst e) * exp (pval N env (epoly e)) = f env.
Proof. intros H env. specialize (H env). rewrite evale_eq in H. now injection H. Qed.

(** * C09: integrate *)

(** One variable; the quadratic coefficient [a] is a constant, the others may depend on the
    remaining variables. *)
Theorem C09_integrate :
  forall (N : numdom) (so : setorder) (ofR : R -> N) (e : exppoly N) (x : string) (m : varmap)
         (env : string -> R) (f : R -> R) (a b c v : R),
    (forall r, val (ofR r) = r) ->
    built N (epoly e) ->
    (forall z, evale N (rebind env x z) e = Ok (f z)) ->
    (forall z, evalp N (rebind env x z) (epoly e) = Ok (a * z ^ 2 + b * z + c)) ->
    a < 0 -> / 10 ^ 30 <= - PI / a ->
    (forall y, y <> x -> poly_is_function_of N (epoly e) y = true -> m y = Some (env y)) ->
    integrate N so ofR e [x] m = Ok v ->
    is_integral f m_infty p_infty v.
Proof.
  intros N so ofR e x m env f a b c v Ho B Hf Hq Ha F Hm H.
  pose proof (built_wf N _ B) as W.
  unfold integrate, integrate_names in H. simpl in H.
  apply bind_Ok in H. destruct H as [e' [H Hv]]. apply bind_Ok in H. destruct H as [e1 [H E]]. injection E as <-.
  destruct (integrate1_inv N so ofR Ho e e1 x W H) as (a' & pa & pb & pc & _ & _ & _ & _ & _ & _ & W1 & N1 & _).
  destruct (integrate1_spec N so ofR Ho e e1 x env a b c W H) as [I _]; auto.
  { intros z. specialize (Hq z). rewrite evalp_eq in Hq. now injection Hq. }
  assert (Ev : v = val (econst e1) * exp (pval N env (epoly e1))).
  { unfold exppoly_eval in Hv. rewrite (poly_eval_bound N m (epoly e1)) in Hv.
    - simpl in Hv. injection Hv as <-. do 2 f_equal. apply pval_ext. intros n Hn.
      destruct (N1 n Hn) as [A A']. unfold env_of. rewrite (Hm n A'); auto. now apply poly_is_function_of_names.
    - intros n Hn. destruct (N1 n Hn) as [A A']. rewrite (Hm n A'); [discriminate|]. now apply poly_is_function_of_names. }
  subst v. eapply is_integral_ext; [|exact I]. intros z. specialize (Hf z). rewrite evale_eq in Hf. now injection Hf.
Qed.
Print Assumptions C09_integrate.

(** Any number of variables: the iterated integral. *)
Theorem C09_integrate_iterated :
  forall (N : numdom) (so : setorder) (ofR : R -> N) (e : exppoly N) (xs : list string) (m : varmap)
         (env : string -> R) (f h h' : (string -> R) -> R) (v : R),
    (forall r, val (ofR r) = r) ->
    built N (epoly e) ->
    (forall env, evale N env e = Ok (f env)) ->
    (forall env, evalp N env (epoly e) = Ok (h env)) ->
    eliminates h xs h' ->
    (forall y, ~ In y xs -> poly_is_function_of N (epoly e) y = true -> m y = Some (env y)) ->
    integrate N so ofR e xs m = Ok v ->
    iterated f xs env v.
Proof.
  intros N so ofR e xs m env f h h' v Ho B Hf Hh El Hm H.
  pose proof (built_wf N _ B) as W. pose proof (evalp_fun N _ h Hh) as Hp. pose proof (evale_fun N _ f Hf) as He.
  unfold integrate in H. apply bind_Ok in H. destruct H as [e' [H Hv]].
  destruct (integrate_names_spec N so ofR Ho xs e e' W H h') as [_ [W' [N' I]]].
  { eapply eliminates_ext; [|exact El]. intros env'. now rewrite Hp. }
  assert (Ev : v = val (econst e') * exp (pval N env (epoly e'))).
  { unfold exppoly_eval in Hv. rewrite (poly_eval_bound N m (epoly e')) in Hv.
    - simpl in Hv. injection Hv as <-. do 2 f_equal. apply pval_ext. intros n Hn.
      destruct (N' n Hn) as [A A']. unfold env_of. rewrite (Hm n A'); auto. now apply poly_is_function_of_names.
    - intros n Hn. destruct (N' n Hn) as [A A']. rewrite (Hm n A'); [discriminate|]. now apply poly_is_function_of_names. }
  subst v. eapply iterated_ext; [|apply I]. exact He.
Qed.
Print Assumptions C09_integrate_iterated.

(** * C10, C11: integrate_half *)

Theorem C10_integrate_half :
  forall (N : numdom) (so : setorder) (e : exppoly N) (x : string) (m : varmap)
         (env : string -> R) (f : R -> R) (a b c v : R),
    built N (epoly e) ->
    (forall z, evale N (rebind env x z) e = Ok (f z)) ->
    (forall z, evalp N (rebind env x z) (epoly e) = Ok (a * z ^ 2 + b * z + c)) ->
    a < 0 -> / 10 ^ 30 <= - PI / a -> / 10 ^ 30 <= - a ->
    (forall y, y <> x -> poly_is_function_of N (epoly e) y = true -> m y = Some (env y)) ->
    integrate_half N so e [x] m = Ok v ->
    is_integral f m_infty 0 v.
Proof.
  intros N so e x m env f a b c v B Hf Hq Ha F1 F2 Hm H. simpl in H.
  eapply is_integral_ext; [|eapply (integrate_half1_spec N so e x m env a b c v)]; auto.
  - intros z. specialize (Hf z). rewrite evale_eq in Hf. now injection Hf.
  - now apply built_wf.
  - intros y Hy Ny. apply Hm; auto. now apply poly_is_function_of_names.
  - intros z. specialize (Hq z). rewrite evalp_eq in Hq. now injection Hq.
Qed.
Print Assumptions C10_integrate_half.

Theorem C11_integrate_half_two :
  forall (N : numdom) (so : setorder) (e : exppoly N) (x y : string) (m : varmap)
         (env : string -> R) (f : R -> R -> R) (a11 a12 a22 b1 b2 c v : R),
    x <> y ->
    built N (epoly e) ->
    (forall z1 z2, evale N (rebind (rebind env x z1) y z2) e = Ok (f z1 z2)) ->
    (forall z1 z2, evalp N (rebind (rebind env x z1) y z2) (epoly e)
       = Ok (a11 * z1 ^ 2 + a12 * z1 * z2 + a22 * z2 ^ 2 + b1 * z1 + b2 * z2 + c)) ->
    (* the quadratic form is negative definite, and not beyond the floors of the square roots *)
    let det := 4 * a11 * a22 - a12 ^ 2 in
    a11 < 0 -> 0 < det ->
    / 10 ^ 30 <= det -> / 10 ^ 30 <= -2 * a22 / det -> / 10 ^ 30 <= -2 * a11 / det ->
    / 10 ^ 30 <= (-2 * a22 / det) * (-2 * a11 / det) ->
    (forall w, w <> x -> w <> y -> poly_is_function_of N (epoly e) w = true -> m w = Some (env w)) ->
    integrate_half N so e [x; y] m = Ok v ->
    is_integral2 f m_infty 0 m_infty 0 v.
Proof.
  intros N so e x y m env f a11 a12 a22 b1 b2 c v Nxy B Hf Hq det Ha Hd F0 F1 F2 F3 Hm H. simpl in H.
  eapply is_integral2_ext; [|eapply (integrate_half2_spec N so e x y m env a11 a12 a22 b1 b2 c v)]; auto.
  - intros z1 z2. specialize (Hf z1 z2). rewrite evale_eq in Hf. now injection Hf.
  - now apply built_wf.
  - intros w Hw Nx Ny. apply Hm; auto. now apply poly_is_function_of_names.
  - intros z1 z2. specialize (Hq z1 z2). rewrite evalp_eq in Hq. now injection Hq.
Qed.
Print Assumptions C11_integrate_half_two.

(** * C12: integrate_box *)

Section Box.
Context (N : numdom) (so : setorder) (ofR : R -> N).

(** Only doubly infinite entries: [integrate]. *)
Theorem C12_box_infinite :
  forall (e : exppoly N) (nls : list (string * limit N * limit N)) (m : varmap),
    others nls = [] ->
    integrate_box N so ofR e nls m = integrate N so ofR e (doubly_infinite nls) m.
Proof.
  intros e nls m H. rewrite box_infinite_first, H. unfold integrate.
  destruct (integrate_names N so ofR e (doubly_infinite nls)); reflexivity.
Qed.

(** One remaining entry, anywhere in the argument list: the doubly infinite variables are
    integrated first, then [x] between its limits. *)
Theorem C12_box_one :
  forall (e : exppoly N) (nls : list (string * limit N * limit N)) (m : varmap) (env : string -> R)
         (f h h' : (string -> R) -> R) (x : string) (l : limit N) (o : obj N) (L U : Rbar) (a b c v : R),
    (forall r, val (ofR r) = r) ->
    built N (epoly e) ->
    (forall env, evale N env e = Ok (f env)) ->
    (forall env, evalp N env (epoly e) = Ok (h env)) ->
    others nls = [(x, l, LObj o)] ->
    eliminates h (doubly_infinite nls) h' ->
    (forall z, h' (rebind env x z) = a * z ^ 2 + b * z + c) ->
    a < 0 -> / 10 ^ 30 <= - PI / a -> / 10 ^ 30 <= - a ->
    let bound := x :: doubly_infinite nls in
    lower_is N bound env l L -> upper_is N bound env (LObj o) U ->
    binds N m env bound e [l; LObj o] ->
    integrate_box N so ofR e nls m = Ok v ->
    exists g, (forall env', iterated f (doubly_infinite nls) env' (g env'))
              /\ is_integral (fun z => g (rebind env x z)) L U v.
Proof.
  intros e nls m env f h h' x l o L U a b c v Ho B Hf Hh Hn El Hq Ha F1 F2 bound HL HU Hb H.
  pose proof (built_wf N _ B) as W. pose proof (evalp_fun N _ h Hh) as Hp. pose proof (evale_fun N _ f Hf) as He.
  rewrite box_infinite_first, Hn in H. apply bind_Ok in H. destruct H as [e' [H1 H]].
  destruct (integrate_names_spec N so ofR Ho _ e e' W H1 h') as [E' [W' [N' I]]].
  { eapply eliminates_ext; [|exact El]. intros env'. now rewrite Hp. }
  exists (fun env => val (econst e') * exp (pval N env (epoly e'))). split.
  { intros env'. eapply iterated_ext; [|apply I]. exact He. }
  assert (Dl : forall inf r l, lim_is N inf bound env l r -> forall y, In y bound -> lim_depends N l y = false).
  { intros inf r l0 A y Hy. destruct l0 as [|o0]; simpl in *; auto. apply A; auto. }
  eapply (box1_spec N so ofR e' x l o m env a b c v L U); auto.
  - destruct l as [|ol]; simpl in *; auto. destruct HL as [A [D E]]. split; auto. split; auto.
    intros z [<-|[]]. apply D. now left.
  - destruct HU as [A [D E]]. split; auto. split; auto. intros z [<-|[]]. apply D. now left.
  - intros y Ny [A|[A|A]].
    + destruct (N' y A) as [A1 A2]. apply Hb.
      * intros [F|F]; [congruence|contradiction].
      * left. now apply poly_is_function_of_names.
    + apply Hb; [|right; exists l; split; [now left|exact A]].
      intros F. rewrite (Dl _ _ _ HL y F) in A. discriminate.
    + assert (A' : lim_depends N (LObj o) y = true) by now apply obj_depends_names.
      apply Hb; [|right; exists (LObj o); split; [right; now left|exact A']].
      intros F. rewrite (Dl _ _ _ HU y F) in A'. discriminate.
  - intros z. now rewrite E', Hq.
Qed.

(** Two remaining entries. *)
Theorem C12_box_two :
  forall (e : exppoly N) (nls : list (string * limit N * limit N)) (m : varmap) (env : string -> R)
         (f h h' : (string -> R) -> R) (x y : string) (l1 l2 : limit N) (o1 o2 : obj N)
         (L1 U1 L2 U2 : Rbar) (a11 a12 a22 b1 b2 c v : R),
    (forall r, val (ofR r) = r) ->
    built N (epoly e) ->
    (forall env, evale N env e = Ok (f env)) ->
    (forall env, evalp N env (epoly e) = Ok (h env)) ->
    x <> y ->
    others nls = [(x, l1, LObj o1); (y, l2, LObj o2)] ->
    eliminates h (doubly_infinite nls) h' ->
    (forall z1 z2, h' (rebind (rebind env x z1) y z2)
       = a11 * z1 ^ 2 + a12 * z1 * z2 + a22 * z2 ^ 2 + b1 * z1 + b2 * z2 + c) ->
    let det := 4 * a11 * a22 - a12 ^ 2 in
    a11 < 0 -> 0 < det ->
    / 10 ^ 30 <= det -> / 10 ^ 30 <= -2 * a22 / det -> / 10 ^ 30 <= -2 * a11 / det ->
    / 10 ^ 30 <= (-2 * a22 / det) * (-2 * a11 / det) ->
    let bound := x :: y :: doubly_infinite nls in
    lower_is N bound env l1 L1 -> upper_is N bound env (LObj o1) U1 ->
    lower_is N bound env l2 L2 -> upper_is N bound env (LObj o2) U2 ->
    binds N m env bound e [l1; LObj o1; l2; LObj o2] ->
    integrate_box N so ofR e nls m = Ok v ->
    exists g, (forall env', iterated f (doubly_infinite nls) env' (g env'))
              /\ is_integral2 (fun z1 z2 => g (rebind (rebind env x z1) y z2)) L1 U1 L2 U2 v.
Proof.
  intros e nls m env f h h' x y l1 l2 o1 o2 L1 U1 L2 U2 a11 a12 a22 b1 b2 c v Ho B Hf Hh Nxy Hn El Hq
    det Ha Hd F0 F1 F2 F3 bound HL1 HU1 HL2 HU2 Hb H.
  pose proof (built_wf N _ B) as W. pose proof (evalp_fun N _ h Hh) as Hp. pose proof (evale_fun N _ f Hf) as He.
  rewrite box_infinite_first, Hn in H. apply bind_Ok in H. destruct H as [e' [H1 H]].
  destruct (integrate_names_spec N so ofR Ho _ e e' W H1 h') as [E' [W' [N' I]]].
  { eapply eliminates_ext; [|exact El]. intros env'. now rewrite Hp. }
  exists (fun env => val (econst e') * exp (pval N env (epoly e'))). split.
  { intros env'. eapply iterated_ext; [|apply I]. exact He. }
  assert (Dl : forall inf r l, lim_is N inf bound env l r -> forall y, In y bound -> lim_depends N l y = false).
  { intros inf r l0 A w Hw. destruct l0 as [|o0]; simpl in *; auto. apply A; auto. }
  assert (Re : forall inf l r, lim_is N inf bound env l r -> lim_is N inf [x; y] env l r).
  { intros inf l r A. destruct l as [|o]; simpl in *; auto. destruct A as [A1 [A2 A3]]. split; auto. split; auto.
    intros z [<-|[<-|[]]]; apply A2; [now left|right; now left]. }
  eapply (box2_spec N so ofR e' x y l1 o1 l2 o2 m env a11 a12 a22 b1 b2 c v L1 U1 L2 U2); auto;
    try (apply Re; assumption).
  - assert (K : forall l, In l [l1; LObj o1; l2; LObj o2] -> forall w, lim_depends N l w = true -> m w = Some (env w)).
    { intros l Hl w A. apply Hb; [|right; exists l; auto]. intros F.
      destruct Hl as [<-|[<-|[<-|[<-|[]]]]].
      - rewrite (Dl _ _ _ HL1 w F) in A. discriminate.
      - rewrite (Dl _ _ _ HU1 w F) in A. discriminate.
      - rewrite (Dl _ _ _ HL2 w F) in A. discriminate.
      - rewrite (Dl _ _ _ HU2 w F) in A. discriminate. }
    intros w Nx Ny [A|[A|[A|[A|A]]]].
    + destruct (N' w A) as [A1 A2]. apply Hb.
      * intros [F|[F|F]]; [congruence|congruence|contradiction].
      * left. now apply poly_is_function_of_names.
    + apply (K l1); simpl; auto.
    + apply (K (LObj o1)); simpl; auto. now apply obj_depends_names.
    + apply (K l2); simpl; auto.
    + apply (K (LObj o2)); simpl; auto 6. now apply obj_depends_names.
  - intros z1 z2. now rewrite E', Hq.
Qed.

(** * C13: an infinite upper limit *)

(** With a finite lower limit and an infinite upper limit, the result is minus the integral
    from minus infinity to the lower limit. *)
Theorem C13_upper_infinite_partial :
  forall (e : exppoly N) (m : varmap) (env : string -> R) (f : R -> R) (x : string) (o : obj N) (L : Rbar) (a b c v : R),
    built N (epoly e) ->
    (forall z, evale N (rebind env x z) e = Ok (f z)) ->
    (forall z, evalp N (rebind env x z) (epoly e) = Ok (a * z ^ 2 + b * z + c)) ->
    a < 0 -> / 10 ^ 30 <= - PI / a -> / 10 ^ 30 <= - a ->
    lower_is N [x] env (LObj o) L ->
    binds N m env [x] e [LObj o] ->
    integrate_box N so ofR e [(x, LObj o, LInf)] m = Ok v ->
    is_integral f m_infty L (- v).
Proof.
  intros e m env f x o L a b c v B Hf Hq Ha F1 F2 HL Hb H.
  eapply is_integral_ext; [|eapply (box_upper_inf N so ofR e x o m env a b c v L)]; auto.
  - intros z. specialize (Hf z). rewrite evale_eq in Hf. now injection Hf.
  - now apply built_wf.
  - intros y Ny [A|A]; apply Hb; try (intros [F|[]]; congruence).
    + left. now apply poly_is_function_of_names.
    + right. exists (LObj o). split; [now left|]. now apply obj_depends_names.
  - intros z. specialize (Hq z). rewrite evalp_eq in Hq. now injection Hq.
Qed.

End Box.
Print Assumptions C12_box_infinite.
Print Assumptions C12_box_one.
Print Assumptions C12_box_two.
Print Assumptions C13_upper_infinite_partial.

(** * C14: guards *)

Theorem C14_guards :
  forall (N : numdom) (so : setorder) (ofR : R -> N) (e : exppoly N) (x y : string) (xs : list string) (m : varmap) (k : nat),
    poly_highest_power N (epoly e) x = Ok k ->
    (k <> 2%nat ->
       integrate N so ofR e (x :: xs) m = Err RuntimeError
       /\ integrate_half N so e [x] m = Err RuntimeError
       /\ integrate_half N so e [x; y] m = Err RuntimeError)
    /\ (forall j, k = 2%nat -> poly_highest_power N (epoly e) y = Ok j -> j <> 2%nat ->
          integrate_half N so e [x; y] m = Err RuntimeError)
    /\ (forall a, k = 2%nat -> built N (epoly e) ->
          poly_collect_for N so (epoly e) (Factor x 2) = Ok a ->
          (exists z, poly_is_function_of N a z = true) ->
          integrate N so ofR e (x :: xs) m = Err RuntimeError).
Proof.
  intros N so ofR e x y xs m k Hk. split; [|split].
  - intros H. apply Nat.eqb_neq in H.
    unfold integrate, integrate_names, integrate_half, integrate_half1, integrate_half2, integrate1, check_quadratic.
    simpl. unfold integrate1, check_quadratic. rewrite Hk. simpl. rewrite H. simpl. auto.
  - intros j -> Hj H. apply Nat.eqb_neq in H.
    unfold integrate_half, integrate_half2, check_quadratic. rewrite Hk. simpl. rewrite Hj. simpl. now rewrite H.
  - intros a -> B Ca [z Hz]. unfold integrate, integrate_names. simpl.
    unfold integrate1, check_quadratic. rewrite Hk. simpl bind at 1. cbv beta iota delta [bind]. fold (@bind).
    pose proof (built_wf N _ B) as W. rewrite Ca.
    destruct (poly_collect_total N so (epoly e) (Factor x 1) W) as [pb ->].
    destruct (poly_reject_total N so (epoly e) x W) as [pc ->].
    assert (K : poly_is_constant N a = false).
    { destruct (poly_is_constant N a) eqn:K; auto. unfold poly_is_constant in K. rewrite forallb_forall in K.
      unfold poly_is_function_of in Hz. apply existsb_exists in Hz. destruct Hz as [t [Ht Hz]].
      specialize (K t Ht). unfold term_is_constant in K. apply Nat.eqb_eq in K.
      unfold term_is_function_of in Hz. destruct (tfactors t); [discriminate|discriminate]. }
    rewrite K. reflexivity.
Qed.
Print Assumptions C14_guards.

(** Otherwise the functions return. For [integrate] with tensor coefficients (see C73). *)
Theorem C14_otherwise_returns :
  forall (N : numdom) (so : setorder) (ofR : R -> N) (e : exppoly N) (x : string) (m : varmap)
         (env : string -> R) (a b c : R) (pa : poly N),
    (forall r, val (ofR r) = r) ->
    built N (epoly e) ->
    (forall z, evalp N (rebind env x z) (epoly e) = Ok (a * z ^ 2 + b * z + c)) -> a <> 0 ->
    poly_highest_power N (epoly e) x = Ok 2%nat ->
    (forall y, y <> x -> poly_is_function_of N (epoly e) y = true -> m y = Some (env y)) ->
    (exists v, integrate_half N so e [x] m = Ok v)
    /\ ((forall k : N, isz k = false) ->
        poly_collect_for N so (epoly e) (Factor x 2) = Ok pa ->
        (forall z, poly_is_function_of N pa z = false) ->
        exists v, integrate N so ofR e [x] m = Ok v).
Proof.
  intros N so ofR e x m env a b c pa Ho B Hq Ha Hp Hm.
  pose proof (built_wf N _ B) as W.
  assert (Hq' : forall z, pval N (rebind env x z) (epoly e) = a * z ^ 2 + b * z + c).
  { intros z. specialize (Hq z). rewrite evalp_eq in Hq. now injection Hq. }
  assert (Hm' : forall y, In y (pnames N (epoly e)) -> y <> x -> m y = Some (env y)).
  { intros y Hy Ny. apply Hm; auto. now apply poly_is_function_of_names. }
  split.
  - simpl. eapply integrate_half1_total; eauto.
  - intros T Ca K.
    destruct (poly_collect_total N so (epoly e) (Factor x 1) W) as [pb Cb].
    destruct (poly_reject_total N so (epoly e) x W) as [pc Cc].
    destruct (coefs2 N so (epoly e) pa pb pc x env a b c W Hq' Ca Cb Cc) as [E1 _].
    destruct (integrate1_total N so ofR e x pa env a T W Hp Ca) as [e' He']; auto.
    { unfold poly_is_constant. apply forallb_forall. intros t Ht. unfold term_is_constant. apply Nat.eqb_eq.
      destruct (tfactors t) as [|f fs] eqn:E; auto. exfalso.
      assert (F : poly_is_function_of N pa (fname f) = true).
      { unfold poly_is_function_of. apply existsb_exists. exists t. split; auto.
        unfold term_is_function_of. rewrite E. simpl. now rewrite String.eqb_refl. }
      rewrite K in F. discriminate. }
    unfold integrate, integrate_names. simpl. rewrite He'. simpl.
    destruct (integrate1_inv N so ofR Ho e e' x W He') as (a' & p1 & p2 & p3 & _ & _ & _ & _ & _ & _ & W1 & N1 & _).
    unfold exppoly_eval. rewrite (eval_total N (epoly e') m env).
    + simpl. eauto.
    + intros n Hn. destruct (N1 n Hn). auto.
Qed.
Print Assumptions C14_otherwise_returns.

Theorem C14_otherwise_returns_two :
  forall (N : numdom) (so : setorder) (e : exppoly N) (x y : string) (m : varmap)
         (env : string -> R) (a11 a12 a22 b1 b2 c : R) (pxx pyy : poly N),
    x <> y -> built N (epoly e) ->
    (forall z1 z2, evalp N (rebind (rebind env x z1) y z2) (epoly e)
       = Ok (a11 * z1 ^ 2 + a12 * z1 * z2 + a22 * z2 ^ 2 + b1 * z1 + b2 * z2 + c)) ->
    4 * a11 * a22 - a12 ^ 2 <> 0 ->
    poly_highest_power N (epoly e) x = Ok 2%nat -> poly_highest_power N (epoly e) y = Ok 2%nat ->
    poly_collect_for N so (epoly e) (Factor x 2) = Ok pxx -> poly_is_function_of N pxx y = false ->
    poly_collect_for N so (epoly e) (Factor y 2) = Ok pyy -> poly_is_function_of N pyy x = false ->
    (forall w, w <> x -> w <> y -> poly_is_function_of N (epoly e) w = true -> m w = Some (env w)) ->
    exists v, integrate_half N so e [x; y] m = Ok v.
Proof.
  intros N so e x y m env a11 a12 a22 b1 b2 c pxx pyy Nxy B Hq Hd Hx Hy Cx Fx Cy Fy Hm.
  simpl. eapply (integrate_half2_total N so e x y m env pxx pyy a11 a12 a22 b1 b2 c); eauto.
  - now apply built_wf.
  - intros w Hw Nx Ny. apply Hm; auto. now apply poly_is_function_of_names.
  - intros z1 z2. specialize (Hq z1 z2). rewrite evalp_eq in Hq. now injection Hq.
Qed.
Print Assumptions C14_otherwise_returns_two.

(** * Concrete integrands *)

Definition T2 (c : R) (fs : list factor) : term RTensorDom := Term (c : C RTensorDom) fs.
Definition idR : R -> C RTensorDom := fun r => r.
Lemma idR_val r : val (idR r) = r. Proof. reflexivity. Qed.
Definition env1 : string -> R := fun _ => 1.
Definition m1 : varmap := fun _ => Some 1.

Lemma floor_quarter r : / 4 <= r -> / 10 ^ 30 <= r.
Proof.
  intros H. eapply Rle_trans; [|exact H]. apply Rinv_le_contravar; [lra|].
  replace 4 with (2 ^ 2) by ring. apply Rle_trans with (2 ^ 30).
  - apply Rle_pow; [lra|lia].
  - apply pow_incr. lra.
Qed.

Lemma PI_gt_2 : 2 < PI.
Proof. pose proof PI2_1. unfold Rdiv in *. lra. Qed.

(** exp(x^2): the integral diverges, yet [integrate] returns a number. *)
Definition pos_quad : poly RTensorDom := [T2 1 [Factor "x" 2]].

Lemma built_pos_quad : built RTensorDom pos_quad.
Proof.
  apply (built_terms RTensorDom ord_id [(1 : C RTensorDom, [("x"%string, 2%Z)])] [T2 1 [Factor "x" 2]]);
  reflexivity.
Qed.

Theorem C14_divergent_integral_is_reported_refuted :
  exists e : exppoly RTensorDom,
    built RTensorDom (epoly e)
    /\ (forall z env, evale RTensorDom (rebind env "x" z) e = Ok (exp (z ^ 2)))
    /\ (exists v, integrate RTensorDom ord_id idR e ["x"%string] (fun _ => None) = Ok v)
    /\ (forall v, ~ is_integral (fun z => exp (z ^ 2)) m_infty p_infty v).
Proof.
  exists (ExpPoly (1 : C RTensorDom) pos_quad). split; [apply built_pos_quad|]. split; [|split].
  - intros z env. rewrite evale_eq. f_equal. unfold pos_quad, pval, rsum. simpl. unfold tval, fval, rprod. simpl.
    unfold rebind. simpl. rewrite Rmult_1_l. f_equal. ring.
  - edestruct (C14_otherwise_returns RTensorDom ord_id idR (ExpPoly (1 : C RTensorDom) pos_quad) "x" (fun _ => None)
       env1 1 0 0 [T2 1 []] idR_val built_pos_quad) as [_ K].
    + intros z. rewrite evalp_eq. f_equal. unfold pos_quad, pval, rsum. simpl. unfold tval, fval, rprod. simpl.
      unfold rebind. simpl. ring.
    + lra.
    + reflexivity.
    + intros y Hy F. exfalso. apply Hy. apply poly_is_function_of_names in F. simpl in F.
      destruct F as [F|[]]. congruence.
    + apply K; reflexivity.
  - intros v. apply no_integral. intros z. pose proof (exp_ge_1 (z ^ 2)). nra.
Qed.
Print Assumptions C14_divergent_integral_is_reported_refuted.

(** exp(-x^2) from 0 to infinity: the returned number is negative. *)
Definition neg_quad : poly RTensorDom := [T2 (-1) [Factor "x" 2]].
Lemma built_neg_quad : built RTensorDom neg_quad.
Proof.
  apply (built_terms RTensorDom ord_id [(-1 : C RTensorDom, [("x"%string, 2%Z)])] [T2 (-1) [Factor "x" 2]]);
  reflexivity.
Qed.

Theorem C13_upper_infinite_refuted :
  exists (e : exppoly RTensorDom) (v w : R),
    built RTensorDom (epoly e)
    /\ (forall z env, evale RTensorDom (rebind env "x" z) e = Ok (exp (- z ^ 2)))
    /\ integrate_box RTensorDom ord_id idR e [("x"%string, LObj (ONum (0 : C RTensorDom)), LInf)] (fun _ => None) = Ok v
    /\ is_integral (fun z => exp (- z ^ 2)) (0 : R) p_infty w
    /\ v < 0 < w.
Proof.
  set (e := ExpPoly (1 : C RTensorDom) neg_quad).
  assert (Hq : forall env z, pval RTensorDom (rebind env "x" z) neg_quad = -1 * z ^ 2 + 0 * z + 0).
  { intros env z. unfold neg_quad, pval, rsum. simpl. unfold tval, fval, rprod. simpl. unfold rebind. simpl. ring. }
  assert (He : forall z env, evale RTensorDom (rebind env "x" z) e = Ok (exp (- z ^ 2))).
  { intros z env. rewrite evale_eq. unfold e. simpl econst. simpl epoly. rewrite Hq. simpl val. f_equal.
    rewrite Rmult_1_l. f_equal. ring. }
  assert (Hv : exists v, integrate_box RTensorDom ord_id idR e [("x"%string, LObj (ONum (0 : C RTensorDom)), LInf)] (fun _ => None) = Ok v).
  { unfold integrate_box. cbn [foldM box_filter is_inf andb bind app].
    lazy -[IZR Rplus Rmult Ropp Rinv pow PI exp rdiv erf safe_sqrt Rminus Rdiv].
    match goal with |- context [rdiv (Ropp PI) ?d] => assert (D : d = -1) by (simpl; ring); rewrite !D end.
    rewrite !rdiv_ok; try lra. 2: { pose proof (safe_sqrt_pos (- -1)). lra. }
    eauto. }
  destruct Hv as [v Hv].
  assert (HG : forall lo hi, is_integral (qf (-1) 0 0) lo hi (qlim (-1) 0 0 hi - qlim (-1) 0 0 lo)).
  { intros. apply quad_integral. lra. }
  assert (Eq : forall z, qf (-1) 0 0 z = exp (- z ^ 2)) by (intros z; unfold qf; f_equal; ring).
  exists e, v, (sqrt PI / 2).
  split; [apply built_neg_quad|]. split; [exact He|]. split; [exact Hv|].
  assert (S0 : 0 < sqrt PI) by (apply sqrt_lt_R0, PI_RGT_0).
  pose proof (gauss_half (-1) 0 0 ltac:(lra)) as HH.
  pose proof (gauss_full (-1) 0 0 ltac:(lra)) as HF.
  replace (- PI / -1) with PI in * by field.
  replace (- / 4 * 0 ^ 2 / -1 + 0) with 0 in * by field.
  replace (/ 2 * 0 / sqrt (- -1)) with 0 in *
    by (replace (- -1) with 1 by ring; rewrite sqrt_1; field).
  rewrite erf_0, exp_0 in *.
  assert (Iv : is_integral (fun z => exp (- z ^ 2)) m_infty 0 (- v)).
  { eapply (C13_upper_infinite_partial RTensorDom ord_id idR e (fun _ => None) env1 (fun z => exp (- z ^ 2)) "x"
      (ONum (0 : C RTensorDom)) 0 (-1) 0 0 v).
    - apply built_neg_quad.
    - intros z. apply He.
    - intros z. rewrite evalp_eq. f_equal. apply Hq.
    - lra.
    - apply floor_quarter. pose proof PI_gt_2. replace (- PI / -1) with PI by field. lra.
    - apply floor_quarter. lra.
    - split; [exact I|]. split; [reflexivity|]. exists 0. split; reflexivity.
    - intros y Hy [F|[l [[<-|[]] F]]].
      + exfalso. apply Hy. apply poly_is_function_of_names in F. simpl in F. destruct F as [F|[]]. now left.
      + discriminate.
    - exact Hv. }
  assert (V : - v = sqrt PI / 2).
  { eapply is_integral_unique; [exact Iv|].
    replace (sqrt PI / 2) with (/ 2 * sqrt PI * 1 * (1 - 0)) by field.
    eapply is_integral_ext; [exact Eq|exact HH]. }
  split; [|lra].
  eapply is_integral_ext; [exact Eq|].
  replace (sqrt PI / 2) with (qlim (-1) 0 0 p_infty - qlim (-1) 0 0 (0 : R)).
  - apply HG.
  - pose proof (is_integral_unique _ _ _ _ _ (HG m_infty p_infty) HF) as A.
    pose proof (is_integral_unique _ _ _ _ _ (HG m_infty (0 : R)) HH) as B.
    lra.
Qed.
Print Assumptions C13_upper_infinite_refuted.
