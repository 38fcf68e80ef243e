(** Concrete runs of the model that meet the hypotheses of C09-C12. *)
From Coq Require Import Reals ZArith List Bool String Lia Lra Psatz.
From Coquelicot Require Import Coquelicot.
From Verif Require Import Py ExpPolyModel ListFacts ExpPolyProofs ExpPolySpec ExpPolyProofs2.
From Verif Require Import Gauss Gauss2 Gauss3 ExpPolyIntModel ExpPolyIntProofs ExpPolyIntSpec ExpPolyIntProofs2 ExpPolyIntProofs3 ExpPolyIntProps.
Import ListNotations.
Local Open Scope string_scope.
Local Open Scope R_scope.

(** * Witnesses: the hypotheses of C09-C12 are met by runs of the model. *)

(** 3 exp(-2 x^2 + x y + y), integrated over x at y = 1. *)
Definition ex_poly : poly RTensorDom :=
  [T2 (-2) [Factor "x" 2]; T2 1 [Factor "x" 1; Factor "y" 1]; T2 1 [Factor "y" 1]].
Definition ex_e : exppoly RTensorDom := ExpPoly (3 : C RTensorDom) ex_poly.

Lemma built_ex_poly : built RTensorDom ex_poly.
Proof.
  apply (built_terms RTensorDom ord_id
    [(-2 : C RTensorDom, [("x"%string, 2%Z)]); (1 : C RTensorDom, [("x"%string, 1%Z); ("y"%string, 1%Z)]);
     (1 : C RTensorDom, [("y"%string, 1%Z)])] ex_poly); reflexivity.
Qed.

Lemma ex_poly_val env : pval RTensorDom env ex_poly = -2 * env "x"%string ^ 2 + env "x"%string * env "y"%string + env "y"%string.
Proof. unfold ex_poly, pval, rsum. simpl. unfold tval, fval, rprod. simpl. ring. Qed.

Lemma ex_returns : (exists v, integrate_half RTensorDom ord_id ex_e ["x"%string] m1 = Ok v)
  /\ (exists v, integrate RTensorDom ord_id idR ex_e ["x"%string] m1 = Ok v).
Proof.
  destruct (C14_otherwise_returns RTensorDom ord_id idR ex_e "x" m1 env1 (-2) 1 1 [T2 (-2) []] idR_val built_ex_poly)
    as [A B].
  - intros z. rewrite evalp_eq. simpl epoly. rewrite ex_poly_val. unfold rebind, env1. simpl. f_equal. ring.
  - lra.
  - reflexivity.
  - reflexivity.
  - split; [exact A|apply B; reflexivity].
Qed.

Example C09_C10_witness :
  (exists v, integrate RTensorDom ord_id idR ex_e ["x"%string] m1 = Ok v
     /\ is_integral (fun z => 3 * exp (-2 * z ^ 2 + z + 1)) m_infty p_infty v)
  /\ (exists v, integrate_half RTensorDom ord_id ex_e ["x"%string] m1 = Ok v
     /\ is_integral (fun z => 3 * exp (-2 * z ^ 2 + z + 1)) m_infty 0 v).
Proof.
  destruct ex_returns as [[v Hv] [w Hw]]. pose proof PI_gt_2.
  assert (E : forall z, pval RTensorDom (rebind env1 "x" z) ex_poly = -2 * z ^ 2 + 1 * z + 1).
  { intros z. rewrite ex_poly_val. unfold rebind, env1. simpl. ring. }
  split; [exists w|exists v]; (split; [assumption|]).
  - eapply (C09_integrate RTensorDom ord_id idR ex_e "x" m1 env1 _ (-2) 1 1 w idR_val built_ex_poly); auto.
    + intros z. rewrite evale_eq. simpl epoly. rewrite E. f_equal. simpl. f_equal. f_equal. try ring.
    + intros z. rewrite evalp_eq. f_equal. apply E.
    + lra.
    + apply floor_quarter. replace (- PI / -2) with (PI / 2) by field. lra.
  - eapply (C10_integrate_half RTensorDom ord_id ex_e "x" m1 env1 _ (-2) 1 1 v built_ex_poly); auto.
    + intros z. rewrite evale_eq. simpl epoly. rewrite E. f_equal. simpl. f_equal. f_equal. try ring.
    + intros z. rewrite evalp_eq. f_equal. apply E.
    + lra.
    + apply floor_quarter. replace (- PI / -2) with (PI / 2) by field. lra.
    + apply floor_quarter. lra.
Qed.

(** exp(-x^2 - y^2 + x y + t x - w^2 + w t): w over the line, x from -inf to t, y from 0 to 2. *)
Definition ex2_poly : poly RTensorDom :=
  [T2 (-1) [Factor "x" 2]; T2 (-1) [Factor "y" 2]; T2 1 [Factor "x" 1; Factor "y" 1];
   T2 1 [Factor "t" 1; Factor "x" 1]; T2 (-1) [Factor "w" 2]; T2 1 [Factor "w" 1; Factor "t" 1]].
Definition ex2_e : exppoly RTensorDom := ExpPoly (1 : C RTensorDom) ex2_poly.
Definition t_poly : poly RTensorDom := [T2 1 [Factor "t" 1]].
Definition ex2_box : list (string * limit RTensorDom * limit RTensorDom) :=
  [("x"%string, LInf, LObj (OPoly t_poly)); ("w"%string, LInf, LInf);
   ("y"%string, LObj (ONum (0 : C RTensorDom)), LObj (ONum (2 : C RTensorDom)))].
Definition mt (t : R) : varmap := fun y => if String.eqb y "t" then Some t else None.

Lemma built_ex2_poly : built RTensorDom ex2_poly.
Proof.
  apply (built_terms RTensorDom ord_id
    [(-1 : C RTensorDom, [("x"%string, 2%Z)]); (-1 : C RTensorDom, [("y"%string, 2%Z)]);
     (1 : C RTensorDom, [("x"%string, 1%Z); ("y"%string, 1%Z)]);
     (1 : C RTensorDom, [("t"%string, 1%Z); ("x"%string, 1%Z)]);
     (-1 : C RTensorDom, [("w"%string, 2%Z)]); (1 : C RTensorDom, [("w"%string, 1%Z); ("t"%string, 1%Z)])] ex2_poly); reflexivity.
Qed.
Lemma built_t_poly : built RTensorDom t_poly.
Proof.
  apply (built_terms RTensorDom ord_id [(1 : C RTensorDom, [("t"%string, 1%Z)])] t_poly); reflexivity.
Qed.

Lemma ex2_val env : pval RTensorDom env ex2_poly
  = - env "x"%string ^ 2 - env "y"%string ^ 2 + env "x"%string * env "y"%string + env "t"%string * env "x"%string
    - env "w"%string ^ 2 + env "w"%string * env "t"%string.
Proof. unfold ex2_poly, pval, rsum. simpl. unfold tval, fval, rprod. simpl. ring. Qed.

Ltac run_step :=
  lazy -[IZR Rplus Rmult Ropp Rinv PI exp rdiv erf safe_sqrt Rminus Rdiv bvn_cdf];
  repeat match goal with |- context [rdiv ?n ?d] =>
    rewrite (rdiv_ok n d) by first [lra | pose proof (safe_sqrt_pos); apply Rgt_not_eq, safe_sqrt_pos]
  end.

Lemma ex2_returns t : exists v, integrate_box RTensorDom ord_id idR ex2_e ex2_box (mt t) = Ok v.
Proof.
  run_step. run_step. eexists. reflexivity.
Qed.

Example C12_witness (t : R) :
  exists v, integrate_box RTensorDom ord_id idR ex2_e ex2_box (mt t) = Ok v
    /\ exists g, (forall env, is_integral (fun w => exp (- env "x"%string ^ 2 - env "y"%string ^ 2
                      + env "x"%string * env "y"%string + env "t"%string * env "x"%string - w ^ 2 + w * env "t"%string))
                    m_infty p_infty (g env))
        /\ is_integral2 (fun x y => g (rebind (rebind (rebind env1 "t" t) "x" x) "y" y)) m_infty t 0 2 v.
Proof.
  destruct (ex2_returns t) as [v Hv]. exists v. split; [exact Hv|]. pose proof PI_gt_2.
  set (env := rebind env1 "t" t).
  destruct (C12_box_two RTensorDom ord_id idR ex2_e ex2_box (mt t) env
    (fun env => exp (pval RTensorDom env ex2_poly)) (fun env => pval RTensorDom env ex2_poly)
    (fun env => - env "x"%string ^ 2 - env "y"%string ^ 2 + env "x"%string * env "y"%string + env "t"%string * env "x"%string
      + env "t"%string ^ 2 / 4)
    "x" "y" LInf (LObj (ONum (0 : C RTensorDom))) (OPoly t_poly) (ONum (2 : C RTensorDom))
    m_infty t 0 2 (-1) 1 (-1) t 0 (t ^ 2 / 4) v idR_val built_ex2_poly) as [g [G1 G2]].
  - intros env'. rewrite evale_eq. simpl val. now rewrite Rmult_1_l.
  - intros env'. apply evalp_eq.
  - discriminate.
  - reflexivity.
  - exists (-1), (fun env => env "t"%string), (fun env => - env "x"%string ^ 2 - env "y"%string ^ 2 + env "x"%string * env "y"%string
      + env "t"%string * env "x"%string).
    split; [lra|]. split; [apply floor_quarter; replace (- PI / -1) with PI by field; lra|]. split.
    + intros env' z. rewrite ex2_val. unfold rebind. simpl. ring.
    + intros env'. simpl. field.
  - intros z1 z2. unfold env, rebind, env1. simpl. field.
  - lra.
  - lra.
  - apply floor_quarter. replace (4 * -1 * -1 - 1 ^ 2) with 3 by ring. lra.
  - apply floor_quarter. replace (4 * -1 * -1 - 1 ^ 2) with 3 by ring. lra.
  - apply floor_quarter. replace (4 * -1 * -1 - 1 ^ 2) with 3 by ring. lra.
  - apply floor_quarter. replace (4 * -1 * -1 - 1 ^ 2) with 3 by ring. lra.
  - reflexivity.
  - split; [exact built_t_poly|]. split.
    + intros x [<-|[<-|[<-|[]]]]; reflexivity.
    + exists t. split; [reflexivity|]. simpl obj_eval. fold (evalp RTensorDom env t_poly). rewrite evalp_eq. f_equal.
      unfold t_poly, pval, rsum. simpl. unfold tval, fval, rprod. simpl. unfold env, rebind. simpl. ring.
  - split; [exact I|]. split; [reflexivity|]. exists 0. split; reflexivity.
  - split; [exact I|]. split; [reflexivity|]. exists 2. split; reflexivity.
  - intros y Hy [F|[l [Hl F]]].
    + apply poly_is_function_of_names in F. simpl in F, Hy.
      assert (E : y = "t"%string) by (intuition (subst; congruence)). subst y. reflexivity.
    + simpl in Hl. destruct Hl as [<-|[<-|[<-|[<-|[]]]]]; try discriminate.
      simpl in F. apply (poly_is_function_of_names RTensorDom t_poly) in F. simpl in F. destruct F as [<-|[]]. reflexivity.
  - exact Hv.
  - exists g. split; [|exact G2]. intros env'. destruct (G1 env') as [g' [I1 I2]].
    replace (g env') with (g' env') by (symmetry; exact I2).
    eapply is_integral_ext; [|apply I1]. intros w. simpl. rewrite ex2_val. unfold rebind. simpl. reflexivity.
Qed.

(** The same exponent with both remaining variables over the negative quadrant. *)
Example C11_witness (t : R) :
  let e := ExpPoly (2 : C RTensorDom)
    [T2 (-1) [Factor "x" 2]; T2 (-1) [Factor "y" 2]; T2 1 [Factor "x" 1; Factor "y" 1]; T2 1 [Factor "t" 1; Factor "x" 1]] in
  exists v, integrate_half RTensorDom ord_id e ["x"%string; "y"%string] (mt t) = Ok v
    /\ is_integral2 (fun x y => 2 * exp (- x ^ 2 - y ^ 2 + x * y + t * x)) m_infty 0 m_infty 0 v.
Proof.
  intros e.
  assert (Hv : exists v, integrate_half RTensorDom ord_id e ["x"%string; "y"%string] (mt t) = Ok v).
  { run_step. eexists. reflexivity. }
  destruct Hv as [v Hv]. exists v. split; [exact Hv|].
  assert (B : built RTensorDom (epoly e)).
  { apply (built_terms RTensorDom ord_id
    [(-1 : C RTensorDom, [("x"%string, 2%Z)]); (-1 : C RTensorDom, [("y"%string, 2%Z)]);
     (1 : C RTensorDom, [("x"%string, 1%Z); ("y"%string, 1%Z)]);
     (1 : C RTensorDom, [("t"%string, 1%Z); ("x"%string, 1%Z)])] (epoly e)); reflexivity. }
  assert (E : forall z1 z2, pval RTensorDom (rebind (rebind (rebind env1 "t" t) "x" z1) "y" z2) (epoly e)
    = -1 * z1 ^ 2 + 1 * z1 * z2 + -1 * z2 ^ 2 + t * z1 + 0 * z2 + 0).
  { intros z1 z2. unfold e, pval, rsum. simpl. unfold tval, fval, rprod. simpl. unfold rebind. simpl. ring. }
  eapply (C11_integrate_half_two RTensorDom ord_id e "x" "y" (mt t) (rebind env1 "t" t) _ (-1) 1 (-1) t 0 0 v); auto.
  - discriminate.
  - intros z1 z2. rewrite evale_eq, E. simpl val. do 3 f_equal. ring.
  - intros z1 z2. rewrite evalp_eq, E. reflexivity.
  - lra.
  - lra.
  - apply floor_quarter. replace (4 * -1 * -1 - 1 ^ 2) with 3 by ring. lra.
  - apply floor_quarter. replace (4 * -1 * -1 - 1 ^ 2) with 3 by ring. lra.
  - apply floor_quarter. replace (4 * -1 * -1 - 1 ^ 2) with 3 by ring. lra.
  - apply floor_quarter. replace (4 * -1 * -1 - 1 ^ 2) with 3 by ring. lra.
  - intros y Nx Ny F. apply poly_is_function_of_names in F. simpl in F.
    assert (Ey : y = "t"%string) by (intuition (subst; congruence)). subst y. reflexivity.
Qed.
