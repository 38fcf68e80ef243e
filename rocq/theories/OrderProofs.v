(** Proofs that the order of the observations does not matter. *)
From Coq Require Import Reals List String Permutation.
From mathcomp Require Import all_ssreflect all_algebra.
From Verif Require Import Py RMat NormalModel ApproxModel EvidenceModel OrderSpec.
Set Implicit Arguments.
Unset Strict Implicit.
Unset Printing Implicit Defensive.
Import GRing.Theory.
Local Open Scope ring_scope.
Delimit Scope R_scope with Re.

Section Order.
Variable chol : forall n, 'M[R]_n -> 'M[R]_n.
Variables (n n' nu nz : nat) (m : gp nu nz) (D : integrals n nu nz) (y : 'I_n -> R).
Variables (D' : integrals n' nu nz) (y' : 'I_n' -> R).
Hypothesis Hs : same_observations D y D' y'.
Notation ts := (construct_terms chol m D y).
Notation ts' := (construct_terms chol m D' y').

Lemma same_n : n' = n.
Proof. by have [_ [s [B _]]] := Hs; rewrite -(card_ord n) -(card_ord n') (bij_eq_card B). Qed.

Lemma sum_same (V : zmodType) (F : 'I_n -> V) (F' : 'I_n' -> V) :
  (forall i i', same_point D i D' i' -> y i = y' i' -> F i = F' i') -> \sum_i F i = \sum_i F' i.
Proof.
  have [_ [s [B H]]] := Hs; move=> E.
  rewrite (reindex s); last exact: onW_bij.
  by apply: eq_bigr => i _; have [P Y] := H i; apply: E.
Qed.

Lemma A_same : ts_A_sum ts = ts_A_sum ts'.
Proof.
  rewrite /=; have -> : INR n' = INR n by rewrite same_n.
  have [-> _] := Hs; congr (_ - _).
  by apply: sum_same => i i' [_ [_ [_ ->]]].
Qed.

Lemma B_same : ts_B_sum ts = ts_B_sum ts'.
Proof.
  rewrite /=; congr (_ - _).
  - by apply: sum_same => i i' [_ [_ [-> _]]].
  - by apply: sum_same => i i' [_ [_ [_ ->]]].
Qed.

Lemma c_same : ts_c_sum ts = ts_c_sum ts'.
Proof.
  rewrite /=; have -> : INR n' = INR n by rewrite same_n.
  have [-> _] := Hs.
  have -> : \sum_i ig_hx D i = \sum_i ig_hx D' i by apply: sum_same => i i' [-> _].
  have -> : \sum_i ig_hz D i = \sum_i ig_hz D' i by apply: sum_same => i i' [_ [_ [-> _]]].
  congr Rplus.
  by apply: sum_same => i i' [_ [_ [_ ->]]].
Qed.

Lemma I_same : ts_I_uz_sum ts = ts_I_uz_sum ts'.
Proof. by rewrite /=; apply: sum_same => i i' [_ [_ [_ ->]]] ->. Qed.

Lemma yy_same : \sum_i (ts_y ts i * ts_y ts i)%Re = \sum_i (ts_y ts' i * ts_y ts' i)%Re.
Proof. by rewrite /=; apply: sum_same => i i' _ ->. Qed.

Lemma qu_same z : q_u_optimal m ts z = q_u_optimal m ts' z.
Proof.
  rewrite /q_u_optimal /q_optimal A_same I_same; congr NatNormal; congr (_ + _ *: (_ + _)).
  by apply: sum_same => i i' [_ [_ [_ /= ->]]].
Qed.

Lemma qz_same u : q_z_optimal m ts u = q_z_optimal m ts' u.
Proof.
  rewrite /q_z_optimal /q_optimal B_same I_same; congr NatNormal; congr (_ + _ *: (_ + _)).
  by apply: sum_same => i i' [_ [_ [_ /= ->]]].
Qed.

Lemma qum_same q : q_u_optimal_mean_field chol m ts q = q_u_optimal_mean_field chol m ts' q.
Proof.
  rewrite /q_u_optimal_mean_field /q_optimal_m2 A_same I_same; congr NatNormal; congr (_ + _ *: (_ + _)).
  by apply: sum_same => i i' [_ [_ [_ /= ->]]].
Qed.

Lemma qzm_same q : q_z_optimal_mean_field chol m ts q = q_z_optimal_mean_field chol m ts' q.
Proof.
  rewrite /q_z_optimal_mean_field /q_optimal_m2 B_same I_same; congr NatNormal; congr (_ + _ *: (_ + _)).
  by apply: sum_same => i i' [_ [_ [_ /= ->]]].
Qed.

Lemma elbo_at_same pu pz qu qz : elbo_at chol m ts pu pz qu qz = elbo_at chol m ts' pu pz qu qz.
Proof.
  rewrite /elbo_at yy_same A_same B_same c_same I_same.
  have -> : \sum_i sum_mul (ts_I_uz ts i *m m2 chol qz *m (ts_I_uz ts i)^T)%R (m2 chol qu)
          = \sum_i sum_mul (ts_I_uz ts' i *m m2 chol qz *m (ts_I_uz ts' i)^T)%R (m2 chol qu).
    by apply: sum_same => i i' [_ [_ [_ /= ->]]].
  by have -> : INR n' = INR n by rewrite same_n.
Qed.

Lemma elbo_same ap c : elbo chol m ts ap c = elbo chol m ts' ap c.
Proof.
  rewrite /elbo; case: c => [c|]; last by rewrite elbo_at_same.
  by rewrite elbo_at_same qzm_same qum_same elbo_at_same.
Qed.

Lemma log_Z_u_same u : log_Z_u chol m ts u = log_Z_u chol m ts' u.
Proof.
  rewrite /log_Z_u qz_same yy_same A_same c_same.
  by have -> : INR n' = INR n by rewrite same_n.
Qed.

Lemma ca_same iters qu qz : ca_loop chol m ts iters qu qz = ca_loop chol m ts' iters qu qz.
Proof.
  elim: iters qu qz => [|k IH] qu qz //=.
  by rewrite qum_same qzm_same IH.
Qed.

Lemma gibbs_same noises u z : gibbs chol m ts noises u z = gibbs chol m ts' noises u z.
Proof. 
  move: qu_same qz_same; move: (construct_terms chol m D y) (construct_terms chol m D' y') => a b Hu Hz.
  elim: noises u z => [|e noises IH] u z; cbn [gibbs]; first reflexivity.
  rewrite Hu Hz; exact: IH.
Qed.

Lemma predict_same n2 (new : terms n2 nu nz) us i :
  predict_structured chol m ts new us i = predict_structured chol m ts' new us i.
Proof.
  rewrite /predict_structured; have E : q_z_optimal m ts =1 q_z_optimal m ts' by exact: qz_same.
  move: (q_z_optimal m ts) (q_z_optimal m ts') E => f g E; cbn zeta.
  pose F u q := predict_moments chol m new u (u *m u^T) (mean chol q) (m2 chol q) i.
  have S1 : \sum_(u <- us) (F u (f u)).1 = \sum_(u <- us) (F u (g u)).1 by apply: eq_bigr => u _; rewrite E.
  have S2 : \sum_(u <- us) (F u (f u)).2 = \sum_(u <- us) (F u (g u)).2 by apply: eq_bigr => u _; rewrite E.
  by rewrite /F in S1 S2; rewrite S1 S2.
Qed.
End Order.

Lemma moments_point chol n n' nu nz (m : gp nu nz) (D : integrals n nu nz) y (D' : integrals n' nu nz) y' i i' u u2 z z2 :
  same_point D i D' i' ->
  predict_moments chol m (construct_terms chol m D y) u u2 z z2 i
  = predict_moments chol m (construct_terms chol m D' y') u u2 z z2 i'.
Proof. by rewrite /predict_moments /= => -[-> [-> [-> ->]]]. Qed.
