(** What observations add: proofs. *)
From Coq Require Import Reals Lra.
From mathcomp Require Import all_ssreflect all_algebra.
From Verif Require Import Py RMat RChol RTac NormalModel NormalProofs ApproxModel ApproxSpec ApproxProofs ApproxProofs2 OrderSpec InfoSpec GrowProofs GrowGp.
Set Implicit Arguments.
Unset Strict Implicit.
Unset Printing Implicit Defensive.
Import GRing.Theory.
Local Open Scope ring_scope.
Delimit Scope R_scope with Re.

(** A larger precision is a smaller variance. *)
Lemma inv_anti k (A B : 'M[R]_k) : spd A -> spd B -> psd (B - A) -> forall x : 'cV[R]_k, (dot x (invmx B *m x) <= dot x (invmx A *m x))%Re.
Proof.
  move=> HA HB [_ H] x.
  set v := invmx B *m x; set w := invmx A *m x.
  have EB : B *m v = x by rewrite /v mulKVmx //; exact: spd_unit.
  have EA : A *m w = x by rewrite /w mulKVmx //; exact: spd_unit.
  have := proj2 (spd_psd HA) (w - v); rewrite mulmxBr EA !dotDl !dotDr !dotNl !dotNr.
  have := H v; rewrite mulmxBl EB dotDr dotNr.
  have -> : dot w (A *m v) = dot x v by rewrite dot_mx (proj1 HA) EA.
  rewrite !(dotC v x) (dotC w x); move: (dot x v) (dot x w) (dot v (A *m v)) => a c b.
  by rewrite !RplusE !RoppE => H1 H2; lra.
Qed.

Section Sums.
Variables (n n' : nat).
Lemma psd_rest k (F : 'I_n -> 'M[R]_k) (F' : 'I_n' -> 'M[R]_k) (s : 'I_n -> 'I_n') : injective s -> (forall i, F i = F' (s i)) ->
  (forall j, psd (F' j)) -> psd (\sum_j F' j - \sum_i F i).
Proof.
  move=> Is E P.
  have -> : \sum_i F i = \sum_(j in [set s i | i in 'I_n]) F' j.
    by rewrite big_imset /=; [apply: eq_bigr => i _; exact: E|move=> i j _ _; exact: Is].
  rewrite (bigID (fun j => j \in [set s i | i in 'I_n])) /= addrAC subrr add0r.
  by rewrite big_mkcond; apply: psd_sum => j; case: ifP => // _; exact: psd0.
Qed.
End Sums.

Section Info.
Variable chol : forall n, 'M[R]_n -> 'M[R]_n.
Hypothesis Hc : chol_ok chol.

Section One.
Variables (n nu nz : nat) (m : gp nu nz) (D : integrals n nu nz) (y : 'I_n -> R).
Notation ts := (construct_terms chol m D y).

(** What an observation adds to the precisions and to the linear terms. *)
Definition prec_u (x2 : 'M[R]_nz) i : 'M[R]_nu := A_at chol m D y i + ig_uz D i *m x2 *m (ig_uz D i)^T.
Definition prec_z (x2 : 'M[R]_nu) i : 'M[R]_nz := B_at chol m D y i + (ig_uz D i)^T *m x2 *m ig_uz D i.

Lemma outer_mid a b (I : 'M[R]_(a, b)) (x : 'cV[R]_b) : (I *m x) *m (I *m x)^T = I *m (x *m x^T) *m I^T.
Proof. by rewrite trmx_mul !mulmxA. Qed.

Lemma q_u_gain z : q_u_optimal m ts z = NatNormal ((/ noise m)%Re *: \sum_i y i *: (ig_uz D i *m z)) (K_u m + (/ noise m)%Re *: \sum_i prec_u (z *m z^T) i).
Proof.
  rewrite /q_u_optimal /q_optimal A_sumE; congr NatNormal.
    by congr (_ *: _); rewrite /= mulmx_suml; apply: eq_bigr => i _; rewrite scalemxAl.
  by rewrite -big_split; congr (_ + _ *: _); apply: eq_bigr => i _; rewrite outer_mid.
Qed.
Lemma q_z_gain u : q_z_optimal m ts u = NatNormal ((/ noise m)%Re *: \sum_i y i *: ((ig_uz D i)^T *m u)) (K_z m + (/ noise m)%Re *: \sum_i prec_z (u *m u^T) i).
Proof.
  rewrite /q_z_optimal /q_optimal B_sumE; congr NatNormal.
    by congr (_ *: _); rewrite /= linear_sum mulmx_suml; apply: eq_bigr => i _; rewrite linearZ /= scalemxAl.
  by rewrite -big_split; congr (_ + _ *: _); apply: eq_bigr => i _; rewrite outer_mid trmxK.
Qed.
Lemma q_u_mf_gain q : q_u_optimal_mean_field chol m ts q
  = NatNormal ((/ noise m)%Re *: \sum_i y i *: (ig_uz D i *m mean chol q)) (K_u m + (/ noise m)%Re *: \sum_i prec_u (m2 chol q) i).
Proof.
  rewrite /q_u_optimal_mean_field /q_optimal_m2 A_sumE; congr NatNormal.
    by congr (_ *: _); rewrite /= mulmx_suml; apply: eq_bigr => i _; rewrite scalemxAl.
  by rewrite -big_split; congr (_ + _ *: _); apply: eq_bigr => i _.
Qed.
Lemma q_z_mf_gain q : q_z_optimal_mean_field chol m ts q
  = NatNormal ((/ noise m)%Re *: \sum_i y i *: ((ig_uz D i)^T *m mean chol q)) (K_z m + (/ noise m)%Re *: \sum_i prec_z (m2 chol q) i).
Proof.
  rewrite /q_z_optimal_mean_field /q_optimal_m2 B_sumE; congr NatNormal.
    by congr (_ *: _); rewrite /= linear_sum mulmx_suml; apply: eq_bigr => i _; rewrite linearZ /= scalemxAl.
  by rewrite -big_split; congr (_ + _ *: _); apply: eq_bigr => i _; rewrite trmxK.
Qed.

Hypothesis WP : well_posed m D.
Lemma prec_u_psd x2 i : psd x2 -> psd (prec_u x2 i).
Proof. by move=> H; apply: psd_add; [exact: A_at_psd|exact: psd_conj]. Qed.
Lemma prec_z_psd x2 i : psd x2 -> psd (prec_z x2 i).
Proof. by move=> H; apply: psd_add; [exact: B_at_psd|rewrite -[X in _ *m X]trmxK; exact: psd_conj]. Qed.
End One.
End Info.
