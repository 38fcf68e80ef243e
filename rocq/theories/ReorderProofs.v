(** Putting inducing variables in another order is a change of basis by permutation matrices that
    does not affect the stopping criterion of coordinate ascent. *)
From Coq Require Import Reals List Lra FunctionalExtensionality.
From mathcomp Require Import all_ssreflect all_algebra fingroup perm.
From Verif Require Import Py RMat RChol RTac NormalModel NormalProofs ApproxModel ApproxSpec ApproxProofs ApproxProofs2 BasisSpec BasisProofs ReorderSpec2.
From Coq Require Import Permutation.
Set Implicit Arguments.
Unset Strict Implicit.
Unset Printing Implicit Defensive.
Import GRing.Theory.
Local Open Scope ring_scope.
Delimit Scope R_scope with Re.

Lemma rowsE k l (s : 'S_k) (A : 'M[R]_(k, l)) : rows s A = perm_mx s *m A.
Proof. by rewrite -row_permE; apply/matrixP=> i j; rewrite !mxE. Qed.
Lemma bothE k l (s : 'S_k) (r : 'S_l) (A : 'M[R]_(k, l)) : both s r A = perm_mx s *m A *m (perm_mx r)^T.
Proof. by rewrite tr_perm_mx -col_permE -row_permE; apply/matrixP=> i j; rewrite !mxE. Qed.
Lemma unit_p k (s : 'S_k) : (perm_mx s : 'M[R]_k) \in unitmx. Proof. exact: unitmx_perm. Qed.
Lemma inv_p k (s : 'S_k) : (invmx (perm_mx s : 'M[R]_k))^T = perm_mx s.
Proof.
  have E : (perm_mx s)^T *m (perm_mx s : 'M[R]_k) = 1%:M by rewrite tr_perm_mx -perm_mxM mulVg perm_mx1.
  have : invmx (perm_mx s : 'M[R]_k) = (perm_mx s)^T.
    by rewrite -[LHS]mul1mx -E mulmxK // unit_p.
  by move=> ->; rewrite trmxK.
Qed.
Lemma dual_p k l (s : 'S_k) (u : 'M[R]_(k, l)) : dual (perm_mx s) u = rows s u.
Proof. by rewrite /dual inv_p rowsE. Qed.
Lemma q_p k (s : 'S_k) p : order_q s p = basis_q (perm_mx s) p.
Proof. by rewrite /order_q /basis_q rowsE bothE. Qed.
Lemma gp_p nu nz (s : 'S_nu) (r : 'S_nz) m : order_gp s r m = basis_gp (perm_mx s) (perm_mx r) m.
Proof. by rewrite /order_gp /basis_gp !bothE. Qed.
Lemma ig_p n nu nz (s : 'S_nu) (r : 'S_nz) (ig : integrals n nu nz) : order_integrals s r ig = basis_integrals (perm_mx s) (perm_mx r) ig.
Proof.
  rewrite /order_integrals /basis_integrals bothE; congr Integrals; apply: functional_extensionality => i; exact: bothE.
Qed.
Lemma st_p nu nz (s : 'S_nu) (r : 'S_nz) ap : order_state s r ap = basis_state (perm_mx s) (perm_mx r) ap.
Proof.
  rewrite /order_state /basis_state; congr Approx; apply: functional_extensionality => i; exact: q_p.
Qed.
Lemma pair_p nu nz (s : 'S_nu) (r : 'S_nz) q : order_pair s r q = basis_pair (perm_mx s) (perm_mx r) q.
Proof. by rewrite /order_pair /basis_pair !q_p. Qed.

Lemma rms_l k (s : 'S_k) l (x y : 'M[R]_(k, l)) : rms (perm_mx s *m x) (perm_mx s *m y) = rms x y.
Proof.
  rewrite /rms -!rowsE; congr (sqrt (_ / _)%Re).
  have -> : \sum_i \sum_j ((rows s x i j - rows s y i j) * (rows s x i j - rows s y i j)) = \sum_i \sum_j ((x (s i) j - y (s i) j) * (x (s i) j - y (s i) j)).
    by apply: eq_bigr => i _; apply: eq_bigr => j _; rewrite !mxE.
  by symmetry; exact: (reindex_inj (@perm_inj _ s)).
Qed.
Lemma rms_tr k l (x y : 'M[R]_(k, l)) : rms x^T y^T = rms x y.
Proof.
  rewrite /rms mulnC exchange_big; congr (sqrt (_ / _)%Re).
  by apply: eq_bigr => i _; apply: eq_bigr => j _; rewrite !mxE.
Qed.
Lemma rms_r k (s : 'S_k) l (x y : 'M[R]_(l, k)) : rms (x *m (perm_mx s)^T) (y *m (perm_mx s)^T) = rms x y.
Proof. by rewrite -rms_tr !trmx_mul trmxK rms_l rms_tr. Qed.

Lemma det_p k (s : 'S_k) : ln (Rabs (\det (perm_mx s : 'M[R]_k))) = 0%Re.
Proof.
  rewrite det_perm; case: (odd_perm s); rewrite ?expr0 ?expr1.
  - by rewrite -[(-1)%R]/(- (1))%Re Rabs_Ropp Rabs_R1 ln_1.
  - by rewrite -[1%R]/(1)%Re Rabs_R1 ln_1.
Qed.

(** Lists that are permutations of each other. *)
Lemma perm_of A (d : A) (l l' : list A) : Permutation l l' -> List.length l' = List.length l /\
  exists s : 'S_(List.length l), forall i : 'I_(List.length l), List.nth i l' d = List.nth (s i) l d.
Proof.
  move=> /(Permutation_nth _ _ d) /= [L [f [Fb [Fi Fn]]]]; split=> //.
  have B (i : 'I_(List.length l)) : (f i < List.length l)%N by apply/ltP; apply: Fb; apply/ltP.
  have I : injective (fun i => Ordinal (B i)).
    by move=> i j [] Ef; apply: val_inj => /=; apply: Fi => //; exact/ltP.
  by exists (perm I) => i; rewrite permE /=; apply: Fn; apply/ltP.
Qed.
