(** Proofs about [closest_psd]. *)
From Coq Require Import Reals Lra.
From mathcomp Require Import all_ssreflect all_algebra.
From Verif Require Import RMat RChol RTac PsdModel PsdSpec.
Set Implicit Arguments.
Unset Strict Implicit.
Unset Printing Implicit Defensive.
Import GRing.Theory.
Local Open Scope ring_scope.
Delimit Scope R_scope with Re.

(** * Squares of positive semi-definite matrices *)

Lemma sqr_eq0 (x : R) : x * x = 0 -> x = 0.
Proof. by move=> H; apply: Rsqr_0_uniq. Qed.

Lemma tr_sq_eq0 n (D : 'M[R]_n) : \tr (D^T *m D) = 0 -> D = 0.
Proof.
  move=> H; apply/matrixP => i j; rewrite mxE; apply: sqr_eq0.
  have Hj : (D^T *m D) j j = 0.
    apply: (sumR_eq0 (F := fun j => (D^T *m D) j j)) => // k.
    by rewrite mxE; apply: sumR_ge0 => l _; rewrite mxE; exact: Rle_0_sqr.
  have := Hj; rewrite mxE => /(fun E => sumR_eq0 E) H'.
  have := H' _ i; rewrite mxE; apply => k; rewrite mxE; exact: Rle_0_sqr.
Qed.

Lemma lin_aux (b c : R) : (0 <= c)%Re -> (forall t, 0 <= 2 * t * b + t * t * c)%Re -> b = 0%Re.
Proof.
  move=> Hc H; have := H (- b / (c + 1))%Re.
  have -> : (2 * (- b / (c + 1)) * b + - b / (c + 1) * (- b / (c + 1)) * c =
     - (b * b) * ((c + 2) / ((c + 1) * (c + 1))))%Re by field; lra.
  have P : (0 < (c + 2) / ((c + 1) * (c + 1)))%Re.
    by apply: Rdiv_lt_0_compat; [lra|apply: Rmult_lt_0_compat; lra].
  move=> Q; have S := Rle_0_sqr b; rewrite /Rsqr in S.
  apply: Rsqr_0_uniq; rewrite /Rsqr; case: (Rle_lt_or_eq_dec _ _ S) => // S1.
  have := Rmult_lt_0_compat _ _ S1 P; lra.
Qed.

Lemma psd_null n (A : 'M[R]_n) (x : 'cV[R]_n) : psd A -> dot x (A *m x) = 0 -> A *m x = 0.
Proof.
  move=> [SA PA] H; apply: dot_eq0.
  apply: (@lin_aux _ (dot (A *m x) (A *m (A *m x)))); first exact: PA.
  move=> t; have := PA (x + t *: (A *m x)).
  rewrite mulmxDr -scalemxAr !dotDl !dotDr !dotZl !dotZr H.
  have -> : dot x (A *m (A *m x)) = dot (A *m x) (A *m x) by rewrite dot_mx SA.
  by move=> Q; apply: Rle_trans Q _; apply: Req_le; rring.
Qed.

Lemma tr_conj n m (A : 'M[R]_n) (D : 'M[R]_(n, m)) :
  \tr (D^T *m A *m D) = \sum_k dot (col k D) (A *m col k D).
Proof.
  rewrite /mxtrace; apply: eq_bigr => k _; rewrite -mulmxA mxE /dot; apply: eq_bigr => i _.
  by rewrite !mxE; congr (_ * _); apply: eq_bigr => j _; rewrite !mxE.
Qed.

Lemma tr_conj_ge0 n m (A : 'M[R]_n) (D : 'M[R]_(n, m)) : psd A -> Rle 0 (\tr (D^T *m A *m D)).
Proof. by move=> [_ H]; rewrite tr_conj; apply: sumR_ge0 => k _. Qed.

Lemma tr_conj_eq0 n m (A : 'M[R]_n) (D : 'M[R]_(n, m)) : psd A -> \tr (D^T *m A *m D) = 0 -> A *m D = 0.
Proof.
  move=> PA; rewrite tr_conj => H.
  have K k : A *m col k D = 0.
    by apply: psd_null => //; apply: (sumR_eq0 (F := fun k => dot (col k D) (A *m col k D))) => // i; exact: (proj2 PA).
  apply/matrixP => i k; have := congr1 (fun M : 'cV[R]_n => M i ord0) (K k); rewrite !mxE => H0.
  by rewrite -[RHS]H0; apply: eq_bigr => j _; rewrite !mxE.
Qed.

Lemma two_nonneg_aux (a b : R) : (0 <= a)%Re -> (0 <= b)%Re -> (a + b = 0)%Re -> a = 0%Re /\ b = 0%Re.
Proof. move=> *; split; lra. Qed.

Lemma psd_sqrt_unique n (A B : 'M[R]_n) : psd A -> psd B -> A *m A = B *m B -> A = B.
Proof.
  move=> PA PB E; set D := A - B.
  have SD : D^T = D by rewrite /D linearB /= (proj1 PA) (proj1 PB).
  have E0 : A *m D + D *m B = 0 by rewrite /D mulmxBr mulmxBl E addrA subrK subrr.
  have T : \tr (D^T *m A *m D) + \tr (D^T *m B *m D) = 0.
    rewrite [X in _ + X]mxtrace_mulC SD mulmxA -[D *m A *m D]mulmxA -mulmxA -linearD /=.
    by rewrite -mulmxDr [X in D *m X](_ : _ = 0) ?mulmx0 ?linear0 // -E0 mulmxA.
  have [TA TB] := two_nonneg_aux (tr_conj_ge0 D PA) (tr_conj_ge0 D PB) T.
  have DA := tr_conj_eq0 PA TA; have DB := tr_conj_eq0 PB TB.
  apply/eqP; rewrite -subr_eq0; apply/eqP; apply: tr_sq_eq0.
  by rewrite -/D SD {1}/D mulmxBl DA DB subr0 linear0.
Qed.

(** * The decomposition of a symmetric matrix *)

Lemma scale_cols n (u : 'M[R]_n) (s : 'rV[R]_n) :
  (\matrix_(i, k) (u i k * s ord0 k)%Re) = u *m diag_mx s.
Proof. by rewrite mul_mx_diag; apply/matrixP => i k; rewrite !mxE. Qed.

Lemma diag_aux (a x : R) : (0 <= a)%Re -> (0 <= x * (a * x))%Re.
Proof.
  move=> H; have := Rmult_le_pos _ _ H (Rle_0_sqr x); rewrite /Rsqr => Q.
  by apply: Rle_trans Q _; apply: Req_le; ring.
Qed.

Lemma psd_diag n (s : 'rV[R]_n) : (forall k, (0 <= s ord0 k)%Re) -> psd (diag_mx s).
Proof.
  move=> H; split; first by rewrite /symm tr_diag_mx.
  move=> x; rewrite /dot; apply: sumR_ge0 => k _; rewrite mul_diag_mx mxE.
  exact: diag_aux.
Qed.

Lemma half_aux (x : R) : (/ 2 * (x + x) = x)%Re.
Proof. field. Qed.
Lemma symmetrised n (a : 'M[R]_n) : symm a -> (/ 2)%Re *: (a + a^T) = a.
Proof. by move=> ->; apply/matrixP => i j; rewrite !mxE; exact: half_aux. Qed.

Section Svd.
Variables (n : nat) (a u v : 'M[R]_n) (s : 'rV[R]_n).
Hypothesis HS : is_svd a (u, s, v).
Variable W : 'M[R]_n.
Hypothesis W_def : W = u^T *m v.

Let uu : u^T *m u = 1%:M. Proof. by case: HS. Qed.
Let uu' : u *m u^T = 1%:M. Proof. exact: mulmx1C. Qed.
Let vv : v^T *m v = 1%:M. Proof. by case: HS => _ []. Qed.
Let vv' : v *m v^T = 1%:M. Proof. exact: mulmx1C. Qed.
Let s0 k : (0 <= s ord0 k)%Re. Proof. by case: HS => _ [_ []]. Qed.
Let ea : a = u *m diag_mx s *m v^T. Proof. by case: HS => _ [_ []]. Qed.

Lemma WE : v^T = W^T *m u^T.
Proof. by rewrite W_def trmx_mul trmxK -mulmxA uu' mulmx1. Qed.
Lemma WW : W^T *m W = 1%:M.
Proof. by rewrite W_def trmx_mul trmxK mulmxA -(mulmxA v^T) uu' mulmx1. Qed.
Lemma WW' : W *m W^T = 1%:M.
Proof. exact: mulmx1C WW. Qed.
Lemma core : u^T *m a *m u = diag_mx s *m W^T.
Proof. by rewrite ea WE !mulmxA uu mul1mx -!mulmxA uu mulmx1. Qed.

Lemma psd_core : psd a -> diag_mx s *m W^T = diag_mx s.
Proof.
  move=> Ha; have P : psd (diag_mx s *m W^T).
    by rewrite -core -[X in _ *m X]trmxK; apply: psd_conj.
  apply: psd_sqrt_unique => //; first exact: psd_diag.
  rewrite -{2}(proj1 P) [(diag_mx s *m _)^T]trmx_mul trmxK tr_diag_mx -mulmxA; congr (_ *m _).
  by rewrite mulmxA WW mul1mx.
Qed.

Lemma psd_W : psd a -> forall j k, s ord0 k <> 0%Re -> W j k = (j == k)%:R.
Proof.
  move=> Ha j k Hk; have := congr1 (fun M : 'M[R]_n => M k j) (psd_core Ha).
  rewrite mul_diag_mx !mxE eq_sym => E; have U : s ord0 k \is a GRing.unit.
    by rewrite unitfE; apply/eqP.
  by apply: (mulrI U); rewrite E; case: (j == k); rewrite ?mulr1 ?mulr0 ?mulr1n ?mulr0n.
Qed.

Lemma psd_shrunk : psd a -> forall k, Rmax (W k k * s ord0 k)%Re 0%Re = s ord0 k.
Proof.
  move=> Ha k; case: (Req_EM_T (s ord0 k) 0%Re) => E.
    by rewrite E Rmult_0_r; exact: Rmax_left (Rle_refl _).
  rewrite (psd_W Ha k E) eqxx Rmult_1_l; exact: Rmax_left.
Qed.

Lemma psd_diagW (t : 'rV[R]_n) : psd a -> (forall k, s ord0 k = 0%Re -> t ord0 k = 0%Re) ->
  diag_mx t *m W^T = diag_mx t.
Proof.
  move=> Ha H; apply/matrixP => k j; rewrite mul_diag_mx [LHS]mxE [W^T _ _]mxE [RHS]mxE eq_sym.
  case: (Req_EM_T (s ord0 k) 0%Re) => E.
    by rewrite (H k E) -[0%Re]/(0 : R) mul0r mul0rn.
  by rewrite (psd_W Ha j E); case: (j == k); rewrite ?mulr1 ?mulr0 ?mulr1n ?mulr0n.
Qed.

(** The aligned case: every right singular vector is plus or minus the left one. *)
Section Aligned.
Hypothesis HW : forall i j, i <> j -> W i j = 0%Re.
Let w := \row_k W k k.
Let EW : W = diag_mx w.
Proof.
  apply/matrixP => i j; rewrite [RHS]mxE [w _ _]mxE; case: (i =P j) => [->|N]; first by rewrite mulr1n.
  by rewrite mulr0n; exact: HW.
Qed.

Lemma w_sq k : (w ord0 k * w ord0 k = 1)%Re.
Proof.
  have := congr1 (fun M : 'M[R]_n => M k k) WW'; rewrite {1 2}EW tr_diag_mx mul_diag_mx !mxE !eqxx !mulr1n.
  by [].
Qed.

Definition lambda := \row_k (w ord0 k * s ord0 k)%Re.
Definition lambda_plus := \row_k Rmax (lambda ord0 k) 0%Re.

Lemma a_eigen : a = u *m diag_mx lambda *m u^T.
Proof.
  rewrite ea WE EW tr_diag_mx !mulmxA; congr (_ *m _); rewrite -mulmxA; congr (_ *m _).
  rewrite mul_diag_mx; apply/matrixP => i j; rewrite !mxE.
  by case: (i =P j) => [->|_]; rewrite ?mulr1n ?mulr0n ?mulr0 // mulrC.
Qed.

Lemma max_aux (x y : R) : (0 <= y -> x * x = 1 -> Rmax (x * y) 0 * x = Rmax (x * y) 0)%Re.
Proof.
  move=> Hy Hx; have : ((x - 1) * (x + 1) = 0)%Re by rewrite Rmult_plus_distr_l; lra.
  case/Rmult_integral => E.
    have -> : x = 1%Re by lra.
    ring.
  have -> : x = (-1)%Re by lra.
  rewrite Rmax_right; [ring|lra].
Qed.

Lemma result_eigen :
  u *m diag_mx (\row_k Rmax (W k k * s ord0 k)%Re 0%Re) *m v^T = u *m diag_mx lambda_plus *m u^T.
Proof.
  rewrite WE EW tr_diag_mx !mulmxA; congr (_ *m _); rewrite -mulmxA; congr (_ *m _).
  rewrite mul_diag_mx; apply/matrixP => i j; rewrite [LHS]mxE [X in _ * X]mxE.
  case: (i =P j) => [->|N]; last by rewrite mulr0n mulr0 mxE; move/eqP/negbTE: N => ->.
  rewrite mulr1n /lambda_plus /lambda !mxE !eqxx !mulr1n; apply: max_aux => //.
  by have := w_sq j; rewrite mxE.
Qed.
End Aligned.
End Svd.

(** * The nearest positive semi-definite matrix *)

Lemma frob2E n (a b : 'M[R]_n) : frob2 a b = \tr ((a - b)^T *m (a - b)).
Proof.
  rewrite /frob2 exchange_big /mxtrace; apply: eq_bigr => j _; rewrite mxE.
  by apply: eq_bigr => i _; rewrite !mxE.
Qed.

Lemma frob2_conj n (u a b : 'M[R]_n) : u^T *m u = 1%:M ->
  frob2 (u *m a *m u^T) (u *m b *m u^T) = frob2 a b.
Proof.
  move=> uu; rewrite !frob2E -mulmxBl -mulmxBr; set d := a - b.
  rewrite !trmx_mul trmxK !mulmxA -(mulmxA (u *m d^T)) uu mulmx1 mxtrace_mulC.
  by rewrite !mulmxA uu mul1mx.
Qed.

Lemma near_aux (l y : R) : (0 <= y)%Re -> ((l - Rmax l 0) * (l - Rmax l 0) <= (l - y) * (l - y))%Re.
Proof.
  move=> Hy; case: (Rle_lt_dec l 0) => H.
    rewrite Rmax_right //.
    have : (0 <= y * (y - 2 * l))%Re by apply: Rmult_le_pos; lra.
    lra.
  rewrite Rmax_left; last lra.
  have := Rle_0_sqr (l - y)%Re; rewrite /Rsqr => Q; apply: Rle_trans Q; apply: Req_le; ring.
Qed.

Lemma near_diag n (l : 'rV[R]_n) (y : 'M[R]_n) : psd y ->
  (frob2 (diag_mx l) (diag_mx (\row_k Rmax (l ord0 k) 0%Re)) <= frob2 (diag_mx l) y)%Re.
Proof.
  move=> Hy; rewrite /frob2; apply: sumR_le => i _; rewrite (bigD1 i) //= [X in (_ <= X)%Re](bigD1 i) //=.
  apply: Rplus_le_compat.
    rewrite !mxE eqxx !mulr1n; apply: near_aux; exact: psd_diag_ge0.
  rewrite big1; first by apply: sumR_ge0 => j _; exact: Rle_0_sqr.
  by move=> j /negbTE Hj; rewrite !mxE eq_sym Hj !mulr0n Rminus_0_r Rmult_0_r.
Qed.

Lemma nearest n (u : 'M[R]_n) (l : 'rV[R]_n) : u^T *m u = 1%:M ->
  nearest_psd (u *m diag_mx l *m u^T) (u *m diag_mx (\row_k Rmax (l ord0 k) 0%Re) *m u^T).
Proof.
  move=> uu; have uu' : u *m u^T = 1%:M by exact: mulmx1C.
  split.
    apply: psd_conj; apply: psd_diag => k; rewrite mxE; exact: Rmax_r.
  move=> x Hx; have -> : x = u *m (u^T *m x *m u) *m u^T.
    by rewrite !mulmxA uu' mul1mx -mulmxA uu' mulmx1.
  rewrite !frob2_conj //; apply: near_diag.
  by rewrite -[X in _ *m X]trmxK; apply: psd_conj.
Qed.
