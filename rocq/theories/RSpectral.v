(** The spectral theorem for symmetric real matrices. *)
From Coq Require Import Reals Lra Psatz ClassicalEpsilon.
From mathcomp Require Import all_ssreflect all_algebra.
From Verif Require Import RMat RChol RTac PsdSpec SampleProofs.
Set Implicit Arguments.
Unset Strict Implicit.
Unset Printing Implicit Defensive.
Import GRing.Theory.
Local Open Scope ring_scope.
Delimit Scope R_scope with Re.

Lemma cs_aux (a b c : R) : (0 <= a)%Re -> (0 <= b)%Re -> (forall s : R, (0 <= s * s * a + 2 * s * c + b)%Re) -> (c * c <= a * b)%Re.
Proof.
  move=> Ha Hb H; case: (Req_EM_T a 0) => [E|N].
    case: (Req_EM_T c 0) => [->|Nc]; first nra.
    have := H (- (b + 1) / (2 * c))%Re; rewrite E.
    have -> : (- (b + 1) / (2 * c) * (- (b + 1) / (2 * c)) * 0 + 2 * (- (b + 1) / (2 * c)) * c + b = - 1)%Re by field.
    lra.
  have := H (- c / a)%Re.
  have -> : (- c / a * (- c / a) * a + 2 * (- c / a) * c + b = b - c * c / a)%Re by field.
  move=> H'; have Pa : (0 < a)%Re by lra.
  have : (c * c / a <= b)%Re by lra.
  by move/(Rmult_le_compat_l a _ _ Ha); rewrite (_ : a * (c * c / a) = c * c)%Re //; field.
Qed.

Lemma sumR_ge0 (I : finType) (F : I -> R) : (forall i, (0 <= F i)%Re) -> Rle 0 (\sum_i F i).
Proof.
  move=> H; apply: (big_ind (fun x => Rle 0 x)) => //; first exact: Rle_refl.
  by move=> x y Hx Hy; exact: Rplus_le_le_0_compat.
Qed.
Lemma sumR_le (I : finType) (F G : I -> R) : (forall i, (F i <= G i)%Re) -> Rle (\sum_i F i) (\sum_i G i).
Proof.
  move=> H; apply: (big_ind2 (fun x y => Rle x y)) => //; first exact: Rle_refl.
  by move=> x y x' y' Hx Hy; exact: Rplus_le_compat.
Qed.

Lemma dot_sq_expand n (x y : 'cV[R]_n) (s : R) :
  dot (s *: x + y) (s *: x + y) = (s * s * dot x x + 2 * s * dot x y + dot y y)%Re.
Proof.
  rewrite dotDr !dotDl !dotZr !dotZl (dotC y x).
  have E (a b c : R) : (s * (s * a) + s * b + (s * b + c) = s * s * a + 2 * s * b + c)%Re by ring.
  exact: E.
Qed.

Lemma cauchy_schwarz n (x y : 'cV[R]_n) : (dot x y * dot x y <= dot x x * dot y y)%Re.
Proof.
  apply: cs_aux; try exact: dot_ge0.
  by move=> s; rewrite -dot_sq_expand; exact: dot_ge0.
Qed.

Definition frob n k (M : 'M[R]_(n, k)) : R := \sum_i \sum_j (M i j * M i j)%Re.
Lemma frob_ge0 n k (M : 'M[R]_(n, k)) : (0 <= frob M)%Re.
Proof. apply: sumR_ge0 => i; apply: sumR_ge0 => j; exact: Rle_0_sqr. Qed.
Lemma frob_bound n k (M : 'M[R]_(n, k)) (x : 'cV[R]_k) : (dot (M *m x) (M *m x) <= frob M * dot x x)%Re.
Proof.
  rewrite /frob -[X in (_ <= X)%Re]/((\sum_i \sum_j (M i j * M i j)%Re) * dot x x) mulr_suml; apply: sumR_le => i.
  have := cauchy_schwarz (row i M)^T x.
  rewrite (_ : dot (row i M)^T x = (M *m x) i ord0); last by rewrite mxE; apply: eq_bigr => j _; rewrite !mxE.
  rewrite (_ : dot (row i M)^T (row i M)^T = \sum_j (M i j * M i j)%Re); first exact.
  by apply: eq_bigr => j _; rewrite !mxE.
Qed.

(** Positive definite matrices are bounded away from zero. *)
Lemma spd_margin n (A : 'M[R]_n) : spd A -> exists e, (0 < e)%Re /\ forall x, (e * dot x x <= dot x (A *m x))%Re.
Proof.
  move=> HA; have [L HL] := chol_exists HA; have [lL [pL EL]] := HL.
  have U : L^T \in unitmx by rewrite unitmx_tr lower_unit.
  set F := (frob (invmx L^T) + 1)%Re; have PF : (0 < F)%Re by have := frob_ge0 (invmx L^T); rewrite /F; lra.
  exists (/ F)%Re; split; first exact: Rinv_0_lt_compat.
  move=> x; rewrite -EL -mulmxA dot_mx; set y := L^T *m x.
  have Ex : x = invmx L^T *m y by rewrite /y mulKmx.
  have B := frob_bound (invmx L^T) y; rewrite -Ex in B.
  have Py := dot_ge0 y; have B' : (dot x x <= F * dot y y)%Re by rewrite /F; lra.
  apply: (Rmult_le_reg_l F) => //; rewrite -Rmult_assoc Rinv_r; last lra.
  by rewrite Rmult_1_l.
Qed.

Lemma psd_expand n (A : 'M[R]_n) (x y : 'cV[R]_n) (s : R) : symm A ->
  dot (s *: x + y) (A *m (s *: x + y)) = (s * (s * dot x (A *m x)) + (s * dot x (A *m y) + (s * dot x (A *m y) + dot y (A *m y))))%Re.
Proof.
  move=> S; rewrite mulmxDr -scalemxAr !dotDr !dotDl !dotZr !dotZl.
  have -> : dot y (A *m x) = dot x (A *m y) by rewrite dot_mx S dotC.
  have E (a b c : R) : (s * (s * a) + s * b + (s * b + c) = s * (s * a) + (s * b + (s * b + c)))%Re by ring.
  exact: E.
Qed.

(** A positive semi-definite form vanishes only on the kernel. *)
Lemma psd_kernel n (A : 'M[R]_n) x : psd A -> dot x (A *m x) = 0 -> A *m x = 0.
Proof.
  move=> [S P] H; apply: dot_eq0.
  have -> : dot (A *m x) (A *m x) = dot x (A *m (A *m x)) by rewrite dot_mxl S.
  apply: (@quad_zero (dot (A *m x) (A *m (A *m x)))) => s.
  by have := P (s *: x + A *m x); rewrite psd_expand // H.
Qed.

(** Symmetric matrices have eigenvectors. *)
Lemma not_spd n (A : 'M[R]_n) : psd A -> ~ spd A -> exists x : 'cV[R]_n, x <> 0 /\ A *m x = 0.
Proof.
  move=> HA N; apply: Classical_Prop.NNPP => H; apply: N; split; first by case: HA.
  move=> x Hx; have [P|E] := Rle_lt_or_eq_dec _ _ (proj2 HA x); first by [].
  by case: H; exists x; split=> //; exact: psd_kernel.
Qed.

Lemma shift_form n (A : 'M[R]_n) (l : R) x : dot x ((A - l%:M) *m x) = (dot x (A *m x) - l * dot x x)%Re.
Proof. by rewrite mulmxBl mul_scalar_mx dotDr dotNr dotZr. Qed.
Lemma shift_symm n (A : 'M[R]_n) (l : R) : symm A -> symm (A - l%:M).
Proof. by rewrite /symm linearB /= tr_scalar_mx => ->. Qed.

Lemma eigenvector n (A : 'M[R]_n.+1) : symm A -> exists l (x : 'cV[R]_n.+1), x <> 0 /\ A *m x = l *: x.
Proof.
  move=> S; pose Ok l := forall x : 'cV[R]_n.+1, (l * dot x x <= dot x (A *m x))%Re.
  have Bd : bound Ok.
    exists (dot (delta_mx ord0 ord0) (A *m delta_mx ord0 ord0)) => l /(_ (delta_mx ord0 ord0)).
    rewrite (_ : dot (delta_mx ord0 ord0) (delta_mx ord0 ord0) = 1%Re) ?Rmult_1_r //.
    rewrite /dot (bigD1 ord0) //= mxE !eqxx mulr1 big1 ?addr0 // => j Nj.
    by rewrite mxE (negbTE Nj) mulr0.
  have Ne : exists l, Ok l.
    exists (- (1 + frob A))%Re => x.
    have B := frob_bound A x; have F := frob_ge0 A; have X := dot_ge0 x; have Y := dot_ge0 (A *m x).
    have := dot_ge0 (1 *: x + A *m x); rewrite dot_sq_expand => H.
    have : (0 <= 1 * 1 * dot x x + 2 * 1 * dot x (A *m x) + dot (A *m x) (A *m x))%Re by exact: H.
    by nra.
  have [l [Up Lst]] := completeness Ok Bd Ne.
  have P : psd (A - l%:M).
    split; first exact: shift_symm.
    move=> x; rewrite shift_form; have [E|Px] := Req_EM_T (dot x x) 0.
      rewrite E (dot_eq0 E) mulmx0 dot0r; change (0 <= 0 - l * 0)%Re; lra.
    have X : (0 < dot x x)%Re by have := dot_ge0 x; lra.
    have : (l <= dot x (A *m x) / dot x x)%Re.
      apply: Lst => k /(_ x) Hk; apply: (Rmult_le_reg_r (dot x x)) => //.
      by rewrite /Rdiv Rmult_assoc Rinv_l // Rmult_1_r.
    move/(Rmult_le_compat_r (dot x x) _ _ (Rlt_le _ _ X)); rewrite /Rdiv Rmult_assoc Rinv_l // Rmult_1_r; lra.
  have N : ~ spd (A - l%:M).
    move=> /spd_margin [e [Pe He]].
    have : Ok (l + e)%Re by move=> x; have := He x; rewrite shift_form; lra.
    by move=> /Up; lra.
  have [x [Nx Ex]] := not_spd P N; exists l, x; split=> //.
  by apply/eqP; rewrite -subr_eq0 -mul_scalar_mx -mulmxBl Ex.
Qed.

(** * Diagonalisation *)

Notation e0 := (delta_mx ord0 ord0 : 'cV[R]_(_.+1)).

Lemma dot_e0 n (x : 'cV[R]_n.+1) : dot x e0 = x ord0 ord0.
Proof.
  rewrite /dot (bigD1 ord0) //= mxE !eqxx mulr1 big1 ?addr0 // => j Nj.
  by rewrite mxE (negbTE Nj) mulr0.
Qed.

Lemma outer_sq n (w : 'cV[R]_n) : (w *m w^T) *m (w *m w^T) = dot w w *: (w *m w^T).
Proof. by rewrite -mulmxA (mulmxA w^T) dotE mul_scalar_mx -scalemxAr. Qed.

Lemma hh_aux (c d : R) : (c * d = 2)%Re -> (c * c * d = c + c)%Re.
Proof. move=> H; rewrite Rmult_assoc H; ring. Qed.

Lemma householder n (x : 'cV[R]_n.+1) : dot x x = 1 -> exists H : 'M[R]_n.+1, symm H /\ H *m H = 1%:M /\ H *m e0 = x.
Proof.
  move=> Hx; case: (x =P e0) => [->|Ne].
    by exists 1%:M; rewrite /symm trmx1 !mul1mx.
  set w := x - e0; have Nw : w != 0 by rewrite subr_eq0; apply/eqP.
  have Pw := dot_gt0 Nw; set d := dot w w in Pw; set c := (2 / d)%Re.
  have Ecd : (c * d = 2)%Re by rewrite /c; field; lra.
  have Ed : d = (2 - 2 * x ord0 ord0)%Re.
    rewrite /d /w dotDr !dotDl !dotNr !dotNl !dot_e0 Hx (dotC e0) dot_e0 mxE !eqxx.
    have E (a : R) : (1 + - a + (- a + - - 1) = 2 - 2 * a)%Re by ring.
    exact: E.
  have Ew : (c * dot w e0 = - 1)%Re.
    have -> : dot w e0 = (- (d / 2))%Re.
      rewrite /w dotDl dotNl !dot_e0 mxE !eqxx Ed.
      have E (a : R) : (a + - 1 = - ((2 - 2 * a) / 2))%Re by field.
      exact: E.
    by rewrite /c; field; lra.
  exists (1%:M - c *: (w *m w^T)); split; [|split].
  - by rewrite /symm linearB linearZ /= trmx1 trmx_mul trmxK.
  - rewrite mulmxBl mul1mx mulmxBr mulmx1 -scalemxAl -scalemxAr outer_sq -/d !scalerA.
    have -> : c * c * d = c + c by exact: (hh_aux Ecd).
    by rewrite scalerDl opprB addrK subrK.
  - rewrite mulmxBl mul1mx -scalemxAl -mulmxA dotE mul_mx_scalar scalerA.
    have -> : c * dot w e0 = -1 by exact: Ew.
    by rewrite scaleN1r opprK /w addrC subrK.
Qed.

Lemma unit_vector n (x : 'cV[R]_n) : x <> 0 -> exists a : R, dot (a *: x) (a *: x) = 1.
Proof.
  move=> /eqP /dot_gt0 P; exists (/ sqrt (dot x x))%Re; rewrite dotZr dotZl.
  have S := sqrt_lt_R0 _ P.
  have E : (/ sqrt (dot x x) * (/ sqrt (dot x x) * dot x x) = 1)%Re.
    by rewrite -{3}(sqrt_sqrt (dot x x)); [field; lra|lra].
  exact: E.
Qed.

Definition orthogonal n (Q : 'M[R]_n) : Prop := Q^T *m Q = 1%:M.

Theorem spectral n (A : 'M[R]_n) : symm A ->
  exists (Q : 'M[R]_n) (d : 'rV[R]_n), orthogonal Q /\ A = Q *m diag_mx d *m Q^T.
Proof.
  elim: n A => [|n IH] A S.
    by exists 0, 0; split; apply/matrixP => - [].
  have [l [x0 [Nx0 Ex0]]] := eigenvector S; have [a Ha] := unit_vector Nx0.
  have [H [SH [HH He]]] := householder Ha; set x := a *: x0 in Ha He.
  have Ex : A *m x = l *: x by rewrite /x -scalemxAr Ex0 !scalerA mulrC.
  set M := H *m A *m H; have EA : A = H *m M *m H by rewrite /M -!mulmxA HH mulmx1 mulmxA HH mul1mx.
  have SM : M^T = M by rewrite /M !trmx_mul SH S mulmxA.
  have Me : M *m e0 = l *: e0.
    by rewrite /M -!mulmxA He Ex -scalemxAr -He mulmxA HH mul1mx.
  have Mc i : M i ord0 = if i == ord0 then l else 0.
    have := congr1 (fun z : 'cV[R]_n.+1 => z i ord0) Me.
    rewrite -colE !mxE eqxx andbT; case: (i == ord0) => ->; first by rewrite mulr1.
    by rewrite mulr0.
  clear Me; clearbody M; move: M EA SM Mc; rewrite -[n.+1]/(1 + n)%N => M EA SM Mc.
  have E0 : ord0 = lshift n (0 : 'I_1) by exact: val_inj.
  have EM : M = block_mx l%:M 0 0 (drsubmx M).
    rewrite -[LHS]submxK; congr block_mx.
    - by rewrite [ulsubmx M]mx11_scalar; congr (_ %:M); rewrite !mxE -E0 Mc eqxx.
    - by apply/matrixP=> i j; rewrite !mxE ord1 -[M]SM mxE -E0 Mc.
    - by apply/matrixP=> i j; rewrite !mxE ord1 -E0 Mc.
  have SB : symm (drsubmx M) by rewrite /symm trmx_drsub SM.
  have [P [d [OP EP]]] := IH _ SB.
  exists ((H : 'M[R]_(1 + n)) *m block_mx 1%:M 0 0 P : 'M[R]_(1 + n)), (row_mx l%:M d : 'rV[R]_(1 + n)); split.
    rewrite /orthogonal trmx_mul mulmxA -(mulmxA _ H^T) SH HH mulmx1 tr_block_mx !trmx0 trmx1 mulmx_block.
    by rewrite !mul0mx !mulmx0 !addr0 !add0r mulmx1 OP -scalar_mx_block.
  rewrite EA EM trmx_mul SH !mulmxA; congr (_ *m H); rewrite -!mulmxA; congr (H *m _).
  rewrite tr_block_mx !trmx0 trmx1 diag_mx_row mulmx_block !mul0mx !mulmx0 !addr0 !add0r mulmx_block.
  rewrite !mul0mx !mulmx0 !addr0 !add0r !mul1mx !mulmx1 mulmxA -EP.
  have -> : diag_mx (l%:M : 'rV[R]_1) = l%:M by apply/matrixP=> i j; rewrite !mxE !ord1 eqxx !mulr1n.
  by [].
Qed.

(** A singular value decomposition of every symmetric matrix exists. *)
Lemma svd_exists n (A : 'M[R]_n) : symm A -> exists d, is_svd A d.
Proof.
  move=> S; have [Q [d [OQ E]]] := spectral S.
  pose sg k : R := if Rle_dec 0 (d ord0 k) then 1%Re else (- 1)%Re.
  exists (Q *m diag_mx (\row_k sg k), \row_k Rabs (d ord0 k), Q); split; [|split; [|split]] => //.
  - rewrite trmx_mul tr_diag_mx -mulmxA [X in _ *m X]mulmxA OQ mul1mx mulmx_diag; apply/matrixP=> i j; rewrite !mxE.
    case: eqP => // ->; rewrite !mulr1n /sg; case: Rle_dec => ?; first exact: mulr1.
    have F : (- 1 * - 1 = 1)%Re by ring.
    exact: F.
  - by move=> k; rewrite mxE; exact: Rabs_pos.
  - rewrite E -!mulmxA; congr (Q *m _); rewrite mulmxA mulmx_diag; congr (_ *m _); congr diag_mx.
    apply/rowP=> k; rewrite !mxE /sg; case: Rle_dec => H.
      by rewrite Rabs_right ?mul1r //; lra.
    rewrite Rabs_left; last lra.
    have F (z : R) : z = (- 1 * - z)%Re by ring.
    exact: F.
Qed.
Definition some_svd n (A : 'M[R]_n) : 'M[R]_n * 'rV[R]_n * 'M[R]_n := epsilon (inhabits (0, 0, 0)) (is_svd A).
Lemma some_svd_ok n (A : 'M[R]_n) : symm A -> is_svd A (some_svd A).
Proof. by move=> H; apply: (epsilon_spec (inhabits (0, 0, 0)) (is_svd A)); exact: svd_exists. Qed.

