(** Gaussian integrals over R^n. *)
From Coq Require Import Reals Lra Psatz.
From mathcomp Require Import all_ssreflect all_algebra.
From Verif Require Import RMat RChol RTac NormalModel NormalSpec NormalProofs IntegralSpec.
From Verif Require Import GaussLine.
Set Implicit Arguments.
Unset Strict Implicit.
Unset Printing Implicit Defensive.
Import GRing.Theory.
Local Open Scope ring_scope.
Delimit Scope R_scope with Re.

(** * Rules *)

Lemma integral_ext n (f g : 'cV[R]_n -> R) v : (forall x, f x = g x) -> integral f v -> integral g v.
Proof.
  elim: n f g v => [|n IH] f g v H; first by rewrite /= H.
  move=> [h [Hh L]]; exists h; split=> // x; apply: IH (Hh x) => w; exact: H.
Qed.

Lemma integral_plus n (f g : 'cV[R]_n -> R) v w : integral f v -> integral g w ->
  integral (fun x => (f x + g x)%Re) (v + w)%Re.
Proof.
  elim: n f g v w => [|n IH] f g v w; first by move=> /= -> ->.
  move=> [h [Hh L]] [k [Hk M]]; exists (fun x => (h x + k x)%Re); split.
    by move=> x; apply: (IH _ _ _ _ (Hh x) (Hk x)).
  exact: line_plus.
Qed.

Lemma integral_scal n a (f : 'cV[R]_n -> R) v : integral f v -> integral (fun x => (a * f x)%Re) (a * v)%Re.
Proof.
  elim: n f v => [|n IH] f v; first by move=> /= ->.
  move=> [h [Hh L]]; exists (fun x => (a * h x)%Re); split.
    by move=> x; apply: (IH _ _ (Hh x)).
  exact: line_scal.
Qed.

Lemma integral_zero n : integral (fun _ : 'cV[R]_n => 0%Re) 0%Re.
Proof. elim: n => [|n IH] //; exists (fun _ => 0%Re); split=> //; exact: line_zero. Qed.

Lemma integral_unique n (f : 'cV[R]_n -> R) v w : integral f v -> integral f w -> v = w.
Proof.
  elim: n f v w => [|n IH] f v w; first by move=> /= -> ->.
  move=> [h [Hh L]] [k [Hk M]]; apply: line_unique M; apply: line_ext L => x.
  exact: IH (Hh x) (Hk x).
Qed.

Lemma integral_le n (f g : 'cV[R]_n -> R) v w : (forall x, Rle (f x) (g x)) -> integral f v -> integral g w -> Rle v w.
Proof.
  elim: n f g v w => [|n IH] f g v w H; first by move=> /= <- <-.
  move=> [h [Hh L]] [k [Hk M]]; apply: line_le L M => x; apply: IH (Hh x) (Hk x) => u; exact: H.
Qed.

Lemma integral_pos n (f : 'cV[R]_n -> R) v : (forall x, Rle 0 (f x)) -> integral f v -> Rle 0 v.
Proof. by move=> H I; apply: integral_le (integral_zero n) I. Qed.

(** * Change of variables *)

Lemma integral_triangular n (T : 'M[R]_n) (b : 'cV[R]_n) (f : 'cV[R]_n -> R) v :
  lower T -> posdiag T -> integral f v ->
  integral (fun x => (\det T * f (T *m x + b)%R)%Re) v.
Proof.
  elim: n T b f v => [|n IH] T b f v LT PT.
    by move=> /= <-; rewrite det_mx00 Rmult_1_l; congr f; apply/matrixP => - [].
  move: T b f LT PT; rewrite -[n.+1]/(1 + n)%N => T b f LT PT [g [Hg L]].
  set a := T (lshift n 0) (lshift n 0); set c := dlsubmx T; set T' := drsubmx T.
  have Pa : Rlt 0 a by exact: PT.
  have ET : T = block_mx a%:M 0 c T'.
    rewrite -[LHS]submxK; congr block_mx.
      by apply/matrixP => i j; rewrite !ord1 !mxE eqxx mulr1n.
    by apply/matrixP => i j; rewrite !mxE; apply: LT; rewrite ord1.
  have LT' : lower T' by move=> i j ij; rewrite !mxE; apply: LT; rewrite /= ltn_add2l.
  have PT' : posdiag T' by move=> i; rewrite !mxE; exact: PT.
  have DT : \det T = (a * \det T')%Re by rewrite ET det_lblock det_scalar1.
  set b0 := b (lshift n 0) 0; set b' := dsubmx b.
  have Eb : b = col_mx b0%:M b'.
    rewrite -[LHS]vsubmxK; congr col_mx.
    by apply/matrixP => i j; rewrite !ord1 !mxE eqxx mulr1n.
  exists (fun x => (a * g (a * x + b0))%Re); split; last exact: line_affine.
  move=> x; have H := IH T' (c *m x%:M + b') _ _ LT' PT' (Hg (a * x + b0)%Re).
  apply: integral_ext (integral_scal a H) => w /=.
  rewrite DT -Rmult_assoc; congr (_ * f _)%Re.
  rewrite [T in RHS]ET [b in RHS]Eb mul_block_col mul0mx addr0 add_col_mx -scalar_mxM -raddfD /=.
  by congr col_mx; rewrite addrA (addrC (T' *m w)).
Qed.

(** * The standard normal distribution *)

Definition stdn n (x : 'cV[R]_n) : R := \prod_i phi (x i 0).
Definition quad n (c : R) (a : 'cV[R]_n) (A : 'M[R]_n) (x : 'cV[R]_n) : R := (c + dot a x + dot x (A *m x)%R)%Re.

Lemma line_phi_quad (c a b : R) : line (fun x => phi x * (c + a * x + b * x ^ 2))%Re (c + b)%Re.
Proof.
  have H := line_plus _ _ _ _ (line_plus _ _ _ _ (line_scal c _ _ line_phi) (line_scal a _ _ line_phi1)) (line_scal b _ _ line_phi2).
  have E : (c * 1 + a * 0 + b * 1 = c + b)%Re by ring.
  rewrite E in H; apply: line_ext H => x; ring.
Qed.

Lemma stdn_col n (x : R) (w : 'cV[R]_n) : stdn (col_mx (x%:M : 'cV[R]_1) w : 'cV[R]_(1 + n)) = (phi x * stdn w)%Re.
Proof.
  rewrite /stdn big_split_ord /= big_ord1 col_mxEu mxE eqxx mulr1n; congr Rmult.
  by apply: eq_bigr => i _; rewrite col_mxEd.
Qed.

Lemma dot11 (x y : R) : dot (x%:M : 'cV[R]_1) (y%:M) = (x * y)%Re.
Proof. by rewrite /dot big_ord1 !mxE eqxx !mulr1n. Qed.

Lemma quad_col n (c : R) (a : 'cV[R]_(1 + n)) (A : 'M[R]_(1 + n)) (x : R) (w : 'cV[R]_n) :
  let a0 := a (lshift n 0) 0 in let A0 := A (lshift n 0) (lshift n 0) in
  quad c a A (col_mx x%:M w) =
  quad (c + a0 * x + A0 * x ^ 2)%Re (dsubmx a + x *: (dlsubmx A + (ursubmx A)^T)) (drsubmx A) w.
Proof.
  move=> a0 A0; rewrite /quad.
  have Ea : a = col_mx a0%:M (dsubmx a).
    rewrite -[LHS]vsubmxK; congr col_mx.
    by apply/matrixP => i j; rewrite !ord1 !mxE eqxx mulr1n.
  have EA : A = block_mx A0%:M (ursubmx A) (dlsubmx A) (drsubmx A).
    rewrite -[LHS]submxK; congr block_mx.
    by apply/matrixP => i j; rewrite !ord1 !mxE eqxx mulr1n.
  rewrite [in LHS]Ea [in LHS]EA mul_block_col !dot_col_mx !dotDr dot11 -scalar_mxM dot11.
  rewrite dotDl dotZl dotDl.
  have -> : dot (x%:M : 'cV[R]_1) (ursubmx A *m w) = (x * dot (ursubmx A)^T w)%Re.
    have -> : (x%:M : 'cV[R]_1) = x *: 1%:M by rewrite scale_scalar_mx mulr1.
    by rewrite dotZl dot_mx mulmx1.
  rewrite mul_mx_scalar dotZr (dotC w).
  rfield.
Qed.

Lemma integral_stdn n (c : R) (a : 'cV[R]_n) (A : 'M[R]_n) :
  integral (fun x => (stdn x * quad c a A x)%Re) (c + \tr A)%Re.
Proof.
  elim: n c a A => [|n IH] c a A.
    by rewrite /= /stdn /quad /dot /mxtrace !big_ord0; rring.
  move: a A; rewrite -[n.+1]/(1 + n)%N => a A.
  set a0 := a (lshift n 0) 0; set A0 := A (lshift n 0) (lshift n 0).
  exists (fun x => (phi x * ((c + \tr (drsubmx A)) + a0 * x + A0 * x ^ 2))%Re); split.
    move=> x; have H := integral_scal (phi x) (IH (c + a0 * x + A0 * x ^ 2)%Re (dsubmx a + x *: (dlsubmx A + (ursubmx A)^T)) (drsubmx A)).
    move: H; have -> : (c + a0 * x + A0 * x ^ 2 + \tr (drsubmx A) = c + \tr (drsubmx A) + a0 * x + A0 * x ^ 2)%Re by ring.
    by apply: integral_ext => w /=; rewrite stdn_col quad_col Rmult_assoc.
  have H := @line_phi_quad (c + \tr (drsubmx A)) a0 A0.
  move: H; have -> // : (c + \tr (drsubmx A) + A0 = c + \tr A)%Re.
  have -> : \tr A = (A0 + \tr (drsubmx A))%Re.
    by rewrite -[A in LHS]submxK mxtrace_block /mxtrace big_ord1 !mxE.
  by ring.
Qed.

(** * Normal distributions *)

Lemma exp_ln_sq (x : R) : Rlt 0 x -> exp (- (1 / 2) * ln (x * x)) = (/ x)%Re.
Proof.
  move=> H; rewrite ln_mult //.
  have -> : (- (1 / 2) * (ln x + ln x) = - ln x)%Re by field.
  by rewrite exp_Ropp exp_ln.
Qed.

Lemma stdn_exp n (x : 'cV[R]_n) : stdn x = exp (- (1 / 2) * (INR n * ln (2 * PI) + dot x x))%Re.
Proof.
  have P2 : Rlt 0 (2 * PI)%Re by have := PI_RGT_0; lra.
  have phiE y : phi y = exp (- (1 / 2) * (ln (2 * PI) + y * y))%Re.
    rewrite /phi Rmult_plus_distr_l exp_plus -{2}(sqrt_sqrt (2 * PI)); last lra.
    rewrite exp_ln_sq; last exact: sqrt_lt_R0.
    by congr (_ * exp (_ * _))%Re; ring.
  rewrite /stdn /dot.
  elim: n x => [|n IH] x.
    by rewrite !big_ord0 /= Rmult_0_l -[GRing.zero _]/R0 Rplus_0_l Rmult_0_r exp_0.
  rewrite !big_ord_recl phiE.
  have := IH (\col_i x (lift ord0 i) 0); rewrite (eq_bigr (fun i => phi (x (lift ord0 i) 0))); last by move=> i _; rewrite mxE.
  move=> ->; rewrite -[LHS]exp_plus; congr exp.
  rewrite (eq_bigr (fun i => x (lift ord0 i) 0 * x (lift ord0 i) 0)); last by move=> i _; rewrite !mxE.
  by rewrite S_INR; rring.
Qed.

Lemma gauss_density n (m : 'cV[R]_n) (S L : 'M[R]_n) x : is_chol S L ->
  exp (gaussian_logpdf m S x) = (\det (invmx L) * stdn (invmx L *m x + - (invmx L *m m))%R)%Re.
Proof.
  move=> HL; have [LL [PL EL]] := HL; have U := lower_unit LL PL; have UT : L^T \in unitmx by rewrite unitmx_tr.
  have D := lower_det_gt0 LL PL; have DS := spd_det_gt0 (is_chol_spd HL).
  have N0 : \det L <> R0 by move=> E; rewrite E in D; exact: Rlt_irrefl D.
  rewrite det_inv RinvE // -exp_ln_sq // stdn_exp -exp_plus /gaussian_logpdf; congr exp.
  have -> : \det S = (\det L * \det L)%Re by rewrite -EL det_mulmx det_tr.
  rewrite -mulmxBr.
  have -> : dot (invmx L *m (x - m)) (invmx L *m (x - m)) = dot (x - m) (invmx S *m (x - m)).
    rewrite dot_mxl -EL; congr dot; rewrite mulmxA; congr (_ *m _).
    by rewrite invmxM // trmx_inv.
  by rewrite -!Rmult_plus_distr_l; congr Rmult; rring.
Qed.

(** The integral of a normal density times a quadratic polynomial. *)
Theorem integral_gauss n (m : 'cV[R]_n) (S : 'M[R]_n) (c : R) (a : 'cV[R]_n) (A : 'M[R]_n) : spd S ->
  integral (fun x => (exp (gaussian_logpdf m S x) * (c + dot a x + dot x (A *m x)%R))%Re)
    (c + dot a m + dot m (A *m m)%R + \tr (A *m S)%R)%Re.
Proof.
  move=> HS; have [L HL] := chol_exists HS; have [LL [PL EL]] := HL; have U := lower_unit LL PL.
  pose c' := (c + dot a m + dot m (A *m m)%R)%Re.
  pose a' := L^T *m (a + (A + A^T) *m m); pose A' := L^T *m A *m L.
  have Q y : quad c' a' A' y = quad c a A (L *m y + m).
    rewrite /quad /c' /a' /A'.
    have -> : dot (L^T *m (a + (A + A^T) *m m)) y = (dot a (L *m y)%R + (dot m (A *m (L *m y))%R + dot (L *m y)%R (A *m m)))%Re.
      rewrite -dot_mx dotDl mulmxDl dotDl (dotC (A *m m)) -(dot_mx A m).
      by congr (_ + _)%Re; rewrite [LHS]addrC.
    have -> : dot y (L^T *m A *m L *m y) = dot (L *m y) (A *m (L *m y)).
      by rewrite -!mulmxA dot_mx trmxK.
    rewrite mulmxDr !dotDr !dotDl; rring.
  have T : \tr A' = \tr (A *m S) by rewrite /A' -EL -mulmxA mxtrace_mulC -mulmxA.
  have H := integral_triangular (- (invmx L *m m)) (lower_inv LL PL) (posdiag_inv LL PL) (integral_stdn c' a' A').
  rewrite T in H; apply: integral_ext H => x.
  rewrite (gauss_density m x HL) Q mulmxDr mulmxN mulKVmx // mulKVmx // subrK /quad.
  by rewrite -Rmult_assoc.
Qed.
