(** Proofs about the draw from the prior. *)
From Coq Require Import Reals Lra Psatz ClassicalEpsilon.
From mathcomp Require Import all_ssreflect all_algebra.
From Verif Require Import RMat RChol RTac.
Set Implicit Arguments.
Unset Strict Implicit.
Unset Printing Implicit Defensive.
Import GRing.Theory.
Local Open Scope ring_scope.
Delimit Scope R_scope with Re.

(** A function that factorises positive semi-definite matrices of every size. *)
Definition root_ok (root : forall n, 'M[R]_n -> 'M[R]_n) : Prop :=
  forall n (A : 'M[R]_n), psd A -> root n A *m (root n A)^T = A.

Lemma quad_zero (a b : R) : (forall s : R, (0 <= s * (s * 0) + (s * b + (s * b + a)))%Re) -> b = 0%Re.
Proof.
  move=> H; have P0 := H 0%Re; case: (Req_EM_T b 0) => // Nb.
  have := H (- (a + 1) / b)%Re.
  have -> : ((- (a + 1) / b) * (- (a + 1) / b * 0) + (- (a + 1) / b * b + (- (a + 1) / b * b + a)) = - a - 2)%Re by field.
  lra.
Qed.

Lemma root_exists n (A : 'M[R]_n) : psd A -> exists L : 'M[R]_n, L *m L^T = A.
Proof.
  elim: n A => [|n IH] A HA; first by exists 0; apply/matrixP => - [].
  move: A HA; rewrite -[n.+1]/(1 + n)%N => A HA.
  set a := (ulsubmx A) 0 0.
  set v := dlsubmx A; set B := drsubmx A.
  have SA : A^T = A by case: HA.
  have Eur : ursubmx A = v^T by rewrite /v trmx_dlsub SA.
  have EA : A = block_mx a%:M v^T v B by rewrite /a -mx11_scalar -Eur submxK.
  have SB : B^T = B by rewrite /B trmx_drsub SA.
  have Q : forall (s : R) (y : 'cV_n),
      dot (col_mx s%:M y) (A *m col_mx s%:M y) =
      s * s * a + (s * dot v y + (s * dot v y + dot y (B *m y))).
    move=> s y; rewrite EA mul_block_col dot_col_mx !dotDr.
    rewrite -scalar_mxM.
    have -> : dot s%:M (a * s)%:M = s * s * a.
      by rewrite /dot big_ord1 !mxE eqxx !mulr1n (mulrC a) mulrA.
    have -> : dot s%:M (v^T *m y) = s * dot v y.
      by rewrite dotE /dot big_ord1 !mxE eqxx !mulr1n.
    have -> : dot y (v *m s%:M) = s * dot v y.
      by rewrite mul_mx_scalar dotZr dotC.
    by rewrite -addrA.
  have Pq (s : R) (y : 'cV_n) : Rle 0 (s * s * a + (s * dot v y + (s * dot v y + dot y (B *m y))))%R.
    by rewrite -Q; case: HA.
  have Pa : (0 <= a)%Re.
    have := Pq 1 0; rewrite mulmx0 !dot0r !mulr0 !addr0 !mul1r; exact.
  case: (Req_EM_T a 0) => [E0|Na].
    (* the first row and column vanish *)
    have V0 : v = 0.
      apply/colP=> i; rewrite [RHS]mxE.
      have Dv : dot v (delta_mx i ord0) = v i ord0.
        rewrite /dot (bigD1 i) //= [delta_mx _ _ _ _]mxE !eqxx mulr1 big1 ?addr0 // => j Nj.
        by rewrite [delta_mx _ _ _ _]mxE (negbTE Nj) mulr0.
      rewrite -Dv; apply: (@quad_zero (dot (delta_mx i ord0) (B *m delta_mx i ord0))) => s.
      have := Pq s (delta_mx i ord0); rewrite E0 -mulrA; exact.
    have HB : psd B.
      split=> // y; have := Pq 0 y; rewrite !mul0r !add0r; exact.
    have [L EL] := IH B HB.
    exists (block_mx 0 0 0 L); rewrite tr_block_mx !trmx0 mulmx_block !mulmx0 !mul0mx !addr0 !add0r EL EA E0 V0 trmx0.
    by rewrite (_ : (0%Re)%:M = 0) //; exact: raddf0.
  have Pa' : (0 < a)%Re by case: Pa => // H; case: Na; rewrite -H.
  set r := sqrt a; have Er : (r * r)%Re = a by apply: Rsqrt_sq.
  have Nr : (r <> 0)%Re by move=> E; move: Er; rewrite E => E'; apply: Na; rewrite -E' Rmult_0_l.
  set C := B - (/ a)%Re *: (v *m v^T).
  have HC : psd C.
    split.
      by rewrite /symm /C linearB /= linearZ /= trmx_mul trmxK SB.
    move=> y; rewrite /C mulmxBl dotDr dotNr -scalemxAl dotZr -mulmxA.
    have -> : dot y (v *m (v^T *m y)) = dot v y * dot v y.
      by rewrite (dotE v) mul_mx_scalar dotZr (dotC y v).
    have := Pq (- (dot v y / a))%Re y; set d := dot v y; set b := dot y _.
    have F : (- (d / a) * - (d / a) * a + (- (d / a) * d + (- (d / a) * d + b)) = b + - (/ a * (d * d)))%Re by field.
    by move=> H; rewrite -[X in Rle _ X]/(b + - (/ a * (d * d)))%Re -F.
  have [L EL] := IH C HC.
  exists (block_mx r%:M 0 ((/ r)%Re *: v) L).
  rewrite tr_block_mx mulmx_block !trmx0 !mulmx0 !mul0mx !addr0 tr_scalar_mx linearZ /= EL -scalar_mxM EA.
  have -> : r * r = a by exact: Er.
  have R1' : (r * / r = 1)%Re by apply: Rinv_r.
  have -> : r%:M *m ((/ r)%Re *: v^T) = v^T.
    by rewrite mul_scalar_mx scalerA (_ : r * (/ r)%Re = 1) ?scale1r //; exact: R1'.
  have -> : (/ r)%Re *: v *m r%:M = v.
    by rewrite mul_mx_scalar scalerA (_ : r * (/ r)%Re = 1) ?scale1r //; exact: R1'.
  have -> : (/ r)%Re *: v *m ((/ r)%Re *: v^T) = (/ a)%Re *: (v *m v^T).
    rewrite -scalemxAl -scalemxAr scalerA; congr (_ *: _).
    have F : (/ r * / r = / a)%Re by rewrite -Er; field.
    exact: F.
  by rewrite /C addrC subrK.
Qed.

Definition some_root n (A : 'M[R]_n) : 'M[R]_n := epsilon (inhabits 0) (fun L : 'M[R]_n => L *m L^T = A).
Lemma some_root_ok : root_ok some_root.
Proof. by move=> n A H; apply: (epsilon_spec (inhabits 0) (fun L : 'M[R]_n => L *m L^T = A)); exact: root_exists. Qed.
