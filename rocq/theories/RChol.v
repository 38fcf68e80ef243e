(** Triangular matrices and the Cholesky decomposition over the reals. *)
From Coq Require Import Reals Lra Psatz ClassicalEpsilon FunctionalExtensionality.
From mathcomp Require Import all_ssreflect all_algebra.
From Verif Require Import RMat.
Set Implicit Arguments.
Unset Strict Implicit.
Unset Printing Implicit Defensive.
Import GRing.Theory.
Local Open Scope ring_scope.

(** * Lower triangular matrices *)

(** Zero above the diagonal. *)
Definition lower n (L : 'M[R]_n) : Prop := forall i j : 'I_n, (i < j)%N -> L i j = 0.
(** Positive diagonal. *)
Definition posdiag n (L : 'M[R]_n) : Prop := forall i : 'I_n, Rlt 0 (L i i).

Lemma lower_trig n (L : 'M[R]_n) : lower L -> is_trig_mx L.
Proof. by move=> H; apply/is_trig_mxP. Qed.

Lemma lower_det n (L : 'M[R]_n) : lower L -> \det L = \prod_i L i i.
Proof. by move/lower_trig/det_trig. Qed.

Lemma lower_det_gt0 n (L : 'M[R]_n) : lower L -> posdiag L -> Rlt 0 (\det L).
Proof. by move=> H P; rewrite lower_det //; apply: prodR_gt0. Qed.

Lemma Rneq0 (x : R) : Rlt 0 x -> x != 0.
Proof. by move=> H; apply/eqP => E; move: H; rewrite E; exact: Rlt_irrefl. Qed.

Lemma lower_unit n (L : 'M[R]_n) : lower L -> posdiag L -> L \in unitmx.
Proof. by move=> H P; rewrite unitmxE unitfE; apply: Rneq0; apply: lower_det_gt0. Qed.

Lemma lower_mul n (A B : 'M[R]_n) : lower A -> lower B -> lower (A *m B).
Proof.
  move=> HA HB i j Hij; rewrite mxE big1 // => k _.
  case: (ltnP i k) => [/HA ->|Hk]; first by rewrite mul0r.
  by rewrite (HB k j) ?mulr0 // (leq_ltn_trans Hk).
Qed.

Lemma lower_mul_diag n (A B : 'M[R]_n) i : lower A -> lower B -> (A *m B) i i = A i i * B i i.
Proof.
  move=> HA HB; rewrite mxE (bigD1 i) //= big1 ?addr0 // => k Hk.
  case: (ltngtP i k) => [/HA ->|Hki|E]; first by rewrite mul0r.
    by rewrite (HB k i) ?mulr0.
  by case/eqP: Hk; apply/val_inj.
Qed.

Lemma lower_inv n (L : 'M[R]_n) : lower L -> posdiag L -> lower (invmx L).
Proof.
  move=> H P; have U := lower_unit H P; set X := invmx L.
  have E : L *m X = 1%:M by rewrite mulmxV.
  suff: forall m (i j : 'I_n), (i < m)%N -> (i < j)%N -> X i j = 0.
    by move=> Q i j; apply: (Q i.+1).
  elim=> [|m IH] i j Him Hij //.
  have := congr1 (fun M : 'M_n => M i j) E; rewrite !mxE (bigD1 i) //= big1 ?addr0.
    case: (i =P j) => [Eij|_]; first by move: Hij; rewrite Eij ltnn.
    by move/eqP; rewrite mulf_eq0 (negbTE (Rneq0 (P i))) => /eqP.
  move=> k Hk; case: (ltngtP i k) => [/H ->|Hki|Ek]; first by rewrite mul0r.
    rewrite (IH k j) ?mulr0 //; first by rewrite (leq_trans Hki).
    exact: (ltn_trans Hki).
  by case/eqP: Hk; apply/val_inj.
Qed.

Lemma lower_inv_diag n (L : 'M[R]_n) i : lower L -> posdiag L -> invmx L i i = (L i i)^-1.
Proof.
  move=> H P; have U := lower_unit H P.
  have := congr1 (fun M : 'M_n => M i i) (mulmxV U).
  rewrite lower_mul_diag //; last exact: lower_inv.
  rewrite mxE eqxx mulr1n => E.
  by rewrite -[LHS]mul1r -{1}(mulVf (Rneq0 (P i))) -mulrA E mulr1.
Qed.

Lemma Rinvx_gt0 (x : R) : Rlt 0 x -> Rlt 0 (GRing.inv x).
Proof.
  move=> H; rewrite RinvE; first exact: Rinv_0_lt_compat.
  by move=> E; move: H; rewrite E; exact: Rlt_irrefl.
Qed.

Lemma posdiag_inv n (L : 'M[R]_n) : lower L -> posdiag L -> posdiag (invmx L).
Proof. by move=> H P i; rewrite lower_inv_diag //; apply: Rinvx_gt0. Qed.

Lemma posdiag_mul n (A B : 'M[R]_n) :
  lower A -> lower B -> posdiag A -> posdiag B -> posdiag (A *m B).
Proof.
  by move=> HA HB PA PB i; rewrite lower_mul_diag //; apply: Rmult_lt_0_compat.
Qed.

(** * Cholesky decomposition *)

(** [L] is the Cholesky factor of [A]. *)
Definition is_chol n (A L : 'M[R]_n) : Prop := lower L /\ posdiag L /\ L *m L^T = A.

(** A function that computes Cholesky factors of positive definite matrices of every size. *)
Definition chol_ok (chol : forall n, 'M[R]_n -> 'M[R]_n) : Prop :=
  forall n (A : 'M[R]_n), spd A -> is_chol A (chol n A).

Lemma is_chol_spd n (A L : 'M[R]_n) : is_chol A L -> spd A.
Proof.
  move=> [HL [PL <-]]; split; first by rewrite /symm trmx_mul trmxK.
  move=> x Hx; rewrite -mulmxA dot_mx; apply: dot_gt0; apply/eqP => E; apply: Hx.
  have U : L^T \in unitmx by rewrite unitmx_tr lower_unit.
  by rewrite -(mulKmx U x) E mulmx0.
Qed.

Lemma is_chol_det n (A L : 'M[R]_n) : is_chol A L -> \det A = (\prod_i L i i) * (\prod_i L i i).
Proof. by move=> [HL [PL <-]]; rewrite det_mulmx det_tr lower_det. Qed.

Lemma dot_col_mx m n (a c : 'cV[R]_m) (b d : 'cV[R]_n) :
  dot (col_mx a b) (col_mx c d) = dot a c + dot b d.
Proof.
  rewrite /dot big_split_ord /=; congr (_ + _); apply: eq_bigr => i _.
    by rewrite !col_mxEu.
  by rewrite !col_mxEd.
Qed.

Lemma Rsqrt_sq (x : R) : Rlt 0 x -> Rmult (sqrt x) (sqrt x) = x.
Proof. by move=> H; apply: sqrt_sqrt; apply: Rlt_le. Qed.

Lemma chol_exists n (A : 'M[R]_n) : spd A -> exists L, is_chol A L.
Proof.
  elim: n A => [|n IH] A HA.
    exists 0; split; [by case|split; [by case|by apply/matrixP => - []]].
  move: A HA; rewrite -[n.+1]/(1 + n)%N => A HA.
  set a := (ulsubmx A) 0 0.
  set v := dlsubmx A; set B := drsubmx A.
  have SA : A^T = A by case: HA.
  have Eur : ursubmx A = v^T by rewrite /v trmx_dlsub SA.
  have EA : A = block_mx a%:M v^T v B by rewrite /a -mx11_scalar -Eur submxK.
  have SB : B^T = B by rewrite /B trmx_drsub SA.
  have Q : forall (s : R) (y : 'cV_n),
      dot (col_mx s%:M y) (A *m col_mx s%:M y) =
      s * s * a + (s * dot v y + (s * dot v y + dot y (B *m y))).
    move=> s y; rewrite EA mul_block_col dot_col_mx !dotDr.
    rewrite -scalar_mxM.
    have -> : dot s%:M (a * s)%:M = s * s * a.
      by rewrite /dot big_ord1 !mxE eqxx !mulr1n (mulrC a) mulrA.
    have -> : dot s%:M (v^T *m y) = s * dot v y.
      by rewrite dotE /dot big_ord1 !mxE eqxx !mulr1n.
    have -> : dot y (v *m s%:M) = s * dot v y.
      by rewrite mul_mx_scalar dotZr dotC.
    by rewrite -addrA.
  have Pa : Rlt 0 a.
    have := proj2 HA (col_mx 1%:M 0).
    rewrite Q !dot0r mulmx0 dot0r !mulr0 !mul1r !addr0; apply.
    move/(congr1 (fun M : 'cV_(1 + n) => M (lshift n 0) 0)); rewrite col_mxEu !mxE eqxx mulr1n.
    exact: R1_neq_R0.
  have Sp : spd (B - a^-1 *: (v *m v^T)).
    split.
      by rewrite /symm linearB linearZ /= trmx_mul trmxK SB.
    move=> y Hy.
    have := proj2 HA (col_mx (- (a^-1 * dot v y))%:M y).
    rewrite Q.
    have -> : - (a^-1 * dot v y) * - (a^-1 * dot v y) * a + (- (a^-1 * dot v y) * dot v y +
       (- (a^-1 * dot v y) * dot v y + dot y (B *m y))) =
       dot y ((B - a^-1 *: (v *m v^T)) *m y).
      have -> : dot y ((B - a^-1 *: (v *m v^T)) *m y) = dot y (B *m y) - a^-1 * (dot v y * dot v y).
        rewrite mulmxBl dotDr dotNr -scalemxAl dotZr -mulmxA (dotE v) mul_mx_scalar dotZr.
        by rewrite (dotC y v).
      have Ea : a^-1 * a = 1 by rewrite mulVf // Rneq0.
      rewrite mulrNN -[_ * _ * a]mulrA [_ * a]mulrC [a * _]mulrA (mulrC a) Ea mul1r.
      by rewrite !mulNr !mulrA addrA addrN add0r addrC.
    apply; move/(congr1 dsubmx); rewrite col_mxKd => E; apply: Hy; rewrite E.
    by apply/matrixP => i j; rewrite !mxE.
  have [L [HL [PL EL]]] := IH _ Sp.
  have Nr : sqrt a != 0 by apply: Rneq0; apply: sqrt_lt_R0.
  have Es : (sqrt a) * (sqrt a) = a by apply: Rsqrt_sq.
  exists (block_mx (sqrt a)%:M 0 ((sqrt a)^-1 *: v) L).
  split; [|split].
  - apply/is_trig_mxP; rewrite is_trig_block_mx // eqxx mx11_is_trig /=.
    by apply/is_trig_mxP.
  - move=> i; rewrite -(splitK i); case: (split i) => k /=.
      rewrite block_mxEul ord1 mxE eqxx mulr1n; exact: sqrt_lt_R0.
    by rewrite block_mxEdr.
  - rewrite tr_block_mx mulmx_block trmx0 tr_scalar_mx !mul0mx !mulmx0 !addr0 linearZ /=.
    rewrite -scalar_mxM Es EL EA; congr block_mx.
    + by rewrite mul_scalar_mx scalerA mulfV // scale1r.
    + by rewrite mul_mx_scalar scalerA mulfV // scale1r.
    + by rewrite -scalemxAl -scalemxAr scalerA -invfM Es addrC subrK.
Qed.

(** A Cholesky function exists: hypotheses [chol_ok chol] can be met. *)
Definition some_chol n (A : 'M[R]_n) : 'M[R]_n := epsilon (inhabits 0) (is_chol A).
Lemma some_chol_ok : chol_ok some_chol.
Proof. by move=> n A H; apply: (epsilon_spec (inhabits 0) (is_chol A)); exact: chol_exists. Qed.

Lemma spd_det_gt0 n (A : 'M[R]_n) : spd A -> Rlt 0 (\det A).
Proof.
  move=> /chol_exists [L H]; rewrite (is_chol_det H).
  by have P : Rlt 0 (\prod_i L i i) by [apply: prodR_gt0; case: H => _ []]; apply: Rmult_lt_0_compat.
Qed.

Lemma Rsq_one (x : R) : Rmult x x = R1 -> Rlt 0 x -> x = R1.
Proof.
  move=> E P; have E3 : Rmult (Rminus x 1) (Rplus x 1) = R0 by nra.
  have [H1|H1] := Rmult_integral _ _ E3; lra.
Qed.

(** The Cholesky factor is unique. *)
Lemma chol_unique n (A L M : 'M[R]_n) : is_chol A L -> is_chol A M -> L = M.
Proof.
  move=> [HL [PL EL]] [HM [PM EM]].
  have UL := lower_unit HL PL; have UM := lower_unit HM PM.
  have UMt : M^T \in unitmx by rewrite unitmx_tr.
  have ULt : L^T \in unitmx by rewrite unitmx_tr.
  set X := invmx L *m M.
  have lX : lower X by apply: lower_mul => //; exact: lower_inv.
  have pX : posdiag X by apply: posdiag_mul => //; [exact: lower_inv|exact: posdiag_inv].
  have E1 : X *m X^T = 1%:M.
    rewrite /X trmx_mul mulmxA -(mulmxA (invmx L)) EM -EL mulKmx // trmx_inv.
    by rewrite mulmxV.
  have UX := lower_unit lX pX.
  have E2 : X^T = invmx X by rewrite -[LHS](mulKmx UX) E1 mulmx1.
  have D : X = 1%:M.
    have lXi := lower_inv lX pX.
    have H : forall i j, (i != j) -> X i j = 0.
      move=> i j; case: (ltngtP i j) => [/lX ->|Hji _|E] //.
        have := lXi j i Hji; rewrite -E2 mxE //.
      by case/eqP; apply/val_inj.
    apply/matrixP => i j; rewrite [RHS]mxE; case: (i =P j) => [<-|/eqP /H -> //].
    rewrite mulr1n.
    have := congr1 (fun M : 'M_n => M i i) E2.
    rewrite mxE lower_inv_diag // => E.
    have E' : X i i * X i i = 1 by rewrite {2}E mulfV // Rneq0.
    have := pX i; move: E'; move: (X i i) => x E' Px.
    exact: Rsq_one.
  by rewrite -[L]mulmx1 -D /X mulKVmx.
Qed.

Lemma psd_diag_ge0 n (A : 'M[R]_n) i : psd A -> Rle 0 (A i i).
Proof.
  move=> [_ P]; have := P (delta_mx i 0); rewrite /dot (bigD1 i) //= big1 ?addr0.
    by rewrite mxE !eqxx mul1r -colE mxE.
  by move=> k Hk; rewrite mxE (negbTE Hk) mul0r.
Qed.
