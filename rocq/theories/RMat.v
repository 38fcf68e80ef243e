(** The standard reals as a MathComp field, and facts on real matrices: positive definite
    matrices, triangular matrices and the Cholesky decomposition. *)
From Coq Require Import Reals Lra Psatz ClassicalEpsilon FunctionalExtensionality.
From mathcomp Require Import all_ssreflect all_algebra.
Set Implicit Arguments.
Unset Strict Implicit.
Unset Printing Implicit Defensive.
Import GRing.Theory.

(** * Instances *)

Definition eqr (x y : R) : bool := if Req_EM_T x y is left _ then true else false.
Lemma eqrP : Equality.axiom eqr.
Proof. by move=> x y; rewrite /eqr; case: Req_EM_T => H; constructor. Qed.
Canonical R_eqMixin := EqMixin eqrP.
Canonical R_eqType := Eval hnf in EqType R R_eqMixin.

Definition inhR : inhabited R := inhabits R0.
Definition pickR (P : pred R) (n : nat) : option R :=
  let x := epsilon inhR (fun x => P x) in if P x then Some x else None.
Fact pickR_some P n x : pickR P n = Some x -> P x.
Proof. by rewrite /pickR; case E: (P _) => // - [<-]. Qed.
Fact pickR_ex (P : pred R) : (exists x, P x) -> exists n, pickR P n.
Proof. by move=> H; exists 0%N; rewrite /pickR (epsilon_spec inhR (fun x => P x) H). Qed.
Fact pickR_ext (P Q : pred R) : P =1 Q -> pickR P =1 pickR Q.
Proof. by move=> E n; have -> : P = Q by apply: functional_extensionality. Qed.
Definition R_choiceMixin : choiceMixin R := Choice.Mixin pickR_some pickR_ex pickR_ext.
Canonical R_choiceType := Eval hnf in ChoiceType R R_choiceMixin.

Fact RplusA : associative Rplus. Proof. by move=> x y z; ring. Qed.
Definition R_zmodMixin := ZmodMixin RplusA Rplus_comm Rplus_0_l Rplus_opp_l.
Canonical R_zmodType := Eval hnf in ZmodType R R_zmodMixin.
Fact RmultA : associative Rmult. Proof. by move=> x y z; ring. Qed.
Fact R1_neq_0 : R1 != R0.
Proof. by apply/eqP; exact: R1_neq_R0. Qed.
Fact RmulDl : left_distributive Rmult Rplus. Proof. by move=> x y z; ring. Qed.
Definition R_ringMixin := RingMixin RmultA Rmult_1_l Rmult_1_r RmulDl Rmult_plus_distr_l R1_neq_0.
Canonical R_ringType := Eval hnf in RingType R R_ringMixin.
Canonical R_comRingType := Eval hnf in ComRingType R Rmult_comm.

(** The inverse in the sense of MathComp: zero stays zero. *)
Definition Rinvx (r : R) : R := if r == R0 then R0 else Rinv r.
Fact Rinvx_l (r : R) : r != R0 -> Rmult (Rinvx r) r = R1.
Proof. by move=> H; rewrite /Rinvx (negbTE H); apply: Rinv_l; apply/eqP. Qed.
Fact Rinvx_0 : Rinvx R0 = R0. Proof. by rewrite /Rinvx eqxx. Qed.
Definition R_unitRingMixin := FieldUnitMixin Rinvx_l Rinvx_0.
Canonical R_unitRingType := Eval hnf in UnitRingType R R_unitRingMixin.
Canonical R_comUnitRingType := Eval hnf in [comUnitRingType of R].
Fact R_field_mixin : GRing.Field.mixin_of R_unitRingType.
Proof. by []. Qed.
Definition R_fieldIdomainMixin := FieldIdomainMixin R_field_mixin.
Canonical R_idomainType := Eval hnf in IdomainType R R_fieldIdomainMixin.
Canonical R_fieldType := Eval hnf in FieldType R R_field_mixin.

Lemma RplusE (x y : R) : GRing.add x y = Rplus x y. Proof. by []. Qed.
Lemma RmultE (x y : R) : GRing.mul x y = Rmult x y. Proof. by []. Qed.
Lemma RoppE (x : R) : GRing.opp x = Ropp x. Proof. by []. Qed.
Lemma R0E : GRing.zero R_zmodType = R0. Proof. by []. Qed.
Lemma R1E : GRing.one R_ringType = R1. Proof. by []. Qed.
Lemma RinvE (x : R) : x <> R0 -> GRing.inv x = Rinv x.
Proof. by move=> H; rewrite /GRing.inv /= /Rinvx; case: eqP. Qed.
Ltac toR := rewrite ?(RplusE, RmultE, RoppE, R0E, R1E).

Local Open Scope ring_scope.

(** * Sums *)

Lemma sumR_ge0 (I : Type) (s : seq I) (P : pred I) (F : I -> R) :
  (forall i, P i -> Rle 0 (F i)) -> Rle 0 (\sum_(i <- s | P i) F i).
Proof.
  move=> H; elim/big_ind: _ => [|x y Hx Hy|i Pi]; [exact: Rle_refl|toR; lra|exact: H].
Qed.

Lemma sumR_le (I : Type) (s : seq I) (P : pred I) (F G : I -> R) :
  (forall i, P i -> Rle (F i) (G i)) ->
  Rle (\sum_(i <- s | P i) F i) (\sum_(i <- s | P i) G i).
Proof.
  move=> H; elim/big_ind2: _ => [|x1 x2 y1 y2 H1 H2|i Pi]; [exact: Rle_refl|toR; lra|exact: H].
Qed.

Lemma sumR_eq0 (I : finType) (F : I -> R) :
  (forall i, Rle 0 (F i)) -> \sum_i F i = 0 -> forall i, F i = 0.
Proof.
  move=> H E i; move: E; rewrite (bigD1 i) //= => E.
  have H1 : Rle 0 (\sum_(j | j != i) F j) by apply: sumR_ge0.
  have H2 := H i; apply: Rle_antisym => //; move: E; toR => E; apply: Rnot_lt_le => H3.
  have : Rlt 0 (Rplus (F i) (\sum_(j | j != i) F j)) by lra.
  by move: E => ->; exact: Rlt_irrefl.
Qed.

Lemma sumR_gt0 (I : finType) (F : I -> R) (i : I) :
  (forall i, Rle 0 (F i)) -> Rlt 0 (F i) -> Rlt 0 (\sum_i F i).
Proof.
  move=> H Hi; rewrite (bigD1 i) //=.
  have H1 : Rle 0 (\sum_(j | j != i) F j) by apply: sumR_ge0.
  exact: Rplus_lt_le_0_compat.
Qed.

Lemma prodR_gt0 (I : finType) (F : I -> R) :
  (forall i, Rlt 0 (F i)) -> Rlt 0 (\prod_i F i).
Proof.
  move=> H; elim/big_ind: _ => [|x y Hx Hy|i _]; [exact: Rlt_0_1|exact: Rmult_lt_0_compat|exact: H].
Qed.

Lemma ln_prodR (I : finType) (F : I -> R) :
  (forall i, Rlt 0 (F i)) -> ln (\prod_i F i) = \sum_i ln (F i).
Proof.
  move=> H.
  suff : Rlt 0 (\prod_i F i) /\ ln (\prod_i F i) = \sum_i ln (F i) by case.
  elim/big_ind2: _ => [|x1 x2 y1 y2 [A B] [C D]|i _].
  - by split; [exact: Rlt_0_1|exact: ln_1].
  - by split; [exact: Rmult_lt_0_compat|toR; rewrite ln_mult // B D].
  - by split.
Qed.

(** * The standard inner product *)

Section Dot.
Variable n : nat.
Implicit Types x y : 'cV[R]_n.

Definition dot x y : R := \sum_i x i 0 * y i 0.

Lemma dotE x y : x^T *m y = (dot x y)%:M.
Proof.
  apply/matrixP=> i j; rewrite !ord1 !mxE eqxx mulr1n /dot.
  by apply: eq_bigr => k _; rewrite !mxE.
Qed.

Lemma dot_ge0 x : Rle 0 (dot x x).
Proof. by apply: sumR_ge0 => i _; exact: Rle_0_sqr. Qed.

Lemma dot_eq0 x : dot x x = 0 -> x = 0.
Proof.
  move=> H; apply/colP => i; rewrite mxE.
  have := @sumR_eq0 _ (fun i => x i 0 * x i 0) (fun i => Rle_0_sqr (x i 0)) H i.
  by move/eqP; rewrite mulf_eq0 orbb => /eqP.
Qed.

Lemma dot_gt0 x : x != 0 -> Rlt 0 (dot x x).
Proof.
  move=> H; case: (dot_ge0 x) => // E; case/eqP: H; apply: dot_eq0; by rewrite -E.
Qed.

Lemma dotC x y : dot x y = dot y x.
Proof. by apply: eq_bigr => i _; rewrite mulrC. Qed.
Lemma dotDr x y z : dot x (y + z) = dot x y + dot x z.
Proof. by rewrite -big_split; apply: eq_bigr => i _; rewrite mxE mulrDr. Qed.
Lemma dotDl x y z : dot (x + y) z = dot x z + dot y z.
Proof. by rewrite dotC dotDr !(dotC z). Qed.
Lemma dotNr x y : dot x (- y) = - dot x y.
Proof. by rewrite /dot -sumrN; apply: eq_bigr => i _; rewrite mxE mulrN. Qed.
Lemma dotNl x y : dot (- x) y = - dot x y.
Proof. by rewrite dotC dotNr dotC. Qed.
Lemma dotZr a x y : dot x (a *: y) = a * dot x y.
Proof. by rewrite /dot mulr_sumr; apply: eq_bigr => i _; rewrite mxE mulrCA. Qed.
Lemma dotZl a x y : dot (a *: x) y = a * dot x y.
Proof. by rewrite dotC dotZr dotC. Qed.
Lemma dot0r x : dot x 0 = 0.
Proof. by rewrite /dot big1 // => i _; rewrite mxE mulr0. Qed.
Lemma dot0l x : dot 0 x = 0.
Proof. by rewrite dotC dot0r. Qed.
End Dot.

Lemma dot_mx n m (A : 'M[R]_(n, m)) (x : 'cV_n) (y : 'cV_m) : dot x (A *m y) = dot (A^T *m x) y.
Proof.
  rewrite /dot (eq_bigr (fun i => \sum_j x i 0 * A i j * y j 0)); last first.
    by move=> i _; rewrite mxE mulr_sumr; apply: eq_bigr => j _; rewrite mulrA.
  rewrite exchange_big; apply: eq_bigr => j _ /=; rewrite mxE mulr_suml.
  by apply: eq_bigr => i _; rewrite mxE (mulrC (x i 0)).
Qed.
Lemma dot_mxl n m (A : 'M[R]_(n, m)) (x : 'cV_n) (y : 'cV_m) : dot (A *m y) x = dot y (A^T *m x).
Proof. by rewrite dotC dot_mx dotC. Qed.

(** * Positive (semi-)definite matrices *)

Definition symm n (A : 'M[R]_n) : Prop := A^T = A.
Definition psd n (A : 'M[R]_n) : Prop := symm A /\ forall x : 'cV_n, Rle 0 (dot x (A *m x)).
Definition spd n (A : 'M[R]_n) : Prop :=
  symm A /\ forall x : 'cV_n, x <> 0 -> Rlt 0 (dot x (A *m x)).

Lemma spd_psd n (A : 'M[R]_n) : spd A -> psd A.
Proof.
  move=> [S P]; split=> // x; case: (x =P 0) => [->|/P H]; last by apply: Rlt_le.
  rewrite mulmx0 dot0r; exact: Rle_refl.
Qed.

Lemma spd_add n (A B : 'M[R]_n) : spd A -> psd B -> spd (A + B).
Proof.
  move=> [SA PA] [SB PB]; split; first by rewrite /symm linearD /= SA SB.
  move=> x Hx; rewrite mulmxDl dotDr; have := PA x Hx; have := PB x; toR => ? ?; lra.
Qed.
Lemma psd_add n (A B : 'M[R]_n) : psd A -> psd B -> psd (A + B).
Proof.
  move=> [SA PA] [SB PB]; split; first by rewrite /symm linearD /= SA SB.
  move=> x; rewrite mulmxDl dotDr; have := PA x; have := PB x; toR => ? ?; lra.
Qed.
Lemma psd_scale n a (A : 'M[R]_n) : Rle 0 a -> psd A -> psd (a *: A).
Proof.
  move=> Ha [SA PA]; split; first by rewrite /symm linearZ /= SA.
  move=> x; rewrite -scalemxAl dotZr; apply: Rmult_le_pos => //; exact: PA.
Qed.
Lemma spd_scale n a (A : 'M[R]_n) : Rlt 0 a -> spd A -> spd (a *: A).
Proof.
  move=> Ha [SA PA]; split; first by rewrite /symm linearZ /= SA.
  move=> x Hx; rewrite -scalemxAl dotZr; apply: Rmult_lt_0_compat => //; exact: PA.
Qed.
Lemma psd0 n : psd (0 : 'M[R]_n).
Proof. split; [by rewrite /symm trmx0|move=> x; rewrite mul0mx dot0r; exact: Rle_refl]. Qed.
Lemma psd_sum n (I : finType) (A : I -> 'M[R]_n) : (forall i, psd (A i)) -> psd (\sum_i A i).
Proof. by move=> H; elim/big_ind: _ => [|x y|i _]; [exact: psd0|exact: psd_add|]. Qed.
Lemma psd_conj n m (A : 'M[R]_n) (B : 'M[R]_(m, n)) : psd A -> psd (B *m A *m B^T).
Proof.
  move=> [SA PA]; split.
    by rewrite /symm !trmx_mul trmxK SA mulmxA.
  by move=> x; rewrite -mulmxA -mulmxA dot_mx; apply: PA.
Qed.
Lemma psd_outer n m (B : 'M[R]_(n, m)) : psd (B *m B^T).
Proof.
  split; first by rewrite /symm trmx_mul trmxK.
  by move=> x; rewrite -mulmxA dot_mx; exact: dot_ge0.
Qed.
Lemma spd1 n : spd (1%:M : 'M[R]_n).
Proof.
  split; first by rewrite /symm trmx1.
  by move=> x /eqP Hx; rewrite mul1mx; exact: dot_gt0.
Qed.

Lemma inj_unitmx n (A : 'M[R]_n) : (forall x : 'cV_n, A *m x = 0 -> x = 0) -> A \in unitmx.
Proof.
  move=> H; rewrite -unitmx_tr -row_free_unit -kermx_eq0; apply/eqP/row_matrixP => i.
  rewrite row0; have K := mulmx_ker A^T.
  have : row i (kermx A^T) *m A^T = 0 by rewrite -row_mul K row0.
  move/(congr1 trmx); rewrite trmx_mul trmxK trmx0 => /H /(congr1 trmx).
  by rewrite trmxK trmx0.
Qed.

Lemma spd_unit n (A : 'M[R]_n) : spd A -> A \in unitmx.
Proof.
  move=> [S P]; apply: inj_unitmx => x E; case: (x =P 0) => // /P.
  rewrite E dot0r => H; case: (Rlt_irrefl _ H).
Qed.

Lemma spd_inv n (A : 'M[R]_n) : spd A -> spd (invmx A).
Proof.
  move=> H; have U := spd_unit H; case: H => S P; split; first by rewrite /symm trmx_inv S.
  move=> x Hx; have {1}-> : x = A *m (invmx A *m x) by rewrite mulKVmx.
  rewrite dot_mxl S; apply: P => E; apply: Hx.
  by rewrite -(mulKVmx U x) E mulmx0.
Qed.

Lemma spd_conj n (A B : 'M[R]_n) : spd A -> B \in unitmx -> spd (B *m A *m B^T).
Proof.
  move=> [SA PA] U; split.
    by rewrite /symm !trmx_mul trmxK SA mulmxA.
  move=> x Hx; rewrite -mulmxA -mulmxA dot_mx; apply: PA => E; apply: Hx.
  have U' : B^T \in unitmx by rewrite unitmx_tr.
  by rewrite -(mulKmx U' x) E mulmx0.
Qed.
