(** Tame functions built from matrices: quadratic forms, inverses and log-determinants. *)
From Coq Require Import Reals Lra Psatz ClassicalEpsilon.
From mathcomp Require Import all_ssreflect all_algebra.
From Verif Require Import RMat RChol RTac NormalModel NormalSpec NormalProofs ApproxProofs IntegralSpec GaussN Tame.
From Verif Require Import GaussLine.
Set Implicit Arguments.
Unset Strict Implicit.
Unset Printing Implicit Defensive.
Import GRing.Theory.
Local Open Scope ring_scope.
Delimit Scope R_scope with Re.

(** * Bounds *)

Lemma dot_young n (s : R) (x y : 'cV[R]_n) : Rlt 0 s -> Rle (dot x y) (s / 2 * dot x x + dot y y / (2 * s))%Re.
Proof.
  move=> Hs; have H := dot_ge0 (s *: x - y).
  rewrite !dotDl !dotDr !dotNl !dotNr !dotZl !dotZr (dotC y x) in H.
  have {}H : Rle 0 ((s * (s * dot x x) - 2 * (s * dot x y) + dot y y) * / (2 * s))%Re.
    apply: Rmult_le_pos; last by left; apply: Rinv_0_lt_compat; lra.
    move: H; rnorm; move: (dot x x) (dot x y) (dot y y) => a c e; lra.
  move: H; have -> : ((s * (s * dot x x) - 2 * (s * dot x y) + dot y y) * / (2 * s) =
     s / 2 * dot x x + dot y y / (2 * s) - dot x y)%Re by field; lra.
  lra.
Qed.

Lemma mx_bound m n (M : 'M[R]_(m, n)) : exists K, Rle 0 K /\ forall y : 'cV[R]_n, Rle (dot (M *m y) (M *m y)) (K * dot y y)%Re.
Proof.
  pose r i : R := \sum_j Rabs (M i j).
  have r0 i : Rle 0 (r i) by apply: sumR_ge0 => j _; exact: Rabs_pos.
  exists (\sum_i r i * r i); split.
    by apply: sumR_ge0 => i _; exact: Rle_0_sqr.
  move=> y.
  have -> : ((\sum_i r i * r i)%R * dot y y)%Re = \sum_i (r i * r i) * dot y y by rewrite -mulr_suml.
  apply: sumR_le => i _.
  have B : Rle (Rabs ((M *m y) i 0)) (r i * norm y)%Re.
    have -> : (r i * norm y)%Re = \sum_j Rabs (M i j) * norm y by exact: mulr_suml.
    rewrite mxE.
    have T : Rle (Rabs (\sum_j M i j * y j 0)) (\sum_j Rabs (M i j * y j 0)).
      elim: (index_enum _) => [|j s IH]; first by rewrite !big_nil; right; exact: Rabs_R0.
      rewrite !big_cons; apply: Rle_trans (Rabs_triang _ _) _; exact: Rplus_le_compat_l.
    apply: Rle_trans T _; apply: sumR_le => j _.
    rewrite Rabs_mult; apply: Rmult_le_compat_l; [exact: Rabs_pos|exact: coord_le].
  rewrite -norm_sq -[GRing.mul _ _]/(Rmult _ _) -[X in Rle _ X]/(Rmult (Rmult (r i) (r i)) (Rmult (norm y) (norm y))).
  have -> : (r i * r i * (norm y * norm y) = (r i * norm y) * (r i * norm y))%Re by ring.
  rewrite -[X in Rle X _]/(Rsqr _) -[X in Rle _ X]/(Rsqr _); apply: Rsqr_le_abs_1.
  rewrite (Rabs_pos_eq (r i * norm y)) //; apply: Rmult_le_pos => //; exact: norm_ge0.
Qed.

Lemma spd_below n (P : 'M[R]_n) : spd P -> exists b, Rlt 0 b /\ forall x, Rle (b * dot x x)%Re (dot x (P *m x)).
Proof.
  move=> HP; have [L HL] := chol_exists HP; have [LL [PL EL]] := HL.
  have UT : L^T \in unitmx by rewrite unitmx_tr (lower_unit LL PL).
  have [K [HK B]] := mx_bound (invmx L^T).
  exists (/ (K + 1))%Re; split; first by apply: Rinv_0_lt_compat; lra.
  move=> x; have := B (L^T *m x); rewrite mulKmx // => {}B.
  have -> : dot x (P *m x) = dot (L^T *m x) (L^T *m x) by rewrite -EL -mulmxA dot_mx.
  have := dot_ge0 (L^T *m x) => d0.
  apply: (Rmult_le_reg_l (K + 1)%Re); first lra.
  rewrite -Rmult_assoc Rinv_r; last lra. rewrite Rmult_1_l; lra.
Qed.

(** * Tame families *)

Lemma tame_uniform n (I : finType) (P : I -> 'cV[R]_n -> R) : (forall i, tame (P i)) ->
  exists C k, Rle 0 C /\ Rle 0 k /\
    (forall x, Rle (\sum_i Rabs (P i x)) (C * exp (k * norm x))%Re) /\
    (forall x d, Rle (norm d) 1 -> Rle (\sum_i Rabs (P i (x + d)%R - P i x)%Re) (C * exp (k * norm x) * norm d)%Re).
Proof.
  move=> H; elim: (index_enum I) => [|i s [C2 [k2 [HC2 [Hk2 [B2 L2]]]]]].
    exists 0%Re, 0%Re; split; [exact: Rle_refl|split; [exact: Rle_refl|split]].
      by move=> x; rewrite big_nil Rmult_0_l; exact: Rle_refl.
    by move=> x d _; rewrite big_nil !Rmult_0_l; exact: Rle_refl.
  have [C1 [k1 [HC1 [Hk1 [B1 L1]]]]] := H i.
  exists (C1 + C2)%Re, (k1 + k2)%Re; split; [lra|split; [lra|split]].
    move=> x; have [G1 G2] := growth_add Hk1 Hk2 (norm_ge0 x).
    rewrite big_cons (Rmult_plus_distr_r C1); apply: Rplus_le_compat.
      by apply: Rle_trans (B1 x) _; exact: Rmult_le_compat_l.
    by apply: Rle_trans (B2 x) _; exact: Rmult_le_compat_l.
  move=> x d Hd; have [G1 G2] := growth_add Hk1 Hk2 (norm_ge0 x).
  rewrite big_cons (Rmult_plus_distr_r C1) Rmult_plus_distr_r; apply: Rplus_le_compat.
    by apply: Rle_trans (L1 x d Hd) _; apply: Rmult_le_compat_r; [exact: norm_ge0|exact: Rmult_le_compat_l].
  by apply: Rle_trans (L2 x d Hd) _; apply: Rmult_le_compat_r; [exact: norm_ge0|exact: Rmult_le_compat_l].
Qed.

(** A function whose values and increments are bounded by those of a tame family. *)
Lemma tame_by n (I : finType) (P : I -> 'cV[R]_n -> R) (f : 'cV[R]_n -> R) (K : R) : (forall i, tame (P i)) -> Rle 0 K ->
  (forall x, Rle (Rabs (f x)) (K * (1 + \sum_i Rabs (P i x)))%Re) ->
  (forall x y, Rle (Rabs (f y - f x)%Re) (K * \sum_i Rabs (P i y - P i x)%Re)%Re) -> tame f.
Proof.
  move=> H HK B L; have [C [k [HC [Hk [B' L']]]]] := tame_uniform H.
  exists (K * (1 + C))%Re, k; split; [by apply: Rmult_le_pos; lra|split=> //; split].
    move=> x; apply: Rle_trans (B x) _; rewrite Rmult_assoc; apply: Rmult_le_compat_l => //.
    have := B' x; have := exp_ge1 Hk (norm_ge0 x); move: (\sum_i _) => S; nra.
  move=> x d Hd; apply: Rle_trans (L x (x + d)) _.
  rewrite !Rmult_assoc; apply: Rmult_le_compat_l => //; apply: Rle_trans (L' x d Hd) _.
  rewrite Rmult_assoc; apply: Rmult_le_compat_r; last lra.
  apply: Rmult_le_pos; [left; exact: exp_pos|exact: norm_ge0].
Qed.

Lemma tame_opp n (P : 'cV[R]_n -> R) : tame P -> tame (fun x => (- P x)%Re).
Proof. by move=> H; apply: tame_ext (tame_scal (-1)%Re H) => x; ring. Qed.
Lemma tame_sub n (P Q : 'cV[R]_n -> R) : tame P -> tame Q -> tame (fun x => (P x - Q x)%Re).
Proof. by move=> H K; exact: tame_add H (tame_opp K). Qed.

Lemma tame_dot n k (f g : 'cV[R]_n -> 'cV[R]_k) : (forall i, tame (fun x => f x i 0)) -> (forall i, tame (fun x => g x i 0)) ->
  tame (fun x => dot (f x) (g x)).
Proof. by move=> Hf Hg; apply: (tame_sum (P := fun i x => (f x i ord0 * g x i ord0)%Re)) => i; exact: tame_mul. Qed.

Lemma tame_mulmx n k l r (f : 'cV[R]_n -> 'M[R]_(k, l)) (g : 'cV[R]_n -> 'M[R]_(l, r)) :
  (forall i j, tame (fun x => f x i j)) -> (forall i j, tame (fun x => g x i j)) ->
  forall i j, tame (fun x => (f x *m g x) i j).
Proof.
  move=> Hf Hg i j; apply: (tame_ext (P := fun x => \sum_h (f x i h * g x h j)%Re)).
    by move=> x; rewrite mxE.
  by apply: tame_sum => h; exact: tame_mul.
Qed.

(** * Inverses and log-determinants of matrices bounded from below *)

Lemma dot_delta k (x : 'cV[R]_k) j : dot x (delta_mx j 0) = x j 0.
Proof.
  rewrite /dot (bigD1 j) //= mxE !eqxx mulr1 big1 ?addr0 // => h Hh.
  by rewrite mxE (negbTE Hh) mulr0.
Qed.

Lemma aux3 (x1 x2 x3 c : R) : Rle x1 c -> Rle x3 c -> Rle 0 x2 -> Rle 0 x3 -> Rle 0 x1 -> Rle (x1 * (x2 * x3))%Re (c * c * x2)%Re.
Proof.
  move=> b1 b3 p2 p3 p1; have -> : (c * c * x2 = c * (x2 * c))%Re by ring.
  apply: Rmult_le_compat => //; first exact: Rmult_le_pos.
  by apply: Rmult_le_compat_l.
Qed.

Section Below.
Variables (n k : nat) (P : 'cV[R]_n -> 'M[R]_k) (b : R).
Hypotheses (HP : forall u, spd (P u)) (Hb : Rlt 0 b) (PB : forall u x, Rle (b * dot x x)%Re (dot x (P u *m x))).
Hypothesis TP : forall i j, tame (fun u => P u i j).

Lemma inv_entry u i j : Rle (Rabs (invmx (P u) i j)) (/ b)%Re.
Proof.
  pose e : 'cV[R]_k := delta_mx j 0; pose x := invmx (P u) *m e.
  have Ex : x i 0 = invmx (P u) i j by rewrite /x /e -colE mxE.
  rewrite -Ex; apply: Rle_trans (coord_le x i) _.
  have Q := PB u x; rewrite {3}/x mulKVmx ?spd_unit // in Q.
  have De : dot x e = x j 0.
    exact: dot_delta.
  rewrite De -norm_sq in Q.
  have C := Rle_trans _ _ _ Q (Rle_trans _ _ _ (Rle_abs _) (coord_le x j)).
  have N := norm_ge0 x.
  case: (Rle_lt_dec (norm x) 0) => [Z|Z].
    by apply: Rle_trans Z _; left; exact: Rinv_0_lt_compat.
  apply: (Rmult_le_reg_l (b * norm x)%Re); first exact: Rmult_lt_0_compat.
  have -> : (b * norm x * / b = norm x)%Re by field; lra.
  by rewrite Rmult_assoc.
Qed.

Definition pairs := prod_finType (ordinal_finType k) (ordinal_finType k).
Definition gap u v : R := \sum_(p : pairs) Rabs (P v p.1 p.2 - P u p.1 p.2)%Re.

Lemma Rabs_sum (I : finType) (F : I -> R) : Rle (Rabs (\sum_i F i)) (\sum_i Rabs (F i)).
Proof.
  elim: (index_enum _) => [|j s IH]; first by rewrite !big_nil; right; exact: Rabs_R0.
  rewrite !big_cons; apply: Rle_trans (Rabs_triang _ _) _; exact: Rplus_le_compat_l.
Qed.

Lemma inv_gap u v i j : Rle (Rabs (invmx (P v) i j - invmx (P u) i j)%Re) ((/ b * / b) * gap u v)%Re.
Proof.
  have E : invmx (P v) - invmx (P u) = invmx (P v) *m ((P u - P v) *m invmx (P u)).
    by rewrite mulmxBl mulmxBr mulmxV ?spd_unit // mulmx1 mulKmx ?spd_unit.
  have -> : (invmx (P v) i j - invmx (P u) i j)%Re = \sum_(p : pairs) invmx (P v) i p.1 * ((P u p.1 p.2 - P v p.1 p.2)%Re * invmx (P u) p.2 j).
    have -> : (invmx (P v) i j - invmx (P u) i j)%Re = (invmx (P v) - invmx (P u)) i j by rewrite !mxE.
    rewrite E mxE -(pair_bigA _ (fun p1 p2 => invmx (P v) i p1 * ((P u p1 p2 - P v p1 p2)%Re * invmx (P u) p2 j))) /=.
    apply: eq_bigr => h _; rewrite -mulr_sumr; congr (_ * _); rewrite mxE; apply: eq_bigr => l _.
    by rewrite !mxE.
  apply: Rle_trans (Rabs_sum _) _; rewrite /gap.
  have -> : (/ b * / b * (\sum_(p : pairs) Rabs (P v p.1 p.2 - P u p.1 p.2)%Re)%R)%Re =
     \sum_(p : pairs) (/ b * / b)%Re * Rabs (P v p.1 p.2 - P u p.1 p.2)%Re by exact: mulr_sumr.
  apply: sumR_le => p _; rewrite !Rabs_mult (Rabs_minus_sym (P v p.1 p.2)).
  have b1 := inv_entry v i p.1; have b2 := inv_entry u p.2 j.
  have := Rabs_pos (invmx (P v) i p.1); have := Rabs_pos (invmx (P u) p.2 j); have := Rabs_pos (P u p.1 p.2 - P v p.1 p.2)%Re.
  exact: aux3.
Qed.

Lemma tame_pairs (p : pairs) : tame (fun u => P u p.1 p.2).
Proof. exact: TP. Qed.

Lemma tame_inv i j : tame (fun u => invmx (P u) i j).
Proof.
  have ib := Rinv_0_lt_compat _ Hb.
  apply: (tame_by (I := pairs) (P := fun p u => P u p.1 p.2) (K := (/ b + / b * / b)%Re)).
  - exact: tame_pairs.
  - nra.
  - move=> u; apply: Rle_trans (inv_entry u i j) _.
    have : Rle 0 (\sum_(p : pairs) Rabs (P u p.1 p.2)) by apply: sumR_ge0 => p _; exact: Rabs_pos.
    move: (\sum_p _) => S HS; nra.
  - move=> u v; apply: Rle_trans (inv_gap u v i j) _; apply: Rmult_le_compat_r; last lra.
    by apply: sumR_ge0 => p _; exact: Rabs_pos.
Qed.

Lemma logdet_tangent (A B : 'M[R]_k) : spd A -> spd B -> Rle (ln (\det B) - ln (\det A))%Re (\tr (invmx A *m (B - A))).
Proof.
  move=> HA HB; have := kl_ge0 some_chol_ok (p := NatNormal 0 A) (q := NatNormal 0 B) HA HB.
  rewrite klE //=; last exact: some_chol_ok.
  rewrite /gaussian_kl det_inv_ln // double_inv !mulmx0 subrr dot0l mulmxBr mulVmx ?spd_unit // mxtrace_mulC raddfB /= mxtrace1 -INRE.
  rewrite -!/(Rminus _ _) -[GRing.zero _]/R0.
  have -> : \tr (invmx A *m B) - INR k = (\tr (invmx A *m B) - INR k)%Re by [].
  move: (\tr _) (ln _) (ln _) (INR k) => a c d e; lra.
Qed.

Lemma trace_gap u (A B : 'M[R]_k) : Rle (\tr (invmx (P u) *m (B - A))) (/ b * \sum_(p : pairs) Rabs (B p.1 p.2 - A p.1 p.2)%Re)%Re.
Proof.
  have -> : \tr (invmx (P u) *m (B - A)) = \sum_(p : pairs) invmx (P u) p.2 p.1 * (B p.1 p.2 - A p.1 p.2)%Re.
    rewrite mxtrace_mulC /mxtrace -(pair_bigA _ (fun p1 p2 => invmx (P u) p2 p1 * (B p1 p2 - A p1 p2)%Re)) /=.
    by apply: eq_bigr => i _; rewrite mxE; apply: eq_bigr => j _; rewrite !mxE mulrC.
  have -> : (/ b * (\sum_(p : pairs) Rabs (B p.1 p.2 - A p.1 p.2)%Re)%R)%Re =
     \sum_(p : pairs) (/ b)%Re * Rabs (B p.1 p.2 - A p.1 p.2)%Re by exact: mulr_sumr.
  apply: sumR_le => p _.
  apply: Rle_trans (Rle_abs _) _; rewrite Rabs_mult; apply: Rmult_le_compat_r; [exact: Rabs_pos|exact: inv_entry].
Qed.

Lemma tame_logdet : tame (fun u => ln (\det (P u))).
Proof.
  have ib := Rinv_0_lt_compat _ Hb.
  have G u v : Rle (Rabs (ln (\det (P v)) - ln (\det (P u)))%Re) (/ b * gap u v)%Re.
    apply: Rabs_le; split.
      have S : \sum_(p : pairs) Rabs (P u p.1 p.2 - P v p.1 p.2)%Re = gap u v.
        by apply: eq_bigr => p _; exact: Rabs_minus_sym.
      have := Rle_trans _ _ _ (logdet_tangent (HP v) (HP u)) (trace_gap v (P v) (P u)).
      by rewrite S; lra.
    exact: Rle_trans _ _ _ (logdet_tangent (HP u) (HP v)) (trace_gap u (P u) (P v)).
  pose g0 : R := \sum_(p : pairs) Rabs (P 0 p.1 p.2); pose l0 := Rabs (ln (\det (P 0))).
  have g00 : Rle 0 g0 by apply: sumR_ge0 => p _; exact: Rabs_pos.
  have l00 : Rle 0 l0 by exact: Rabs_pos.
  apply: (tame_by (I := pairs) (P := fun p u => P u p.1 p.2) (K := (/ b * (1 + g0) + l0)%Re)).
  - exact: tame_pairs.
  - apply: Rplus_le_le_0_compat => //; apply: Rmult_le_pos; lra.
  - move=> u.
    have g1 : Rle (gap 0 u) ((\sum_(p : pairs) Rabs (P u p.1 p.2))%R + g0)%Re.
      rewrite /gap /g0.
      have -> : ((\sum_(p : pairs) Rabs (P u p.1 p.2))%R + (\sum_(p : pairs) Rabs (P 0 p.1 p.2))%R)%Re =
         \sum_(p : pairs) (Rabs (P u p.1 p.2) + Rabs (P 0 p.1 p.2)) by rewrite big_split.
      apply: sumR_le => p _.
      by apply: Rle_trans (Rabs_triang _ _) _; rewrite Rabs_Ropp; exact: Rle_refl.
    have t : Rle (Rabs (ln (\det (P u)))) (Rabs (ln (\det (P u)) - ln (\det (P 0%R)))%Re + l0)%Re.
      have := Rabs_triang (ln (\det (P u)) - ln (\det (P 0)))%Re (ln (\det (P 0))); rewrite /l0.
      by have -> : (ln (\det (P u)) - ln (\det (P 0%R)) + ln (\det (P 0%R)) = ln (\det (P u)))%Re by ring.
    apply: Rle_trans t _.
    have : Rle 0 (\sum_(p : pairs) Rabs (P u p.1 p.2)) by apply: sumR_ge0 => p _; exact: Rabs_pos.
    have := G 0 u; move: g1; move: (Rabs _) (gap 0 u) (\sum_p _) => x g S h1 h2 h3.
    have e : Rle (/ b * g)%Re (/ b * (S + g0))%Re by apply: Rmult_le_compat_l; lra.
    have q : Rle 0 (/ b * (g0 * S))%Re by apply: Rmult_le_pos; [lra|exact: Rmult_le_pos].
    have q2 : Rle 0 (l0 * S)%Re by exact: Rmult_le_pos.
    have q3 : Rle 0 (/ b * 1)%Re by lra.
    rewrite !Rmult_plus_distr_r !Rmult_plus_distr_l; rewrite Rmult_plus_distr_l in e; lra.
  - move=> u v; apply: Rle_trans (G u v) _; apply: Rmult_le_compat_r.
      by apply: sumR_ge0 => p _; exact: Rabs_pos.
    have : Rle 0 (/ b * g0)%Re by apply: Rmult_le_pos; lra.
    lra.
Qed.
End Below.
