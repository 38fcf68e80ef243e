(** Existence of integrals over R^n: functions with Gaussian decay that are locally Lipschitz. *)
From Coq Require Import Reals Lra Psatz ClassicalEpsilon.
From mathcomp Require Import all_ssreflect all_algebra.
From Verif Require Import RMat RChol RTac IntegralSpec GaussN.
From Verif Require Import GaussLine.
Set Implicit Arguments.
Unset Strict Implicit.
Unset Printing Implicit Defensive.
Import GRing.Theory.
Local Open Scope ring_scope.
Delimit Scope R_scope with Re.

Definition norm n (x : 'cV[R]_n) : R := sqrt (dot x x).

Lemma norm_ge0 n (x : 'cV[R]_n) : Rle 0 (norm x).
Proof. exact: sqrt_pos. Qed.
Lemma norm_sq n (x : 'cV[R]_n) : (norm x * norm x)%Re = dot x x.
Proof. apply: sqrt_sqrt; exact: dot_ge0. Qed.

(** Locally Lipschitz with at most exponential growth. *)
Definition tame n (P : 'cV[R]_n -> R) : Prop := exists C k, Rle 0 C /\ Rle 0 k /\
  (forall x, Rle (Rabs (P x)) (C * exp (k * norm x))%Re) /\
  (forall x d, Rle (norm d) 1 -> Rle (Rabs (P (x + d)%R - P x)%Re) (C * exp (k * norm x) * norm d)%Re).

(** Locally Lipschitz with Gaussian decay. *)
Definition nice n (F : 'cV[R]_n -> R) : Prop := exists C a, Rle 0 C /\ Rlt 0 a /\
  (forall x, Rle (Rabs (F x)) (C * exp (- a * dot x x))%Re) /\
  (forall x d, Rle (norm d) 1 -> Rle (Rabs (F (x + d)%R - F x)%Re) (C * exp (- a * dot x x) * norm d)%Re).

Lemma tame_ext n (P Q : 'cV[R]_n -> R) : (forall x, P x = Q x) -> tame P -> tame Q.
Proof.
  move=> E [C [k [HC [Hk [B L]]]]]; exists C, k; do 2!split=> //; split.
    by move=> x; rewrite -E.
  by move=> x d Hd; rewrite -!E; exact: L.
Qed.
Lemma nice_ext n (P Q : 'cV[R]_n -> R) : (forall x, P x = Q x) -> nice P -> nice Q.
Proof.
  move=> E [C [k [HC [Hk [B L]]]]]; exists C, k; do 2!split=> //; split.
    by move=> x; rewrite -E.
  by move=> x d Hd; rewrite -!E; exact: L.
Qed.

Lemma exp_mono (x y : R) : Rle x y -> Rle (exp x) (exp y).
Proof. case=> [H|->]; [left; exact: exp_increasing|right; by []]. Qed.

Lemma exp_ge1 (k x : R) : Rle 0 k -> Rle 0 x -> Rle 1 (exp (k * x)).
Proof. move=> Hk Hx; rewrite -exp_0; apply: exp_mono; exact: Rmult_le_pos. Qed.

Lemma tame_const n (c : R) : tame (fun _ : 'cV[R]_n => c).
Proof.
  exists (Rabs c), 0%Re; split; [exact: Rabs_pos|split; [lra|split]].
    by move=> x; rewrite Rmult_0_l exp_0 Rmult_1_r; exact: Rle_refl.
  move=> x d _; rewrite Rminus_diag_eq // Rabs_R0; apply: Rmult_le_pos (norm_ge0 d).
  apply: Rmult_le_pos; [exact: Rabs_pos|left; exact: exp_pos].
Qed.

Lemma coord_le n (x : 'cV[R]_n) i : Rle (Rabs (x i 0)) (norm x).
Proof.
  rewrite -sqrt_Rsqr_abs; apply: sqrt_le_1_alt; rewrite /dot (bigD1 i) //=.
  have H : Rle 0 (\sum_(j | j != i) x j 0 * x j 0) by apply: sumR_ge0 => j _; exact: Rle_0_sqr.
  rewrite -[X in Rle X _]Rplus_0_r; apply: Rplus_le_compat => //; exact: Rle_refl.
Qed.

Lemma tame_coord n (i : 'I_n) : tame (fun x => x i 0).
Proof.
  exists 1%Re, 1%Re; split; [lra|split; [lra|split]].
    move=> x; rewrite !Rmult_1_l; apply: Rle_trans (coord_le x i) _.
    apply: Rle_trans (exp_ineq1_le _); lra.
  move=> x d _; rewrite mxE.
  have -> : (x i ord0 + d i ord0 - x i ord0 = d i ord0)%Re by ring.
  apply: Rle_trans (coord_le d i) _; rewrite !Rmult_1_l.
  have := exp_ge1 Rle_0_1 (norm_ge0 x); rewrite Rmult_1_l; have := norm_ge0 d; nra.
Qed.

Lemma growth_add (k1 k2 r : R) : Rle 0 k1 -> Rle 0 k2 -> Rle 0 r ->
  Rle (exp (k1 * r)) (exp ((k1 + k2) * r)) /\ Rle (exp (k2 * r)) (exp ((k1 + k2) * r)).
Proof. move=> H1 H2 H; split; apply: exp_mono; nra. Qed.

Lemma tame_add n (P Q : 'cV[R]_n -> R) : tame P -> tame Q -> tame (fun x => (P x + Q x)%Re).
Proof.
  move=> [C1 [k1 [HC1 [Hk1 [B1 L1]]]]] [C2 [k2 [HC2 [Hk2 [B2 L2]]]]].
  exists (C1 + C2)%Re, (k1 + k2)%Re; split; [lra|split; [lra|split]].
    move=> x; have [G1 G2] := growth_add Hk1 Hk2 (norm_ge0 x).
    have b1 := B1 x; have b2 := B2 x; have := Rabs_triang (P x) (Q x).
    have := exp_pos (k1 * norm x); have := exp_pos (k2 * norm x); nra.
  move=> x d Hd; have [G1 G2] := growth_add Hk1 Hk2 (norm_ge0 x).
  have l1 := L1 x d Hd; have l2 := L2 x d Hd.
  have -> : (P (x + d)%R + Q (x + d)%R - (P x + Q x) = (P (x + d)%R - P x) + (Q (x + d)%R - Q x))%Re by ring.
  apply: Rle_trans (Rabs_triang _ _) _; apply: Rle_trans (Rplus_le_compat _ _ _ _ l1 l2) _.
  rewrite -Rmult_plus_distr_r; apply: Rmult_le_compat_r; first exact: norm_ge0.
  rewrite Rmult_plus_distr_r; apply: Rplus_le_compat; exact: Rmult_le_compat_l.
Qed.

Lemma tame_mul n (P Q : 'cV[R]_n -> R) : tame P -> tame Q -> tame (fun x => (P x * Q x)%Re).
Proof.
  move=> [C1 [k1 [HC1 [Hk1 [B1 L1]]]]] [C2 [k2 [HC2 [Hk2 [B2 L2]]]]].
  exists (3 * (C1 * C2))%Re, (k1 + k2)%Re.
  have HC : Rle 0 (C1 * C2)%Re by exact: Rmult_le_pos.
  have E (x : 'cV[R]_n) : exp ((k1 + k2) * norm x) = (exp (k1 * norm x) * exp (k2 * norm x))%Re.
    by rewrite -exp_plus; congr exp; ring.
  split; [lra|split; [lra|split]].
    move=> x; rewrite Rabs_mult E.
    apply: Rle_trans (Rmult_le_compat _ _ _ _ (Rabs_pos _) (Rabs_pos _) (B1 x) (B2 x)) _.
    have := Rmult_le_pos _ _ HC (Rlt_le _ _ (Rmult_lt_0_compat _ _ (exp_pos (k1 * norm x)) (exp_pos (k2 * norm x)))).
    move: (exp _) (exp _) => a b; nra.
  move=> x d Hd; rewrite E; have l1 := L1 x d Hd; have l2 := L2 x d Hd.
  have b1 := B1 x; have b2 := B2 x.
  have -> : (P (x + d)%R * Q (x + d)%R - P x * Q x =
     (P (x + d)%R - P x) * (Q (x + d)%R - Q x) + (P x * (Q (x + d)%R - Q x) + (P (x + d)%R - P x) * Q x))%Re by ring.
  have := norm_ge0 d; have := exp_pos (k1 * norm x); have := exp_pos (k2 * norm x).
  move: l1 l2 b1 b2 Hd.
  move: (P (x + d)%R - P x)%Re (Q (x + d)%R - Q x)%Re => dP dQ.
  move: (P x) (Q x) (norm d) (exp (k1 * norm x)) (exp (k2 * norm x)) => p q r e1 e2 l1 l2 b1 b2 Hr He2 He1 Hr0.
  have U1 : Rle 0 (C1 * e1)%Re by apply: Rmult_le_pos; lra.
  have U2 : Rle 0 (C2 * e2)%Re by apply: Rmult_le_pos; lra.
  have U12 : Rle 0 (C1 * e1 * (C2 * e2))%Re by exact: Rmult_le_pos.
  apply: Rle_trans (Rabs_triang _ _) _.
  apply: Rle_trans (Rplus_le_compat_l _ _ _ (Rabs_triang _ _)) _; rewrite !Rabs_mult.
  have A1 : Rle (Rabs dP * Rabs dQ)%Re (C1 * e1 * (C2 * e2) * r)%Re.
    apply: Rle_trans (Rmult_le_compat _ _ _ _ (Rabs_pos _) (Rabs_pos _) l1 l2) _.
    have -> : (C1 * e1 * r * (C2 * e2 * r) = C1 * e1 * (C2 * e2) * (r * r))%Re by ring.
    apply: Rmult_le_compat_l => //; nra.
  have A2 : Rle (Rabs p * Rabs dQ)%Re (C1 * e1 * (C2 * e2) * r)%Re.
    apply: Rle_trans (Rmult_le_compat _ _ _ _ (Rabs_pos _) (Rabs_pos _) b1 l2) _; right; ring.
  have A3 : Rle (Rabs dP * Rabs q)%Re (C1 * e1 * (C2 * e2) * r)%Re.
    apply: Rle_trans (Rmult_le_compat _ _ _ _ (Rabs_pos _) (Rabs_pos _) l1 b2) _; right; ring.
  have -> : (3 * (C1 * C2) * (e1 * e2) * r = C1 * e1 * (C2 * e2) * r + (C1 * e1 * (C2 * e2) * r + C1 * e1 * (C2 * e2) * r))%Re by ring.
  apply: Rplus_le_compat => //; exact: Rplus_le_compat.
Qed.

Lemma tame_scal n a (P : 'cV[R]_n -> R) : tame P -> tame (fun x => (a * P x)%Re).
Proof. exact: tame_mul (tame_const n a). Qed.

Lemma tame_sum n (I : finType) (P : I -> 'cV[R]_n -> R) : (forall i, tame (P i)) -> tame (fun x => \sum_i P i x).
Proof.
  move=> H; rewrite unlock /=; elim: (index_enum I) => [|i s IH]; first exact: tame_const.
  exact: (tame_add (H i) IH).
Qed.

(** * Gaussian decay *)

Lemma half_dist (a r k : R) : Rlt 0 a -> Rle (k * r) (a / 2 * (r * r) + k * k / (2 * a))%Re.
Proof.
  move=> Ha; have H := Rle_0_sqr (a * r - k)%Re; rewrite /Rsqr in H.
  have : Rle 0 ((a * r - k) * (a * r - k) / (2 * a))%Re.
    by apply: Rmult_le_pos => //; left; apply: Rinv_0_lt_compat; lra.
  have -> : ((a * r - k) * (a * r - k) / (2 * a) = a / 2 * (r * r) + k * k / (2 * a) - k * r)%Re by field; lra.
  lra.
Qed.

Lemma decay_growth n (a k : R) : Rlt 0 a -> exists K, Rle 0 K /\ forall x : 'cV[R]_n,
  Rle (exp (- a * dot x x) * exp (k * norm x))%Re (K * exp (- (a / 2) * dot x x))%Re.
Proof.
  move=> Ha; exists (exp (k * k / (2 * a))); split; first by left; exact: exp_pos.
  move=> x; rewrite -!exp_plus; apply: exp_mono; rewrite -norm_sq.
  have := @half_dist a (norm x) k Ha; lra.
Qed.

Lemma nice_tame n (F P : 'cV[R]_n -> R) : nice F -> tame P -> nice (fun x => (F x * P x)%Re).
Proof.
  move=> [C1 [a [HC1 [Ha [B1 L1]]]]] [C2 [k [HC2 [Hk [B2 L2]]]]].
  have [K [HK G]] := decay_growth n k Ha.
  have HC : Rle 0 (C1 * C2)%Re by exact: Rmult_le_pos.
  exists (3 * (C1 * C2 * K))%Re, (a / 2)%Re.
  have HCK : Rle 0 (C1 * C2 * K)%Re by exact: Rmult_le_pos.
  have W (x : 'cV[R]_n) : Rle (C1 * exp (- a * dot x x) * (C2 * exp (k * norm x)))%Re (C1 * C2 * K * exp (- (a / 2) * dot x x))%Re.
    have -> : (C1 * exp (- a * dot x x) * (C2 * exp (k * norm x)) = C1 * C2 * (exp (- a * dot x x) * exp (k * norm x)))%Re by ring.
    rewrite (Rmult_assoc (C1 * C2)); apply: Rmult_le_compat_l => //; exact: G.
  have W0 (x : 'cV[R]_n) : Rle 0 (C1 * C2 * K * exp (- (a / 2) * dot x x))%Re.
    by apply: Rmult_le_pos => //; left; exact: exp_pos.
  split; [lra|split; [lra|split]].
    move=> x; rewrite Rabs_mult.
    apply: Rle_trans (Rmult_le_compat _ _ _ _ (Rabs_pos _) (Rabs_pos _) (B1 x) (B2 x)) _.
    have := W x; have := W0 x; lra.
  move=> x d Hd; have l1 := L1 x d Hd; have l2 := L2 x d Hd.
  have b1 := B1 x; have b2 := B2 x.
  have -> : (F (x + d)%R * P (x + d)%R - F x * P x =
     (F (x + d)%R - F x) * (P (x + d)%R - P x) + (F x * (P (x + d)%R - P x) + (F (x + d)%R - F x) * P x))%Re by ring.
  have Hr0 := norm_ge0 d; have := W x; have := W0 x; have := exp_pos (- a * dot x x); have := exp_pos (k * norm x).
  move: l1 l2 b1 b2 Hd Hr0.
  move: (F (x + d)%R - F x)%Re (P (x + d)%R - P x)%Re => dP dQ.
  move: (F x) (P x) (norm d) (exp (k * norm x)) (exp (- a * dot x x)) (exp (- (a / 2) * dot x x)).
  move=> p q r e2 e1 e3 l1 l2 b1 b2 Hr Hr0 He2 He1 w0 w.
  have U1 : Rle 0 (C1 * e1)%Re by apply: Rmult_le_pos; lra.
  have U2 : Rle 0 (C2 * e2)%Re by apply: Rmult_le_pos; lra.
  have U12 : Rle 0 (C1 * e1 * (C2 * e2))%Re by exact: Rmult_le_pos.
  apply: Rle_trans (Rabs_triang _ _) _.
  apply: Rle_trans (Rplus_le_compat_l _ _ _ (Rabs_triang _ _)) _; rewrite !Rabs_mult.
  have A1 : Rle (Rabs dP * Rabs dQ)%Re (C1 * e1 * (C2 * e2) * r)%Re.
    apply: Rle_trans (Rmult_le_compat _ _ _ _ (Rabs_pos _) (Rabs_pos _) l1 l2) _.
    have -> : (C1 * e1 * r * (C2 * e2 * r) = C1 * e1 * (C2 * e2) * (r * r))%Re by ring.
    apply: Rmult_le_compat_l => //; nra.
  have A2 : Rle (Rabs p * Rabs dQ)%Re (C1 * e1 * (C2 * e2) * r)%Re.
    apply: Rle_trans (Rmult_le_compat _ _ _ _ (Rabs_pos _) (Rabs_pos _) b1 l2) _; right; ring.
  have A3 : Rle (Rabs dP * Rabs q)%Re (C1 * e1 * (C2 * e2) * r)%Re.
    apply: Rle_trans (Rmult_le_compat _ _ _ _ (Rabs_pos _) (Rabs_pos _) l1 b2) _; right; ring.
  have A : Rle (C1 * e1 * (C2 * e2) * r)%Re (C1 * C2 * K * e3 * r)%Re by exact: Rmult_le_compat_r.
  lra.
Qed.

Lemma exp_diff (x y : R) : Rle (Rabs (exp x - exp y)%Re) ((exp x + exp y) * Rabs (x - y))%Re.
Proof.
  have T u v : Rle u v -> Rle (exp v - exp u)%Re (exp v * (v - u))%Re.
    move=> H; have := exp_ineq1_le (u - v); have := exp_pos v => P1 P2.
    have -> : exp u = (exp v * exp (u - v))%Re by rewrite -exp_plus; congr exp; ring.
    nra.
  have P1 := exp_pos x; have P2 := exp_pos y.
  case: (Rle_lt_dec x y) => H.
    have M := exp_mono H; have t := T _ _ H.
    rewrite Rabs_left1; last lra. rewrite Rabs_left1; last lra.
    have -> : (- (x - y) = y - x)%Re by ring.
    have : Rle 0 (exp x * (y - x))%Re by apply: Rmult_le_pos; lra.
    nra.
  have M := exp_mono (Rlt_le _ _ H); have t := T _ _ (Rlt_le _ _ H).
  rewrite Rabs_pos_eq; last lra. rewrite Rabs_pos_eq; last lra.
  have : Rle 0 (exp y * (x - y))%Re by apply: Rmult_le_pos; lra.
  nra.
Qed.

Lemma shift_sq n (x d : 'cV[R]_n) : Rle (norm d) 1 -> Rle (dot x x / 2 - 1)%Re (dot (x + d) (x + d)).
Proof.
  move=> Hd.
  have D1 : Rle (dot d d) 1 by rewrite -norm_sq; have := norm_ge0 d; nra.
  have : Rle 0 (dot (x + d + d) (x + d + d)) by exact: dot_ge0.
  rewrite !dotDl !dotDr (dotC d x).
  have : Rle 0 (dot x x) by exact: dot_ge0.
  have : Rle 0 (dot d d) by exact: dot_ge0.
  rnorm; lra.
Qed.

(** The exponential of a tame function that is at most minus a quadratic. *)
Lemma nice_exp n (T : 'cV[R]_n -> R) (c a : R) : tame T -> Rlt 0 a ->
  (forall x, Rle (T x) (c - a * dot x x)%Re) -> nice (fun x => exp (T x)).
Proof.
  move=> [C [k [HC [Hk [B L]]]]] Ha U.
  have Ha2 : Rlt 0 (a / 2) by lra.
  have [K [HK G]] := decay_growth n k Ha2.
  pose M := (exp c * (1 + exp a))%Re.
  have HM : Rlt 0 M by apply: Rmult_lt_0_compat; [exact: exp_pos|have := exp_pos a; lra].
  have dot0 (x : 'cV[R]_n) : Rle 0 (dot x x) by exact: (@dot_ge0 n).
  have Ux (x : 'cV[R]_n) : Rle (exp (T x)) (exp c * exp (- (a / 2) * dot x x))%Re.
    rewrite -exp_plus; apply: exp_mono; apply: Rle_trans (U x) _; have := dot0 x; nra.
  have Uxd (x d : 'cV[R]_n) : Rle (norm d) 1 -> Rle (exp (T (x + d)%R)) (exp c * exp a * exp (- (a / 2) * dot x x))%Re.
    move=> Hd; rewrite -!exp_plus; apply: exp_mono; apply: Rle_trans (U _) _; have := shift_sq x Hd; nra.
  exists (exp c + M * (C * K))%Re, (a / 2 / 2)%Re.
  have HCK : Rle 0 (C * K)%Re by exact: Rmult_le_pos.
  have HMCK : Rle 0 (M * (C * K))%Re by apply: Rmult_le_pos => //; lra.
  have ec := exp_pos c.
  split; [lra|split; [lra|split]].
    move=> x; rewrite Rabs_pos_eq; last by left; exact: exp_pos.
    apply: Rle_trans (Ux x) _.
    have e : Rle (exp (- (a / 2) * dot x x)) (exp (- (a / 2 / 2) * dot x x)) by apply: exp_mono; have := dot0 x; nra.
    have := exp_pos (- (a / 2) * dot x x); move: e; move: (exp (- (a / 2) * _)%Re) (exp (- (a / 2 / 2) * _)%Re) => e1 e2; nra.
  move=> x d Hd; apply: Rle_trans (exp_diff _ _) _.
  have u1 := Ux x; have u2 := Uxd x d Hd; have l := L x d Hd; have g := G x.
  have E3 := exp_pos (- (a / 2 / 2) * dot x x).
  have S : Rle (exp (T (x + d)%R) + exp (T x))%Re (M * exp (- (a / 2) * dot x x))%Re by rewrite /M; lra.
  apply: Rle_trans (Rmult_le_compat _ _ _ _ _ (Rabs_pos _) S l) _.
    by have := exp_pos (T x); have := exp_pos (T (x + d)%R); lra.
  have -> : (M * exp (- (a / 2) * dot x x) * (C * exp (k * norm x) * norm d) =
     M * C * (exp (- (a / 2) * dot x x) * exp (k * norm x)) * norm d)%Re by ring.
  apply: Rmult_le_compat_r; first exact: norm_ge0.
  apply: Rle_trans (Rmult_le_compat_l _ _ _ _ g) _; first by apply: Rmult_le_pos; lra.
  have -> : (M * C * (K * exp (- (a / 2 / 2) * dot x x)) = M * (C * K) * exp (- (a / 2 / 2) * dot x x))%Re by ring.
  apply: Rmult_le_compat_r; lra.
Qed.

(** * Existence of integrals *)

Lemma line_abs_le f g v w : (forall x, Rle (Rabs (f x)) (g x)) -> line f v -> line g w -> Rle (Rabs v) w.
Proof.
  move=> H Lf Lg; apply: Rabs_le; split.
    have L := line_scal (-1) _ _ Lg; have := line_le _ _ _ _ _ L Lf.
    have -> : (-1 * w = - w)%Re by ring.
    apply=> x; have := H x; have := Rle_abs (- f x); rewrite Rabs_Ropp; lra.
  by apply: line_le Lf Lg => x; have := H x; have := Rle_abs (f x); lra.
Qed.

Lemma norm_scalar (e : R) : norm (e%:M : 'cV[R]_1) = Rabs e.
Proof. by rewrite /norm dot11 -sqrt_Rsqr_abs. Qed.
Lemma norm_colu m n (d : 'cV[R]_m) : norm (col_mx d (0 : 'cV[R]_n)) = norm d.
Proof. by rewrite /norm dot_col_mx dot0l addr0. Qed.
Lemma norm_cold m n (d : 'cV[R]_n) : norm (col_mx (0 : 'cV[R]_m) d) = norm d.
Proof. by rewrite /norm dot_col_mx dot0l add0r. Qed.

Lemma exp_le1 (a r : R) : Rlt 0 a -> Rle 0 r -> Rle (exp (- a * r)) 1.
Proof. by move=> Ha Hr; rewrite -exp_0; apply: exp_mono; nra. Qed.

Lemma nice_out nu (G : 'cV[R]_(nu + 1) -> R) : nice G ->
  exists h, (forall u : 'cV[R]_nu, line (fun x => G (col_mx u x%:M)) (h u)) /\ nice h.
Proof.
  move=> [C [a [HC [Ha [B L]]]]].
  have D (u : 'cV[R]_nu) (x : R) : dot (col_mx u (x%:M : 'cV[R]_1)) (col_mx u x%:M) = (dot u u + x ^ 2)%Re.
    by rewrite dot_col_mx dot11; congr (_ + _)%Re; ring.
  have Ed (u : 'cV[R]_nu) (x : R) : (C * exp (- a * (dot u u + x ^ 2)) = C * exp (- a * dot u u) * exp (- a * x ^ 2))%Re.
    by rewrite Rmult_assoc -exp_plus; congr (_ * exp _)%Re; ring.
  have du (u : 'cV[R]_nu) : Rle 0 (dot u u) by exact: dot_ge0.
  have Ex (u : 'cV[R]_nu) : exists v, line (fun x => G (col_mx u x%:M)) v.
    have Cu : Rle (C * exp (- a * dot u u))%Re C.
      by have := exp_le1 Ha (du u); have := exp_pos (- a * dot u u); nra.
    apply: (line_exists _ C a Ha HC).
      move=> x; apply: Rle_trans (B _) _; rewrite D Ed; apply: Rmult_le_compat_r Cu; left; exact: exp_pos.
    move=> x d Hd.
    have -> : col_mx u ((x + d)%Re%:M : 'cV[R]_1) = col_mx u x%:M + col_mx 0 d%:M.
      by rewrite add_col_mx addr0 -raddfD.
    apply: Rle_trans (L _ _ _) _; first by rewrite norm_cold norm_scalar.
    rewrite norm_cold norm_scalar D Ed; apply: Rmult_le_compat_r; first exact: Rabs_pos.
    have := exp_le1 Ha (pow2_ge_0 x); have := exp_pos (- a * x ^ 2); nra.
  exists (fun u => proj1_sig (constructive_indefinite_description _ (Ex u))).
  have Hh (u : 'cV[R]_nu) := proj2_sig (constructive_indefinite_description _ (Ex u)).
  split=> //.
  have [w [Hw W]] := line_gauss a Ha.
  exists (C * w)%Re, a; split; [exact: Rmult_le_pos|split=> //; split].
    move=> u.
    have Wu := line_scal (C * exp (- a * dot u u)) _ _ W.
    have -> : (C * w * exp (- a * dot u u) = C * exp (- a * dot u u) * w)%Re by ring.
    apply: (line_abs_le _ (Hh u) Wu) => x; apply: Rle_trans (B _) _; rewrite D Ed; exact: Rle_refl.
  move=> u d Hd.
  have Wu := line_scal (C * exp (- a * dot u u) * norm d) _ _ W.
  have -> : (C * w * exp (- a * dot u u) * norm d = C * exp (- a * dot u u) * norm d * w)%Re by ring.
  have M := line_plus _ _ _ _ (Hh (u + d)) (line_scal (-1) _ _ (Hh u)).
  have -> : (proj1_sig (constructive_indefinite_description _ (Ex (u + d)%R)) - proj1_sig (constructive_indefinite_description _ (Ex u)) =
     proj1_sig (constructive_indefinite_description _ (Ex (u + d)%R)) + -1 * proj1_sig (constructive_indefinite_description _ (Ex u)))%Re by ring.
  apply: (line_abs_le _ M Wu) => x.
  have -> : (G (col_mx (u + d)%R x%:M) + -1 * G (col_mx u x%:M) = G (col_mx u x%:M + col_mx d 0)%R - G (col_mx u x%:M))%Re.
    by rewrite add_col_mx addr0; ring.
  apply: Rle_trans (L _ _ _) _; first by rewrite norm_colu.
  rewrite norm_colu D Ed; right; ring.
Qed.

Lemma nice_compose m n (F : 'cV[R]_m -> R) (f : 'cV[R]_n -> 'cV[R]_m) : nice F ->
  (forall x y, f (x + y) = f x + f y) -> (forall x, dot (f x) (f x) = dot x x) -> nice (fun x => F (f x)).
Proof.
  move=> [C [a [HC [Ha [B L]]]]] A D; exists C, a; do 2!split=> //; split.
    by move=> x; rewrite -D.
  have N (x : 'cV[R]_n) : norm (f x) = norm x by rewrite /norm D.
  by move=> x d Hd; rewrite A -D -(N d); apply: L; rewrite N.
Qed.

Lemma nice_integral_par n nu (F : 'cV[R]_(nu + n) -> R) : nice F ->
  exists h, (forall u : 'cV[R]_nu, integral (fun w : 'cV[R]_n => F (col_mx u w)) (h u)) /\ nice h.
Proof.
  elim: n nu F => [|n IH] nu F HF.
    exists (fun u => F (col_mx u 0)); split=> //.
    apply: (nice_compose (f := fun u => col_mx u (0 : 'cV[R]_0)) HF) => [x y|x].
      by rewrite add_col_mx addr0.
    by rewrite dot_col_mx dot0l addr0.
  pose f (p : 'cV[R]_(nu + 1 + n)) : 'cV[R]_(nu + n.+1) :=
    col_mx (usubmx (usubmx p)) (col_mx (dsubmx (usubmx p)) (dsubmx p) : 'cV[R]_(1 + n)).
  have HF' : nice (fun p => F (f p)).
    apply: (nice_compose HF) => [x y|x].
      by rewrite /f !linearD /= -!add_col_mx.
    have E1 : dot x x = dot (usubmx x) (usubmx x) + dot (dsubmx x) (dsubmx x).
      by rewrite -dot_col_mx vsubmxK.
    have E2 : dot (usubmx x) (usubmx x) = dot (usubmx (usubmx x)) (usubmx (usubmx x)) + dot (dsubmx (usubmx x)) (dsubmx (usubmx x)).
      by rewrite -dot_col_mx vsubmxK.
    by rewrite /f E1 E2 -addrA [LHS]dot_col_mx (@dot_col_mx 1 n).
  have [h [Hh Nh]] := IH _ _ HF'.
  have [k [Hk Nk]] := nice_out Nh.
  exists k; split=> // u; exists (fun x => h (col_mx u x%:M)); split=> // x.
  apply: integral_ext (Hh (col_mx u x%:M)) => w; rewrite /f !col_mxKu !col_mxKd; by [].
Qed.

Lemma nice_integral n (F : 'cV[R]_n -> R) : nice F -> exists v, integral F v.
Proof.
  move=> HF; have [|h [H _]] := @nice_integral_par n 0 (fun p : 'cV[R]_(0 + n) => F (dsubmx p)).
    apply: (nice_compose HF) => [x y|x]; first by rewrite linearD.
    have -> : dot x x = dot (usubmx x) (usubmx x) + dot (dsubmx x) (dsubmx x) by rewrite -dot_col_mx vsubmxK.
    by rewrite {2}/dot big_ord0 add0r.
  by exists (h 0); apply: integral_ext (H 0) => w; rewrite col_mxKd.
Qed.
