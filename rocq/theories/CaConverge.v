(** Convergence of coordinate ascent: a small KL divergence between consecutive iterates means a
    small change of their natural parameters. *)
From Coq Require Import Reals Lra Psatz.
From mathcomp Require Import all_ssreflect all_algebra.
From Verif Require Import RMat RChol RTac NormalModel NormalSpec NormalProofs ApproxModel ApproxSpec ApproxProofs EvidenceProofs GaussN IntegralSpec.
From Verif Require RSpectral.
Set Implicit Arguments.
Unset Strict Implicit.
Unset Printing Implicit Defensive.
Import GRing.Theory.
Local Open Scope ring_scope.
Delimit Scope R_scope with Re.

Notation frob := RSpectral.frob.
Notation frob_ge0 := RSpectral.frob_ge0.

Lemma frobT a b (A : 'M[R]_(a, b)) : frob A^T = frob A.
Proof. by rewrite /frob exchange_big; apply: eq_bigr => i _; apply: eq_bigr => j _; rewrite mxE. Qed.

Lemma sq_sum_le (x y : R) : ((x + y) * (x + y) <= 2 * (x * x) + 2 * (y * y))%Re.
Proof. have := Rle_0_sqr (x - y)%Re; rewrite /Rsqr; lra. Qed.

Lemma frobD a b (A B : 'M[R]_(a, b)) : (frob (A + B) <= 2 * frob A + 2 * frob B)%Re.
Proof.
  rewrite /frob -[X in Rle _ X]/(2%Re * (\sum_i \sum_j (A i j * A i j)%Re) + 2%Re * (\sum_i \sum_j (B i j * B i j)%Re)).
  rewrite !mulr_sumr -big_split; apply: RSpectral.sumR_le => i; rewrite !mulr_sumr -big_split; apply: RSpectral.sumR_le => j.
  rewrite mxE; exact: sq_sum_le.
Qed.

Lemma frob_cols a b (A : 'M[R]_(a, b)) : frob A = \sum_j dot (col j A) (col j A).
Proof. by rewrite /frob exchange_big; apply: eq_bigr => j _; apply: eq_bigr => i _; rewrite !mxE. Qed.

Lemma frobM a b c (A : 'M[R]_(a, b)) (B : 'M[R]_(b, c)) : (frob (A *m B) <= frob A * frob B)%Re.
Proof.
  rewrite !(frob_cols (A *m B)) (frob_cols B) -[X in Rle _ X]/(frob A * \sum_j dot (col j B) (col j B)) mulr_sumr.
  apply: RSpectral.sumR_le => j; rewrite colE -mulmxA -colE; exact: RSpectral.frob_bound.
Qed.

Lemma frob1 n : frob (1%:M : 'M[R]_n) = INR n.
Proof.
  rewrite INRE /frob -[RHS]/(n%:R) (_ : n%:R = \sum_(i < n) (1 : R)); last by rewrite sumr_const card_ord.
  apply: eq_bigr => i _; rewrite (bigD1 i) //= !mxE eqxx big1; last first.
    by move=> j /negbTE N; rewrite mxE eq_sym N -[LHS]/(0 * 0 : R) mul0r.
  by rewrite -[LHS]/(1 * 1 + 0 : R) mulr1 addr0.
Qed.

Lemma frob_chol n (P L : 'M[R]_n) : is_chol P L -> frob L = \tr P.
Proof.
  move=> [_ [_ <-]]; rewrite /frob /mxtrace; apply: eq_bigr => i _; rewrite mxE; apply: eq_bigr => j _; by rewrite mxE.
Qed.

Lemma frob_col n (x : 'cV[R]_n) : frob x = dot x x.
Proof. by rewrite frob_cols big_ord1; congr dot; apply/colP=> i; rewrite !mxE. Qed.

Lemma frobN a b (A : 'M[R]_(a, b)) : frob (- A) = frob A.
Proof. by apply: eq_bigr => i _; apply: eq_bigr => j _; rewrite !mxE -[LHS]/((- A i j) * (- A i j)) mulrNN. Qed.

(** * The ratio of the Cholesky factors *)

Lemma gap_square (x : R) : (0 < x)%Re -> ((x - 1) * (x - 1) <= x * x - 1 - ln (x * x))%Re.
Proof. by move=> H; rewrite ln_sq //; have := ln_gap H; lra. Qed.

Section Close.
Variable chol : forall n, 'M[R]_n -> 'M[R]_n.
Hypothesis Hc : chol_ok chol.

Definition ratio n (p q : natnormal n) : 'M[R]_n := solve (chol (nn_prec p)) (chol (nn_prec q)).

Lemma half_parts (a b k : R) : Rle 0 a -> Rle 0 b -> k = (1 / 2 * (a + b))%Re -> (a <= 2 * k)%Re /\ (b <= 2 * k)%Re.
Proof. by move=> *; lra. Qed.

Lemma kl_parts n (p q : natnormal n) : spd (nn_prec p) -> spd (nn_prec q) ->
  (frob (ratio p q - 1%:M) <= 2 * kl chol p q)%Re /\
  (dot (mean chol p - mean chol q)%R (nn_prec q *m (mean chol p - mean chol q)%R) <= 2 * kl chol p q)%Re.
Proof.
  move=> Hp Hq; have [lr pr sr _ _] := ratio_facts (Hc Hp) (Hc Hq).
  have [A B] := half_parts (RSpectral.sumR_ge0 (fun i => ratio_gap_ge0 i pr)) (proj2 (spd_psd Hq) _) (kl_gap Hc Hp Hq).
  split; [|exact: B]; apply: (Rle_trans _ _ _ _ A); apply: RSpectral.sumR_le => i.
  rewrite (bigD1 i) //= /ratio_gap /ratio.
  move: (solve _ _) pr => r pr; rewrite !mxE eqxx.
  apply: (Rle_trans _ _ _ _ (Rplus_le_compat_r _ _ _ (gap_square (pr i)))); apply: Rplus_le_compat_l; right.
  by apply: eq_bigr => j N; rewrite !mxE eq_sym (negbTE N) subr0.
Qed.

Lemma prec_ratio n (p q : natnormal n) : spd (nn_prec p) -> spd (nn_prec q) ->
  chol (nn_prec p) *m ratio p q = chol (nn_prec q).
Proof.
  move=> Hp Hq; rewrite /ratio /solve mulKVmx //; have [l [d _]] := Hc Hp; exact: lower_unit.
Qed.

Lemma frob_ratio n (p q : natnormal n) : spd (nn_prec p) -> spd (nn_prec q) ->
  (frob (ratio p q) <= 4 * kl chol p q + 2 * INR n)%Re.
Proof.
  move=> Hp Hq; have [A _] := kl_parts Hp Hq.
  have := frobD (ratio p q - 1%:M) 1%:M; rewrite subrK frob1; lra.
Qed.

Lemma square_id n (L E : 'M[R]_n) :
  (L *m (E + 1%:M)) *m (L *m (E + 1%:M))^T - L *m L^T = L *m ((E + E^T) + E *m E^T) *m L^T.
Proof.
  rewrite trmx_mul !mulmxA -(mulmxA L) -mulmxBl; congr (_ *m _).
  rewrite -{2}(mulmx1 L) -mulmxBr; congr (_ *m _).
  rewrite [(E + _)^T]linearD /= trmx1 mulmxDr mulmx1 mulmxDl mul1mx addrA addrK.
  by rewrite -addrA addrC [_ + E]addrC.
Qed.

(** The change of the precision. *)
Lemma prec_close n (p q : natnormal n) : spd (nn_prec p) -> spd (nn_prec q) ->
  let e := (2 * kl chol p q)%Re in let t := \tr (nn_prec p) in
  (frob (nn_prec q - nn_prec p) <= t * t * (8 * e + 2 * (e * e)))%Re.
Proof.
  move=> Hp Hq e t; have [A _] := kl_parts Hp Hq; rewrite -/e in A.
  set E := ratio p q - 1%:M in A; set L := chol (nn_prec p).
  have [_ [_ LP]] := Hc Hp; have [_ [_ LQ]] := Hc Hq.
  have -> : nn_prec q - nn_prec p = L *m ((E + E^T) + E *m E^T) *m L^T.
    rewrite -[in LHS]LQ -[in LHS](prec_ratio Hp Hq) -/L -[in LHS]LP -/L (_ : ratio p q = E + 1%:M); last by rewrite /E subrK.
    exact: square_id.
  have F : (frob ((E + E^T) + E *m E^T) <= 8 * e + 2 * (e * e))%Re.
    have F1 := frobD (E + E^T) (E *m E^T); have F2 := frobD E E^T; have F3 := frobM E E^T.
    rewrite frobT in F2 F3; have F0 := frob_ge0 E.
    have F4 : (frob E * frob E <= e * e)%Re by apply: Rmult_le_compat.
    lra.
  have FL : frob L = t by rewrite (frob_chol (Hc Hp)).
  have F1 := frobM (L *m (E + E^T + E *m E^T)) L^T; have F2 := frobM L (E + E^T + E *m E^T).
  rewrite frobT FL in F1; rewrite FL in F2.
  have T0 : (0 <= t)%Re by rewrite -FL; exact: frob_ge0.
  apply: (Rle_trans _ _ _ F1).
  apply: (Rle_trans _ (t * (8 * e + 2 * (e * e)) * t)%Re); last by right; ring.
  apply: Rmult_le_compat_r => //; apply: (Rle_trans _ _ _ F2); exact: Rmult_le_compat_l.
Qed.

(** The change of [lam]. *)
Lemma lam_close n (p q : natnormal n) : spd (nn_prec p) -> spd (nn_prec q) ->
  let e := (2 * kl chol p q)%Re in let t := \tr (nn_prec p) in let v := dot (mean chol p) (mean chol p) in
  (frob (nn_lam q - nn_lam p) <= 2 * (t * (2 * e + 2 * INR n) * e) + 2 * (t * t * (8 * e + 2 * (e * e)) * v))%Re.
Proof.
  move=> Hp Hq e t v; have [_ B] := kl_parts Hp Hq; rewrite -/e in B.
  have PC := prec_close Hp Hq; cbv zeta in PC; rewrite -/e -/t in PC.
  set d := mean chol p - mean chol q in B.
  have lamE (r : natnormal n) : spd (nn_prec r) -> nn_lam r = nn_prec r *m mean chol r.
    by move=> H; rewrite meanE // mulKVmx // spd_unit.
  have -> : nn_lam q - nn_lam p = nn_prec q *m (- d) + (nn_prec q - nn_prec p) *m mean chol p.
    by rewrite (lamE _ Hp) (lamE _ Hq) /d opprB mulmxBr mulmxBl addrA subrK.
  have F1 := frobD (nn_prec q *m (- d)) ((nn_prec q - nn_prec p) *m mean chol p).
  have F2 := frobM (nn_prec q - nn_prec p) (mean chol p); rewrite (frob_col (mean chol p)) -/v in F2.
  have V0 : (0 <= v)%Re by exact: dot_ge0.
  have F3 : (frob (nn_prec q *m (- d)) <= t * (2 * e + 2 * INR n) * e)%Re.
    have [_ [_ LQ]] := Hc Hq; rewrite mulmxN frobN.
    have X := frobM (chol (nn_prec q)) ((chol (nn_prec q))^T *m d); rewrite mulmxA LQ in X.
    apply: (Rle_trans _ _ _ X).
    have Y : frob ((chol (nn_prec q))^T *m d) = dot d (nn_prec q *m d).
      by rewrite frob_col -{3}LQ -mulmxA [RHS]dot_mx.
    rewrite Y.
    have Z : (frob (chol (nn_prec q)) <= t * (2 * e + 2 * INR n))%Re.
      rewrite -(prec_ratio Hp Hq); apply: (Rle_trans _ _ _ (frobM _ _)).
      rewrite (frob_chol (Hc Hp)) -/t.
      have T0 : (0 <= t)%Re by rewrite /t -(frob_chol (Hc Hp)); exact: frob_ge0.
      apply: Rmult_le_compat_l => //; have := frob_ratio Hp Hq; rewrite /e; lra.
    apply: Rmult_le_compat => //; [exact: frob_ge0|exact: (proj2 (spd_psd Hq))].
  have F4 : (frob (nn_prec q - nn_prec p) * v <= t * t * (8 * e + 2 * (e * e)) * v)%Re by exact: Rmult_le_compat_r.
  move: F1 F2 F3 F4; move: (frob _) (frob _) (frob _) (_ * v)%Re (_ * e)%Re => f1 f2 f3 f4 f5; lra.
Qed.

(** * Moments bounded by the KL divergence from a prior *)

Lemma mean_bounded n (K : 'M[R]_n) (C : R) : spd K -> exists b, forall q : natnormal n, spd (nn_prec q) ->
  (kl chol q (NatNormal 0 K) <= C)%Re -> (dot (mean chol q) (mean chol q) <= b)%Re.
Proof.
  move=> HK; have [e [e0 He]] := RSpectral.spd_margin HK.
  exists (2 * C / e)%Re => q Hq Hk.
  have [_ B] := @kl_parts n q (NatNormal 0 K) Hq HK.
  rewrite [mean chol (NatNormal 0 K)]meanE //= mulmx0 subr0 in B.
  have A := He (mean chol q); apply: (Rmult_le_reg_l e) => //.
  rewrite (_ : e * (2 * C / e) = 2 * C)%Re; last by field; lra.
  lra.
Qed.

Lemma m2_bounded n (K : 'M[R]_n) (C : R) : spd K -> exists b, forall q : natnormal n, spd (nn_prec q) ->
  (kl chol q (NatNormal 0 K) <= C)%Re -> (frob (m2 chol q) <= b)%Re.
Proof.
  move=> HK; have [b Hb] := mean_bounded C HK.
  set c := (((4 * C + 2 * INR n) * frob (invmx (chol K))))%Re.
  exists (2 * (c * c) + 2 * (b * b))%Re => q Hq Hk.
  have M := Hb q Hq Hk; have M0 := dot_ge0 (mean chol q).
  have M0' : (0 <= frob (invmx (chol K)))%Re by exact: frob_ge0.
  rewrite m2E //; apply: (Rle_trans _ _ _ (frobD _ _)); apply: Rplus_le_compat; apply: Rmult_le_compat_l; try lra.
    have [lq [dq LQ]] := Hc Hq; have Uq := lower_unit lq dq; have [lk [dk _]] := Hc HK; have Uk := lower_unit lk dk.
    have EV : invmx (nn_prec q) = (invmx (chol (nn_prec q)))^T *m invmx (chol (nn_prec q)).
      by rewrite -{1}LQ invmxM ?unitmx_tr // trmx_inv.
    have EL : invmx (chol (nn_prec q)) = ratio q (NatNormal 0 K) *m invmx (chol K).
      by rewrite /ratio /solve /= mulmxK.
    have FL : (frob (invmx (chol (nn_prec q))) <= c)%Re.
      rewrite EL; apply: (Rle_trans _ _ _ (frobM _ _)); apply: Rmult_le_compat_r => //.
      have := @frob_ratio n q (NatNormal 0 K) Hq HK; lra.
    have F0 := frob_ge0 (invmx (chol (nn_prec q))).
    rewrite EV; apply: (Rle_trans _ _ _ (frobM _ _)); rewrite frobT; exact: Rmult_le_compat.
  apply: (Rle_trans _ _ _ (frobM _ _)); rewrite frobT frob_col; exact: Rmult_le_compat.
Qed.

Lemma prod_le (x y : R) : (x * y <= x * x + y * y)%Re.
Proof. by have := Rle_0_sqr (x - y)%Re; have := Rle_0_sqr x; have := Rle_0_sqr y; rewrite /Rsqr; lra. Qed.

Lemma sum_mul_frob a b (A B : 'M[R]_(a, b)) : (sum_mul A B <= frob A + frob B)%Re.
Proof.
  rewrite /sum_mul /frob -[X in Rle _ X]/((\sum_i \sum_j (A i j * A i j)%Re) + (\sum_i \sum_j (B i j * B i j)%Re)).
  rewrite -big_split; apply: RSpectral.sumR_le => i; rewrite -big_split; apply: RSpectral.sumR_le => j; exact: prod_le.
Qed.

(** * The optimal factors have bounded precisions *)

Lemma optimal_bounded n a b (s : R) (A : 'M[R]_a) (I : 'I_n -> 'M[R]_(a, b)) (I_sum : 'M[R]_(a, b)) (K : 'M[R]_a) (c : R) :
  (0 < s)%Re -> exists d, forall x x2, (frob x2 <= c)%Re -> (\tr (nn_prec (ApproxModel.q_optimal_m2 s A I I_sum K x x2)) <= d)%Re.
Proof.
  move=> s0; exists (\tr K + / s * (\tr A + \sum_i (frob ((I i)^T *m I i) + c)))%Re => x x2 H /=.
  rewrite linearD linearZ linearD linear_sum /=; apply: Rplus_le_compat_l; apply: Rmult_le_compat_l.
    exact: Rlt_le (Rinv_0_lt_compat _ s0).
  apply: Rplus_le_compat_l; apply: RSpectral.sumR_le => i.
  have -> : \tr (I i *m x2 *m (I i)^T) = sum_mul ((I i)^T *m I i) x2.
    by rewrite sum_mulE trmx_mul trmxK mxtrace_mulC !mulmxA.
  by apply: (Rle_trans _ _ _ (sum_mul_frob _ _)); apply: Rplus_le_compat_l.
Qed.

Lemma archimed_nat (x : R) : exists N, (x < INR N)%Re.
Proof.
  case: (Rle_dec 0 x) => H; last by exists 0%N; rewrite /=; lra.
  have [A _] := archimed x; exists (Z.to_nat (up x)).
  rewrite INR_IZR_INZ Z2Nat.id //; apply: le_IZR; lra.
Qed.

(** * The iterations *)

Section Ascent.
Variables (n nu nz : nat) (m : gp nu nz) (ig : integrals n nu nz) (y : 'I_n -> R).
Hypothesis WP : well_posed m ig.
Let ts := construct_terms chol m ig y.
Let pu : natnormal nu := NatNormal 0 (K_u m).
Let pz : natnormal nz := NatNormal 0 (K_z m).
Let f := q_u_optimal_mean_field chol m ts.
Let g := q_z_optimal_mean_field chol m ts.
Let F := elbo_at chol m ts pu pz.

Lemma proper_f qz : spd (nn_prec qz) -> spd (nn_prec (f qz)).
Proof. by move=> H; apply: f_spd => //; [exact: HKu WP|exact: Hnoise WP|exact: HA WP]. Qed.
Lemma proper_g qu : spd (nn_prec qu) -> spd (nn_prec (g qu)).
Proof. by move=> H; apply: g_spd => //; [exact: HKz WP|exact: Hnoise WP|exact: HB WP]. Qed.

Lemma gain_aux (a b c d k l : R) : a = (b - k)%Re -> c = b -> c = (d - l)%Re -> d = (a + k + l)%Re.
Proof. by move=> *; lra. Qed.

(** One iteration raises the bound by two KL divergences. *)
Lemma gain qu qz : spd (nn_prec qu) -> spd (nn_prec qz) ->
  let qu' := f qz in F qu' (g qu') = (F qu qz + kl chol qu qu' + kl chol qz (g qu'))%Re.
Proof.
  move=> Hu Hz qu'; have Hu' := proper_f Hz.
  have HKu := HKu WP; have HKz := HKz WP; have Hn := Hnoise WP; have HA := HA Hc y WP; have HB := HB Hc y WP.
  have E1 := elbo_gap_u Hc HKu Hn HA Hu Hz.
  have E2 := elbo_opt_u Hc HKu Hn HA Hz.
  have E3 := elbo_gap_z Hc HKz Hn HB Hu' Hz.
  have E4 := elbo_opt_z Hc HKz Hn HB Hu'.
  apply: (gain_aux E1 E2); rewrite E3; congr (_ - _)%Re; by rewrite /F E4.
Qed.

Lemma ell_qq_le qu qz : spd (nn_prec qu) -> spd (nn_prec qz) -> (ell_qq chol m ig y qu qz <= ell_max chol m ig y)%Re.
Proof.
  move=> Hu Hz; refine (integral_le _ (ell_qq_integral Hc y WP Hu Hz) (integral_const Hc (ell_max chol m ig y) Hu)) => u.
  apply: Rmult_le_compat_l; first exact: Rlt_le (exp_pos _).
  refine (integral_le _ (ell_u_integral Hc y WP u Hz) (integral_const Hc (ell_max chol m ig y) Hz)) => z.
  apply: Rmult_le_compat_l; first exact: Rlt_le (exp_pos _).
  exact: ell_le.
Qed.

Lemma kls_bounded (l : R) : exists C, forall qu qz, spd (nn_prec qu) -> spd (nn_prec qz) ->
  (l <= F qu qz)%Re -> (kl chol qu pu <= C)%Re /\ (kl chol qz pz <= C)%Re.
Proof.
  exists (ell_max chol m ig y - l)%Re => qu qz Hu Hz.
  rewrite /F (elbo_ell chol y WP).
  have A := ell_qq_le Hu Hz; have B := kl_ge0 Hc Hu (HKu WP : spd (nn_prec pu)); have D := kl_ge0 Hc Hz (HKz WP : spd (nn_prec pz)).
  rewrite -/pu -/pz in B D; lra.
Qed.

Lemma F_bounded : exists U, forall qu qz, spd (nn_prec qu) -> spd (nn_prec qz) -> (F qu qz <= U)%Re.
Proof.
  exists (ell_max chol m ig y) => qu qz Hu Hz; rewrite /F (elbo_ell chol y WP).
  have A := ell_qq_le Hu Hz; have B := kl_ge0 Hc Hu (HKu WP : spd (nn_prec pu)); have D := kl_ge0 Hc Hz (HKz WP : spd (nn_prec pz)).
  rewrite -/pu -/pz in B D; lra.
Qed.

Lemma lin_aux (t T v V e k : R) : (0 <= t)%Re -> (t <= T)%Re -> (0 <= v)%Re -> (v <= V)%Re -> (0 <= e)%Re -> (e <= 1)%Re -> (0 <= k)%Re ->
  (t * t * (8 * e + 2 * (e * e)) <= 10 * (T * T) * e)%Re /\
  (2 * (t * (2 * e + 2 * k) * e) + 2 * (t * t * (8 * e + 2 * (e * e)) * v) <= (2 * (T * (2 + 2 * k)) + 20 * (T * T * V)) * e)%Re.
Proof.
  move=> t0 tT v0 vV e0 e1 k0.
  have T0 : (0 <= T)%Re by lra.
  have V0 : (0 <= V)%Re by lra.
  have TT : (t * t <= T * T)%Re by apply: Rmult_le_compat.
  have tt0 : (0 <= t * t)%Re by apply: Rmult_le_pos.
  have ee : (e * e <= 1 * e)%Re by apply: Rmult_le_compat_r.
  have ee0 : (0 <= e * e)%Re by apply: Rmult_le_pos.
  have A : (t * t * (8 * e + 2 * (e * e)) <= T * T * (10 * e))%Re by apply: Rmult_le_compat => //; lra.
  have A0 : (0 <= t * t * (8 * e + 2 * (e * e)))%Re by apply: Rmult_le_pos => //; lra.
  have B : (t * t * (8 * e + 2 * (e * e)) * v <= T * T * (10 * e) * V)%Re by apply: Rmult_le_compat.
  have D : (t * (2 * e + 2 * k) <= T * (2 + 2 * k))%Re by apply: Rmult_le_compat => //; lra.
  have D' : (t * (2 * e + 2 * k) * e <= T * (2 + 2 * k) * e)%Re by apply: Rmult_le_compat_r.
  split; [apply: (Rle_trans _ _ _ A); right; ring|].
  apply: (Rle_trans _ (2 * (T * (2 + 2 * k) * e) + 2 * (T * T * (10 * e) * V))%Re); last by right; ring.
  by apply: Rplus_le_compat; apply: Rmult_le_compat_l => //; lra.
Qed.

(** Iterates with bounded precision and mean change little when the divergence is small. *)
Lemma close k (T V eta : R) : (0 < eta)%Re -> exists eps, (0 < eps)%Re /\ forall p q : natnormal k,
  spd (nn_prec p) -> spd (nn_prec q) -> (\tr (nn_prec p) <= T)%Re -> (dot (mean chol p) (mean chol p) <= V)%Re ->
  (kl chol p q < eps)%Re -> (frob (nn_prec q - nn_prec p) < eta)%Re /\ (frob (nn_lam q - nn_lam p) < eta)%Re.
Proof.
  move=> eta0.
  pose c := (Rabs (10 * (T * T)) + Rabs (2 * (T * (2 + 2 * INR k)) + 20 * (T * T * V)) + 1)%Re.
  have c1 : (1 <= c)%Re by rewrite /c; have := Rabs_pos (10 * (T * T))%Re; have := Rabs_pos (2 * (T * (2 + 2 * INR k)) + 20 * (T * T * V))%Re; lra.
  have c0 : (0 < eta / c)%Re by apply: Rdiv_lt_0_compat; lra.
  exists (Rmin (1 / 2) (eta / c / 2)); split; first by apply: Rmin_pos; lra.
  move=> p q Hp Hq HT HV Hk.
  have k0 := kl_ge0 Hc Hp Hq.
  have e1 : (2 * kl chol p q <= 1)%Re by have := Rmin_l (1 / 2) (eta / c / 2); lra.
  have e2 : (2 * kl chol p q < eta / c)%Re by have := Rmin_r (1 / 2) (eta / c / 2); lra.
  have ce : (c * (2 * kl chol p q) < eta)%Re.
    have := Rmult_lt_compat_l c _ _ (Rlt_le_trans _ _ _ Rlt_0_1 c1) e2.
    by rewrite (_ : c * (eta / c) = eta)%Re //; field; lra.
  have t0 : (0 <= \tr (nn_prec p))%Re by rewrite -(frob_chol (Hc Hp)); exact: frob_ge0.
  have v0 := dot_ge0 (mean chol p).
  have A := prec_close Hp Hq; have B := lam_close Hp Hq; cbv zeta in A, B.
  have [A' B'] := lin_aux t0 HT v0 HV (ltac:(lra) : (0 <= 2 * kl chol p q)%Re) e1 (pos_INR k).
  have H (a : R) : (a <= Rabs a)%Re by exact: Rle_abs.
  have ac : (10 * (T * T) <= c)%Re.
    by rewrite /c; have := H (10 * (T * T))%Re; have := Rabs_pos (2 * (T * (2 + 2 * INR k)) + 20 * (T * T * V))%Re; lra.
  have bc : (2 * (T * (2 + 2 * INR k)) + 20 * (T * T * V) <= c)%Re.
    by rewrite /c; have := H (2 * (T * (2 + 2 * INR k)) + 20 * (T * T * V))%Re; have := Rabs_pos (10 * (T * T))%Re; lra.
  have e0 : (0 <= 2 * kl chol p q)%Re by lra.
  split; apply: Rle_lt_trans ce.
    by apply: (Rle_trans _ _ _ A); apply: (Rle_trans _ _ _ A'); apply: Rmult_le_compat_r.
  by apply: (Rle_trans _ _ _ B); apply: (Rle_trans _ _ _ B'); apply: Rmult_le_compat_r.
Qed.

Lemma rms_small a b (X Y : 'M[R]_(a, b)) (tol : R) : (0 < tol)%Re -> (frob (X - Y) < tol * tol)%Re -> (rms X Y < tol)%Re.
Proof.
  move=> t0 H.
  rewrite /rms (_ : \sum_i \sum_j ((X i j - Y i j) * (X i j - Y i j))%Re = frob (X - Y)); last first.
    by apply: eq_bigr => i _; apply: eq_bigr => j _; rewrite !mxE.
  have H1 : (frob (X - Y)%R / INR (a * b) <= frob (X - Y)%R)%Re.
    case E : (a * b)%N => [|k].
      have -> : frob (X - Y) = 0.
        case: a X Y H E => [|a] X Y H E; first by rewrite /frob big_ord0.
        case: b X Y H E => [|b] X Y H E //; by rewrite /frob big1 // => i _; rewrite big_ord0.
      by rewrite /Rdiv Rmult_0_l; exact: Rle_refl.
    have K : (1 <= INR k.+1)%Re by rewrite S_INR; have := pos_INR k; lra.
    have F0 := frob_ge0 (X - Y).
    apply: (Rmult_le_reg_r (INR k.+1)); first lra.
    rewrite /Rdiv Rmult_assoc Rinv_l; last lra.
    by apply: Rmult_le_compat_l.
  rewrite -(sqrt_square tol); last lra.
  case: (Rle_dec 0 (frob (X - Y)%R / INR (a * b))) => P.
    by apply: sqrt_lt_1_alt; split => //; lra.
  rewrite sqrt_neg_0; last lra.
  rewrite sqrt_square; lra.
Qed.

Lemma tr_f_bounded (C : R) : exists T, forall qz, spd (nn_prec qz) -> (kl chol qz pz <= C)%Re -> (\tr (nn_prec (f qz)) <= T)%Re.
Proof.
  have [b Hb] := m2_bounded C (HKz WP).
  have [T HT] := optimal_bounded (ts_A_sum ts) (ts_I_uz ts) (ts_I_uz_sum ts) (K_u m) b (Hnoise WP).
  by exists T => qz Hz Hk; apply: HT; apply: Hb.
Qed.
Lemma tr_g_bounded (C : R) : exists T, forall qu, spd (nn_prec qu) -> (kl chol qu pu <= C)%Re -> (\tr (nn_prec (g qu)) <= T)%Re.
Proof.
  have [b Hb] := m2_bounded C (HKu WP).
  have [T HT] := optimal_bounded (ts_B_sum ts) (fun i => (ts_I_uz ts i)^T) (ts_I_uz_sum ts)^T (K_z m) b (Hnoise WP).
  by exists T => qu Hu Hk; apply: HT; apply: Hb.
Qed.

Definition inv (l T : R) (qu : natnormal nu) (qz : natnormal nz) : Prop :=
  [/\ spd (nn_prec qu), spd (nn_prec qz), (l <= F qu qz)%Re, (\tr (nn_prec qu) <= T)%Re & (\tr (nn_prec qz) <= T)%Re].

Lemma inv_step l T0 : exists T, (T0 <= T)%Re /\ forall qu qz, inv l T qu qz -> inv l T (f qz) (g (f qz)).
Proof.
  have [C HC] := kls_bounded l; have [T1 H1] := tr_f_bounded C; have [T2 H2] := tr_g_bounded C.
  exists (Rmax T0 (Rmax T1 T2)); split; first exact: Rmax_l.
  have M1 : (T1 <= Rmax T0 (Rmax T1 T2))%Re by apply: (Rle_trans _ (Rmax T1 T2)); [exact: Rmax_l|exact: Rmax_r].
  have M2 : (T2 <= Rmax T0 (Rmax T1 T2))%Re by apply: (Rle_trans _ (Rmax T1 T2)); [exact: Rmax_r|exact: Rmax_r].
  move=> qu qz [Hu Hz HF Tu Tz].
  have Hu' := proper_f Hz; have Hz' := proper_g Hu'.
  have G := gain Hu Hz; cbv zeta in G; rewrite -/f -/g -/F in G.
  have k1 := kl_ge0 Hc Hu Hu'; have k2 := kl_ge0 Hc Hz Hz'.
  have HF' : (l <= F (f qz) (g (f qz)))%Re by lra.
  have [_ Cz] := HC _ _ Hu Hz HF; have [Cu _] := HC _ _ Hu' Hz' HF'.
  split=> //; [exact: Rle_trans (H1 _ Hz Cz) M1|exact: Rle_trans (H2 _ Hu' Cu) M2].
Qed.

Lemma small_gain l T tol : (0 < tol)%Re -> exists eps, (0 < eps)%Re /\ forall qu qz, inv l T qu qz ->
  (F (f qz) (g (f qz)) < F qu qz + eps)%Re -> (diff (f qz) (g (f qz)) qu qz < tol)%Re.
Proof.
  move=> t0; have [C HC] := kls_bounded l.
  have [Vu HVu] := mean_bounded C (HKu WP); have [Vz HVz] := mean_bounded C (HKz WP).
  have eta0 : (0 < tol / 4 * (tol / 4))%Re by apply: Rmult_lt_0_compat; lra.
  have [e1 [e10 E1]] := @close nu T Vu _ eta0; have [e2 [e20 E2]] := @close nz T Vz _ eta0.
  exists (Rmin e1 e2); split; first exact: Rmin_pos.
  move=> qu qz [Hu Hz HF Tu Tz] G.
  have Hu' := proper_f Hz; have Hz' := proper_g Hu'.
  have GE := gain Hu Hz; cbv zeta in GE; rewrite -/f -/g -/F in GE.
  have k1 := kl_ge0 Hc Hu Hu'; have k2 := kl_ge0 Hc Hz Hz'.
  have m1 := Rmin_l e1 e2; have m2 := Rmin_r e1 e2.
  have [Cu Cz] := HC _ _ Hu Hz HF.
  have [A1 A2] := E1 _ _ Hu Hu' Tu (HVu _ Hu Cu) (ltac:(lra) : (kl chol qu (f qz) < e1)%Re).
  have [B1 B2] := E2 _ _ Hz Hz' Tz (HVz _ Hz Cz) (ltac:(lra) : (kl chol qz (g (f qz)) < e2)%Re).
  have t4 : (0 < tol / 4)%Re by lra.
  have := rms_small t4 A1; have := rms_small t4 A2; have := rms_small t4 B1; have := rms_small t4 B2.
  by rewrite /diff; lra.
Qed.

Lemma loop_stops l T eps U : (0 < eps)%Re ->
  (forall qu qz, inv l T qu qz -> inv l T (f qz) (g (f qz))) ->
  (forall qu qz, inv l T qu qz -> (F qu qz <= U)%Re) ->
  (forall qu qz, inv l T qu qz -> (F (f qz) (g (f qz)) < F qu qz + eps)%Re -> (diff (f qz) (g (f qz)) qu qz < 1 / 10 ^ 6)%Re) ->
  forall N qu qz, inv l T qu qz -> (U - F qu qz < INR N * eps)%Re ->
  exists r before, let old := last (qu, qz) before in
    (forall iters, (N <= iters)%N -> ca_loop chol m ts iters qu qz = (r, rcons before r)) /\
    (size (rcons before r) <= N)%N /\ spd (nn_prec old.2) /\ r = (f old.2, g (f old.2)) /\
    (diff r.1 r.2 old.1 old.2 < 1 / 10 ^ 6)%Re.
Proof.
  move=> e0 Hs HU Hd; elim=> [|N IH] qu qz I B; first by have := HU _ _ I; rewrite /= in B; lra.
  case D : (Rlt_dec (diff (f qz) (g (f qz)) qu qz) (1 / 10 ^ 6)%Re) => [H|H].
    exists (f qz, g (f qz)), [::]; split; last by case: I.
    by case=> [//|k] _; rewrite /= -/(f qz) -/(g (f qz)) D.
  have G : (F qu qz + eps <= F (f qz) (g (f qz)))%Re.
    by apply: Rnot_lt_le => L; exact: (H (Hd _ _ I L)).
  have I' := Hs _ _ I; rewrite S_INR in B.
  have [r [bf [E [S Q]]]] := IH _ _ I' (ltac:(lra) : (U - F (f qz) (g (f qz)) < INR N * eps)%Re).
  exists r, ((f qz, g (f qz)) :: bf); split; last by split.
  by case=> [//|k] K; rewrite /= -/(f qz) -/(g (f qz)) D E.
Qed.

Lemma ca_stops qu qz : spd (nn_prec qu) -> spd (nn_prec qz) -> exists N r before,
  let old := last (qu, qz) before in
    (forall iters, (N <= iters)%N -> ca_loop chol m ts iters qu qz = (r, rcons before r)) /\
    (size (rcons before r) <= N)%N /\ spd (nn_prec old.2) /\ r = (f old.2, g (f old.2)) /\
    (diff r.1 r.2 old.1 old.2 < 1 / 10 ^ 6)%Re.
Proof.
  move=> Hu Hz; pose l := F qu qz; pose T0 := Rmax (\tr (nn_prec qu)) (\tr (nn_prec qz)).
  have [T [HT Hs]] := inv_step l T0; have [U HU] := F_bounded.
  have t0 : (0 < 1 / 10 ^ 6)%Re by apply: Rdiv_lt_0_compat; [lra|apply: pow_lt; lra].
  have [eps [e0 Hd]] := small_gain l T t0.
  have I : inv l T qu qz.
    split=> //; [exact: Rle_refl|apply: (Rle_trans _ T0) => //; exact: Rmax_l|apply: (Rle_trans _ T0) => //; exact: Rmax_r].
  have HU' qu' qz' : inv l T qu' qz' -> (F qu' qz' <= U)%Re by case=> A B _ _ _; exact: HU.
  have [N HN] := archimed_nat ((U - l) / eps)%Re.
  exists N; apply: (loop_stops e0 Hs HU' Hd I).
  have := Rmult_lt_compat_r eps _ _ e0 HN; rewrite (_ : (U - l) / eps * eps = U - l)%Re //; field; lra.
Qed.
End Ascent.
End Close.
