(** Proofs about the prediction of filters. *)
From Coq Require Import Reals Lra Psatz.
From mathcomp Require Import all_ssreflect all_algebra.
From Verif Require Import Py RMat RChol RTac NormalModel NormalSpec NormalProofs SampleProofs ApproxProofs3.
From Verif Require Import ExpPolyIntModel ExpPolyIntProofs GpcmModel RgpcmModel GpcmBridge GpcmWell GpcmKernelPsd FilterModel FilterSpec.
From Verif Require GaussFeat FilterKernel RgpcmCov GpcmEntries.
Set Implicit Arguments.
Unset Strict Implicit.
Unset Printing Implicit Defensive.
Import GRing.Theory.
Local Open Scope ring_scope.
Delimit Scope R_scope with Re.

Lemma kmat_tr k a b (s : 'I_a -> R) (t : 'I_b -> R) : (forall x y, k x y = k y x) -> (kmat k s t)^T = kmat k t s.
Proof. by move=> H; apply/matrixP => i j; rewrite !mxE H. Qed.

Lemma cov_sym k : covariance_function k -> forall x y, k x y = k y x.
Proof.
  move=> H x y; have [S _] := H 2%N (fun i => if i == ord0 then x else y).
  by have := congr1 (fun M : 'M[R]_2 => M ord_max ord0) S; rewrite !mxE.
Qed.

Lemma cov_joint k : covariance_function k -> forall a b (s : 'I_a -> R) (t : 'I_b -> R) (x : 'cV[R]_a) (w : 'cV[R]_b),
  (0 <= dot x (kmat k s s *m x)%R + 2 * dot x (kmat k s t *m w)%R + dot w (kmat k t t *m w)%R)%Re.
Proof.
  move=> H a b s t x w; pose r (i : 'I_(a + b)) := match split i with inl i => s i | inr j => t j end.
  have := proj2 (H _ r) (col_mx x w).
  have -> : kmat k r r = block_mx (kmat k s s) (kmat k s t) (kmat k t s) (kmat k t t).
    by apply/matrixP => i j; rewrite !mxE /r; case: (split i) => i'; rewrite !mxE; case: (split j) => j'; rewrite !mxE.
  rewrite mul_block_col.
  have -> (p : 'cV[R]_a) (q : 'cV[R]_b) : dot (col_mx x w) (col_mx p q) = dot x p + dot w q.
    rewrite /dot big_split_ord /=; congr (_ + _); apply: eq_bigr => i _.
      by rewrite !col_mxEu.
    by rewrite !col_mxEd.
  rewrite !dotDr.
  have -> : dot w (kmat k t s *m x) = dot x (kmat k s t *m w).
    by rewrite dot_mx (kmat_tr _ _ (cov_sym H)) dotC.
  move: (dot x _) (dot x _) (dot w _) => p q r'; rnorm => ?; lra.
Qed.

Lemma dotBr n (x y z : 'cV[R]_n) : dot x (y - z) = dot x y - dot x z.
Proof. by rewrite dotDr dotNr. Qed.

Section Chol.
Variables (chol : forall n, 'M[R]_n -> 'M[R]_n) (Hc : chol_ok chol).
Variables (k : R -> R -> R) (Hk : covariance_function k) (eps : R) (He : (0 <= eps)%Re).
Variables (nu n : nat) (t_u : 'I_nu -> R) (t : 'I_n -> R).
Let A := kmat k t_u t_u + eps%:M.
Hypothesis HA : spd A.

Lemma pvarE : posterior_var chol k eps t_u t = kmat k t t - kmat k t t_u *m (invmx A *m kmat k t_u t).
Proof. by rewrite /posterior_var pd_invE. Qed.

Lemma pvar_psd : psd (posterior_var chol k eps t_u t).
Proof.
  have Sk := cov_sym Hk; rewrite pvarE; split.
    rewrite /symm linearB /= !trmx_mul !(kmat_tr _ _ Sk) (symm_inv (proj1 HA)); congr (_ - _).
    by rewrite !mulmxA.
  move=> x; pose w := - (invmx A *m (kmat k t_u t *m x)).
  have J := cov_joint Hk t t_u x w.
  have Ew : A *m w = - (kmat k t_u t *m x) by rewrite /w mulmxN mulmxA mulmxV ?mul1mx // spd_unit.
  have E1 : dot w (kmat k t_u t_u *m w) = (- dot x (kmat k t t_u *m w)%R - eps * dot w w)%Re.
    have -> : kmat k t_u t_u = A - eps%:M by rewrite /A addrK.
    rewrite mulmxBl mul_scalar_mx dotBr Ew dotNr dotZr dot_mx (kmat_tr _ _ Sk) dotC.
    by rnorm.
  have E2 : dot x (kmat k t t_u *m w) = - dot x (kmat k t t_u *m (invmx A *m kmat k t_u t) *m x).
    by rewrite /w mulmxN dotNr !mulmxA.
  rewrite mulmxBl dotBr.
  have W := dot_ge0 w; have P := Rmult_le_pos _ _ He W.
  move: J; rewrite E1 E2; move: P; move: (dot x _) (dot x _) (dot w w) => p q r; rnorm => ? ?; lra.
Qed.

(** A kernel that vanishes at a point, and a point where the process is known: the variance
    is zero there. *)
Lemma root_row root i : root_ok root -> posterior_var chol k eps t_u t i i = 0 ->
  forall e : 'cV[R]_n, (root n (posterior_var chol k eps t_u t) *m e) i ord0 = 0.
Proof.
  move=> Hr Z e; have := Hr _ _ pvar_psd; set L := root n _ => E.
  have := congr1 (fun M : 'M[R]_n => M i i) E; rewrite Z mxE => S.
  rewrite mxE big1 // => j _.
  suff -> : L i j = 0 by rewrite mul0r.
  have H : forall j, Rle 0 (L i j * L^T j i) by move=> l; rewrite mxE; have := Rle_0_sqr (L i l).
  move: S; rewrite (bigD1 j) //= => S.
  have R0 : Rle 0 (\sum_(l < n | l != j) L i l * L^T l i).
    elim/big_rec: _ => [|l y _ Hy]; first exact: Rle_refl.
    exact: Rplus_le_le_0_compat.
  have H0 : (0 <= L i j * L i j)%Re by exact: Rle_0_sqr.
  move: S; rewrite [X in _ * X + _]mxE => S.
  have S0 : (L i j * L i j = 0)%Re.
    by move: S R0 H0; move: (\sum_(_ < n | _) _) => r; rnorm => ? ? ?; lra.
  by case: (Rmult_integral _ _ S0).
Qed.
End Chol.

Section Linear.
Variables (Omega : Type) (E : expectation Omega).

Lemma moments_linear a b (M : 'M[R]_(a, b)) (x : Omega -> 'cV[R]_b) S :
  has_moments E x 0 S -> has_moments E (fun w => M *m x w) 0 (M *m S *m M^T).
Proof.
  move=> Hx; have H2 := moments_second Hx; have [H1 _] := Hx; split.
    move=> i k; rewrite ord1 [RHS]mxE (_ : E _ = E (fun w => \sum_j Rmult (M i j) (x w j ord0))); last first.
      by apply: E_ext => w; rewrite mxE.
    by rewrite E_sum big1 // => j _; rewrite E_scale H1 mxE; exact: Rmult_0_r.
  move=> i j k l; rewrite !ord1 eqxx.
  rewrite (_ : E _ = E (fun w => \sum_(ab : 'I_b * 'I_b) Rmult (Rmult (M i ab.1) (M j ab.2)) (Rmult (x w ab.1 ord0) (x w ab.2 ord0)))); last first.
    apply: E_ext => w; rewrite !mxE !Rminus_0_r -[LHS]/((\sum_c M i c * x w c ord0) * (\sum_c M j c * x w c ord0)) mulr_suml.
    rewrite -(pair_bigA _ (fun c d => Rmult (Rmult (M i c) (M j d)) (Rmult (x w c ord0) (x w d ord0)))) /=.
    apply: eq_bigr => c _; rewrite mulr_sumr; apply: eq_bigr => d _; by rewrite mulrACA.
  rewrite E_sum -(pair_bigA _ (fun c d => E (fun w => Rmult (Rmult (M i c) (M j d)) (Rmult (x w c ord0) (x w d ord0))))) /=.
  rewrite mxE exchange_big; apply: eq_bigr => d _ /=; rewrite !mxE mulr_suml; apply: eq_bigr => c _.
  rewrite E_scale H2; rring.
Qed.

Lemma moments_shift n (x : Omega -> 'cV[R]_n) (m : 'cV[R]_n) S :
  has_moments E x 0 S -> has_moments E (fun w => m + x w) m S.
Proof.
  move=> [H1 H2]; split.
    move=> i k; rewrite ord1 (_ : E _ = E (fun w => (m i ord0 + x w i ord0)%Re)); last by apply: E_ext => w; rewrite mxE.
    rewrite E_add E_const H1 mxE; exact: Rplus_0_r.
  move=> i j k l; rewrite -(H2 i j k l); apply: E_ext => w; rewrite !ord1 !mxE; rring.
Qed.

Lemma moments_centre n (x : Omega -> 'cV[R]_n) (m : 'cV[R]_n) S :
  has_moments E x m S -> has_moments E (fun w => x w - m) 0 S.
Proof.
  move=> [H1 H2]; split.
    move=> i k; rewrite ord1 (_ : E _ = E (fun w => (- m i ord0 + x w i ord0)%Re)); last by apply: E_ext => w; rewrite !mxE addrC.
    rewrite E_add E_const H1 mxE; exact: Rplus_opp_l.
  move=> i j k l; rewrite -(H2 i j k l); apply: E_ext => w; rewrite !ord1 !mxE; rring.
Qed.

Lemma moments_pair a b (x : Omega -> 'cV[R]_a) (y : Omega -> 'cV[R]_b) P Q :
  has_moments E x 0 P -> has_moments E y 0 Q -> uncorrelated E x y ->
  has_moments E (fun w => col_mx (x w) (y w)) 0 (block_mx P 0 0 Q).
Proof.
  move=> Hx Hy U; have [X1 _] := Hx; have [Y1 _] := Hy; have X2 := moments_second Hx; have Y2 := moments_second Hy; split.
    move=> i k; rewrite ord1 [RHS]mxE; case: (splitP i) => j Ej.
      have -> : i = lshift b j by apply: val_inj.
      transitivity (E (fun w => x w j ord0)); first by apply: E_ext => w; rewrite col_mxEu.
      by rewrite X1 mxE.
    have -> : i = rshift a j by apply: val_inj.
    transitivity (E (fun w => y w j ord0)); first by apply: E_ext => w; rewrite col_mxEd.
    by rewrite Y1 mxE.
  move=> i j k l; rewrite !ord1 eqxx.
  rewrite (_ : E _ = E (fun w => (col_mx (x w) (y w) i ord0 * col_mx (x w) (y w) j ord0)%Re)); last first.
    by apply: E_ext => w; rewrite [X in (_ - X)%Re]mxE [X in (_ * (_ - X))%Re]mxE !Rminus_0_r.
  case: (splitP i) => i' Ei; case: (splitP j) => j' Ej.
  - have -> : i = lshift b i' by apply: val_inj.
    have -> : j = lshift b j' by apply: val_inj.
    by rewrite block_mxEul -X2; apply: E_ext => w; rewrite !col_mxEu.
  - have -> : i = lshift b i' by apply: val_inj.
    have -> : j = rshift a j' by apply: val_inj.
    by rewrite block_mxEur mxE; apply: etrans (U i' j'); apply: E_ext => w; rewrite col_mxEu col_mxEd.
  - have -> : i = rshift a i' by apply: val_inj.
    have -> : j = lshift b j' by apply: val_inj.
    by rewrite block_mxEdl mxE; apply: etrans (U j' i'); apply: E_ext => w; rewrite col_mxEu col_mxEd Rmult_comm.
  - have -> : i = rshift a i' by apply: val_inj.
    have -> : j = rshift a j' by apply: val_inj.
    by rewrite block_mxEdr -Y2; apply: E_ext => w; rewrite !col_mxEd.
Qed.
End Linear.

(** ** Covariance functions from sums *)
Definition ofun n (t : 'I_n -> R) (i : nat) : R := if insub i is Some o then t o else 0.
Lemma ofunE n (t : 'I_n -> R) (i : 'I_n) : ofun t i = t i.
Proof. by rewrite /ofun valK. Qed.

Lemma kmat_sum k n (t : 'I_n -> R) x : 
  dot x (kmat k t t *m x) = Sum n (fun i => Sum n (fun j => ofcol x i * ofcol x j * k (ofun t i) (ofun t j)))%Re.
Proof. by apply: dot_mx_sum => i j; rewrite mxE !ofunE. Qed.

Lemma col_nonzero n (x : 'cV[R]_n) : x <> 0 -> exists i, (i < n)%coq_nat /\ ofcol x i <> 0%Re.
Proof.
  move=> Hx; have [i Hi] : exists i, x i ord0 != 0.
    apply/existsP; apply: contra_notT Hx => /existsPn H; apply/colP=> i; rewrite mxE.
    by apply/eqP; move: (H i); rewrite negbK.
  by exists i; split; [exact/ltP|rewrite ofcolE; apply/eqP].
Qed.

Lemma ofun_inj n (t : 'I_n -> R) : injective t -> forall i j, (i < n)%coq_nat -> (j < n)%coq_nat -> ofun t i = ofun t j -> i = j.
Proof.
  move=> Ht i j /ltP Hi /ltP Hj; rewrite -[i]/(nat_of_ord (Ordinal Hi)) -[j]/(nat_of_ord (Ordinal Hj)) !ofunE.
  by move/Ht => ->.
Qed.

Lemma gpcm_cov m k : (0 < g_gamma m)%Re -> (forall s t, k_h_kernel m s t = Ok (k s t)) -> covariance_function k.
Proof.
  move=> Pg Hk n t; split.
    apply/matrixP => i j; rewrite !mxE !(FilterKernel.kernel_value m Pg k Hk).
    by rewrite [X in exp (_ * X)](_ : _ = ((t i - t j) ^ 2)%Re); [rring|ring].
  move=> x; rewrite kmat_sum; exact: (FilterKernel.gk_psd m Pg k Hk).
Qed.

Lemma gpcm_strict m k : (0 < g_gamma m)%Re -> g_causal m = false -> (forall s t, k_h_kernel m s t = Ok (k s t)) ->
  strict_on (fun _ => True) k.
Proof.
  move=> Pg Ca Hk n t Ht _; split; first by case: (gpcm_cov Pg Hk t).
  move=> x /col_nonzero Hx; rewrite kmat_sum; apply: (FilterKernel.gk_pd m Pg k Hk) => //; exact: ofun_inj.
Qed.

Lemma rk_value m s t : rk_h_kernel m s t = (FilterKernel.rwin m s * FilterKernel.rwin m t * RgpcmCov.expk (r_lam m) s t)%Re.
Proof.
  rewrite /rk_h_kernel /FilterKernel.rwin /RgpcmCov.expk.
  have -> : (- (Rabs (s - t) / (1 / r_lam m)))%Re = (- r_lam m * Rabs (s - t))%Re.
    case: (Req_dec (r_lam m) 0) => [->|N]; last by field.
    rewrite /Rdiv !Rmult_1_l Ropp_0 Rmult_0_l Rinv_inv; ring.
  cbv beta zeta; move: (exp _) (exp _) (exp _) => p q r.
  destruct (Rle_dec 0 s), (Rle_dec 0 t); rewrite /=; ring.
Qed.

Lemma rgpcm_cov m : (0 < r_lam m)%Re -> covariance_function (rk_h_kernel m).
Proof.
  move=> Pl n t; split.
    apply/matrixP => i j; rewrite !mxE !rk_value RgpcmCov.expk_sym; rring.
  move=> x; rewrite kmat_sum; apply: (FilterKernel.ek_psd _ _ _ (rk_value m)); exact: Rlt_le.
Qed.

Lemma rgpcm_strict m : (0 < r_lam m)%Re -> strict_on (fun t => (0 <= t)%Re) (rk_h_kernel m).
Proof.
  move=> Pl n t Ht Dt; split; first by case: (rgpcm_cov Pl t).
  move=> x /col_nonzero Hx; rewrite kmat_sum; apply: (FilterKernel.ek_pd _ _ _ (rk_value m)) => //; last exact: ofun_inj.
  move=> i /ltP Hi; rewrite -[i]/(nat_of_ord (Ordinal Hi)) ofunE /FilterKernel.rwin.
  destruct (Rle_dec 0 (t (Ordinal Hi))) as [_|Hn]; last by case: Hn.
  rewrite Rmult_1_l; exact: Rgt_not_eq (exp_pos _).
Qed.
