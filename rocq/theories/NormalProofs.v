(** Proofs about the model of normal.py. *)
From Coq Require Import Reals Lra Psatz.
From mathcomp Require Import all_ssreflect all_algebra.
From Verif Require Import RMat RChol NormalModel NormalSpec.
Set Implicit Arguments.
Unset Strict Implicit.
Unset Printing Implicit Defensive.
Import GRing.Theory.
Local Open Scope ring_scope.
Delimit Scope R_scope with Re.

Lemma invmxM n (A B : 'M[R]_n) : A \in unitmx -> B \in unitmx ->
  invmx (A *m B) = invmx B *m invmx A.
Proof.
  move=> UA UB; have U : A *m B \in unitmx by rewrite unitmx_mul UA UB.
  apply: (can_inj (mulKmx U)); rewrite mulmxV // mulmxA -(mulmxA A) mulmxV // mulmx1 mulmxV //.
Qed.

Lemma sum_mulE m n (a b : 'M[R]_(m, n)) : sum_mul a b = \tr (a^T *m b).
Proof.
  rewrite /sum_mul /mxtrace exchange_big; apply: eq_bigr => j _; rewrite mxE.
  by apply: eq_bigr => i _; rewrite mxE.
Qed.

Lemma sum_mul_col n (a b : 'cV[R]_n) : sum_mul a b = dot a b.
Proof. by rewrite /sum_mul /dot; apply: eq_bigr => i _; rewrite big_ord1. Qed.

Lemma sum_mulC m n (a b : 'M[R]_(m, n)) : sum_mul a b = sum_mul b a.
Proof. by apply: eq_bigr => i _; apply: eq_bigr => j _; rewrite mulrC. Qed.
Lemma sum_mulDl m n (a b c : 'M[R]_(m, n)) : sum_mul (a + b) c = sum_mul a c + sum_mul b c.
Proof. by rewrite !sum_mulE linearD mulmxDl linearD. Qed.
Lemma sum_mulDr m n (a b c : 'M[R]_(m, n)) : sum_mul a (b + c) = sum_mul a b + sum_mul a c.
Proof. by rewrite sum_mulC sum_mulDl !(sum_mulC a). Qed.
Lemma sum_mulNl m n (a b : 'M[R]_(m, n)) : sum_mul (- a) b = - sum_mul a b.
Proof. by rewrite !sum_mulE linearN mulNmx linearN. Qed.
Lemma sum_mulNr m n (a b : 'M[R]_(m, n)) : sum_mul a (- b) = - sum_mul a b.
Proof. by rewrite sum_mulC sum_mulNl sum_mulC. Qed.
Lemma sum_mulZl m n x (a b : 'M[R]_(m, n)) : sum_mul (x *: a) b = x * sum_mul a b.
Proof. by rewrite !sum_mulE linearZ -scalemxAl linearZ. Qed.
Lemma sum_mulZr m n x (a b : 'M[R]_(m, n)) : sum_mul a (x *: b) = x * sum_mul a b.
Proof. by rewrite sum_mulC sum_mulZl sum_mulC. Qed.
Lemma sum_mul0l m n (a : 'M[R]_(m, n)) : sum_mul 0 a = 0.
Proof. by rewrite sum_mulE trmx0 mul0mx linear0. Qed.
Lemma sum_mul0r m n (a : 'M[R]_(m, n)) : sum_mul a 0 = 0.
Proof. by rewrite sum_mulC sum_mul0l. Qed.
Lemma sum_mul_sumr m n (I : finType) (a : 'M[R]_(m, n)) (F : I -> 'M[R]_(m, n)) :
  sum_mul a (\sum_i F i) = \sum_i sum_mul a (F i).
Proof. by elim/big_rec2: _ => [|i x y _ <-]; rewrite ?sum_mul0r // sum_mulDr. Qed.
Lemma sum_mul_suml m n (I : finType) (a : 'M[R]_(m, n)) (F : I -> 'M[R]_(m, n)) :
  sum_mul (\sum_i F i) a = \sum_i sum_mul (F i) a.
Proof. by rewrite sum_mulC sum_mul_sumr; apply: eq_bigr => i _; rewrite sum_mulC. Qed.

(** [sum_mul A (x y^T) = x^T A y]. *)
Lemma sum_mul_outer m n (a : 'M[R]_(m, n)) (x : 'cV[R]_m) (y : 'cV[R]_n) :
  sum_mul a (x *m y^T) = dot x (a *m y).
Proof.
  rewrite /sum_mul /dot; apply: eq_bigr => i _; rewrite mxE mulr_sumr.
  by apply: eq_bigr => j _; rewrite mxE big_ord1 mxE mulrCA.
Qed.

Section Chol.
Variable chol : forall n, 'M[R]_n -> 'M[R]_n.
Hypothesis Hc : chol_ok chol.

Lemma cholsolveE n m (A : 'M[R]_n) (b : 'M[R]_(n, m)) : spd A ->
  cholsolve (chol A) b = invmx A *m b.
Proof.
  move=> H; have [HL [PL EL]] := Hc H; have U := lower_unit HL PL.
  by rewrite /cholsolve /solve mulmxA -invmxM ?unitmx_tr // EL.
Qed.

Lemma pd_invE n (A : 'M[R]_n) : spd A -> pd_inv chol A = invmx A.
Proof. by move=> H; rewrite /pd_inv cholsolveE // mulmx1. Qed.

Lemma logdetE n (A : 'M[R]_n) : spd A -> logdet chol A = ln (\det A).
Proof.
  move=> H; have HA := Hc H; have [HL [PL EL]] := HA; rewrite (is_chol_det HA) /logdet.
  have P : Rlt 0 (\prod_i chol A i i) by apply: prodR_gt0.
  by rewrite [X in ln X]RmultE ln_mult // ln_prodR // RIneq.double.
Qed.

Lemma iqfE n (A : 'M[R]_n) (b : 'cV[R]_n) : spd A -> iqf chol A b = dot b (invmx A *m b).
Proof.
  move=> H; have [HL [PL EL]] := Hc H; have U := lower_unit HL PL.
  rewrite /iqf sum_mul_col /solve dot_mxl mulmxA trmx_inv -invmxM ?unitmx_tr //.
  by rewrite EL.
Qed.

Lemma symm_inv n (A : 'M[R]_n) : symm A -> symm (invmx A).
Proof. by rewrite /symm trmx_inv => ->. Qed.

Lemma meanE n (p : natnormal n) : spd (nn_prec p) -> mean chol p = invmx (nn_prec p) *m nn_lam p.
Proof. exact: cholsolveE. Qed.

Lemma varE n (p : natnormal n) : spd (nn_prec p) -> var chol p = invmx (nn_prec p).
Proof. exact: pd_invE. Qed.

Lemma m2E n (p : natnormal n) : spd (nn_prec p) ->
  m2 chol p = invmx (nn_prec p) + mean chol p *m (mean chol p)^T.
Proof.
  move=> H; have U := spd_unit H; have S := symm_inv (proj1 H).
  rewrite /m2 !cholsolveE // meanE // trmx_mul S linearD /= trmx_mul trmxK (proj1 H).
  by rewrite mulmxDl mulmxV // mulmxDr mulmx1 trmx_mul S !mulmxA.
Qed.

Lemma double_inv n (A : 'M[R]_n) : invmx (invmx A) = A.
Proof. exact: invmxK. Qed.

Lemma ratio_det_aux (a b c : R) : Rmult a b = R1 ->
  Rmult (Rmult (Rmult a c) (Rmult a c)) (Rmult b b) = Rmult c c.
Proof.
  move=> E; have -> : Rmult (Rmult (Rmult a c) (Rmult a c)) (Rmult b b) =
    Rmult (Rmult (Rmult a b) (Rmult a b)) (Rmult c c) by ring.
  rewrite E; ring.
Qed.

(** The KL divergence in terms of the ratio of the Cholesky factors. *)
Lemma ratio_facts n (P Q L M : 'M[R]_n) : is_chol P L -> is_chol Q M ->
  let r := solve L M in
  [/\ lower r, posdiag r, spd (r^T *m r), \tr (r^T *m r) = \tr (invmx P *m Q)
    & \det (r^T *m r) * \det P = \det Q].
Proof.
  move=> [HL [PL <-]] [HM [PM <-]] r.
  have U := lower_unit HL PL; have U' := lower_unit HM PM.
  have lr : lower r by apply: lower_mul => //; exact: lower_inv.
  have pr : posdiag r by apply: posdiag_mul => //; [exact: lower_inv|exact: posdiag_inv].
  have Ur := lower_unit lr pr.
  split=> //.
  - have := @spd_conj n 1%:M r^T (spd1 n); rewrite mulmx1 trmxK; apply.
    by rewrite unitmx_tr.
  - rewrite [RHS]mxtrace_mulC invmxM ?unitmx_tr // /r /solve trmx_mul trmx_inv.
    by rewrite !mulmxA [RHS]mxtrace_mulC -!mulmxA [RHS]mxtrace_mulC !mulmxA [LHS]mxtrace_mulC !mulmxA.
  - rewrite !det_mulmx !det_tr /r /solve !det_mulmx.
    have E1 : \det (invmx L) * \det L = 1 by rewrite -det_mulmx mulVmx // det1.
    by exact: ratio_det_aux.
Qed.

Lemma klE n (p q : natnormal n) : spd (nn_prec p) -> spd (nn_prec q) ->
  kl chol p q = gaussian_kl (invmx (nn_prec p) *m nn_lam p) (invmx (nn_prec p))
                            (invmx (nn_prec q) *m nn_lam q) (invmx (nn_prec q)).
Proof.
  move=> Hp Hq; have [lr pr sr tr dr] := ratio_facts (Hc Hp) (Hc Hq).
  rewrite /kl /gaussian_kl sum_mulE tr logdetE // sum_mul_col -!meanE // !invmxK.
  have -> : \tr (nn_prec q *m invmx (nn_prec p)) = \tr (invmx (nn_prec p) *m nn_prec q).
    exact: mxtrace_mulC.
  have -> : ln (\det ((solve (chol (nn_prec p)) (chol (nn_prec q)))^T *m
      solve (chol (nn_prec p)) (chol (nn_prec q)))) =
      ln (Rdiv (\det (invmx (nn_prec p))) (\det (invmx (nn_prec q)))).
    congr ln.
    have Np := Rneq0 (spd_det_gt0 Hp); have Nq := Rneq0 (spd_det_gt0 Hq).
    have Ni : (\det (nn_prec q))^-1 != 0 by rewrite invr_eq0.
    rewrite !det_inv /Rdiv -(RinvE (elimN eqP Ni)) invrK.
    rewrite -[X in (X * _)%Re]mul1r -dr; set d := \det (_^T *m _).
    by rewrite -[RHS]/(1 * (\det (nn_prec p))^-1 * (d * \det (nn_prec p))) mul1r mulrCA mulVf // mulr1.
  set d := mean chol p - mean chol q.
  have -> : mean chol q - mean chol p = - d by rewrite opprB.
  by rewrite mulmxN dotNl dotNr opprK (dotC d).
Qed.

Lemma logpdfE n (p : natnormal n) x : spd (nn_prec p) ->
  logpdf chol p x = gaussian_logpdf (invmx (nn_prec p) *m nn_lam p) (invmx (nn_prec p)) x.
Proof.
  move=> Hp; have P := spd_det_gt0 Hp; have N := Rneq0 P.
  rewrite /logpdf /gaussian_logpdf logdetE // sum_mul_col -meanE // invmxK det_inv.
  rewrite (RinvE (elimN eqP N)) ln_Rinv // (dotC (nn_prec p *m _)).
  by congr Rmult; rewrite (Rplus_comm (- ln _)).
Qed.

Lemma ln_gap (x : R) : Rlt 0 x -> Rle 0 (Rminus (Rminus x 1) (ln x)).
Proof.
  move=> H; have {2}-> : x = exp (ln x) by rewrite exp_ln.
  have := exp_ineq1_le (ln x); rewrite exp_ln // => ?; lra.
Qed.
Lemma ln_gap0 (x : R) : Rlt 0 x -> Rminus (Rminus x 1) (ln x) = R0 -> x = R1.
Proof.
  move=> H E; case: (Req_dec (ln x) R0) => E0.
    by rewrite -(exp_ln _ H) E0 exp_0.
  have := exp_ineq1 (ln x) E0; rewrite exp_ln // => ?; lra.
Qed.

Lemma INRE n : INR n = n%:R :> R.
Proof. by elim: n => [//|n IH]; rewrite S_INR IH mulrS addrC. Qed.

Lemma ln_sq (x : R) : Rlt 0 x -> ln (Rmult x x) = Rplus (ln x) (ln x).
Proof. by move=> H; rewrite ln_mult. Qed.

Definition ratio_gap n (r : 'M[R]_n) (i : 'I_n) : R :=
  (r i i * r i i - 1 - ln (r i i * r i i) + \sum_(j | j != i) (r i j * r i j))%Re.

Lemma ratio_gap_ge0 n (r : 'M[R]_n) i : posdiag r -> Rle 0 (ratio_gap r i).
Proof.
  move=> P; apply: Rplus_le_le_0_compat.
    by apply: ln_gap; apply: Rmult_lt_0_compat.
  by apply: sumR_ge0 => j _; exact: Rle_0_sqr.
Qed.

Lemma Rsum0l (a b : R) : Rle 0 a -> Rle 0 b -> Rplus a b = R0 -> a = R0.
Proof. by move=> *; lra. Qed.
Lemma Rsum0r (a b : R) : Rle 0 a -> Rle 0 b -> Rplus a b = R0 -> b = R0.
Proof. by move=> *; lra. Qed.

Lemma ratio_gap_eq0 n (r : 'M[R]_n) i : posdiag r -> ratio_gap r i = R0 ->
  r i i = R1 /\ forall j, j != i -> r i j = 0.
Proof.
  move=> P E.
  have H1 : Rle 0 (Rminus (Rminus (Rmult (r i i) (r i i)) 1) (ln (Rmult (r i i) (r i i)))).
    by apply: ln_gap; apply: Rmult_lt_0_compat.
  have H2 : Rle 0 (\sum_(j | j != i) (Rmult (r i j) (r i j))).
    by apply: sumR_ge0 => j _; exact: Rle_0_sqr.
  have E1 := Rsum0l H1 H2 E; have E2 := Rsum0r H1 H2 E.
  split.
    apply: Rsq_one => //; apply: ln_gap0 E1; exact: Rmult_lt_0_compat.
  move=> j Hj.
  have E3 : \sum_j (if j != i then Rmult (r i j) (r i j) else 0) = 0.
    by rewrite -big_mkcond.
  have := sumR_eq0 _ E3 j; rewrite Hj => E4.
  have : Rmult (r i j) (r i j) = 0.
    by apply: E4 => k; case: ifP => _; [exact: Rle_0_sqr|exact: Rle_refl].
  by move/eqP; rewrite -[Rmult _ _]/(r i j * r i j) mulf_eq0 orbb => /eqP.
Qed.

Lemma gap_aux (a s l : R) : (a + s - l - 1 = a - 1 - l + s)%Re.
Proof. ring. Qed.

Lemma ratio_gap_sum n (r : 'M[R]_n) : lower r -> posdiag r -> spd (r^T *m r) ->
  (sum_mul r r - logdet chol (r^T *m r) - INR n)%Re = \sum_i ratio_gap r i.
Proof.
  move=> lr pr sr; rewrite logdetE //.
  have -> : \det (r^T *m r) = Rmult (\prod_i r i i) (\prod_i r i i).
    by rewrite det_mulmx det_tr lower_det.
  rewrite ln_sq; last exact: prodR_gt0.
  have EI : n%:R = \sum_(i < n) (1 : R) by rewrite sumr_const card_ord.
  rewrite ln_prodR // INRE EI.
  rewrite -[LHS]/(sum_mul r r - (\sum_i ln (r i i) + \sum_i ln (r i i)) - \sum_(i < n) 1).
  rewrite -big_split -!sumrB /sum_mul; apply: eq_bigr => i _.
  rewrite /ratio_gap ln_sq // (bigD1 i) //=.
  rewrite -[RHS]/(r i i * r i i - 1 - (ln (r i i) + ln (r i i)) + \sum_(j | j != i) (r i j * r i j)).
  exact: gap_aux.
Qed.

Lemma kl_gap n (p q : natnormal n) : spd (nn_prec p) -> spd (nn_prec q) ->
  kl chol p q = (1 / 2 * (\sum_i ratio_gap (solve (chol (nn_prec p)) (chol (nn_prec q))) i
     + dot (mean chol p - mean chol q)%R (nn_prec q *m (mean chol p - mean chol q)%R)))%Re.
Proof.
  move=> Hp Hq; have [lr pr sr _ _] := ratio_facts (Hc Hp) (Hc Hq).
  rewrite -ratio_gap_sum // /kl sum_mul_col dotC; set a := sum_mul _ _.
  by congr Rmult; set b := logdet _ _; set c := dot _ _; move: a b c => a b c; ring.
Qed.

Lemma half_ge0 (a b : R) : Rle 0 a -> Rle 0 b -> Rle 0 (1 / 2 * (a + b))%Re.
Proof. by move=> *; lra. Qed.
Lemma half_eq0 (a b : R) : Rle 0 a -> Rle 0 b -> (1 / 2 * (a + b))%Re = R0 -> a = R0 /\ b = R0.
Proof. by move=> *; lra. Qed.

Lemma kl_ge0 n (p q : natnormal n) : spd (nn_prec p) -> spd (nn_prec q) -> Rle 0 (kl chol p q).
Proof.
  move=> Hp Hq; have [lr pr sr _ _] := ratio_facts (Hc Hp) (Hc Hq).
  rewrite kl_gap //; apply: half_ge0.
    by apply: sumR_ge0 => i _; exact: ratio_gap_ge0.
  exact: (proj2 (spd_psd Hq)).
Qed.

Lemma kl_eq0 n (p q : natnormal n) : spd (nn_prec p) -> spd (nn_prec q) ->
  kl chol p q = R0 -> p = q.
Proof.
  move=> Hp Hq E; have [lr pr sr _ _] := ratio_facts (Hc Hp) (Hc Hq).
  move: E; rewrite kl_gap // => /half_eq0; case.
  - by apply: sumR_ge0 => i _; exact: ratio_gap_ge0.
  - exact: (proj2 (spd_psd Hq)).
  move=> /(sumR_eq0 (fun i => ratio_gap_ge0 i pr)) E1 E2.
  have R1m : solve (chol (nn_prec p)) (chol (nn_prec q)) = 1%:M.
    apply/matrixP => i j; have [D O] := ratio_gap_eq0 pr (E1 i).
    rewrite [RHS]mxE; case: (i =P j) => [<-|/eqP N]; first exact: D.
    by apply: O; rewrite eq_sym.
  have [HL [PL EL]] := Hc Hp; have [HM [PM EM]] := Hc Hq.
  have UL := lower_unit HL PL.
  have Ec : chol (nn_prec q) = chol (nn_prec p).
    by rewrite -[LHS](mulKVmx UL) -/(solve _ _) R1m mulmx1.
  have EP : nn_prec p = nn_prec q by rewrite -EM Ec EL.
  have Ed : mean chol p - mean chol q = 0.
    case: (mean chol p - mean chol q =P 0) => // /(proj2 Hq); rewrite E2 => H.
    by case: (Rlt_irrefl _ H).
  have Em : nn_lam p = nn_lam q.
    have U := spd_unit Hq.
    have := subr0_eq Ed; rewrite !meanE // EP => /(congr1 (mulmx (nn_prec q))).
    by rewrite !mulKVmx.
  by case: p q EP Em {Hp Hq pr sr lr E1 E2 R1m HL PL EL HM PM EM UL Ec Ed} => [l1 P1] [l2 P2] /= -> ->.
Qed.

Lemma kl_refl n (p : natnormal n) : spd (nn_prec p) -> kl chol p p = R0.
Proof.
  move=> Hp; have [HL [PL EL]] := Hc Hp; have U := lower_unit HL PL.
  rewrite kl_gap // subrr mulmx0 dot0r /solve mulVmx // big1.
    by rewrite Rplus_0_l Rmult_0_r.
  move=> i _; rewrite /ratio_gap mxE eqxx mulr1n big1.
    by rewrite -[GRing.one _]/R1 Rmult_1_l ln_1; change (Rplus (Rminus (Rminus R1 1) 0) 0 = R0); ring.
  by move=> j Hj; rewrite mxE eq_sym (negbTE Hj); exact: Rmult_0_l.
Qed.

Section Moments.
Variables (Omega : Type) (E : expectation Omega).

Lemma E_const a : E (fun _ => a) = a.
Proof.
  by have := E_scale E a (fun _ => 1%Re); rewrite E_one Rmult_1_r => ->.
Qed.
Lemma E_sum (I : finType) (F : I -> Omega -> R) :
  E (fun w => \sum_i F i w) = \sum_i E (F i).
Proof.
  elim: (index_enum I) => [|i s IH].
    rewrite big_nil -[RHS]/R0 -[RHS](E_const R0); by apply: E_ext => w; rewrite big_nil.
  rewrite big_cons -IH -[RHS]/(Rplus _ _) -E_add; apply: E_ext => w.
  by rewrite big_cons.
Qed.

Lemma sample_entry n num (p : natnormal n) (noise : 'M[R]_(n, num)) i k : spd (nn_prec p) ->
  sample chol p noise i k =
  ((\sum_a invmx (nn_prec p) i a * noise a k) + (invmx (nn_prec p) *m nn_lam p) i ord0)%Re.
Proof.
  move=> H; rewrite /sample cholsolveE // mulmxDr mxE; congr Rplus.
    by rewrite mxE.
  by rewrite !mxE; apply: eq_bigr => a _; rewrite mxE.
Qed.

Lemma sub_aux (a b : R) : ((a + b) - b = a)%Re.
Proof. ring. Qed.

Lemma sample_moments n num (p : natnormal n) (noise : Omega -> 'M[R]_(n, num)) :
  spd (nn_prec p) -> has_moments E noise 0 (nn_prec p) ->
  has_moments E (fun w => sample chol p (noise w)) (invmx (nn_prec p) *m nn_lam p)
    (invmx (nn_prec p)).
Proof.
  move=> H [N1 N2]; set V := invmx (nn_prec p); split.
  - move=> i k.
    rewrite (E_ext E (fun w => sample_entry (noise w) i k H)) E_add E_const.
    rewrite (E_sum (fun a w => Rmult (V i a) (noise w a k))) big1.
      exact: Rplus_0_l.
    move=> a _; rewrite E_scale N1 mxE; exact: Rmult_0_r.
  - move=> i j k l.
    rewrite (_ : E _ = E (fun w => \sum_(ab : 'I_n * 'I_n) Rmult (Rmult (V i ab.1) (V j ab.2))
                (Rmult (noise w ab.1 k) (noise w ab.2 l)))); last first.
      apply: E_ext => w; rewrite !sample_entry // !sub_aux.
      rewrite -[LHS]/((\sum_a V i a * noise w a k) * (\sum_b V j b * noise w b l)).
      rewrite mulr_suml -(pair_bigA _ (fun a b => Rmult (Rmult (V i a) (V j b))
                (Rmult (noise w a k) (noise w b l)))) /=.
      apply: eq_bigr => a _; rewrite mulr_sumr; apply: eq_bigr => b _.
      by rewrite mulrACA.
    rewrite E_sum.
    rewrite (_ : \sum_ab _ = \sum_(ab : 'I_n * 'I_n) (V i ab.1 * V j ab.2) *
                (if k == l then nn_prec p ab.1 ab.2 else 0%Re)); last first.
      apply: eq_bigr => ab _; rewrite E_scale; congr Rmult; rewrite -N2.
      by apply: E_ext => w; rewrite !mxE; congr Rmult; rewrite Rminus_0_r.
    case: (k == l); last by rewrite big1 // => ab _; rewrite mulr0.
    rewrite -(pair_bigA _ (fun a b => V i a * V j b * nn_prec p a b)) /=.
    have S : symm V by apply: symm_inv; case: H.
    have EV : V *m nn_prec p *m V = V by rewrite /V mulVmx ?mul1mx // spd_unit.
    have -> : V i j = (V *m nn_prec p *m V) i j by rewrite EV.
    rewrite mxE exchange_big; apply: eq_bigr => b _ /=; rewrite mxE mulr_suml.
    apply: eq_bigr => a _; rewrite mulrAC; congr (_ * _).
    by rewrite -[in LHS]S mxE.
Qed.
End Moments.
End Chol.
