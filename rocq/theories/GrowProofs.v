(** Larger sets of inducing variables contain the posteriors of smaller ones.

    The smaller model has the inducing variables [E^T u'], for a matrix [E].  A posterior of the
    smaller model becomes one of the larger model by the conditional prior of the other variables. *)
From Coq Require Import Reals Lra.
From mathcomp Require Import all_ssreflect all_algebra.
From Verif Require Import Py RMat RChol RTac NormalModel NormalProofs ApproxModel ApproxSpec ApproxProofs GrowSpec.
Set Implicit Arguments.
Unset Strict Implicit.
Unset Printing Implicit Defensive.
Import GRing.Theory.
Local Open Scope ring_scope.
Delimit Scope R_scope with Re.

(** Sylvester's determinant identity. *)
Lemma sylvester a b (X : 'M[R]_(a, b)) (Y : 'M[R]_(b, a)) : \det (1%:M + X *m Y) = \det (1%:M + Y *m X).
Proof.
  have E1 : block_mx (1%:M + X *m Y) X 0 1%:M *m block_mx 1%:M 0 (- Y) 1%:M = block_mx (1%:M : 'M[R]_a) X (- Y) 1%:M.
    by rewrite mulmx_block !mulmx1 !mulmx0 ?mul0mx !mul1mx !mulmxN !add0r ?addr0 addrK.
  have E2 : block_mx 1%:M 0 (- Y) 1%:M *m block_mx (1%:M : 'M[R]_a) X 0 (1%:M + Y *m X) = block_mx (1%:M : 'M[R]_a) X (- Y) 1%:M.
    by rewrite mulmx_block !mulmx1 !mulmx0 ?mul0mx !mul1mx !mulNmx ?addr0 addrC addrK.
  have := congr1 determinant (etrans E1 (esym E2)).
  by rewrite !det_mulmx !det_ublock !det_lblock !det1 !mulr1 !mul1r.
Qed.

Lemma cancel_mid a b c d e (X : 'M[R]_(a, b)) (Y : 'M[R]_(b, c)) (F : 'M[R]_(c, b)) (D : 'M[R]_(b, d)) (Z : 'M[R]_(d, e)) :
  Y *m F = 1%:M -> X *m Y *m (F *m D *m Z) = X *m D *m Z.
Proof. by move=> H; rewrite !mulmxA -[X *m Y *m F]mulmxA H mulmx1. Qed.

Lemma sandwich_gen a b (E : 'M[R]_(a, b)) (Y : 'M[R]_(a, b)) (Z : 'M[R]_(b, a)) (A : 'M[R]_b) : E^T *m Y = 1%:M -> Z *m E = 1%:M ->
  E^T *m (Y *m A *m Z) *m E = A.
Proof. by move=> H1 H2; rewrite !mulmxA H1 mul1mx -mulmxA H2 mulmx1. Qed.
Lemma tr_sandwich_gen a b (E : 'M[R]_(a, b)) (Y : 'M[R]_(a, b)) (Z : 'M[R]_(b, a)) (A I : 'M[R]_b) (J : 'M[R]_a) :
  J *m Y = E *m I -> Z *m E = 1%:M -> \tr (Y *m A *m Z *m J) = \tr (A *m I).
Proof. by move=> H1 H2; rewrite -!mulmxA mxtrace_mulC -!mulmxA H1 [Z *m _]mulmxA H2 mul1mx. Qed.

Section Grow.
Variable chol : forall n, 'M[R]_n -> 'M[R]_n.
Hypothesis Hc : chol_ok chol.
Variables (k k' : nat) (E : 'M[R]_(k', k)) (K' : 'M[R]_k').
Hypothesis HK' : spd K'.
Notation K := (E^T *m K' *m E).
Hypothesis HK : spd K.

Definition proj : 'M[R]_(k, k') := invmx K *m E^T *m K'.
Definition grow (p : natnormal k) : natnormal k' :=
  NatNormal (proj^T *m nn_lam p) (K' + proj^T *m (nn_prec p - K) *m proj).

Let UK' := spd_unit HK'.
Let UK := spd_unit HK.
Let SK' : K'^T = K' := proj1 HK'.
Let SK : K^T = K := proj1 HK.
Let SKi : (invmx K)^T = invmx K. Proof. by rewrite trmx_inv SK. Qed.

Lemma projT : proj^T = K' *m E *m invmx K.
Proof. by rewrite /proj !trmx_mul trmxK SKi SK' mulmxA. Qed.
Lemma projE : proj *m E = 1%:M.
Proof. by rewrite /proj -!mulmxA [E^T *m _]mulmxA mulVmx. Qed.
Lemma projK : proj *m invmx K' = invmx K *m E^T.
Proof. by rewrite /proj mulmxK. Qed.
Lemma Eproj : E^T *m proj^T = 1%:M.
Proof. by rewrite -trmx_mul projE trmx1. Qed.
Lemma Kproj : invmx K' *m proj^T = E *m invmx K.
Proof. by rewrite projT !mulmxA mulVmx // mul1mx. Qed.
Lemma K_proj x : E^T *m (K' *m x) = K *m (proj *m x) :> 'cV[R]_k.
Proof. have -> : proj *m x = invmx K *m (E^T *m (K' *m x)) by rewrite /proj !mulmxA. by rewrite mulKVmx. Qed.

Local Opaque proj.

(** The prior becomes the prior. *)
Lemma grow_prior : grow (NatNormal 0 K) = NatNormal 0 K'.
Proof. by rewrite /grow /= subrr !mulmx0 mul0mx addr0. Qed.

Section One.
Variable p : natnormal k.
Hypothesis Hp : spd (nn_prec p).
Let UP := spd_unit Hp.
Notation L := (nn_prec p).

Lemma grow_inv_aux : invmx (nn_prec (grow p)) = invmx K' + E *m (invmx L - invmx K) *m E^T /\ nn_prec (grow p) \in unitmx.
Proof.
  have M : nn_prec (grow p) *m (invmx K' + E *m (invmx L - invmx K) *m E^T) = 1%:M.
    rewrite /= mulmxDl [K' *m _]mulmxDr [_ *m proj *m _]mulmxDr mulmxV //.
    have -> : K' *m (E *m (invmx L - invmx K) *m E^T) = K' *m E *m (invmx L - invmx K) *m E^T by rewrite !mulmxA.
    have -> : proj^T *m (L - K) *m proj *m invmx K' = K' *m E *m (invmx K *m (L - K) *m invmx K) *m E^T.
      by rewrite -[_ *m proj *m _]mulmxA projK projT !mulmxA.
    have -> : proj^T *m (L - K) *m proj *m (E *m (invmx L - invmx K) *m E^T) = K' *m E *m (invmx K *m (L - K) *m (invmx L - invmx K)) *m E^T.
      by rewrite (cancel_mid _ _ _ projE) projT !mulmxA.
    have Z0 : (invmx L - invmx K) + (invmx K *m (L - K) *m invmx K + invmx K *m (L - K) *m (invmx L - invmx K)) = 0.
      by rewrite -mulmxDr [invmx K + _]addrC subrK mulmxBr mulVmx // mulmxBl mulmxK // mul1mx addrA subrK subrr.
    have G a b c : 1%:M + K' *m E *m a *m E^T + (K' *m E *m b *m E^T + K' *m E *m c *m E^T) = 1%:M + K' *m E *m (a + (b + c)) *m E^T.
      by rewrite !mulmxDr !mulmxDl !addrA.
    by rewrite G Z0 mulmx0 mul0mx addr0.
  have [U _] := mulmx1_unit M; split=> //.
  by rewrite -[LHS]mulmx1 -M mulKmx.
Qed.
Lemma grow_inv : invmx (nn_prec (grow p)) = invmx K' + E *m (invmx L - invmx K) *m E^T.
Proof. by have [] := grow_inv_aux. Qed.

Lemma grow_spd : spd (nn_prec (grow p)).
Proof.
  have [Sp Pp] := Hp; split.
    have S3 a b (Y : 'M[R]_(a, b)) (A : 'M[R]_a) : A^T = A -> (Y^T *m A *m Y)^T = Y^T *m A *m Y.
      by move=> H; rewrite !trmx_mul trmxK H mulmxA.
    by rewrite /symm /= linearD /= SK' S3 // [(L - K)^T]linearB /= Sp SK.
  move=> x Nx.
  have Q : dot x (nn_prec (grow p) *m x) = (dot (x - E *m (proj *m x)) (K' *m (x - E *m (proj *m x))) + dot (proj *m x) (L *m (proj *m x)))%Re.
    have T A (w : 'cV[R]_k') : dot w (proj^T *m A *m proj *m w) = dot (proj *m w) (A *m (proj *m w)).
      by rewrite -2!mulmxA dot_mx trmxK.
    rewrite /= mulmxDl dotDr T mulmxBl dotDr dotNr.
    set v := proj *m x.
    rewrite mulmxBr !dotDl !dotDr !dotNl !dotNr.
    have e1 : dot (E *m v) (K' *m x) = dot v (K *m v) by rewrite dot_mxl K_proj.
    have e2 : dot x (K' *m (E *m v)) = dot v (K *m v) by rewrite dot_mx SK' dotC e1.
    have e3 : dot (E *m v) (K' *m (E *m v)) = dot v (K *m v) by rewrite dot_mxl !mulmxA.
    rewrite e1 e2 e3; rring.
  rewrite Q; have P1 := proj2 (spd_psd HK') (x - E *m (proj *m x)); have P2 := proj2 (spd_psd Hp) (proj *m x).
  case: (proj *m x =P 0) => [V|V]; last by have P3 := Pp _ V; move: P1 P3; set a := dot _ _; set b := dot _ _; move=> *; apply: Rplus_le_lt_0_compat.
  have P4 := proj2 HK' _ Nx; rewrite V !mulmx0 subr0 dot0r Rplus_0_r; exact: P4.
Qed.

Lemma grow_mean : mean chol (grow p) = E *m mean chol p.
Proof.
  rewrite (meanE Hc grow_spd) (meanE Hc Hp) grow_inv; cbn [grow nn_lam].
  rewrite mulmxDl; have -> : invmx K' *m (proj^T *m nn_lam p) = E *m (invmx K *m nn_lam p) by rewrite [LHS]mulmxA Kproj [RHS]mulmxA.
  have -> : E *m (invmx L - invmx K) *m E^T *m (proj^T *m nn_lam p) = E *m ((invmx L - invmx K) *m nn_lam p).
    by rewrite [LHS]mulmxA -[_ *m E^T *m proj^T]mulmxA Eproj mulmx1 [RHS]mulmxA.
  by rewrite -mulmxDr mulmxBl [invmx K *m _ + _]addrC subrK.
Qed.

Lemma grow_m2 : m2 chol (grow p) = invmx K' + E *m (m2 chol p - invmx K) *m E^T.
Proof.
  rewrite (m2E Hc grow_spd) (m2E Hc Hp) grow_inv grow_mean trmx_mul -addrA; congr (_ + _).
  by rewrite [_ + _ - invmx K]addrAC [E *m (_ - _ + _)]mulmxDr [RHS]mulmxDl !mulmxA.
Qed.

Lemma grow_gap : m2 chol (grow p) - invmx K' = E *m (m2 chol p - invmx K) *m E^T.
Proof. by rewrite grow_m2 addrC addKr. Qed.

Lemma grow_det : (\det (nn_prec (grow p)) * \det K = \det K' * \det L)%R.
Proof.
  have -> : nn_prec (grow p) = K' *m (1%:M + (E *m (invmx K *m (L - K))) *m proj).
    rewrite mulmxDr mulmx1; cbn [grow nn_prec]; congr (_ + _).
    by rewrite [in LHS]projT !mulmxA.
  rewrite det_mulmx sylvester -mulrA; congr (_ * _).
  rewrite mulmxA projE mul1mx mulmxBr mulVmx // addrC subrK det_mulmx det_inv.
  by rewrite mulrAC mulVf ?mul1r // -unitfE; move: UK; rewrite unitmxE.
Qed.

End One.

Lemma sandwich (A : 'M[R]_k) : E^T *m (proj^T *m A *m proj) *m E = A.
Proof. exact: sandwich_gen Eproj projE. Qed.
Lemma tr_sandwich (A : 'M[R]_k) : \tr (proj^T *m A *m proj *m invmx K') = \tr (A *m invmx K).
Proof. exact: (tr_sandwich_gen _ Kproj projE). Qed.

Lemma sum_mul_E (X : 'M[R]_k') (D : 'M[R]_k) : sum_mul X (E *m D *m E^T) = sum_mul (E^T *m X *m E) D.
Proof.
  rewrite !sum_mulE !trmx_mul trmxK -[E *m D *m E^T]mulmxA !mulmxA [LHS]mxtrace_mulC.
  by rewrite !mulmxA.
Qed.

Lemma grow_kl (p q : natnormal k) : spd (nn_prec p) -> spd (nn_prec q) -> kl chol (grow p) (grow q) = kl chol p q.
Proof.
  move=> Hp Hq; have Gp := grow_spd Hp; have Gq := grow_spd Hq.
  rewrite !(kl_nat Hc) //.
  have e1 : sum_mul (nn_prec (grow q)) (m2 chol (grow p)) = (sum_mul (nn_prec q) (m2 chol p) + (INR k' - INR k))%Re.
    rewrite (grow_m2 Hp) sum_mulDr sum_mul_E.
    have -> : E^T *m nn_prec (grow q) *m E = nn_prec q.
      cbn [grow nn_prec]; rewrite mulmxDr mulmxDl.
      have -> : E^T *m (proj^T *m (nn_prec q - K) *m proj) *m E = nn_prec q - K.
        exact: sandwich.
      by rewrite addrC subrK.
    have -> : sum_mul (nn_prec (grow q)) (invmx K') = (INR k' + (sum_mul (nn_prec q) (invmx K) - INR k))%Re.
      rewrite sum_mulE (proj1 Gq); cbn [grow nn_prec]; rewrite mulmxDl mulmxV // mxtraceD mxtrace1.
      rewrite tr_sandwich mulmxBl mulmxV // [\tr (_ - _)]linearB /= mxtrace1 sum_mulE (proj1 Hq) !INRE; rring.
    rewrite sum_mulDr sum_mulNr; rring.
  have e2 : dot (nn_lam (grow q)) (mean chol (grow p)) = dot (nn_lam q) (mean chol p).
    by rewrite (grow_mean Hp); cbn [grow nn_lam]; rewrite dot_mxl trmxK mulmxA projE mul1mx.
  have e3 : dot (nn_lam (grow q)) (invmx (nn_prec (grow q)) *m nn_lam (grow q)) = dot (nn_lam q) (invmx (nn_prec q) *m nn_lam q).
    rewrite -(meanE Hc Gq) (grow_mean Hq) -(meanE Hc Hq); cbn [grow nn_lam]; by rewrite dot_mxl trmxK mulmxA projE mul1mx.
  have e4 : (ln (\det (nn_prec (grow p))) - ln (\det (nn_prec (grow q))) = ln (\det (nn_prec p)) - ln (\det (nn_prec q)))%Re.
    have D r : spd (nn_prec r) -> (ln (\det (nn_prec (grow r))) + ln (\det K) = ln (\det K') + ln (\det (nn_prec r)))%Re.
      move=> Hr; rewrite -!ln_mult; try exact: spd_det_gt0; last exact: spd_det_gt0 (grow_spd Hr).
      by congr ln; exact: grow_det.
    by have := D _ Hp; have := D _ Hq; lra.
  rewrite e1 e2 e3; move: e4.
  set a := ln _; set b := ln _; set c := ln _; set d := ln _; move: (sum_mul _ _) (dot _ _) (dot _ _) => s1 d1 d2 H; move: H; clearbody a b c d; move=> H; lra.
Qed.
End Grow.
