(** The kernel given the inducing variables of the filter, as the matrix that [kernel_approx] computes. *)
From Coq Require Import Reals ZArith List String.
From mathcomp Require Import all_ssreflect all_algebra.
From Verif Require Import Py ListFacts ExpPolyModel ExpPolyIntModel ExpPolyIntProofs RMat RChol NormalModel NormalProofs RTac ApproxModel ApproxSpec ApproxProofs ApproxProofs2 ApproxProofs3.
From Verif Require Import GpcmModel GpcmGood GpcmBridge GpcmWell.
From Coquelicot Require Rbar.
From Verif Require Gauss GpcmProofs3 GaussFeat GpcmSpec GpcmEntries GpcmKernel GpcmTotal GpcmProps.
Set Implicit Arguments.
Unset Strict Implicit.
Unset Printing Implicit Defensive.
Import GRing.Theory.
Local Open Scope ring_scope.
Delimit Scope R_scope with Re.

Lemma tri_aux (x k y : R) : (x * (k * y) = x * y * k)%Re.
Proof. ring. Qed.

Lemma dot_mx_sum n (M : 'M[R]_n) (x y : 'cV[R]_n) (F : nat -> nat -> R) : (forall i j, M i j = F i j) ->
  dot x (M *m y) = Sum n (fun i => Sum n (fun j => ofcol x i * ofcol y j * F i j))%Re.
Proof.
  move=> H; rewrite SumE; apply: eq_bigr => i _; rewrite SumE mxE mulr_sumr; apply: eq_bigr => j _.
  rewrite !ofcolE H; exact: tri_aux.
Qed.

Section Kernel.
Variables (chol : forall n, 'M[R]_n -> 'M[R]_n) (Hc : chol_ok chol).
Variables (N : numdom) (so : setorder) (ofR : R -> N).
Hypothesis Ho : forall r, val (ofR r) = r.
Variable m : gpcm.
Hypothesis Hm : good_gpcm m.
Notation nu := (List.length (g_t_u m)).
Notation nz := (List.length (g_t_z m)).
Variables (G : gp nu nz) (i_hx : R -> R -> R) (I_ux : R -> R -> 'M[R]_nu).
Hypothesis HG : gpcm_gp so ofR m = Ok G.
Hypothesis Hhx : forall s s', compute_i_hx N so ofR m (Some s) (Some s') = Ok (i_hx s s').
Hypothesis Hux : forall s s', exists T, compute_I_ux4 N so ofR m (Some [:: s]) (Some [:: s']) = Ok [:: [:: T]] /\ I_ux s s' = mat nu nu T.

Let tu (i : nat) : R := List.nth i (g_t_u m) R0.

Lemma K_u_facts : spd (K_u G) /\
  (let W := ofmx (invmx (K_u G)) in
   (forall i j, (i < nu)%coq_nat -> (j < nu)%coq_nat -> W i j = W j i) /\
   forall i j, (i < nu)%coq_nat -> (j < nu)%coq_nat ->
     Sum nu (fun k => Sum nu (fun l => W k i * GpcmSpec.kh m (tu k) (tu l) * W l j))%Re = W i j).
Proof.
  case: Hm => M [Pg [Na [No [NDu [NDz Pn]]]]].
  move: HG; rewrite /gpcm_gp => H; have [Kz [EKz {}H]] := bindP H; have [Ku [EKu {H} [<-]]] := bindP H => /=.
  have SP : spd (mat nu nu Ku).
    apply: mat_spd => [i j Hi Hj|c Hc']; first exact: (GpcmEntries.Ku_symm N so ofR Ho m Ku i j EKu Hi Hj).
    exact: (GpcmEntries.Ku_pd N so ofR Ho m Ku c EKu Pg Na NDu Hc').
  split=> //; have [S1 S2] := inv_sum SP; split=> // i j Hi Hj; rewrite -(S2 i j Hi Hj).
  apply: GaussFeat.Sum_ext => k Hk; apply: GaussFeat.Sum_ext => l Hl.
  by rewrite (GpcmEntries.Ku_get N so ofR Ho m Ku k l EKu Hk Hl).
Qed.

Variables (n : nat) (t : 'I_n -> R) (u : 'cV[R]_nu).
Let tn (i : nat) : R := if insub i is Some o then t o else R0.
Let v (i : nat) : R := ofcol (invmx (K_u G) *m u) i.
Let ux (p q a b : nat) : R := ofmx (I_ux (tn p) (tn q)) a b.
Let W := ofmx (invmx (K_u G)).
Let kv := GpcmKernel.kval nu (fun p q => i_hx (tn p) (tn q)) ux W v.

Lemma tnE (p : 'I_n) : tn p = t p.
Proof. by rewrite /tn valK. Qed.

Lemma kernel_kval (p q : 'I_n) : kernel_approx chol (K_u G) i_hx I_ux t t u p q = kv p q.
Proof.
  have [SP _] := K_u_facts; rewrite kernel_approxE // /kv /GpcmKernel.kval !tnE.
  have E1 : \tr (invmx (K_u G) *m I_ux (t p) (t q)) = Sum nu (fun a => Sum nu (fun b => W a b * ux p q a b))%Re.
    rewrite (@tr_sum _ _ _ (ux p q)) //; first by case: (spd_inv SP).
    by move=> i j; rewrite /ux !tnE ofmxE.
  have E2 : dot (invmx (K_u G) *m u) (I_ux (t p) (t q) *m (invmx (K_u G) *m u))
            = Sum nu (fun a => Sum nu (fun b => v a * v b * ux p q a b))%Re.
    by apply: dot_mx_sum => i j; rewrite /ux !tnE ofmxE.
  by rewrite -E1 -E2.
Qed.

Let Pa : (0 < g_alpha m)%Re := GpcmProofs3.moderate_pos _ (proj1 (proj1 (proj1 Hm))).
Let Pg : (0 < g_gamma m)%Re := proj1 (proj2 Hm).

Lemma hx_fact p q : (p < n)%coq_nat -> (q < n)%coq_nat ->
  Gauss.is_integral (fun tau => GpcmSpec.kh m (tn p - tau)%Re (tn q - tau)%Re) Rbar.m_infty
    (GpcmSpec.upto m (Rmin (tn p) (tn q))) (i_hx (tn p) (tn q)).
Proof.
  move=> _ _; case: Hm => M _.
  exact: (GpcmProofs3.i_hx_spec N so ofR Ho m _ _ _ (proj1 (proj1 M)) (Hhx _ _)).
Qed.
Lemma ux_fact p q a b : (p < n)%coq_nat -> (q < n)%coq_nat -> (a < nu)%coq_nat -> (b < nu)%coq_nat ->
  Gauss.is_integral (fun tau => GpcmSpec.kh m (tn p - tau)%Re (tu a) * GpcmSpec.kh m (tu b) (tn q - tau)%Re)%Re
    Rbar.m_infty (GpcmSpec.upto m (Rmin (tn p) (tn q))) (ux p q a b).
Proof.
  move=> _ _ /ltP Ha /ltP Hb; have [T [ET EI]] := Hux (tn p) (tn q).
  have := GpcmEntries.ux4_get N so ofR Ho m (proj1 Hm) T (tn p) (tn q) a b ET (elimT ltP Ha) (elimT ltP Hb).
  rewrite /ux EI -[a]/(nat_of_ord (Ordinal Ha)) -[b]/(nat_of_ord (Ordinal Hb)) ofmxE mxE; exact.
Qed.

Lemma gpcm_kernel_psd : psd (kernel_approx chol (K_u G) i_hx I_ux t t u).
Proof.
  have [SP [Ws HW]] := K_u_facts; split.
    apply/matrixP=> p q; rewrite mxE !kernel_kval.
    exact: (GpcmKernel.kval_sym m Pa Pg n nu tn tu _ _ hx_fact ux_fact W v Ws q p (elimT ltP (ltn_ord q)) (elimT ltP (ltn_ord p))).
  move=> x; rewrite (@dot_mx_sum _ _ _ _ kv) //; last exact: kernel_kval.
  exact: (GpcmKernel.kval_psd m Pa Pg n nu tn tu _ _ hx_fact ux_fact W v Ws HW (ofcol x)).
Qed.

Lemma gpcm_kernel_diag p : (0 < kernel_approx chol (K_u G) i_hx I_ux t t u p p)%Re.
Proof.
  have [SP [Ws HW]] := K_u_facts; case: Hm => M [_ [Na [No [NDu [NDz Pn]]]]]; rewrite kernel_kval.
  apply: (GpcmKernel.kval_pos m Pa Pg n nu tn tu _ _ hx_fact ux_fact W v Ws HW p (elimT ltP (ltn_ord p)) Na).
  rewrite (_ : List.map tu (List.seq 0 nu) = g_t_u m) //; exact: GpcmEntries.nth_seq_self.
Qed.
End Kernel.
