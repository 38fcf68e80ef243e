(** Every GPCM and CGPCM with distinct inducing points is well posed. *)
From Coq Require Import Reals ZArith List String.
From mathcomp Require Import all_ssreflect all_algebra.
From Verif Require Import Py ListFacts ExpPolyModel ExpPolyIntModel ExpPolyIntProofs RMat NormalModel NormalProofs RTac ApproxModel ApproxSpec.
From Verif Require Import GpcmModel GpcmGood GpcmBridge.
From Verif Require GaussFeat GpcmFeat GpcmSpec GpcmEntries GpcmTotal GpcmProps.
Set Implicit Arguments.
Unset Strict Implicit.
Unset Printing Implicit Defensive.
Import GRing.Theory.
Local Open Scope ring_scope.
Delimit Scope R_scope with Re.

Notation Sum := GaussFeat.Sum.

Lemma SumE n (f : nat -> R) : Sum n f = \sum_(i < n) f i.
Proof. by elim: n => [|n IH]; [rewrite big_ord0|rewrite big_ord_recr /= IH]. Qed.

(** A column as a function of numbers. *)
Definition ofcol n (x : 'cV[R]_n) (i : nat) : R := if insub i is Some o then x o ord0 else 0.
Lemma ofcolE n (x : 'cV[R]_n) (i : 'I_n) : ofcol x i = x i ord0.
Proof. by rewrite /ofcol valK. Qed.
Definition ofmx n (W : 'M[R]_n) (i j : nat) : R :=
  if insub i is Some a then if insub j is Some b then W a b else 0 else 0.
Lemma ofmxE n (W : 'M[R]_n) (i j : 'I_n) : ofmx W i j = W i j.
Proof. by rewrite /ofmx !valK. Qed.

Lemma dot_mat p q (T : list (list R)) (x : 'cV[R]_p) (y : 'cV[R]_q) :
  dot x (mat p q T *m y) = Sum p (fun i => ofcol x i * Sum q (fun j => ofcol y j * GpcmEntries.get2 T i j))%Re.
Proof.
  rewrite SumE; apply: eq_bigr => i _; rewrite ofcolE mxE SumE; congr (_ * _); apply: eq_bigr => j _.
  by rewrite mxE ofcolE mulrC.
Qed.
Lemma dot_mat2 p q (T : list (list R)) (x : 'cV[R]_p) (y : 'cV[R]_q) :
  dot x (mat p q T *m y) = Sum p (fun i => Sum q (fun j => ofcol x i * ofcol y j * GpcmEntries.get2 T i j))%Re.
Proof.
  rewrite dot_mat; apply: GaussFeat.Sum_ext => i _; rewrite -GaussFeat.Sum_scal; apply: GaussFeat.Sum_ext => j _; ring.
Qed.

Lemma mat_symm p T : (forall i j, (i < p)%coq_nat -> (j < p)%coq_nat -> GpcmEntries.get2 T i j = GpcmEntries.get2 T j i) ->
  symm (mat p p T).
Proof.
  move=> H; apply/matrixP=> i j; rewrite !mxE; apply: H; exact/ltP.
Qed.
Lemma mat_spd p T : (forall i j, (i < p)%coq_nat -> (j < p)%coq_nat -> GpcmEntries.get2 T i j = GpcmEntries.get2 T j i) ->
  (forall c, (exists i, (i < p)%coq_nat /\ c i <> 0%Re) ->
     (0 < Sum p (fun i => Sum p (fun j => c i * c j * GpcmEntries.get2 T i j)))%Re) -> spd (mat p p T).
Proof.
  move=> S P; split; first exact: mat_symm.
  move=> x Hx; rewrite dot_mat2; apply: P.
  have [i Hi] : exists i, x i ord0 != 0.
    apply/existsP; apply: contra_notT Hx => /existsPn H; apply/colP=> i; rewrite mxE.
    by apply/eqP; move: (H i); rewrite negbK.
  by exists i; split; [exact/ltP|rewrite ofcolE; apply/eqP].
Qed.

(** The inverse of a matrix in terms of sums. *)
Lemma inv_sum p T : spd (mat p p T) ->
  let W := ofmx (invmx (mat p p T)) in
  (forall i j, (i < p)%coq_nat -> (j < p)%coq_nat -> W i j = W j i) /\
  forall i j, (i < p)%coq_nat -> (j < p)%coq_nat ->
    Sum p (fun k => Sum p (fun l => W k i * GpcmEntries.get2 T k l * W l j))%Re = W i j.
Proof.
  move=> H W; have [Sy _] := spd_inv H; split=> i j /ltP Hi /ltP Hj.
    by rewrite -[i]/(nat_of_ord (Ordinal Hi)) -[j]/(nat_of_ord (Ordinal Hj)) /W !ofmxE -{1}Sy mxE.
  rewrite -[i]/(nat_of_ord (Ordinal Hi)) -[j]/(nat_of_ord (Ordinal Hj)).
  transitivity (invmx (mat p p T) (Ordinal Hi) (Ordinal Hj)); last by rewrite /W ofmxE.
  have -> : invmx (mat p p T) (Ordinal Hi) (Ordinal Hj) = ((invmx (mat p p T))^T *m mat p p T *m invmx (mat p p T)) (Ordinal Hi) (Ordinal Hj).
    by rewrite Sy mulVmx ?mul1mx //; exact: spd_unit.
  rewrite SumE -mulmxA mxE; apply: eq_bigr => k _; rewrite SumE mxE mxE mulr_sumr; apply: eq_bigr => l _.
  by rewrite /W !ofmxE mxE mulrA.
Qed.

Lemma tr_sum p (W : 'M[R]_p) (T : 'M[R]_p) (F : nat -> nat -> R) : symm W -> (forall i j, T i j = F i j) ->
  \tr (W *m T) = Sum p (fun a => Sum p (fun c => ofmx W a c * F a c))%Re.
Proof.
  move=> S H; have -> : W *m T = W^T *m T by rewrite S.
  rewrite -sum_mulE /sum_mul SumE; apply: eq_bigr => i _; rewrite SumE; apply: eq_bigr => j _.
  by rewrite ofmxE H.
Qed.

Lemma bindP A B (r : res A) (k : A -> res B) b : bind r k = Ok b -> exists a, r = Ok a /\ k a = Ok b.
Proof. by case: r => [a|e] //= H; exists a. Qed.

Lemma bil_aux (w x y : R) : (x * (w * y) = w * (x * y))%Re.
Proof. ring. Qed.

Section Main.
Variables (N : numdom) (so : setorder) (ofR : R -> N).
Hypothesis Ho : forall r, val (ofR r) = r.
Variable m : gpcm.
Hypothesis Hm : good_gpcm m.
Notation nu := (List.length (g_t_u m)).
Notation nz := (List.length (g_t_z m)).

Lemma gpcm_gp_total : GpcmProps.tensors N -> exists G, gpcm_gp so ofR m = Ok G.
Proof.
  move=> T; case: Hm => M _; rewrite /gpcm_gp.
  have [Kz ->] := GpcmTotal.K_z_total N so ofR Ho T m (proj2 M).
  have [Ku ->] := GpcmTotal.K_u_total N so ofR Ho T m.
  by eexists.
Qed.
Lemma gpcm_integrals_total t : GpcmProps.tensors N -> exists I, gpcm_integrals so ofR m t = Ok I.
Proof.
  move=> T; case: Hm => M _; rewrite /gpcm_integrals.
  have [|hx ->] := mapM_total (fun s => compute_i_hx N so ofR m (Some s) (Some s)) t.
    move=> s _; exact: (GpcmTotal.i_hx_total N so ofR Ho T m (Some s) (Some s) (proj1 (proj1 M))).
  have [ux ->] := GpcmTotal.I_ux_default_total N so ofR Ho T m (proj1 M).
  have [hz ->] := GpcmTotal.I_hz_total N so ofR Ho T m t M.
  have [uz ->] := GpcmTotal.I_uz_total N so ofR Ho T m t M.
  by eexists.
Qed.

Lemma gpcm_well t G I : gpcm_gp so ofR m = Ok G -> gpcm_integrals so ofR m t = Ok I ->
  well_posed G I /\ residual_nonneg G I.
Proof.
  case: Hm => M [Pg [Na [No [NDu [NDz Pn]]]]].
  rewrite /gpcm_gp => H; have [Kz [EKz {}H]] := bindP H; have [Ku [EKu {H} [<-]]] := bindP H.
  rewrite /gpcm_integrals => H; have [hx [Ehx {}H]] := bindP H; have [ux [Eux {}H]] := bindP H.
  have [hz [Ehz {}H]] := bindP H; have [uz [Euz {H} [<-]]] := bindP H.
  have SKu : spd (mat nu nu Ku).
    apply: mat_spd => [i j Hi Hj|c Hc]; first exact: (GpcmEntries.Ku_symm N so ofR Ho m Ku i j EKu Hi Hj).
    exact: (GpcmEntries.Ku_pd N so ofR Ho m Ku c EKu Pg Na NDu Hc).
  have SKz : spd (mat nz nz Kz).
    apply: mat_spd => [i j Hi Hj|c Hc]; first exact: (GpcmEntries.Kz_symm N so ofR Ho m M Kz i j EKz Hi Hj).
    exact: (GpcmEntries.Kz_pd N so ofR Ho m M Kz c EKz No NDz Hc).
  split.
    split=> //; split=> //; split=> //; split; [|split] => /=.
    - apply: mat_symm => i j Hi Hj; exact: (GpcmEntries.ux_symm N so ofR Ho m M Pg ux Eux i j Hi Hj).
    - move=> a; have /ltP Ha := ltn_ord a.
      apply: mat_symm => i j Hi Hj; exact: (GpcmEntries.hz_symm N so ofR Ho m M Pg t hz Ehz a i j Ha Hi Hj).
    - move=> a x w; have /ltP Ha := ltn_ord a; rewrite [dot x (mat nu nz _ *m w)]dot_mat !dot_mat2; split.
        exact: (GpcmEntries.facts_joint1 N so ofR Ho m M Pg t Kz ux uz EKz Eux Euz a (ofcol x) (ofcol w) Ha).
      exact: (GpcmEntries.facts_joint2 N so ofR Ho m M Pg t Ku hz uz EKu Ehz Euz a (ofcol x) (ofcol w) Ha).
  move=> a; have /ltP Ha := ltn_ord a.
  have [Su Iu] := inv_sum SKu; have [Sz Iz] := inv_sum SKz.
  have := GpcmEntries.facts_residual N so ofR Ho m M Pg t Ku Kz hx ux hz uz EKu EKz Ehx Eux Ehz Euz a _ _ Ha Su Iu Iz.
  have [Yu _] := spd_inv SKu; have [Yz _] := spd_inv SKz.
  rewrite /= (tr_sum (F := GpcmEntries.get2 ux) Yu) => [|i j]; last by rewrite mxE.
  rewrite (tr_sum (F := GpcmEntries.get3 hz a) Yz) => [|i j]; last by rewrite mxE.
  set B := mat nu nz (List.nth a uz nil).
  have -> : \tr (invmx (mat nu nu Ku) *m (B *m invmx (mat nz nz Kz) *m B^T)) =
            \tr (invmx (mat nz nz Kz) *m (B^T *m (invmx (mat nu nu Ku) *m B))).
    by rewrite -(mulmxA B) (mulmxA (invmx (mat nu nu Ku))) mxtrace_mulC -mulmxA.
  rewrite (tr_sum (F := fun k k' => Sum nu (fun i => Sum nu (fun j =>
    ofmx (invmx (mat nu nu Ku)) i j * (GpcmEntries.get3 uz a i k * GpcmEntries.get3 uz a j k'))%Re)) Yz) // => k k'.
  rewrite mxE SumE; apply: eq_bigr => i _; rewrite !mxE SumE mulr_sumr; apply: eq_bigr => j _.
  rewrite ofmxE mxE; exact: bil_aux.
Qed.
End Main.
