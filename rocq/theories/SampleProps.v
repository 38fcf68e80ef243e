(** The property C87: the kernel given the inducing variables and draws from the prior. *)
From Coq Require Import Reals ZArith List String Lra.
From mathcomp Require Import all_ssreflect all_algebra.
From Verif Require Import Py ExpPolyModel ExpPolyIntModel ExpPolyIntProofs RMat RChol RTac NormalModel NormalSpec NormalProofs ApproxModel ApproxSpec ApproxProofs ApproxProofs2 ApproxProofs3 NormalProps ApproxProps.
From Verif Require Import GpcmModel GpcmGood GpcmBridge GpcmWell GpcmKernelPsd PsdModel PsdSpec PsdProofs PsdProps SampleModel SampleProofs RSpectral GpcmEndProps.
From Verif Require Import ExpPolyIntProps.
From Verif Require GpcmProps GpcmInit GpcmEntries GpcmTotal.
Set Implicit Arguments.
Unset Strict Implicit.
Unset Printing Implicit Defensive.
Import GRing.Theory.
Local Open Scope ring_scope.
Delimit Scope R_scope with Re.

(** * Specification *)

(** [i_hx] and [I_ux] are what [compute_i_hx] and [compute_I_ux] return at pairs of times. *)
Definition integrals_of (N : numdom) (so : setorder) (ofR : R -> N) (m : gpcm)
    (i_hx : R -> R -> R) (I_ux : R -> R -> 'M[R]_(List.length (g_t_u m))) : Prop :=
  (forall s s', compute_i_hx N so ofR m (Some s) (Some s') = Ok (i_hx s s')) /\
  forall s s', exists T, compute_I_ux4 N so ofR m (Some [:: s]) (Some [:: s']) = Ok [:: [:: T]]
    /\ I_ux s s' = mat _ _ T.

(** Two uncorrelated vectors of uncorrelated variables with mean zero and variance one. *)
Definition white Omega (E : expectation Omega) n k (x : Omega -> 'cV[R]_n) (y : Omega -> 'cV[R]_k) : Prop :=
  (forall i, E (fun w => x w i ord0) = 0%Re) /\ (forall i, E (fun w => y w i ord0) = 0%Re) /\
  (forall i j, E (fun w => x w i ord0 * x w j ord0)%Re = if i == j then 1%Re else 0%Re) /\
  (forall i j, E (fun w => y w i ord0 * y w j ord0)%Re = if i == j then 1%Re else 0%Re) /\
  (forall i j, E (fun w => x w i ord0 * y w j ord0)%Re = 0%Re).

(** * Kernels *)

(** C87: at every finite family of times and for all values of the inducing variables, the kernel
    is positive semi-definite with positive variances. *)
Theorem C87_kernel_psd :
  forall chol, chol_ok chol ->
  forall (N : numdom) (so : setorder) (ofR : R -> N) (m : gpcm), (forall r, val (ofR r) = r) -> good_gpcm m ->
    (GpcmProps.tensors N -> exists i_hx (I_ux : R -> R -> 'M[R]_(List.length (g_t_u m))), integrals_of so ofR i_hx I_ux)
    /\ forall G i_hx I_ux, gpcm_gp so ofR m = Ok G -> integrals_of so ofR i_hx I_ux ->
       forall n (t : 'I_n -> R) (u : 'cV[R]_(List.length (g_t_u m))),
         let K := kernel_approx chol (K_u G) i_hx I_ux t t u in
         psd K /\ forall p, (0 < K p p)%Re.
Proof.
  move=> chol Hc N so ofR m Ho Hm; split=> [T|G i_hx I_ux HG [Hhx Hux] n t u K].
    have [M _] := Hm.
    exists (fun s s' => if compute_i_hx N so ofR m (Some s) (Some s') is Ok v then v else R0).
    exists (fun s s' => if compute_I_ux4 N so ofR m (Some [:: s]) (Some [:: s']) is Ok ((X :: _) :: _) then mat _ _ X else 0).
    split=> s s'.
      by have [v ->] := GpcmTotal.i_hx_total N so ofR Ho T m (Some s) (Some s') (proj1 (proj1 M)).
    by have [X ->] := GpcmEntries.ux4_total N so ofR Ho m M s s' T; exists X.
  split; first exact: (gpcm_kernel_psd Hc Ho Hm HG Hhx Hux).
  exact: (gpcm_kernel_diag Hc Ho Hm HG Hhx Hux).
Qed.
Print Assumptions C87_kernel_psd.

(** * Draws *)

Section Cov.
Variables (Omega : Type) (E : expectation Omega).
Lemma E_bilin n k a b (x : Omega -> 'cV[R]_n) (y : Omega -> 'cV[R]_k) (L : 'M[R]_(a, n)) (M : 'M[R]_(b, k)) (C : 'M[R]_(n, k)) p q :
  (forall i j, E (fun w => x w i ord0 * y w j ord0)%Re = C i j) ->
  E (fun w => (L *m x w)%R p ord0 * (M *m y w)%R q ord0)%Re = (L *m C *m M^T) p q.
Proof.
  move=> H.
  rewrite (_ : E _ = E (fun w => \sum_(ij : 'I_n * 'I_k) Rmult (Rmult (L p ij.1) (M q ij.2)) (Rmult (x w ij.1 ord0) (y w ij.2 ord0)))); last first.
    apply: E_ext => w; rewrite -(pair_bigA _ (fun i j => Rmult (Rmult (L p i) (M q j)) (Rmult (x w i ord0) (y w j ord0)))) /=.
    rewrite -[LHS]/((L *m x w) p ord0 * (M *m y w) q ord0) !mxE mulr_suml; apply: eq_bigr => i _.
    by rewrite mulr_sumr; apply: eq_bigr => j _; rewrite mulrACA.
  rewrite E_sum -(pair_bigA _ (fun i j => E (fun w => Rmult (Rmult (L p i) (M q j)) (Rmult (x w i ord0) (y w j ord0))))) /=.
  rewrite mxE exchange_big; apply: eq_bigr => j _ /=; rewrite mxE mulr_suml; apply: eq_bigr => i _.
  by rewrite E_scale H mxE mulrAC.
Qed.
Lemma E_lin n a (x : Omega -> 'cV[R]_n) (L : 'M[R]_(a, n)) p :
  (forall i, E (fun w => x w i ord0) = 0%Re) -> E (fun w => (L *m x w) p ord0) = 0%Re.
Proof.
  move=> H; rewrite (_ : E _ = E (fun w => \sum_i Rmult (L p i) (x w i ord0))); last by apply: E_ext => w; rewrite mxE.
  by rewrite E_sum big1 // => i _; rewrite E_scale H; exact: Rmult_0_r.
Qed.

Lemma prod_aux (a b c d k : R) : ((a + k * b) * (c + k * d) = a * c + k * (a * d) + k * (c * b) + k * k * (b * d))%Re.
Proof. ring. Qed.
Lemma sum_aux (a k : R) (b : bool) : (a + k * 0 + k * 0 + k * k * (if b then 1 else 0) = a + (if b then k * k else 0))%Re.
Proof. case: b; ring. Qed.

Lemma addZE n (f y : 'cV[R]_n) (s : R) p : (f + s *: y)%R p ord0 = (f p ord0 + s * y p ord0)%Re.
Proof. by rewrite mxE [X in _ + X]mxE. Qed.

Lemma draw_moments n (F : 'M[R]_n) (s : R) (x y : Omega -> 'cV[R]_n) : (0 <= s)%Re -> white E x y ->
  (forall p, E (fun w => (F *m x w + sqrt s *: y w)%R p ord0) = 0%Re) /\
  forall p q, E (fun w => (F *m x w + sqrt s *: y w)%R p ord0 * (F *m x w + sqrt s *: y w)%R q ord0)%Re
    = ((F *m F^T)%R p q + (if p == q then s else 0))%Re.
Proof.
  move=> Hs [X0 [Y0 [XX [YY XY]]]]; split=> [p|p q].
    rewrite (_ : E _ = E (fun w => (F *m x w)%R p ord0 + sqrt s * y w p ord0)%Re); last by apply: E_ext => w; rewrite addZE.
    by rewrite E_add E_scale Y0 (E_lin _ _ X0) Rmult_0_r Rplus_0_l.
  rewrite (_ : E _ = E (fun w => (F *m x w)%R p ord0 * (F *m x w)%R q ord0 + sqrt s * ((F *m x w)%R p ord0 * y w q ord0)
      + sqrt s * ((F *m x w)%R q ord0 * y w p ord0) + sqrt s * sqrt s * (y w p ord0 * y w q ord0))%Re); last first.
    by apply: E_ext => w; rewrite !addZE prod_aux.
  have E1 p' q' : E (fun w => (F *m x w)%R p' ord0 * y w q' ord0)%Re = 0%Re.
    rewrite (_ : E _ = E (fun w => (F *m x w)%R p' ord0 * (1%:M *m y w)%R q' ord0)%Re); last by apply: E_ext => w; rewrite mul1mx.
    by rewrite (@E_bilin _ _ _ _ _ _ _ _ 0) ?mulmx0 ?mul0mx ?mxE // => i j; rewrite XY mxE.
  have E2 : E (fun w => (F *m x w)%R p ord0 * (F *m x w)%R q ord0)%Re = (F *m F^T) p q.
    by rewrite (@E_bilin _ _ _ _ _ _ _ _ 1%:M) ?mulmx1 // => i j; rewrite XX mxE; case: (i == j).
  rewrite !E_add !E_scale !E1 E2 YY sum_aux sqrt_sqrt //.
Qed.
End Cov.

(** C87: a draw from the prior succeeds, returns a positive semi-definite kernel, and given that
    kernel the function has mean zero and the covariance that the kernel and the noise give.  A
    normalised kernel has variance one at the first time. *)
Theorem C87_sample :
  forall chol root (svd : forall n, 'M[R]_n -> 'M[R]_n * 'rV[R]_n * 'M[R]_n), chol_ok chol -> root_ok root ->
  (forall n (A : 'M[R]_n), psd A -> is_svd A (svd n A)) ->
  forall (N : numdom) (so : setorder) (ofR : R -> N) (m : gpcm) G i_hx I_ux, (forall r, val (ofR r) = r) -> good_gpcm m ->
    gpcm_gp so ofR m = Ok G -> integrals_of so ofR i_hx I_ux ->
  forall n (t : 'I_n -> R) (normalise : bool) xi_u, (normalise -> 0 < n)%N ->
    let K0 := kernel_approx chol (K_u G) i_hx I_ux t t (root _ (K_u G) *m xi_u) in
    exists K : 'M[R]_n,
      psd K
      /\ (~~ normalise -> K = K0)
      /\ (normalise -> forall o : 'I_n, o = 0%N :> nat -> K o o = 1%Re /\ forall p q, K p q = (K0 p q / K0 o o)%Re)
      /\ (forall xi_f xi_y, exists y, SampleModel.sample chol svd root G i_hx I_ux t normalise xi_u xi_f xi_y = Ok (K, y))
      /\ forall Omega (E : expectation Omega) (xi_f xi_y : Omega -> 'cV[R]_n) (y : Omega -> 'cV[R]_n), white E xi_f xi_y ->
         (forall w, SampleModel.sample chol svd root G i_hx I_ux t normalise xi_u (xi_f w) (xi_y w) = Ok (K, y w)) ->
         (forall p, E (fun w => y w p ord0) = 0%Re) /\
         forall p q, E (fun w => y w p ord0 * y w q ord0)%Re = (K p q + (if p == q then g_noise m else 0))%Re.
Proof.
  move=> chol root svd Hc Hr Hs N so ofR m G i_hx I_ux Ho Hm HG HI n t normalise xi_u Hn K0.
  have [PK DK] := (C87_kernel_psd Hc so Ho Hm).2 G i_hx I_ux HG HI n t (root _ (K_u G) *m xi_u).
  rewrite -/K0 in PK DK.
  have En : noise G = g_noise m.
    by move: HG; rewrite /gpcm_gp => H; have [Kz [EKz {}H]] := bindP H; have [Ku [EKu {H} [<-]]] := bindP H.
  have Pn : (0 < g_noise m)%Re by case: Hm => _ [_ [_ [_ [_ []]]]].
  suff [K [PK' [E1 [E2 E3]]]] : exists K, psd K /\ normalised K0 normalise = Ok K /\ (~~ normalise -> K = K0) /\
      (normalise -> forall o : 'I_n, o = 0%N :> nat -> K o o = 1%Re /\ forall p q, K p q = (K0 p q / K0 o o)%Re).
    exists K; split; [|split; [|split; [|split]]] => // [xi_f xi_y|Omega E xi_f xi_y y Hw Hy].
      by eexists; rewrite /SampleModel.sample -/K0 /draw -/K0 E1.
    have Ey w : y w = root _ K *m xi_f w + sqrt (noise G) *: xi_y w.
      have := Hy w; rewrite /SampleModel.sample -/K0 /draw -/K0 E1 /= => - [<-].
      by rewrite (proj1 (proj1 (C67_closest_psd (@svd n) K) PK' (Hs _ _ PK'))).
    have [A B] := draw_moments (root _ K) (Rlt_le _ _ Pn) Hw; split=> [p|p q].
      by rewrite -(A p); apply: E_ext => w; rewrite Ey En.
    have := B p q; rewrite Hr // => <-; by apply: E_ext => w; rewrite !Ey En.
  rewrite /normalised; case: normalise Hn => Hn; last by exists K0.
  case: insubP => [o _ Eo|]; last by rewrite Hn.
  exists (\matrix_(p, q) (K0 p q / K0 o o)%Re); split; [|split; [|split]] => //.
    have -> : \matrix_(p, q) (K0 p q / K0 o o)%Re = (/ K0 o o)%Re *: K0.
      by apply/matrixP=> p q; rewrite !mxE /Rdiv Rmult_comm.
    by apply: psd_scale => //; left; apply: Rinv_0_lt_compat.
  move=> _ o' Eo'; have -> : o' = o by apply: val_inj; rewrite /= Eo' -Eo.
  by split=> [|p q]; rewrite mxE //; apply: Rinv_r; apply: Rgt_not_eq; exact: DK.
Qed.
Print Assumptions C87_sample.

(** C87: over the draws of the kernel too, the function has the covariance of the prior: the
    integral of the covariance of the filter, plus the noise. *)
Theorem C87_marginal :
  forall chol root (svd : forall n, 'M[R]_n -> 'M[R]_n * 'rV[R]_n * 'M[R]_n), chol_ok chol -> root_ok root ->
  (forall n (A : 'M[R]_n), psd A -> is_svd A (svd n A)) ->
  forall (N : numdom) (so : setorder) (ofR : R -> N) (m : gpcm) G i_hx I_ux, (forall r, val (ofR r) = r) -> good_gpcm m ->
    gpcm_gp so ofR m = Ok G -> integrals_of so ofR i_hx I_ux ->
  forall n (t : 'I_n -> R)
         (Omega : Type) (E : expectation Omega) (xi_u : Omega -> 'cV[R]_(List.length (g_t_u m)))
         (Omega' : Type) (E' : expectation Omega') (xi_f xi_y : Omega' -> 'cV[R]_n) (K : Omega -> 'M[R]_n) (y : Omega -> Omega' -> 'cV[R]_n),
    (forall i j, E (fun w => xi_u w i ord0 * xi_u w j ord0)%Re = if i == j then 1%Re else 0%Re) -> white E' xi_f xi_y ->
    (forall w w', SampleModel.sample chol svd root G i_hx I_ux t false (xi_u w) (xi_f w') (xi_y w') = Ok (K w, y w w')) ->
    forall p q, E (fun w => E' (fun w' => y w w' p ord0 * y w w' q ord0))%Re = (i_hx (t p) (t q) + (if p == q then g_noise m else 0))%Re.
Proof.
  move=> chol root svd Hc Hr Hs N so ofR m G i_hx I_ux Ho Hm HG HI n t Omega E xi_u Omega' E' xi_f xi_y K y Hu Hw Hy p q.
  have SP : spd (K_u G) := proj1 (K_u_facts Ho Hm HG).
  pose u w := root _ (K_u G) *m xi_u w.
  have Hu2 i j : E (fun w => u w i ord0 * u w j ord0)%Re = K_u G i j.
    rewrite (@E_bilin _ _ _ _ _ _ _ _ _ _ 1%:M) ?mulmx1 ?Hr //; first exact: spd_psd.
    by move=> a b; rewrite Hu mxE; case: (a == b).
  have A := (proj1 (proj2 (C47_kernel_approx Hc i_hx I_ux SP t t))) Omega E u Hu2 p q.
  rewrite -A; rewrite -[X in (_ + X)%Re](E_const E) -E_add; apply: E_ext => w.
  have F : (false -> 0 < n)%N by [].
  have [K1 [_ [EK [_ [T C]]]]] := C87_sample Hc Hr Hs Ho Hm HG HI t (xi_u w) F.
  have {}C := (C Omega' E' xi_f xi_y (y w) Hw _).2 p q.
  rewrite C; first by rewrite EK.
  by move=> w'; have [y' T'] := T (xi_f w') (xi_y w'); move: (Hy w w'); rewrite T' => - [_ ->].
Qed.
Print Assumptions C87_marginal.

(** The causal and the acausal model of the witness of C86, and fair coins. *)
Example C87_witness :
  chol_ok some_chol /\ root_ok some_root /\ (forall n (A : 'M[R]_n), psd A -> is_svd A (some_svd A))
  /\ white coins (fun w => const_mx (if w.1 then 1%Re else (- 1)%Re) : 'cV[R]_1)
       (fun w => const_mx (if w.2 then 1%Re else (- 1)%Re) : 'cV[R]_1)
  /\ forall causal, exists m G i_hx I_ux,
       good_gpcm m /\ g_causal m = causal /\ gpcm_gp ord_id idR m = Ok G /\ @integrals_of RTensorDom ord_id idR m i_hx I_ux.
Proof.
  split; first exact: some_chol_ok.
  split; first exact: some_root_ok.
  split; first by move=> n A [H _]; exact: some_svd_ok.
  split.
    split; [|split; [|split; [|split]]] => [i|i|i j|i j|i j]; rewrite /= !mxE ?ord1 ?eqxx; field.
  move=> causal; have [m [Em Hm]] := C86_witness causal.
  have Ho : forall r, @val RTensorDom (idR r) = r by [].
  have [[G HG] _] := (@C86_well_posed RTensorDom ord_id idR m [::] Ho Hm).1 (fun _ => erefl).
  have [i_hx [I_ux HI]] := (C87_kernel_psd some_chol_ok ord_id Ho Hm).1 (fun _ => erefl).
  by exists m, G, i_hx, I_ux; split=> //; split=> //; have [-> _] := GpcmInit.new_gpcm_inv _ m Em.
Qed.
