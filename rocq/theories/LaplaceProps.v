(** C92: the Laplace approximation. *)
From Coq Require Import Reals Lra ClassicalEpsilon.
From mathcomp Require Import all_ssreflect all_algebra.
From Verif Require Import Py RMat RChol RTac RSpectral NormalModel NormalSpec NormalProofs NormalProps PsdModel PsdSpec PsdProofs PsdProps
  UtilModel ApproxSpec TameMat LaplaceModel LaplaceSpec.
Set Implicit Arguments.
Unset Strict Implicit.
Unset Printing Implicit Defensive.
Import GRing.Theory.
Local Open Scope ring_scope.
Delimit Scope R_scope with Re.

Lemma lim_ext (f g : R -> R) x l : (forall s, f s = g s) -> derivable_pt_lim f x l -> derivable_pt_lim g x l.
Proof.
  move=> E H eps He; have [d Hd] := H eps He; exists d => h Hh Hl; rewrite -!E; exact: Hd.
Qed.

Lemma lim_quad (a b c : R) : derivable_pt_lim (fun s => (a + b * s + c * s * s)%Re) 0%Re b.
Proof.
  have H : derivable_pt_lim (fct_cte a + (mult_real_fct b id) + ((mult_real_fct c id) * id))%F 0%Re
     (0 + b * 1 + (c * 1 * id 0%Re + mult_real_fct c id 0%Re * 1))%Re.
    apply: derivable_pt_lim_plus; first apply: derivable_pt_lim_plus.
    - exact: derivable_pt_lim_const.
    - apply: derivable_pt_lim_scal; exact: derivable_pt_lim_id.
    - apply: derivable_pt_lim_mult; last exact: derivable_pt_lim_id.
      apply: derivable_pt_lim_scal; exact: derivable_pt_lim_id.
  have -> : b = (0 + b * 1 + (c * 1 * id 0%Re + mult_real_fct c id 0%Re * 1))%Re.
    by rewrite /mult_real_fct /id; ring.
  apply: lim_ext H => s; rewrite /plus_fct /mult_fct /mult_real_fct /fct_cte /id; ring.
Qed.

Section N.
Variable n : nat.
Implicit Types (f : 'cV[R]_n -> R) (x : 'cV[R]_n).

Lemma partial_unique f i x a b : partial f i x a -> partial f i x b -> a = b.
Proof. exact: uniqueness_limite. Qed.

Lemma partial_ext f g i x d : (forall y, f y = g y) -> partial f i x d -> partial g i x d.
Proof. by move=> E; apply: lim_ext. Qed.

Lemma hessian_unique f x H1 H2 : is_hessian f x H1 -> is_hessian f x H2 -> H1 = H2.
Proof.
  move=> [g1 [G1 D1]] [g2 [G2 D2]]; apply/matrixP => i j.
  apply: partial_unique (D1 i j) _; apply: partial_ext (D2 i j) => y.
  exact: partial_unique (G2 i y) (G1 i y).
Qed.

(** A quadratic form: its Hessian everywhere. *)
Lemma hessian_quad (c : R) (m : 'cV[R]_n) (P : 'M[R]_n) x : symm P ->
  is_hessian (fun y => (c - 1 / 2 * dot (y - m)%R (P *m (y - m)%R))%Re) x (- P).
Proof.
  move=> HP; exists (fun i y => - (P *m (y - m)) i ord0); split.
    move=> i y; rewrite /partial; set v := y - m.
    have := lim_quad (c - 1 / 2 * dot v (P *m v))%Re (- (P *m v)%R i ord0)%Re (- (1 / 2) * P i i)%Re.
    apply: lim_ext => s.
    have -> : y + s *: delta_mx i 0 - m = v + s *: delta_mx i 0 by rewrite /v addrAC.
    clearbody v; rewrite mulmxDr -scalemxAr !dotDl !dotDr !dotZl !dotZr.
    have -> : dot (delta_mx i 0) (P *m v) = (P *m v) i ord0 by rewrite dotC dot_delta.
    have -> : dot v (P *m delta_mx i 0) = (P *m v) i ord0.
      by rewrite dot_mx HP dot_delta.
    have -> : dot (delta_mx i 0) (P *m delta_mx i 0) = P i i.
      by rewrite dotC dot_delta -colE mxE.
    move: (dot v _) ((P *m v) i ord0) (P i i) => a1 a2 a3; rfield.
  move=> i j; rewrite /partial.
  have := lim_quad (- (P *m (x - m))%R i ord0)%Re (- P i j)%Re 0%Re; rewrite [(- P) i j]mxE.
  apply: lim_ext => s.
  have -> : x + s *: delta_mx j 0 - m = (x - m) + s *: delta_mx j 0 by rewrite addrAC.
  move: (x - m) => v; rewrite mulmxDr -scalemxAr -colE.
  have -> : (P *m v + s *: col j P) i ord0 = (P *m v) i ord0 + s * P i j by rewrite mxE; congr (_ + _); rewrite !mxE.
  move: ((P *m v) i ord0) (P i j) => a1 a2; rring.
Qed.

Lemma hessian_ext f g x H : (forall y, f y = g y) -> is_hessian f x H -> is_hessian g x H.
Proof.
  by move=> E [d [D1 D2]]; exists d; split=> // i y; apply: partial_ext (D1 i y).
Qed.

Lemma max_stationary f x i d : is_max f x -> partial f i x d -> d = 0%Re.
Proof.
  move=> M D; pose F s := f (x + s *: delta_mx i 0).
  have Hd : derivable_pt F 0%Re by exists d.
  have E0 : x + 0%Re *: delta_mx i 0 = x by rewrite scale0r addr0.
  have [A _] : derive_pt F 0%Re Hd = 0%Re /\ True.
    split=> //; apply: (deriv_maximum F (-1)%Re 1%Re 0%Re Hd); [lra|lra|].
    by move=> s _ _; rewrite /F E0; exact: M.
  by rewrite -A; apply: (uniqueness_limite F 0%Re) D _; exact: (derive_pt_eq_1 _ _ _ _ (erefl _)).
Qed.

Lemma hessian_symm_part (jac : ('cV[R]_n -> R) -> 'cV[R]_n -> nat -> nat -> R) f x H :
  differentiates jac f x -> is_hessian f x H -> symm H ->
  \matrix_(i, j) ((jac f x (nat_of_ord i) (nat_of_ord j) + jac f x (nat_of_ord j) (nat_of_ord i)) / 2)%Re = H.
Proof.
  move=> D HH HS; apply/matrixP => i j; rewrite mxE (D _ HH i j) (D _ HH j i).
  have -> : H j i = H i j by rewrite -[in LHS]HS mxE.
  field.
Qed.
End N.

Lemma minimises_max n minimise (f : 'cV[R]_n -> R) x0 iters : minimises minimise (fun y => - f y)%Re x0 ->
  is_max f (maximum_a_posteriori minimise f x0 iters).
Proof. by move=> H y; have := H iters y; rewrite /maximum_a_posteriori; move: (minimise _ _ _) => z ?; lra. Qed.

(** For every function for which the optimiser finds a minimum of its negative, with a negative definite Hessian there: the approximation
    is the normal distribution with its mode there and the same second derivatives. *)
Theorem C92_laplace :
  forall n minimise jac svd (f : 'cV[R]_n -> R) x_init H,
    let x := maximum_a_posteriori minimise f x_init 2000 in
    minimises minimise (fun y => - f y)%Re x_init -> is_hessian f x H -> differentiates jac f x ->
    spd (- H) -> is_svd (- H) (svd (- H)) ->
    exists d, laplace_approximation minimise jac svd f x_init None = Ok d
      /\ nm_mean d = x /\ is_max f x
      /\ (forall i s, partial f i x s -> s = 0%Re)
      /\ spd (nm_var d)
      /\ (let g := gaussian_logpdf (nm_mean d) (nm_var d) in
          is_max g x /\ is_hessian g x H /\ forall i, partial g i x 0%Re).
Proof.
  move=> n minimise jac svd f x_init H x Hx HH D S V; have Mx := minimises_max 2000 Hx.
  have HS : symm H by have := proj1 S; rewrite /symm linearN /= => /oppr_inj.
  have HSN : symm (- H) by exact: (proj1 S).
  eexists; split; first by [].
  rewrite /= -/x (hessian_symm_part D HH HS) (proj1 (proj2 (C67_closest_psd svd (- H))) S V).
  split=> //; split; first exact: Mx.
  split; first by move=> i s; exact: max_stationary.
  split; first exact: spd_inv.
  pose c := (- (1 / 2) * (INR n * ln (2 * PI) + ln (\det (invmx (- H)))))%Re.
  have E y : (c - 1 / 2 * dot (y - x)%R ((- H) *m (y - x)%R))%Re = gaussian_logpdf x (invmx (- H)) y.
    by rewrite /gaussian_logpdf invmxK /c; move: (dot _ _) => a; rring.
  have Mg : is_max (gaussian_logpdf x (invmx (- H))) x.
    move=> y; rewrite -!E subrr mulmx0 dot0r.
    have := proj2 (spd_psd S) (y - x); move: (dot _ _) => a; rnorm => ?; lra.
  have Hg : is_hessian (gaussian_logpdf x (invmx (- H))) x H.
    apply: hessian_ext E _; rewrite -[X in is_hessian _ _ X]opprK; exact: hessian_quad.
  split; [exact: Mg|split; [exact: Hg|]] => i.
  have [g [G1 _]] := Hg; have Gi := G1 i x.
  by have E0 := max_stationary Mg Gi; rewrite E0 in Gi.
Qed.
Print Assumptions C92_laplace.

(** For the log-density of a normal distribution, known up to a constant, the approximation is
    that normal distribution; a second log-density is used for the covariance only. *)
Theorem C92_exact :
  forall chol, chol_ok chol ->
  forall n minimise jac svd (p q : natnormal n) (a b : R) x_init,
    proper p -> proper q ->
    let f x := (a + logpdf chol p x)%Re in
    let f_eval x := (b + logpdf chol q x)%Re in
    let x := maximum_a_posteriori minimise f x_init 2000 in
    minimises minimise (fun y => - f y)%Re x_init -> differentiates jac f x -> differentiates jac f_eval x ->
    is_svd (nn_prec p) (svd (nn_prec p)) -> is_svd (nn_prec q) (svd (nn_prec q)) ->
    laplace_approximation minimise jac svd f x_init None = Ok (Normal (mean chol p) (var chol p))
    /\ laplace_approximation minimise jac svd f x_init (Some f_eval) = Ok (Normal (mean chol p) (var chol q)).
Proof.
  move=> chol Hc n minimise jac svd p q a b x_init Hp Hq f f_eval x Hx D De V Ve; have Mx : is_max f x := minimises_max 2000 Hx.
  have F (r : natnormal n) (k : R) y : proper r -> (k + logpdf chol r y)%Re =
      (k - 1 / 2 * (INR n * ln (2 * PI) + ln (\det (invmx (nn_prec r)))) - 1 / 2 * dot (y - mean chol r)%R (nn_prec r *m (y - mean chol r)%R))%Re.
    move=> Hr; rewrite logpdfE // /gaussian_logpdf invmxK -(meanE Hc) //; move: (dot _ _) (ln _) => u v; rring.
  have HH (r : natnormal n) (k : R) : proper r -> is_hessian (fun y => (k + logpdf chol r y)%Re) x (- nn_prec r).
    move=> Hr; apply: hessian_ext (fun y => esym (F r k y Hr)) _; apply: hessian_quad; exact: (proj1 Hr).
  have Ex : x = mean chol p.
    have := Mx (mean chol p); rewrite /f !F // subrr mulmx0 dot0r => I.
    have I0 : Rle (dot (x - mean chol p)%R (nn_prec p *m (x - mean chol p)%R)) 0%Re.
      by move: I; move: (dot _ _) => u; rnorm => ?; lra.
    case: (eqVneq (x - mean chol p) 0) => [/eqP|Nz]; first by rewrite subr_eq0 => /eqP.
    by have := proj2 Hp _ (elimN eqP Nz); move: I0; rnorm; move: (dot _ _) => u ? ?; lra.
  have SN (r : natnormal n) : proper r -> symm (- nn_prec r) by move=> [Hr _]; rewrite /symm linearN /= Hr.
  split; rewrite /laplace_approximation /= -/x.
    by rewrite (hessian_symm_part D (HH p a Hp) (SN p Hp)) opprK (proj1 (proj2 (C67_closest_psd svd (nn_prec p))) Hp V) varE // Ex.
  by rewrite (hessian_symm_part De (HH q b Hq) (SN q Hq)) opprK (proj1 (proj2 (C67_closest_psd svd (nn_prec q))) Hq Ve) varE // Ex.
Qed.
Print Assumptions C92_exact.

(** An optimiser that finds minima, a correct differentiator and a correct decomposition exist,
    and the two-dimensional normal [nat2] has correlated coordinates. *)
Definition best_minimise n (g : 'cV[R]_n -> R) (x0 : 'cV[R]_n) (iters : nat) : 'cV[R]_n :=
  epsilon (inhabits x0) (fun x => forall y, (g x <= g y)%Re).
Definition some_jac n (f : 'cV[R]_n -> R) (x : 'cV[R]_n) (i j : nat) : R :=
  let H := epsilon (inhabits (0 : 'M[R]_n)) (is_hessian f x) in
  if insub i is Some i' then if insub j is Some j' then H i' j' else 0%Re else 0%Re.

Example C92_witness :
  let f x := (1 + logpdf some_chol nat2 x)%Re in
  minimises (@best_minimise 2) (fun y => - f y)%Re 0
  /\ differentiates (@some_jac 2) f (maximum_a_posteriori (@best_minimise 2) f 0 2000)
  /\ is_svd (nn_prec nat2) (some_svd (nn_prec nat2)) /\ proper nat2.
Proof.
  move=> f; split; last split; last split.
  - move=> iters y; rewrite /best_minimise.
    have Ex : exists x, forall z, Rle (- f x)%Re (- f z)%Re.
      exists (mean some_chol nat2) => z; rewrite /f !logpdfE; [|exact: some_chol_ok|exact: corr2_spd|exact: some_chol_ok|exact: corr2_spd].
      rewrite /gaussian_logpdf invmxK -(meanE some_chol_ok); [|exact: corr2_spd]; rewrite subrr mulmx0 dot0r.
      have := proj2 (spd_psd corr2_spd) (z - mean some_chol nat2).
      by move: (dot _ _) => u; rnorm => ?; lra.
    have := epsilon_spec (inhabits (0 : 'cV[R]_2)) _ Ex y; move: (epsilon _ _) => e ?; lra.
  - move=> H HH i j; rewrite /some_jac !valK.
    by rewrite (hessian_unique (epsilon_spec (inhabits (0 : 'M[R]_2)) _ (ex_intro _ _ HH)) HH).
  - exact: some_svd_ok (proj1 corr2_spd).
  - exact: corr2_spd.
Qed.
