(** The properties C39-C42 of normal.py, stated on the model. *)
From Coq Require Import Reals Lra Psatz.
From mathcomp Require Import all_ssreflect all_algebra.
From Verif Require Import RMat RChol NormalModel NormalSpec NormalProofs.
Set Implicit Arguments.
Unset Strict Implicit.
Unset Printing Implicit Defensive.
Import GRing.Theory.
Local Open Scope ring_scope.
Delimit Scope R_scope with Re.

(** * C39: the two parametrisations *)

Theorem C39_round_trip :
  forall chol, chol_ok chol ->
  forall n,
    (forall d : normal n, spd (nm_var d) ->
       to_normal chol (from_normal chol d) = d
       /\ nn_lam (from_normal chol d) = invmx (nm_var d) *m nm_mean d
       /\ nn_prec (from_normal chol d) = invmx (nm_var d)
       /\ spd (nn_prec (from_normal chol d)))
    /\ (forall p : natnormal n, spd (nn_prec p) ->
       from_normal chol (to_normal chol p) = p
       /\ mean chol p = invmx (nn_prec p) *m nn_lam p
       /\ var chol p = invmx (nn_prec p)
       /\ m2 chol p = var chol p + mean chol p *m (mean chol p)^T
       /\ spd (nm_var (to_normal chol p))).
Proof.
  move=> chol Hc n; split.
  - case=> m S /= HS; have Hi := spd_inv HS; have U := spd_unit HS.
    rewrite /to_normal /from_normal /=; split; [|split; [|split]].
    + rewrite meanE // ?varE //=; rewrite ?pd_invE // ?cholsolveE //=.
      by rewrite invmxK mulKVmx.
    + by rewrite cholsolveE.
    + by rewrite pd_invE.
    + by rewrite pd_invE.
  - case=> l P /= HP; have Hi := spd_inv HP; have U := spd_unit HP.
    split; [|split; [|split; [|split]]].
    + rewrite /to_normal /from_normal meanE // varE //= pd_invE // cholsolveE //.
      by rewrite invmxK mulKVmx.
    + by rewrite meanE.
    + by rewrite varE.
    + by rewrite varE // m2E.
    + by rewrite /= varE.
Qed.
Print Assumptions C39_round_trip.

(** A two-dimensional positive definite matrix with correlation. *)
Definition corr2 : 'M[R]_2 := \matrix_(i, j) (if i == j then 2%Re else 1%Re).

Lemma corr2_aux (a b : R) : ~ (a = 0%Re /\ b = 0%Re) ->
  (0 < a * (2 * a + 1 * b) + b * (1 * a + 2 * b))%Re.
Proof.
  move=> H.
  have -> : (a * (2 * a + 1 * b) + b * (1 * a + 2 * b) = Rsqr a + Rsqr b + Rsqr (a + b))%Re by rewrite /Rsqr; ring.
  have H1 := Rle_0_sqr a; have H2 := Rle_0_sqr b; have H3 := Rle_0_sqr (a + b)%Re.
  case: (Req_dec a 0%Re) => [Ea|Na].
    case: (Req_dec b 0%Re) => [Eb|Nb]; first by case: H.
    by have := Rsqr_pos_lt b Nb => ?; lra.
  by have := Rsqr_pos_lt a Na => ?; lra.
Qed.

Lemma corr2_spd : spd corr2.
Proof.
  split; first by apply/matrixP => i j; rewrite !mxE eq_sym.
  move=> x Hx; rewrite /dot !big_ord_recl big_ord0 addr0 !mxE !big_ord_recl !big_ord0 !addr0 !mxE /=.
  apply: corr2_aux => - [E0 E1]; apply: Hx; apply/colP => i; rewrite mxE.
  case: i => - [|[|//]] Hi; [rewrite -[RHS]E0|rewrite -[RHS]E1]; congr (x _ _); exact: val_inj.
Qed.

Definition nat2 : natnormal 2 := NatNormal (const_mx 3%Re) corr2.

(** The Cholesky decomposition exists, so the hypotheses are met. *)
Example C39_witness : chol_ok some_chol /\ spd (nn_prec nat2) /\ from_normal some_chol (to_normal some_chol nat2) = nat2.
Proof.
  split; [exact: some_chol_ok|split; [exact: corr2_spd|]].
  by have [_ H] := C39_round_trip some_chol_ok 2; case: (H nat2 corr2_spd).
Qed.

(** * C40: the KL divergence *)

Theorem C40_kl :
  forall chol, chol_ok chol ->
  forall n (p q : natnormal n), spd (nn_prec p) -> spd (nn_prec q) ->
    kl chol p q = gaussian_kl (invmx (nn_prec p) *m nn_lam p) (invmx (nn_prec p))
                              (invmx (nn_prec q) *m nn_lam q) (invmx (nn_prec q))
    /\ (0 <= kl chol p q)%Re
    /\ (kl chol p q = 0%Re <-> p = q).
Proof.
  move=> chol Hc n p q Hp Hq; split; [exact: klE|split; [exact: kl_ge0|split]].
    exact: kl_eq0.
  by move=> <-; exact: kl_refl.
Qed.
Print Assumptions C40_kl.

(** Two different distributions: the divergence is positive. *)
Example C40_witness : (0 < kl some_chol nat2 (NatNormal 0 1%:M))%Re.
Proof.
  have [_ [[H|E] Z]] := C40_kl some_chol_ok (p := nat2) (q := NatNormal 0 1%:M) corr2_spd (spd1 2).
    exact: H.
  exfalso; have := proj1 Z (esym E) => - [El _].
  have := congr1 (fun M : 'cV[R]_2 => M ord0 ord0) El; rewrite !mxE.
  by move=> ?; have : 3%Re = 0%Re by []; lra.
Qed.

(** * C41: the log-density *)

Theorem C41_logpdf :
  forall chol, chol_ok chol ->
  forall n (p : natnormal n) (x : 'cV[R]_n), spd (nn_prec p) ->
    logpdf chol p x = gaussian_logpdf (invmx (nn_prec p) *m nn_lam p) (invmx (nn_prec p)) x.
Proof. by move=> chol Hc n p x Hp; exact: logpdfE. Qed.
Print Assumptions C41_logpdf.

Example C41_witness :
  logpdf some_chol nat2 0 = gaussian_logpdf (invmx corr2 *m const_mx 3%Re) (invmx corr2) 0.
Proof. exact: (C41_logpdf some_chol_ok (p := nat2) 0 corr2_spd). Qed.

(** * C42: sampling *)

Theorem C42_sample_moments :
  forall chol, chol_ok chol ->
  forall Omega (E : expectation Omega) n num (p : natnormal n) (noise : Omega -> 'M[R]_(n, num)),
    spd (nn_prec p) ->
    has_moments E noise 0 (nn_prec p) ->
    has_moments E (fun w => sample chol p (noise w))
      (invmx (nn_prec p) *m nn_lam p) (invmx (nn_prec p)).
Proof. by move=> chol Hc Omega E n num p noise Hp; exact: sample_moments. Qed.
Print Assumptions C42_sample_moments.

(** Two independent coin flips with values -2 and 2 are such a noise, for two samples of a
    one-dimensional distribution with precision four. *)
Lemma coins_ext (f g : bool * bool -> R) : (forall w, f w = g w) ->
  ((f (true, true) + f (true, false) + f (false, true) + f (false, false)) / 4 =
   (g (true, true) + g (true, false) + g (false, true) + g (false, false)) / 4)%Re.
Proof. by move=> H; rewrite !H. Qed.
Definition coins : expectation (bool * bool).
Proof.
  refine (@Expectation _ (fun f => ((f (true, true) + f (true, false) + f (false, true) + f (false, false)) / 4)%Re)
    coins_ext _ _ _).
  - by move=> f g; field.
  - by move=> a f; field.
  - by field.
Defined.
Definition flips (w : bool * bool) : 'M[R]_(1, 2) :=
  \matrix_(i, k) (if (if k == ord0 then w.1 else w.2) then 2%Re else (-2)%Re).

Example C42_witness : spd (4%Re%:M : 'M[R]_1) /\ has_moments coins flips 0 4%Re%:M.
Proof.
  split.
    split; first by rewrite /symm tr_scalar_mx.
    move=> x Hx; rewrite mul_scalar_mx dotZr; apply: Rmult_lt_0_compat; first lra.
    by apply: dot_gt0; apply/eqP.
  split.
    move=> i k; rewrite !mxE /= !mxE; case: (k == ord0) => /=; rewrite -?[GRing.zero _]/(0%Re).
      by change (@eq R ((2 + 2 + -2 + -2) / 4)%Re 0%Re); field.
    by change (@eq R ((2 + -2 + 2 + -2) / 4)%Re 0%Re); field.
  move=> i j k l; rewrite !ord1 /= !mxE.
  case: k => - [|[|//]] Hk; case: l => - [|[|//]] Hl /=.
  - by change (@eq R (((2 - 0) * (2 - 0) + (2 - 0) * (2 - 0) + (-2 - 0) * (-2 - 0) + (-2 - 0) * (-2 - 0)) / 4)%Re 4%Re); field.
  - by change (@eq R (((2 - 0) * (2 - 0) + (2 - 0) * (-2 - 0) + (-2 - 0) * (2 - 0) + (-2 - 0) * (-2 - 0)) / 4)%Re 0%Re); field.
  - by change (@eq R (((2 - 0) * (2 - 0) + (-2 - 0) * (2 - 0) + (2 - 0) * (-2 - 0) + (-2 - 0) * (-2 - 0)) / 4)%Re 0%Re); field.
  - by change (@eq R (((2 - 0) * (2 - 0) + (-2 - 0) * (-2 - 0) + (2 - 0) * (2 - 0) + (-2 - 0) * (-2 - 0)) / 4)%Re 4%Re); field.
Qed.
