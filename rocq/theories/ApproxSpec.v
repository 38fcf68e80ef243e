(** Specification for approx.py: the moments of the modelled function given the inducing
    variables, and the expected log-likelihood, in terms of inverses and traces. *)
From Coq Require Import Reals.
From mathcomp Require Import all_ssreflect all_algebra.
From Verif Require Import RMat NormalModel ApproxModel.
Set Implicit Arguments.
Unset Strict Implicit.
Unset Printing Implicit Defensive.
Local Open Scope ring_scope.
Delimit Scope R_scope with Re.

Section Spec.
Variables (n nu nz : nat) (m : gp nu nz) (ig : integrals n nu nz).

(** First and second moment of f(t_i) given the inducing variables u and z. *)
Definition f_mean (u : 'cV[R]_nu) (z : 'cV[R]_nz) (i : 'I_n) : R := dot u (ig_uz ig i *m z).

Definition f_m2 (u : 'cV[R]_nu) (z : 'cV[R]_nz) (i : 'I_n) : R :=
  (dot u ((ig_ux ig - ig_uz ig i *m invmx (K_z m) *m (ig_uz ig i)^T)%R *m u)
   + dot z ((ig_hz ig i - (ig_uz ig i)^T *m invmx (K_u m) *m ig_uz ig i)%R *m z)
   + f_mean u z i * f_mean u z i
   + (ig_hx ig i
      - \tr (invmx (K_u m) *m ig_ux ig)%R
      - \tr (invmx (K_z m) *m ig_hz ig i)%R
      + \tr (invmx (K_u m) *m (ig_uz ig i *m invmx (K_z m) *m (ig_uz ig i)^T))%R))%Re.

(** Expectation of the log-likelihood of the observations y given u and z:
    log N(y_i; f_i, noise) averaged over f_i. *)
Definition expected_log_lik (y : 'I_n -> R) (u : 'cV[R]_nu) (z : 'cV[R]_nz) : R :=
  \sum_i (- (1 / 2) * ln (2 * PI * noise m)
          - 1 / (2 * noise m) * (y i * y i - 2 * y i * f_mean u z i + f_m2 u z i))%Re.
End Spec.

(** The integrals are positive semi-definite jointly with the kernel matrices: [I_ux] and [K_z]
    are covariances of the two factors of [I_uz], and so are [I_hz] and [K_u]. *)
Definition joint_psd n nu nz (m : gp nu nz) (ig : integrals n nu nz) : Prop :=
  symm (ig_ux ig) /\ (forall i, symm (ig_hz ig i)) /\
  forall i (x : 'cV[R]_nu) (w : 'cV[R]_nz),
    (0 <= dot x (ig_ux ig *m x) + 2 * dot x (ig_uz ig i *m w) + dot w (K_z m *m w))%Re /\
    (0 <= dot w (ig_hz ig i *m w) + 2 * dot x (ig_uz ig i *m w) + dot x (K_u m *m x))%Re.

(** A well-posed model with integrals for its data. *)
Definition well_posed n nu nz (m : gp nu nz) (ig : integrals n nu nz) : Prop :=
  spd (K_u m) /\ spd (K_z m) /\ (0 < noise m)%Re /\ joint_psd m ig.

(** The state [ap] with other current posteriors. *)
Definition with_qs nu nz (ap : approx nu nz) (qu : natnormal nu) (qz : natnormal nz) : approx nu nz :=
  set_q_z (set_q_u ap qu) qz.

(** A proper variational posterior. *)
Definition proper k (p : natnormal k) : Prop := spd (nn_prec p).

(** The variance of f(t_i) that remains when the inducing variables are known is not negative. *)
Definition residual_nonneg n nu nz (m : gp nu nz) (ig : integrals n nu nz) : Prop :=
  forall i, (0 <= ig_hx ig i - \tr (invmx (K_u m) *m ig_ux ig)%R - \tr (invmx (K_z m) *m ig_hz ig i)%R
                  + \tr (invmx (K_u m) *m (ig_uz ig i *m invmx (K_z m) *m (ig_uz ig i)^T))%R)%Re.

(** * Moments of the convolution f(t) = int h(t - s) x(s) ds

    [cov P Q] is the second moment of f(t) when h and x are independent with second moments [P]
    and [Q]: it is bilinear, because it is the double integral of P(t - s, t - s') Q(s, s').
    [k_h] and [k_x] are the prior covariances, [ku a b] is the product of the covariances of h
    with the inducing variables [a] and [b], and [kz k l] likewise for x. *)
Section Convolution.
Variables (nu nz : nat) (V W : lmodType R) (cov : V -> W -> R).

Definition bilinear_cov : Prop :=
  (forall a P P' Q, cov (a *: P + P') Q = (a * cov P Q + cov P' Q)%Re) /\
  (forall a P Q Q', cov P (a *: Q + Q') = (a * cov P Q + cov P Q')%Re).

(** The second moment of a Gaussian process with covariance [k] given inducing variables: its
    conditional covariance plus the outer product of its conditional mean.  The inducing
    variables are given by [x], the inverse kernel matrix times their values. *)
Definition given (E : lmodType R) p (k : E) (kk : 'I_p -> 'I_p -> E) (K : 'M[R]_p) (x : 'cV[R]_p) : E :=
  k - \sum_a \sum_b invmx K a b *: kk a b + \sum_a \sum_b (x a ord0 * x b ord0) *: kk a b.
End Convolution.
