(** Specification for the evidence lower bounds. *)
From Coq Require Import Reals.
From mathcomp Require Import all_ssreflect all_algebra.
From Verif Require Import RMat NormalModel NormalSpec ApproxModel ApproxSpec IntegralSpec.
Set Implicit Arguments.
Unset Strict Implicit.
Unset Printing Implicit Defensive.
Local Open Scope ring_scope.
Delimit Scope R_scope with Re.

(** The log-density of the normal distribution that [p] stands for. *)
Definition log_density n (p : natnormal n) : 'cV[R]_n -> R :=
  gaussian_logpdf (invmx (nn_prec p) *m nn_lam p) (invmx (nn_prec p)).

(** The evidence for the observations [y] under the priors [pu] and [pz]: the integral over u
    and z of the exponential of the expected log-likelihood times the prior densities. *)
Definition evidence n nu nz (m : gp nu nz) (ig : integrals n nu nz) (y : 'I_n -> R)
    (pu : natnormal nu) (pz : natnormal nz) (Z : R) : Prop :=
  integral2 (fun u z => exp (expected_log_lik m ig y u z + log_density pu u + log_density pz z)) Z.

(** The average of log p(y | u) under the posterior [qu], where p(y | u) is the integral over z,
    minus the divergence from the prior: the ELBO collapsed over q(z | u). *)
Definition structured_bound n nu nz (m : gp nu nz) (ig : integrals n nu nz) (y : 'I_n -> R)
    (pu qu : natnormal nu) (pz : natnormal nz) (s : R) : Prop :=
  exists log_p e k,
    (forall u, integral (fun z => exp (expected_log_lik m ig y u z + log_density pz z)) (exp (log_p u)))
    /\ integral (fun u => (exp (log_density qu u) * log_p u)%Re) e
    /\ integral (fun u => (exp (log_density qu u) * (log_density qu u - log_density pu u))%Re) k
    /\ s = (e - k)%Re.

(** An expectation is monotone. *)
Definition monotone Omega (E : expectation Omega) : Prop :=
  forall f g, (forall w, (f w <= g w)%Re) -> (E f <= E g)%Re.

(** The likelihood of the observations [y] given the function values [f]. *)
Definition likelihood n (noise : R) (y f : 'I_n -> R) : R :=
  \prod_i exp (- (1 / 2) * ln (2 * PI * noise) - (y i - f i) * (y i - f i) / (2 * noise))%Re.

(** [f u z] is a random function of the data points with the first and second moments of the
    model given u and z, and monotone expectations. *)
Definition model_of_f n nu nz (m : gp nu nz) (ig : integrals n nu nz) Omega
    (E : 'cV[R]_nu -> 'cV[R]_nz -> expectation Omega) (f : 'cV[R]_nu -> 'cV[R]_nz -> Omega -> 'I_n -> R) : Prop :=
  forall u z, monotone (E u z) /\
    forall i, E u z (fun w => f u z w i) = f_mean ig u z i
              /\ E u z (fun w => (f u z w i * f u z w i)%Re) = f_m2 m ig u z i.
