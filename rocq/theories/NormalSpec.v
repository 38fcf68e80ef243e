(** Specification of the normal distribution: the textbook formulas, in terms of inverses,
    determinants and traces. *)
From Coq Require Import Reals.
From mathcomp Require Import all_ssreflect all_algebra.
From Verif Require Import RMat.
Set Implicit Arguments.
Unset Strict Implicit.
Unset Printing Implicit Defensive.
Local Open Scope ring_scope.
Delimit Scope R_scope with Re.

(** Kullback-Leibler divergence of N(m1, S1) from N(m2, S2). *)
Definition gaussian_kl n (m1 : 'cV[R]_n) (S1 : 'M[R]_n) (m2 : 'cV[R]_n) (S2 : 'M[R]_n) : R :=
  (1 / 2 * (\tr (invmx S2 *m S1)%R - ln (\det S1 / \det S2)
            + dot (m2 - m1)%R (invmx S2 *m (m2 - m1)%R) - INR n))%Re.

(** Log-density of N(m, S) at x. *)
Definition gaussian_logpdf n (m : 'cV[R]_n) (S : 'M[R]_n) (x : 'cV[R]_n) : R :=
  (- (1 / 2) * (INR n * ln (2 * PI) + ln (\det S) + dot (x - m)%R (invmx S *m (x - m)%R)))%Re.

(** An expectation: a normalised linear functional on random variables over [Omega]. *)
Record expectation (Omega : Type) := Expectation {
  E :> (Omega -> R) -> R;
  E_ext : forall f g, (forall w, f w = g w) -> E f = E g;
  E_add : forall f g, E (fun w => (f w + g w)%Re) = (E f + E g)%Re;
  E_scale : forall a f, E (fun w => (a * f w)%Re) = (a * E f)%Re;
  E_one : E (fun _ => 1%Re) = 1%Re }.

(** The random matrix [x] has independent-looking columns: mean [m] and covariance [S] within a
    column, no correlation between columns. *)
Definition has_moments Omega (E : expectation Omega) n num (x : Omega -> 'M[R]_(n, num))
    (m : 'cV[R]_n) (S : 'M[R]_n) : Prop :=
  (forall i k, E (fun w => x w i k) = m i ord0) /\
  (forall i j k l, E (fun w => ((x w i k - m i ord0) * (x w j l - m j ord0))%Re) =
     if k == l then S i j else 0%Re).
