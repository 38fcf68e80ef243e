(** Model of gpcm/normal.py: normal distributions in natural parametrisation.

    Arithmetic is exact and the jitter that [B.cholesky] and [B.pd_inv] may add to a diagonal
    (lab's [B.epsilon]) is not modelled.  [chol] stands for [B.chol]; what the theorems assume
    of it is [RChol.chol_ok]: on every positive definite matrix it returns the lower triangular
    factor with a positive diagonal. *)
From Coq Require Import Reals.
From mathcomp Require Import all_ssreflect all_algebra.
From Verif Require Import RMat.
Set Implicit Arguments.
Unset Strict Implicit.
Unset Printing Implicit Defensive.
Local Open Scope ring_scope.
Delimit Scope R_scope with Re.

(** stheno's Normal: a mean and a variance. *)
Record normal (n : nat) := Normal { nm_mean : 'cV[R]_n; nm_var : 'M[R]_n }.

(** normal.py 19-26: [NaturalNormal.__init__].  The three caches [_mean], [_var] and [_m2] are
    not modelled: the properties below are functions of [lam] and [prec], which are never
    reassigned. *)
Record natnormal (n : nat) := NatNormal { nn_lam : 'cV[R]_n; nn_prec : 'M[R]_n }.

(** lab: [B.sum (a * b)] over all entries of two matrices. *)
Definition sum_mul m n (a b : 'M[R]_(m, n)) : R := \sum_i \sum_j a i j * b i j.

Section Normal.
Variable chol : forall n, 'M[R]_n -> 'M[R]_n.

(** lab: [B.solve a b], the solution [x] of [a x = b]. *)
Definition solve n m (a : 'M[R]_n) (b : 'M[R]_(n, m)) : 'M[R]_(n, m) := invmx a *m b.

(** lab: [B.cholsolve l b] solves [l l^T x = b] by two triangular solves. *)
Definition cholsolve n m (l : 'M[R]_n) (b : 'M[R]_(n, m)) : 'M[R]_(n, m) := solve l^T (solve l b).

(** lab: [B.pd_inv a], the inverse through the Cholesky factor. *)
Definition pd_inv n (a : 'M[R]_n) : 'M[R]_n := cholsolve (chol a) 1%:M.

(** lab: [B.logdet a] = [2 * sum(log(diag(chol a)))]. *)
Definition logdet n (a : 'M[R]_n) : R := (2 * \sum_i ln (chol a i i))%Re.

(** lab: [B.iqf a b] for a column vector [b], [b^T a^-1 b] through the Cholesky factor. *)
Definition iqf n (a : 'M[R]_n) (b : 'cV[R]_n) : R :=
  sum_mul (solve (chol a) b) (solve (chol a) b).

(** normal.py 28-39: [NaturalNormal.from_normal]. *)
Definition from_normal n (d : normal n) : natnormal n :=
  NatNormal (cholsolve (chol (nm_var d)) (nm_mean d)) (pd_inv (nm_var d)).

(** normal.py 60-65: [mean]. *)
Definition mean n (p : natnormal n) : 'cV[R]_n := cholsolve (chol (nn_prec p)) (nn_lam p).

(** normal.py 67-72: [var]. *)
Definition var n (p : natnormal n) : 'M[R]_n := pd_inv (nn_prec p).

(** normal.py 74-80: [m2], by two Cholesky solves with a transposition in between. *)
Definition m2 n (p : natnormal n) : 'M[R]_n :=
  let x := cholsolve (chol (nn_prec p)) (nn_prec p + nn_lam p *m (nn_lam p)^T) in
  cholsolve (chol (nn_prec p)) x^T.

(** normal.py 41-48: [to_normal]. *)
Definition to_normal n (p : natnormal n) : normal n := Normal (mean p) (var p).

(** normal.py 82-99: [sample], as a function of the draw [noise] of [Normal(prec)]: one column
    for each of the [num] samples; [B.add] broadcasts [lam] over the columns. *)
Definition sample n num (p : natnormal n) (noise : 'M[R]_(n, num)) : 'M[R]_(n, num) :=
  cholsolve (chol (nn_prec p)) (noise + \matrix_(i, k) nn_lam p i 0).

(** normal.py 108-126: [kl]. *)
Definition kl n (p q : natnormal n) : R :=
  let ratio := solve (chol (nn_prec p)) (chol (nn_prec q)) in
  let diff := mean p - mean q in
  (1 / 2 * (sum_mul ratio ratio
            - logdet (ratio^T *m ratio)
            + sum_mul (nn_prec q *m diff) diff
            - INR n))%Re.

(** normal.py 128-142: [logpdf]. *)
Definition logpdf n (p : natnormal n) (x : 'cV[R]_n) : R :=
  let diff := x - mean p in
  (- (1 / 2) * (- logdet (nn_prec p)
                + INR n * ln (2 * PI)
                + sum_mul (nn_prec p *m diff) diff))%Re.
End Normal.
