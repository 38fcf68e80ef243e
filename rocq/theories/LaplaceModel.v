(** Model of [maximum_a_posteriori] and [laplace_approximation] of gpcm/util.py. *)
From Coq Require Import Reals.
From mathcomp Require Import all_ssreflect all_algebra.
From Verif Require Import Py RMat NormalModel PsdModel UtilModel.
Set Implicit Arguments.
Unset Strict Implicit.
Unset Printing Implicit Defensive.
Local Open Scope ring_scope.
Delimit Scope R_scope with Re.

Section Laplace.
Variable n : nat.

(** varz's [minimise_l_bfgs_b] on the variable "x": the value of the variable afterwards, given
    the objective, the initial value and the number of iterations. *)
Variable minimise : ('cV[R]_n -> R) -> 'cV[R]_n -> nat -> 'cV[R]_n.

(** [jax.jacrev(jax.jacrev(f))] at a point. *)
Variable jac : ('cV[R]_n -> R) -> 'cV[R]_n -> nat -> nat -> R.

(** [B.svd], see PsdModel. *)
Variable svd : 'M[R]_n -> 'M[R]_n * 'rV[R]_n * 'M[R]_n.

(** util.py 247-265: [maximum_a_posteriori]. *)
Definition maximum_a_posteriori (f : 'cV[R]_n -> R) (x_init : 'cV[R]_n) (iters : nat) : 'cV[R]_n :=
  minimise (fun x => (- f x)%Re) x_init iters.

(** util.py 268-281: [laplace_approximation]; [x] is a column vector because [x_init] is. *)
Definition laplace_approximation (f : 'cV[R]_n -> R) (x_init : 'cV[R]_n) (f_eval : option ('cV[R]_n -> R))
    : res (normal n) :=
  let x := maximum_a_posteriori f x_init 2000 in
  let g := if f_eval is Some g then g else f in
  bind (hessian [:: n; 1%N] (jac g x)) (fun h =>
  let precision := - (\matrix_(i, j) h (nat_of_ord i) (nat_of_ord j)) in
  Ok (Normal x (closest_psd svd precision true))).
End Laplace.
