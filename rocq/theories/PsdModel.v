(** Model of [closest_psd] of gpcm/util.py over matrices of exact reals. *)
From Coq Require Import Reals.
From mathcomp Require Import all_ssreflect all_algebra.
From Verif Require Import RMat.
Set Implicit Arguments.
Unset Strict Implicit.
Unset Printing Implicit Defensive.
Local Open Scope ring_scope.
Delimit Scope R_scope with Re.

Section Psd.
(** [B.svd]: the factors [u], [s] and [v] with [a = u diag(s) v^T]. *)
Variables (n : nat) (svd : 'M[R]_n -> 'M[R]_n * 'rV[R]_n * 'M[R]_n).

(** util.py 139-156: [closest_psd]. *)
Definition closest_psd (a : 'M[R]_n) (inv : bool) : 'M[R]_n :=
  let a := (/ 2)%Re *: (a + a^T) in
  let: (u, s, v) := svd a in
  let signs := u^T *m v in
  let s := \row_k Rmax (signs k k * s ord0 k)%Re 0%Re in
  let s := if inv then \row_k (if Req_EM_T (s ord0 k) 0%Re then 0%Re else (1 / s ord0 k)%Re) else s in
  (\matrix_(i, k) (u i k * s ord0 k)%Re) *m v^T.
End Psd.
