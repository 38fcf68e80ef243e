(** Model of [sample] in /repo/experiments/paper/sample.py 23-54 and in
    /repo/experiments/paper/sample_interpolation.py 22-78.  The draws of [B.sample] are an argument:
    a list of those that the loops look at.  Progress output and the functions that are sampled from
    the kernels (SampleModel.v) are left out. *)
From Coq Require Import Reals List.
From mathcomp Require Import all_ssreflect all_algebra.
From Verif Require Import Py RMat NormalModel ApproxModel FilterModel SampleModel.
Set Implicit Arguments.
Unset Strict Implicit.
Unset Printing Implicit Defensive.
Local Open Scope ring_scope.
Delimit Scope R_scope with Re.

(** sample_interpolation.py 42-44, 50-52: [while bad u: u = draw], from an initial value.  [None] if the
    draws are used up before the loop ends. *)
Fixpoint draw_until A (bad : A -> bool) (u : A) (draws : seq A) : option A :=
  if bad u then if draws is d :: draws' then draw_until bad d draws' else None else Some u.

Section Interp.
Variable chol : forall n, 'M[R]_n -> 'M[R]_n.

(** sample_interpolation.py 43: [B.abs(u1[2]) > 1e-2]. *)
Definition not_smooth nu (third : 'I_nu) (u : 'cV[R]_nu) : bool :=
  if Rlt_dec (1 / 100)%Re (Rabs (u third ord0)) then true else false.
(** sample_interpolation.py 51: [u2[2] < 0.5]. *)
Definition not_rough nu (third : 'I_nu) (u : 'cV[R]_nu) : bool :=
  if Rlt_dec (u third ord0) (1 / 2)%Re then true else false.

(** sample_interpolation.py 62, 67: [c * u2 + (1 - c) * u1]. *)
Definition mix n (c : R) (u1 u2 : 'cV[R]_n) : 'cV[R]_n := c *: u2 + (1 - c)%Re *: u1.

(** sample_interpolation.py 58: the weights. *)
Definition weights : seq R := [:: 0; 1 / 10; 23 / 100; 33 / 100; 1 / 2]%Re.

(** sample_interpolation.py 58-67: the kernels and the filters. *)
Definition interpolate (k : R -> R -> R) (eps : R) nu n (Ku : 'M[R]_nu) (i_hx : R -> R -> R) (I_ux : R -> R -> 'M[R]_nu)
    (t_u : 'I_nu -> R) (t : 'I_n -> R) (u1 u2 : 'cV[R]_nu) : res (seq ('M[R]_n * 'cV[R]_n)) :=
  let u1_full := posterior_mean chol k eps t_u u1 t in
  let u2_full := posterior_mean chol k eps t_u u2 t in
  mapM (fun c =>
    bind (normalised (kernel_approx chol Ku i_hx I_ux t t (mix c u1 u2)) true) (fun K =>
    Ok (K, mix c u1_full u2_full))) weights.

(** sample_interpolation.py 38-78 with the loops: [k] is the kernel [model.k_h()]. *)
Definition sample_interpolation (k : R -> R -> R) (eps : R) nu n (Ku : 'M[R]_nu) (i_hx : R -> R -> R) (I_ux : R -> R -> 'M[R]_nu)
    (t_u : 'I_nu -> R) (t : 'I_n -> R) (third : 'I_nu) (draws1 draws2 : seq 'cV[R]_nu) : option (res (seq ('M[R]_n * 'cV[R]_n))) :=
  if draw_until (not_smooth third) (const_mx 1%Re) draws1 is Some u1 then
    if draw_until (not_rough third) (const_mx 0%Re) draws2 is Some u2 then
      Some (interpolate k eps Ku i_hx I_ux t_u t u1 u2)
    else None
  else None.
End Interp.
