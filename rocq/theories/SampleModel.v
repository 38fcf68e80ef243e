(** Model of [AbstractGPCM.sample] of gpcm/model.py: the draw of a kernel and a function from the
    prior.

    The random numbers are arguments.  [B.sample(a)] is LAB's draw from a zero-mean normal with
    covariance [a]: a factor of [a] times standard normals.  The factorisation [root] and the
    singular value decomposition [svd] are arguments too. *)
From Coq Require Import Reals String.
From mathcomp Require Import all_ssreflect all_algebra.
From Verif Require Import Py RMat NormalModel ApproxModel PsdModel.
Set Implicit Arguments.
Unset Strict Implicit.
Unset Printing Implicit Defensive.
Local Open Scope ring_scope.
Delimit Scope R_scope with Re.

Section Sample.
Variable chol : forall n, 'M[R]_n -> 'M[R]_n.
Variable svd : forall n, 'M[R]_n -> 'M[R]_n * 'rV[R]_n * 'M[R]_n.
Variable root : forall n, 'M[R]_n -> 'M[R]_n.

(** [B.sample(a)[:, 0]] at the standard normals [xi]. *)
Definition draw n (A : 'M[R]_n) (xi : 'cV[R]_n) : 'cV[R]_n := root A *m xi.

(** model.py 243-244: the optional normalisation.  Without times there is no [K[0, 0]]. *)
Definition normalised n (K : 'M[R]_n) (normalise : bool) : res 'M[R]_n :=
  if normalise then
    if insub 0%N is Some o then Ok (\matrix_(p, q) (K p q / K o o)%Re) else Err IndexError
  else Ok K.

(** model.py 228-248: [sample]. *)
Definition sample nu nz n (m : gp nu nz) (i_hx : R -> R -> R) (I_ux : R -> R -> 'M[R]_nu)
    (t : 'I_n -> R) (normalise : bool) (xi_u : 'cV[R]_nu) (xi_f xi_y : 'cV[R]_n) : res ('M[R]_n * 'cV[R]_n) :=
  let u := draw (K_u m) xi_u in
  let K := kernel_approx chol (K_u m) i_hx I_ux t t u in
  bind (normalised K normalise) (fun K =>
  let f := draw (closest_psd (@svd n) K false) xi_f in
  let y := f + sqrt (noise m) *: xi_y in
  Ok (K, y)).
End Sample.
