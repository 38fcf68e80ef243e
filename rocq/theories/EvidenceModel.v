(** Model of the structured evidence lower bounds of gpcm/approx.py. *)
From Coq Require Import Reals.
From mathcomp Require Import all_ssreflect all_algebra.
From Verif Require Import Py RMat NormalModel ApproxModel.
Set Implicit Arguments.
Unset Strict Implicit.
Unset Printing Implicit Defensive.
Local Open Scope ring_scope.
Delimit Scope R_scope with Re.

Section Evidence.
Variable chol : forall n, 'M[R]_n -> 'M[R]_n.

(** approx.py 481-505: [Structured.elbo_collapsed_z], as a function of the samples [us] that
    [q_u.sample] returned.  [sum(recs) / len(recs)] of an empty list divides by zero. *)
Definition elbo_collapsed_z n nu nz (m : gp nu nz) (ts : terms n nu nz) (ap : approx nu nz)
    (us : seq 'cV[R]_nu) : res R :=
  let recs := [seq log_Z_u chol m ts u | u <- us] in
  if recs is [::] then Err ZeroDivisionError
  else Ok ((\sum_(r <- recs) r) / INR (size recs) - kl chol (q_u ap) (p_u m ap))%Re.

(** approx.py 430-458: the loop of [Structured.elbo_gibbs], as a function of the draws [noises]
    from which the two samplers compute their samples in every iteration. *)
Fixpoint gibbs n nu nz (m : gp nu nz) (ts : terms n nu nz) (noises : seq ('cV[R]_nu * 'cV[R]_nz))
    (u : 'cV[R]_nu) (z : 'cV[R]_nz) : 'cV[R]_nu * 'cV[R]_nz :=
  if noises is e :: noises' then
    let u' := sample chol (q_u_optimal m ts z) e.1 in
    let z' := sample chol (q_z_optimal m ts u') e.2 in
    gibbs m ts noises' u' z'
  else (u, z).

(** approx.py 430-458: [Structured.elbo_gibbs]: the estimate and the new state of the chain. *)
Definition elbo_gibbs n nu nz (m : gp nu nz) (ts : terms n nu nz) (ap : approx nu nz)
    (noises : seq ('cV[R]_nu * 'cV[R]_nz)) (u : 'cV[R]_nu) (z : 'cV[R]_nz) : R * 'cV[R]_nu * 'cV[R]_nz :=
  let r := gibbs m ts noises u z in
  ((log_Z_u chol m ts r.1 + logpdf chol (p_u m ap) r.1)%Re, r.1, r.2).
End Evidence.
