(** Model of what ties the GPCM to its approximations: the kernel matrices that [__prior__]
    (model.py 40-45) stores and the integrals that [construct_terms] (approx.py 132-147)
    computes, as the matrices on which the model of approx.py works.

    A nested list becomes a matrix of the same shape: entry (i, j) of the matrix is entry j of
    row i.  Both sides are indexed by the inducing points in the order of [t_u] and [t_z] and by
    the data in the order of [t]. *)
From Coq Require Import Reals ZArith List String.
From mathcomp Require Import all_ssreflect all_algebra.
From Verif Require Import Py ExpPolyModel ExpPolyIntModel ExpPolyIntProofs RMat NormalModel ApproxModel GpcmModel.
Set Implicit Arguments.
Unset Strict Implicit.
Unset Printing Implicit Defensive.
Local Open Scope ring_scope.
Delimit Scope R_scope with Re.

(** A nested list as a matrix. *)
Definition mat p q (T : list (list R)) : 'M[R]_(p, q) :=
  \matrix_(i, j) List.nth j (List.nth i T nil) R0.

Section Bridge.
Variables (N : numdom) (so : setorder) (ofR : R -> N) (m : gpcm).
Notation nu := (List.length (g_t_u m)).
Notation nz := (List.length (g_t_z m)).

(** model.py 40-45: [__prior__] computes [K_z] and [K_u]. *)
Definition gpcm_gp : res (gp nu nz) :=
  bind (compute_K_z N so ofR m) (fun Kz =>
  bind (compute_K_u N so ofR m) (fun Ku =>
  Ok (GP (mat nu nu Ku) (mat nz nz Kz) (g_noise m)))).

(** approx.py 144-147: [construct_terms] computes the integrals at the times [t]. *)
Definition gpcm_integrals (t : list R) : res (integrals (List.length t) nu nz) :=
  bind (mapM (fun s => compute_i_hx N so ofR m (Some s) (Some s)) t) (fun hx =>
  bind (compute_I_ux N so ofR m) (fun ux =>
  bind (compute_I_hz N so ofR m t) (fun hz =>
  bind (compute_I_uz N so ofR m t) (fun uz =>
  Ok (Integrals (fun i : 'I_(List.length t) => List.nth i hx R0) (mat nu nu ux)
        (fun i : 'I_(List.length t) => mat nz nz (List.nth i hz nil))
        (fun i : 'I_(List.length t) => mat nu nz (List.nth i uz nil))))))).
End Bridge.
