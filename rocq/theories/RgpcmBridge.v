(** Model of what ties the RGPCM to its approximations: the kernel matrices that [__prior__]
    (model.py 40-45) stores and the integrals that [construct_terms] (approx.py 132-147)
    computes, as the matrices on which the model of approx.py works.  The nested lists become
    matrices as in GpcmBridge.v: the rows of [uz] are indexed by [t_u], its columns by [ms]. *)
From Coq Require Import Reals ZArith List String.
From mathcomp Require Import all_ssreflect all_algebra.
From Verif Require Import Py RMat NormalModel ApproxModel GpcmModel RgpcmModel GpcmBridge KernelProofs.
Set Implicit Arguments.
Unset Strict Implicit.
Unset Printing Implicit Defensive.
Local Open Scope ring_scope.
Delimit Scope R_scope with Re.

Section Bridge.
Variables (argsort : list Z -> list nat) (m : rgpcm).
Notation nu := (List.length (r_t_u m)).
Notation nz := (List.length (r_ms m)).

(** model.py 40-45: [__prior__] computes [K_z] and [K_u]. *)
Definition rgpcm_gp : res (gp nu nz) :=
  bind (rcompute_K_z m) (fun Kz =>
  bind (rcompute_K_u m) (fun Ku =>
  Ok (GP (mat nu nu Ku) (mat nz nz Kz) (r_noise m)))).

(** approx.py 144-147: [construct_terms] computes the integrals at the times [t]. *)
Definition rgpcm_integrals (t : list R) : res (integrals (List.length t) nu nz) :=
  bind (mapM (fun s => rcompute_i_hx m (Some s) (Some s)) t) (fun hx =>
  bind (rcompute_I_ux m) (fun ux =>
  bind (rcompute_I_hz argsort m t) (fun hz =>
  bind (rcompute_I_uz argsort m t) (fun uz =>
  Ok (Integrals (fun i : 'I_(List.length t) => List.nth i hx R0) (mat nu nu ux)
        (fun i : 'I_(List.length t) => mat nz nz (List.nth i hz nil))
        (fun i : 'I_(List.length t) => mat nu nz (List.nth i uz nil))))))).

(** The frequencies and the support are proper, and the two exceptions of the closed form of
    [compute_I_ux] are excluded. *)
Definition well_rgpcm : Prop :=
  good_rgpcm m /\ (r_a m < r_b m)%Re /\ Z.le Z0 (r_m_max m) /\ List.NoDup (r_ms m) /\
  (forall k, List.In k (r_ms m) -> Z.le Z0 k) /\ (0 < r_noise m)%Re.

(** The filter sees the support only. *)
Definition in_support (t : list R) : Prop :=
  forall s, List.In s t -> (r_a m <= s <= r_b m)%Re /\ forall u, List.In u (r_t_u m) -> (r_a m <= s - u)%Re.
End Bridge.
