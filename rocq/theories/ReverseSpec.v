(** Specification: time that runs backwards.  Models nothing of /repo. *)
From Coq Require Import Reals List.
From Verif Require Import GpcmModel ReorderSpec.
Local Open Scope R_scope.

(** Times and lags in reverse; the time [d] becomes the origin. *)
Definition back (d t : R) : R := d - t.

(** The GPCM with the inducing points of the filter, which are lags, and of the excitation, which
    are times, reflected one by one. *)
Definition reflected (d : R) (m : gpcm) : gpcm := with_points m (map (back 0) (g_t_u m)) (map (back d) (g_t_z m)).

(** Reflected points in increasing order again. *)
Definition mirrored (d : R) (m : gpcm) : gpcm := with_points m (rev (map (back 0) (g_t_u m))) (rev (map (back d) (g_t_z m))).
