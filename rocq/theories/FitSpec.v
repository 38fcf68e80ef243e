(** Specification vocabulary for fitting, conditioning and predicting, independent of the code. *)
From Coq Require Import ZArith List Bool String.
From Verif Require Import Py FitModel.
Import ListNotations.
Local Open Scope list_scope.

(** The Gibbs chain: from (state, u, z), draw u given z, then z given the new u. *)
Section Chain.
Variables S U Z_ : Type.
Variable draw_u : S -> Z_ -> S * U.
Variable draw_z : S -> U -> S * Z_.
Definition gibbs_step (x : S * U * Z_) : S * U * Z_ :=
  let '(s, _, z) := x in
  let (s1, u1) := draw_u s z in
  let (s2, z2) := draw_z s1 u1 in
  (s2, u1, z2).
(** The state of the chain after [k] steps. *)
Fixpoint gibbs_chain (k : nat) (x : S * U * Z_) : S * U * Z_ :=
  match k with O => x | Datatypes.S k => gibbs_step (gibbs_chain k x) end.
End Chain.

(** The scheme names that the documentation of the constructor lists (model.py 29-31), and the
    additional name that it accepts. *)
Definition documented_schemes : list string :=
  ["structured"; "mean-field-ca"; "mean-field-gradient"; "mean-field-collapsed-gradient";
   "mean-field-ca-gradient"; "mean-field-ca-collapsed-gradient"]%string.
Definition undocumented_scheme : string := "mean-field".

(** What the documentation of [ignore_qs] asks for (approx.py 96-101): all earlier posteriors if
    [previous], and those of the current index that [current] selects. *)
Definition selected_now (current : current_arg) (e : excluded) : Prop :=
  match current, e with
  | CBool b, _ => b = true
  | CStr s, ExU _ => s = "u"%string
  | CStr s, ExZ _ => s = "z"%string
  end.
Definition index_of (e : excluded) : nat := match e with ExU i => i | ExZ i => i end.
Definition documented_current (current : current_arg) : Prop :=
  match current with CBool _ => True | CStr s => s = "u"%string \/ s = "z"%string end.

(** The names by which model families are requested. *)
Definition family_name (f : family) : string :=
  match f with FGPCM => "gpcm" | FCGPCM => "cgpcm" | FRGPCM => "gprv" end.

(** Two variable containers agree on a posterior index. *)
Definition same_posterior {H U Z_ DU DZ} (i : nat) (v w : vars H U Z_ DU DZ) : Prop :=
  vq_u _ _ _ _ _ v i = vq_u _ _ _ _ _ w i /\ vq_z _ _ _ _ _ v i = vq_z _ _ _ _ _ w i /\
  vs_u _ _ _ _ _ v i = vs_u _ _ _ _ _ w i /\ vs_z _ _ _ _ _ v i = vs_z _ _ _ _ _ w i.
