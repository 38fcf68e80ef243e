(** Specification of a slice-sampling run, independent of the sampler's code. *)
From Coq Require Import Reals List.
Import ListNotations.
Local Open Scope R_scope.

(** What is assumed of the random numbers: uniform draws lie between their limits and
    exponential draws are not negative. *)
Definition uniform_ok {G} (uniform : R -> R -> G -> R * G) : Prop :=
  forall l u g, l <= u -> l <= fst (uniform l u g) <= u.
Definition exponential_ok {G} (exponential : G -> R * G) : Prop :=
  forall g, 0 <= fst (exponential g).

(** The point at angle [th] on the ellipse through [x] (angle 0) and [y] (a quarter turn). *)
Definition on_ellipse {D} (x y : D -> R) (th : R) (p : D -> R) : Prop :=
  forall d, p d = cos th * x d + sin th * y d.

(** A bracket search: a list of brackets [(l, u)] with the angle tried in each.  Every bracket
    contains 0 and its angle; after a miss the angle replaces the end point on its own side of
    0 and the other end point stays. *)
Fixpoint bracket_search (l u : R) (s : list (R * R * R)) : Prop :=
  match s with
  | [] => True
  | (l0, u0, th) :: s' =>
      l0 = l /\ u0 = u /\ l <= 0 <= u /\ l <= th <= u /\
      (0 < th -> bracket_search l th s') /\ (th <= 0 -> bracket_search th u s')
  end.

(** No bracket is wider than an earlier one. *)
Definition never_widens (s : list (R * R * R)) : Prop :=
  forall i j l u th l' u' th',
    (i <= j)%nat -> nth_error s i = Some (l, u, th) -> nth_error s j = Some (l', u', th') ->
    l <= l' /\ u' <= u.
