(** Specification vocabulary for the RGPCM. *)
From Coq Require Import Reals ZArith List Permutation Sorted.
From Coquelicot Require Import Coquelicot.
From Verif Require Import RgpcmModel.
Import ListNotations.
Local Open Scope R_scope.

(** An iterated integral over a rectangle, with bounds in either order. *)
Definition is_rect_integral (f : R -> R -> R) (x0 x1 y0 y1 v : R) : Prop :=
  exists g, (forall x, is_RInt (f x) y0 y1 (g x)) /\ is_RInt g x0 x1 v.

(** The basis functions, as in /repo/tests/test_rgpcm.py:103-121: cosines (index up to
    [m_max]) and sines on the support (a, b), continued by decaying exponentials and zero. *)
Definition beta (m : rgpcm) (k : Z) (tau : R) : R :=
  let cosine := (k <=? r_m_max m)%Z in
  if Rle_dec tau (r_a m) then (if cosine then exp (- r_lam m * (r_a m - tau)) else 0)
  else if Rlt_dec tau (r_b m) then
    (if cosine then cos (2 * PI * IZR k / (r_b m - r_a m) * (tau - r_a m))
     else sin (2 * PI * (IZR k - IZR (r_m_max m)) / (r_b m - r_a m) * (tau - r_a m)))
  else (if cosine then exp (- r_lam m * (tau - r_b m)) else 0).

(** What [np.argsort] promises: indices of a sorted rearrangement. *)
Definition argsorts (argsort : list Z -> list nat) : Prop :=
  forall l, Permutation (argsort l) (seq 0 (List.length l))
            /\ StronglySorted Z.le (map (fun i => nth i l 0%Z) (argsort l)).

(** Positive definiteness of a matrix given by rows. *)
From Verif Require Import GpcmSpec.
Definition pd (K : list (list R)) : Prop :=
  forall c, List.length c = List.length K -> Exists (fun x => x <> 0) c -> 0 < quad_form K c.

(** The inner product of the reproducing kernel Hilbert space of [exp (-lam |x - y|)] on [a, b]:
    for continuous functions that are differentiable except at finitely many points,
    <f, g> = 1/(2 lam) int_a^b (f' g' + lam^2 f g) + 1/2 (f(a) g(a) + f(b) g(b)). *)
Definition continuous_on (a b : R) (f : R -> R) : Prop :=
  forall x, a <= x <= b -> filterlim f (within (fun y => a <= y <= b) (locally x)) (locally (f x)).

Definition rkhs_inner (lam a b : R) (f g : R -> R) (v : R) : Prop :=
  continuous_on a b f /\ continuous_on a b g
  /\ exists (f' g' : R -> R) (I : R) (bad : list R),
       (forall x, a < x < b -> ~ In x bad -> is_derive f x (f' x) /\ is_derive g x (g' x))
       /\ is_RInt (fun x => f' x * g' x + lam ^ 2 * f x * g x) a b I
       /\ v = I / (2 * lam) + (f a * g a + f b * g b) / 2.
