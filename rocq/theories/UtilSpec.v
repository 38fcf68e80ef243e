(** Specification of the statistics of gpcm/util.py, independent of the code. *)
From Coq Require Import Reals List Arith.
Import ListNotations.
Local Open Scope R_scope.

(** [f 0 + ... + f (n - 1)]. *)
Fixpoint total (n : nat) (f : nat -> R) : R :=
  match n with O => 0 | S n => total n f + f n end.

(** The mean of a series, its lagged product sums around the mean, and its variance. *)
Definition mean_of (x : list R) : R := total (length x) (fun i => nth i x 0) / INR (length x).
Definition lagged (x : list R) (k : nat) : R :=
  total (length x - k) (fun i => (nth i x 0 - mean_of x) * (nth (i + k) x 0 - mean_of x)).
Definition variance (x : list R) : R := lagged x 0 / INR (length x).

Definition nonconstant (x : list R) : Prop :=
  exists i j, (i < length x)%nat /\ (j < length x)%nat /\ nth i x 0 <> nth j x 0.

(** The kernel [k], padded with zeros and extended to an even periodic sequence of period [N]. *)
Definition even_extension (k : list R) (N i : nat) : R := nth (Nat.min i (N - i)) k 0.

(** The magnitude of its cosine transform at frequency [j / N]. *)
Definition cosine_transform (k : list R) (N j : nat) : R :=
  Rabs (total N (fun i => even_extension k N i * cos (2 * PI * INR i * INR j / INR N))).

(** The integral of a function known on an even grid, by the trapezoidal rule: grid spacing [d]
    and values [f 0, ..., f (n - 1)]. *)
Definition trapezoid (d : R) (n : nat) (f : nat -> R) : R :=
  total (n - 1) (fun i => d * (f i + f (S i)) / 2).

(** The number of elements of [l] in the closed interval from [a] to [b]. *)
Definition within (a b : R) (l : list R) : nat :=
  length (filter (fun v => if Rle_dec a v then if Rle_dec v b then true else false else false) l).

(** A square array is symmetric. *)
Definition symmetric (h : nat -> nat -> R) : Prop := forall i j, h i j = h j i.
