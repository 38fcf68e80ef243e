(** Shared vocabulary of the models: exceptions as values and the numeric domain.

    Models nothing of /repo by itself. It fixes how Python features used throughout
    /repo/gpcm are represented. *)
From Coq Require Import Reals ZArith List Bool String Permutation.
Import ListNotations.

(** Exceptions that the modelled code raises. *)
Inductive err :=
| ValueError | RuntimeError | KeyError | TypeError | IndexError | AttributeError
| NotImplementedError | ZeroDivisionError
| DispatchError     (* plum finds no matching method *)
| SampleFailed      (* gpcm/sample.py:13 *)
| Unreachable.      (* marks a branch that the model excludes by a proof *)

(** The outcome of a Python call. *)
Inductive res (A : Type) :=
| Ok (a : A)
| Err (e : err).
Arguments Ok {A} _.
Arguments Err {A} _.

Definition bind {A B} (r : res A) (f : A -> res B) : res B :=
  match r with Ok a => f a | Err e => Err e end.

Notation "'do' x <- r ; k" := (bind r (fun x => k))
  (at level 200, x pattern, r at level 100, k at level 200).

Fixpoint mapM {A B} (f : A -> res B) (l : list A) : res (list B) :=
  match l with
  | [] => Ok []
  | x :: l' => do y <- f x; do ys <- mapM f l'; Ok (y :: ys)
  end.

Fixpoint foldM {A B} (f : B -> A -> res B) (l : list A) (b : B) : res B :=
  match l with
  | [] => Ok b
  | x :: l' => do b' <- f b x; foldM f l' b'
  end.

(** A numeric domain: the Python objects that may occur as a coefficient (numbers, NumPy or
    JAX tensors), observed at one element of the broadcast result.

    [val c] is the real number held by [c] at that element. [isz c] is the truth value of
    [isinstance(c, B.Number) and c == 0]: it may be [false] for a tensor that happens to hold
    zero, and it is only assumed to be sound. [cis z c] is [c is z] for the literals 0 and 1
    (object identity with a cached small integer). [ceqb a b] is the truth value of [a == b]
    for numbers. Arithmetic is exact: rounding is not modelled. *)
Record numdom := NumDom {
  C :> Type;
  val : C -> R;
  ofZ : Z -> C;
  cadd : C -> C -> C;
  cmul : C -> C -> C;
  copp : C -> C;
  isz : C -> bool;
  cis : Z -> C -> bool;
  ceqb : C -> C -> bool;
  val_ofZ : forall z, val (ofZ z) = IZR z;
  val_add : forall a b, val (cadd a b) = (val a + val b)%R;
  val_mul : forall a b, val (cmul a b) = (val a * val b)%R;
  val_opp : forall a, val (copp a) = (- val a)%R;
  isz_val : forall a, isz a = true -> val a = 0%R;
  cis_val : forall z a, cis z a = true -> val a = IZR z;
  ceqb_val : forall a b, ceqb a b = true -> val a = val b;
  ceqb_refl : forall a, ceqb a a = true;
  ceqb_sym : forall a b, ceqb a b = ceqb b a
}.

Arguments val {_} _.
Arguments ofZ {_} _.
Arguments cadd {_} _ _.
Arguments cmul {_} _ _.
Arguments copp {_} _.
Arguments isz {_} _.
Arguments cis {_} _ _.
Arguments ceqb {_} _ _.
Arguments val_ofZ {_} _.
Arguments val_add {_} _ _.
Arguments val_mul {_} _ _.
Arguments val_opp {_} _.
Arguments isz_val {_} _ _.
Arguments cis_val {_} _ _ _.
Arguments ceqb_val {_} _ _ _.
Arguments ceqb_refl {_} _.
Arguments ceqb_sym {_} _ _.

(** Python integers as a numeric domain: executable, used by the examples. *)
Definition ZDom : numdom.
Proof.
  refine (NumDom Z IZR (fun z => z) Z.add Z.mul Z.opp (Z.eqb 0) Z.eqb Z.eqb
            _ _ _ _ _ _ _ _ _).
  - reflexivity.
  - exact plus_IZR.
  - exact mult_IZR.
  - exact opp_IZR.
  - intros a H. apply Z.eqb_eq in H. now subst.
  - intros z a H. apply Z.eqb_eq in H. now subst.
  - intros a b H. apply Z.eqb_eq in H. now subst.
  - intros a. apply Z.eqb_refl.
  - intros a b. apply Z.eqb_sym.
Defined.

(** The same integers held in tensors (for instance traced by JAX): [isz] and the identity
    tests are never true. *)
Definition ZTensorDom : numdom.
Proof.
  refine (NumDom Z IZR (fun z => z) Z.add Z.mul Z.opp (fun _ => false) (fun _ _ => false) Z.eqb
            _ _ _ _ _ _ _ _ _).
  - reflexivity.
  - exact plus_IZR.
  - exact mult_IZR.
  - exact opp_IZR.
  - discriminate.
  - discriminate.
  - intros a b H. apply Z.eqb_eq in H. now subst.
  - intros a. apply Z.eqb_refl.
  - intros a b. apply Z.eqb_sym.
Defined.

(** Real (floating-point) Python numbers. [0 == x] is decided on the reals. *)
Definition Reqb (x y : R) : bool := if Req_EM_T x y then true else false.

Lemma Reqb_eq x y : Reqb x y = true <-> x = y.
Proof. unfold Reqb. destruct (Req_EM_T x y); split; congruence. Qed.

Definition RDom : numdom.
Proof.
  refine (NumDom R (fun x => x) IZR Rplus Rmult Ropp (fun x => Reqb x 0)
            (fun z x => Reqb x (IZR z)) Reqb _ _ _ _ _ _ _ _ _).
  - reflexivity.
  - reflexivity.
  - reflexivity.
  - reflexivity.
  - intros a H. now apply Reqb_eq in H.
  - intros z a H. now apply Reqb_eq in H.
  - intros a b H. now apply Reqb_eq in H.
  - intros a. now apply Reqb_eq.
  - intros a b. unfold Reqb. destruct (Req_EM_T a b), (Req_EM_T b a); congruence.
Defined.

(** An order in which Python may iterate over a set whose elements were inserted in the order
    of the list: any reordering. The set's elements are pairwise distinct. *)
Record setorder := SetOrder {
  ord :> forall A : Type, list A -> list A;
  ord_perm : forall A (l : list A), Permutation (ord A l) l
}.
Arguments ord _ {A} _.
Arguments ord_perm _ {A} _.

(** Two concrete orders, used by examples. *)
Definition ord_id : setorder.
Proof. refine (SetOrder (fun A l => l) _). intros A l. apply Permutation_refl. Defined.

Definition ord_rev : setorder.
Proof. refine (SetOrder (fun A l => rev l) _). intros A l. symmetry. apply Permutation_rev. Defined.

(** Real numbers held in tensors: [isz] and the identity tests are never true. *)
Definition RTensorDom : numdom.
Proof.
  refine (NumDom R (fun x => x) IZR Rplus Rmult Ropp (fun _ => false) (fun _ _ => false) Reqb
            _ _ _ _ _ _ _ _ _).
  - reflexivity.
  - reflexivity.
  - reflexivity.
  - reflexivity.
  - discriminate.
  - discriminate.
  - intros a b H. now apply Reqb_eq in H.
  - intros a. now apply Reqb_eq.
  - intros a b. unfold Reqb. destruct (Req_EM_T a b), (Req_EM_T b a); congruence.
Defined.
