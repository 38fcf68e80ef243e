(** Model of the hashes of /repo/gpcm/exppoly.py and of the sets that Python builds with them. *)
From Coq Require Import Reals ZArith List Bool String Permutation.
From Verif Require Import Py ExpPolyModel.
Import ListNotations.

(** * Sets of Python

    An element is found in a set only if an element with the same hash compares equal to it. *)
Section Sets.
Context {A : Type} (hash : A -> Z) (eqb : A -> A -> bool).

(** [x in s]. *)
Definition py_in (x : A) (s : list A) : bool := existsb (fun y => (hash y =? hash x)%Z && eqb y x) s.

(** [set(l)]: the elements in the order in which they were added. *)
Definition py_set (l : list A) : list A := fold_left (fun s x => if py_in x s then s else s ++ [x]) l [].

(** [s1 == s2] of two sets: the same size, and every element of the one is in the other. *)
Definition py_set_eq (s1 s2 : list A) : bool :=
  Nat.eqb (List.length s1) (List.length s2) && forallb (fun x => py_in x s2) s1.
End Sets.

Section Hash.
(** The hashes of strings and integers. *)
Context (hash_str : string -> Z) (hash_int : nat -> Z).
(** [hash(frozenset(...))], a function of the hashes of the elements. *)
Context (hash_set : list Z -> Z).
Context (N : numdom).
(** [hash(c)] of a coefficient: [None] for a tensor, which is not hashable. *)
Context (hash_num : N -> option Z).

(** [Factor.__hash__], exppoly.py:124-125. *)
Definition factor_hash (f : factor) : Z := (hash_str (fname f) + hash_int (fpow f))%Z.

(** [hash(frozenset(factors))], exppoly.py:299, 304. *)
Definition factors_hash (fs : list factor) : Z := hash_set (map factor_hash (py_set factor_hash factor_eqb fs)).

(** [Term.__hash__], exppoly.py:298-299. *)
Definition term_hash (t : term N) : res Z :=
  match hash_num (tconst t) with
  | Some h => Ok (h + factors_hash (tfactors t))%Z
  | None => Err TypeError
  end.

(** The sets of [_merge_common_factors] and [_merge_common_terms], exppoly.py:130, 304. *)
Definition set_of_names (fs : list factor) : list string := py_set hash_str String.eqb (map fname fs).
Definition set_of_factor_sets (ts : list (term N)) : list (list factor) := py_set factors_hash fset_eqb (map tfactors ts).

(** [self.factors == other.factors], exppoly.py:260, 264, 305. *)
Definition factors_eq (fs gs : list factor) : bool :=
  py_set_eq factor_hash factor_eqb (py_set factor_hash factor_eqb fs) (py_set factor_hash factor_eqb gs).

(** [Poly.__eq__], exppoly.py:422-424: both sets hash every term. *)
Definition poly_eq (p q : poly N) : res bool :=
  do hp <- mapM (fun t => do h <- term_hash t; Ok (h, t)) p;
  do hq <- mapM (fun t => do h <- term_hash t; Ok (h, t)) q;
  let eqb (s t : Z * term N) := term_eqb N (snd s) (snd t) in
  Ok (py_set_eq fst eqb (py_set fst eqb hp) (py_set fst eqb hq)).
End Hash.
