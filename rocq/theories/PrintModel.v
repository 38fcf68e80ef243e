(** Model of the printing of /repo/gpcm/exppoly.py. *)
From Coq Require Import List Bool String DecimalString.
From Verif Require Import Py ExpPolyModel.
Import ListNotations.
Local Open Scope string_scope.

(** [str(n)] of an integer. *)
Definition str_int (n : nat) : string := NilEmpty.string_of_uint (Nat.to_uint n).

(** [sorted(l)] of strings, by insertion. *)
Fixpoint insert (s : string) (l : list string) : list string :=
  match l with
  | [] => [s]
  | t :: l' => if String.leb s t then s :: l else t :: insert s l'
  end.
Fixpoint sorted (l : list string) : list string :=
  match l with
  | [] => []
  | s :: l' => insert s (sorted l')
  end.

Section Print.
Context (N : numdom).
(** [str(c)] of a coefficient. *)
Context (str_num : N -> string).

(** [Factor.__str__], exppoly.py:97-98. *)
Definition factor_str (f : factor) : string := fname f ++ "^" ++ str_int (fpow f).

(** [Term.__str__], exppoly.py:248-253. *)
Definition term_str (t : term N) : string :=
  if Nat.ltb 0 (List.length (tfactors t))
  then str_num (tconst t) ++ " * " ++ String.concat " " (sorted (map factor_str (tfactors t)))
  else str_num (tconst t).

(** [Poly.__str__], exppoly.py:413-417. *)
Definition poly_str (p : poly N) : string :=
  if Nat.eqb (List.length p) 0 then "0" else String.concat " + " (map term_str p).

(** [ExpPoly.__str__], exppoly.py:711-712. *)
Definition exppoly_str (e : exppoly N) : string := str_num (econst e) ++ " * exp(" ++ poly_str (epoly e) ++ ")".
End Print.
