(** Specification vocabulary for the integration routines. [is_integral] and [is_integral2]
    (Gauss.v, Gauss3.v) are Coquelicot's improper Riemann integral between possibly infinite
    limits and its iteration. *)
From Coq Require Import Reals List Bool String.
From Coquelicot Require Import Coquelicot.
From Verif Require Import Py ExpPolyModel ExpPolySpec ExpPolyIntModel Gauss.
Import ListNotations.
Local Open Scope R_scope.

(** [v] is the iterated integral of [f] over the whole line in each of the variables; the
    first one is integrated first. *)
Fixpoint iterated (f : (string -> R) -> R) (names : list string) (env : string -> R) (v : R) : Prop :=
  match names with
  | [] => v = f env
  | x :: xs => exists g,
      (forall env', is_integral (fun z => f (rebind env' x z)) m_infty p_infty (g env'))
      /\ iterated g xs env v
  end.

(** Completing the square, variable by variable: the exponent [h] is quadratic in the first
    variable with a constant negative coefficient (not beyond the floor 1e-30 of the safe
    square root); what is left after integrating that variable is treated in the same way, and
    [h'] is what is left in the end. *)
Fixpoint eliminates (h : (string -> R) -> R) (names : list string) (h' : (string -> R) -> R) : Prop :=
  match names with
  | [] => forall env, h' env = h env
  | x :: xs => exists (a : R) (b c : (string -> R) -> R),
      a < 0 /\ / 10 ^ 30 <= - PI / a
      /\ (forall env z, h (rebind env x z) = a * z ^ 2 + b env * z + c env)
      /\ eliminates (fun env => c env - b env ^ 2 / (4 * a)) xs h'
  end.

Section Spec.
Context (N : numdom).

(** A number, or a polynomial that the API can build. *)
Definition built_obj (o : obj N) : Prop := match o with ONum _ => True | OPoly p => built N p end.
Definition obj_depends (o : obj N) (x : string) : bool :=
  match o with ONum _ => false | OPoly p => poly_is_function_of N p x end.

(** The meaning of a lower and of an upper limit that does not depend on the variables in
    [bound]. *)
Definition lim_is (inf : Rbar) (bound : list string) (env : string -> R) (l : limit N) (r : Rbar) : Prop :=
  match l with
  | LInf => r = inf
  | LObj o => built_obj o /\ (forall x, In x bound -> obj_depends o x = false)
              /\ exists v, r = Finite v /\ obj_eval N (fun y => Some (env y)) o = Ok v
  end.
Definition lower_is := lim_is m_infty.
Definition upper_is := lim_is p_infty.

(** The mapping gives every variable of [e] and of the limits its value in [env], except
    perhaps the variables of integration. *)
Definition lim_depends (l : limit N) (x : string) : bool :=
  match l with LInf => false | LObj o => obj_depends o x end.
Definition binds (m : varmap) (env : string -> R) (bound : list string) (e : exppoly N) (ls : list (limit N)) : Prop :=
  forall y, ~ In y bound ->
    poly_is_function_of N (epoly e) y = true \/ (exists l, In l ls /\ lim_depends l y = true) ->
    m y = Some (env y).

End Spec.

(** The names with two infinite limits, and the other entries. *)
Definition doubly_infinite {N : numdom} (nls : list (string * limit N * limit N)) : list string :=
  flat_map (fun nl => match nl with (x, LInf, LInf) => [x] | _ => [] end) nls.
Definition others {N : numdom} (nls : list (string * limit N * limit N)) : list (string * limit N * limit N) :=
  flat_map (fun nl => match nl with (_, LInf, LInf) => [] | _ => [nl] end) nls.
