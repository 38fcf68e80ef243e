(** Specification vocabulary for exppoly.py: programs over the public API and what they are
    supposed to compute. Independent of how the model represents polynomials. *)
From Coq Require Import Reals ZArith List Bool String.
From Verif Require Import Py ExpPolyModel.
Import ListNotations.

Section Spec.
Context (N : numdom).

(** Programs a user can write with numbers, [const], [var], [Poly(Term(...), ...)],
    [+], [-], [*], [**] and [.substitute]. *)
Inductive pexpr :=
| ENum (c : N)                                   (* a Python number or tensor *)
| EConst (c : N)                                 (* const(c) *)
| EVar (x : string) (k : Z)                      (* var(x, power=k) *)
| ETerms (ts : list (N * list (string * Z)))     (* Poly(Term(c, Factor(x, k), ...), ...) *)
| EAdd (a b : pexpr)
| ESub (a b : pexpr)
| ENeg (a : pexpr)
| EMul (a b : pexpr)
| EPow (a : pexpr) (n : Z)
| ESubst (a : pexpr) (x : string) (b : pexpr).   (* a.substitute(x, b) *)

(** Rebinding one variable. *)
Definition rebind (env : string -> R) (x : string) (v : R) : string -> R :=
  fun y => if String.eqb y x then v else env y.

Fixpoint sumR (l : list R) : R := match l with [] => 0%R | x :: l' => (x + sumR l')%R end.
Fixpoint prodR (l : list R) : R := match l with [] => 1%R | x :: l' => (x * prodR l')%R end.

(** The real number a program denotes under an assignment of the variables. *)
Fixpoint den (env : string -> R) (e : pexpr) : R :=
  match e with
  | ENum c => val c
  | EConst c => val c
  | EVar x k => (env x ^ Z.to_nat k)%R
  | ETerms ts =>
      sumR (map (fun cf => (val (fst cf)
                  * prodR (map (fun xk => env (fst xk) ^ Z.to_nat (snd xk)) (snd cf)))%R) ts)
  | EAdd a b => (den env a + den env b)%R
  | ESub a b => (den env a - den env b)%R
  | ENeg a => (- den env a)%R
  | EMul a b => (den env a * den env b)%R
  | EPow a n => (den env a ^ Z.to_nat n)%R
  | ESubst a x b => den (rebind env x (den env b)) a
  end.

(** Variables on which the program may depend. *)
Fixpoint fv (e : pexpr) : list string :=
  match e with
  | ENum _ | EConst _ => []
  | EVar x _ => [x]
  | ETerms ts => flat_map (fun cf => map fst (snd cf)) ts
  | EAdd a b | ESub a b | EMul a b => fv a ++ fv b
  | ENeg a | EPow a _ => fv a
  | ESubst a x b => filter (fun y => negb (String.eqb y x)) (fv a) ++ fv b
  end.

(** Running a program: Python evaluation with the operations of the model. *)
Definition mkTermSpec (so : setorder) (cf : N * list (string * Z)) : res (term N) :=
  do fs <- mapM (fun xk => mkFactor (fst xk) (snd xk)) (snd cf);
  mkTerm N so (fst cf) fs.

Fixpoint run (so : setorder) (e : pexpr) : res (obj N) :=
  match e with
  | ENum c => Ok (ONum c)
  | EConst c => do p <- pconst N so c; Ok (OPoly p)
  | EVar x k => do p <- pvar N so x k; Ok (OPoly p)
  | ETerms ts => do l <- mapM (mkTermSpec so) ts; do p <- mkPoly N so l; Ok (OPoly p)
  | EAdd a b => do u <- run so a; do v <- run so b; obj_add N so u v
  | ESub a b => do u <- run so a; do v <- run so b; obj_sub N so u v
  | ENeg a => do u <- run so a; obj_neg N so u
  | EMul a b => do u <- run so a; do v <- run so b; obj_mul N so u v
  | EPow a n => do u <- run so a; obj_pow N so u n
  | ESubst a x b => do u <- run so a; do v <- run so b; obj_substitute N so u x v
  end.

(** Evaluating the resulting object. *)
Definition obj_eval (m : varmap) (o : obj N) : res R :=
  match o with ONum c => Ok (val c) | OPoly p => poly_eval N m p end.

(** Legal programs: powers of variables at least one, positive powers of polynomials, and
    [substitute] only between polynomials. [is_poly] tells numbers and polynomials apart. *)
Fixpoint is_poly (e : pexpr) : bool :=
  match e with
  | ENum _ => false
  | EConst _ | EVar _ _ | ETerms _ => true
  | EAdd a b | ESub a b | EMul a b => is_poly a || is_poly b
  | ENeg a | EPow a _ => is_poly a
  | ESubst _ _ _ => true
  end.

Fixpoint legal (e : pexpr) : Prop :=
  match e with
  | ENum _ | EConst _ => True
  | EVar _ k => (1 <= k)%Z
  | ETerms ts => ts <> [] /\ Forall (fun cf => Forall (fun xk => (1 <= snd xk)%Z) (snd cf)) ts
  | EAdd a b | ESub a b | EMul a b => legal a /\ legal b
  | ENeg a => legal a
  | EPow a n => legal a /\ (1 <= n)%Z
  | ESubst a _ b => legal a /\ legal b /\ is_poly a = true /\ is_poly b = true
  end.

(** Polynomials that exist at run time: everything the API can build, where each call may use
    its own set iteration order. *)
Inductive built : poly N -> Prop :=
| built_terms so ts l p : mapM (mkTermSpec so) ts = Ok l -> mkPoly N so l = Ok p -> built p
| built_const so c p : pconst N so c = Ok p -> built p
| built_var so x k p : pvar N so x k = Ok p -> built p
| built_add so p q r : built p -> built q -> poly_add N so p q = Ok r -> built r
| built_add_num so p c r : built p -> poly_add_num N so p c = Ok r -> built r
| built_neg so p r : built p -> poly_neg N so p = Ok r -> built r
| built_mul so p q r : built p -> built q -> poly_mul N so p q = Ok r -> built r
| built_mul_num so p c r : built p -> poly_mul_num N so p c = Ok r -> built r
| built_pow so p n r : built p -> poly_pow N so p n = Ok (OPoly r) -> built r
| built_subst so p x q r : built p -> built q -> poly_substitute N so p x q = Ok (OPoly r) -> built r
| built_collect so p x k f r : built p -> mkFactor x k = Ok f -> poly_collect_for N so p f = Ok r -> built r
| built_reject so p x r : built p -> poly_reject N so p x = Ok r -> built r.

(** Value of a polynomial when every variable is assigned. *)
Definition evalp (env : string -> R) (p : poly N) : res R := poly_eval N (fun x => Some (env x)) p.
Definition evale (env : string -> R) (e : exppoly N) : res R := exppoly_eval N (fun x => Some (env x)) e.

End Spec.

Arguments ENum {N} _.
Arguments EConst {N} _.
Arguments EVar {N} _ _.
Arguments ETerms {N} _.
Arguments EAdd {N} _ _.
Arguments ESub {N} _ _.
Arguments ENeg {N} _.
Arguments EMul {N} _ _.
Arguments EPow {N} _ _.
Arguments ESubst {N} _ _ _.
