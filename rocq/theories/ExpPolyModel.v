(** Model of /repo/gpcm/exppoly.py: factors, terms, polynomials and exponentiated
    polynomials (the symbolic part). Integration is in [ExpPolyInt.v]. *)
From Coq Require Import Reals ZArith List Bool String Permutation.
From Verif Require Import Py.
Import ListNotations.
Local Open Scope string_scope.

(** [Factor], exppoly.py:65-84. Simplification: the power is stored as a [nat]; the
    constructor takes the Python integer and performs the check of lines 79-82. *)
Record factor := Factor { fname : string; fpow : nat }.

(** [Factor.__init__], exppoly.py:77-84. *)
Definition mkFactor (name : string) (power : Z) : res factor :=
  if (power <? 1)%Z then Err ValueError else Ok (Factor name (Z.to_nat power)).

(** [Factor.__eq__], exppoly.py:103-105. *)
Definition factor_eqb (f g : factor) : bool :=
  String.eqb (fname f) (fname g) && Nat.eqb (fpow f) (fpow g).

(** [Factor.__mul__] with a factor, exppoly.py:107-112. *)
Definition factor_mul (f g : factor) : res factor :=
  if String.eqb (fname g) (fname f)
  then mkFactor (fname f) (Z.of_nat (fpow f) + Z.of_nat (fpow g))
  else Err RuntimeError.

(** Membership in and equality of sets of factors ([in], [==] on [set]). *)
Definition fmem (f : factor) (s : list factor) : bool := existsb (factor_eqb f) s.
Definition fset_eqb (s1 s2 : list factor) : bool :=
  forallb (fun f => fmem f s2) s1 && forallb (fun f => fmem f s1) s2.

(** [set(...)] of a list: keep one copy of every element. *)
Definition dedup {A} (eqb : A -> A -> bool) : list A -> list A :=
  fix go l :=
    match l with
    | [] => []
    | x :: l' => x :: filter (fun y => negb (eqb x y)) (go l')
    end.

(** [reduce(operator.mul, fs, 1)], exppoly.py:132: [1 * f] is [f] by exppoly.py:115-122.
    [None] stands for the integer 1 returned for no factors; this does not occur because the
    name ranges over names of the factors. *)
Definition reduce_factors (fs : list factor) : res factor :=
  match fs with
  | [] => Err Unreachable
  | f :: fs' => foldM factor_mul fs' f
  end.

Section Model.
Context (N : numdom) (so : setorder).

(** [_merge_common_factors], exppoly.py:128-133. *)
Definition merge_common_factors (factors : list factor) : res (list factor) :=
  mapM (fun name => reduce_factors (filter (fun x => String.eqb (fname x) name) factors))
       (ord so (dedup String.eqb (map fname factors))).

(** [Term], exppoly.py:136-158: a constant and a set of factors. The list [tfactors] is the
    set in its iteration order. *)
Record term := Term { tconst : N; tfactors : list factor }.

(** [Term.__init__], exppoly.py:148-158. *)
Definition mkTerm (const : N) (factors : list factor) : res term :=
  let factors := if isz const then [] else factors in
  do merged <- merge_common_factors factors;
  Ok (Term const (ord so (dedup factor_eqb merged))).

(** [Term.is_function_of], exppoly.py:160-170. *)
Definition term_is_function_of (t : term) (name : string) : bool :=
  existsb (fun x => String.eqb (fname x) name) (tfactors t).

(** [Term.collect_for], exppoly.py:172-185. *)
Definition term_collect_for (t : term) (f : factor) : res term :=
  if negb (fmem f (tfactors t)) then Err RuntimeError
  else mkTerm (tconst t) (ord so (filter (fun g => negb (factor_eqb g f)) (tfactors t))).

(** A keyword-argument mapping of variable values, at one element of the broadcast result. *)
Definition varmap := string -> option R.

(** [Factor.eval], exppoly.py:86-95. *)
Definition factor_eval (m : varmap) (f : factor) : res R :=
  match m (fname f) with
  | Some x => Ok (x ^ fpow f)%R
  | None => Err KeyError
  end.

(** [Term.eval], exppoly.py:187-198. *)
Definition term_eval (m : varmap) (t : term) : res R :=
  do xs <- mapM (factor_eval m) (tfactors t);
  Ok (fold_left Rmult xs (val (tconst t))).

(** [Term.is_constant], exppoly.py:200-206. *)
Definition term_is_constant (t : term) : bool := Nat.eqb (List.length (tfactors t)) 0.

(** [Term.highest_power], exppoly.py:208-223. *)
Definition term_highest_power (t : term) (name : string) : nat :=
  fold_left (fun hp f => if String.eqb (fname f) name then Nat.max hp (fpow f) else hp)
            (tfactors t) 0.

(** [Term.__eq__], exppoly.py:258-260. *)
Definition term_eqb (s t : term) : bool :=
  ceqb (tconst s) (tconst t) && fset_eqb (tfactors s) (tfactors t).

(** [Term.__add__] with a term, exppoly.py:262-267. *)
Definition term_add (s t : term) : res term :=
  if fset_eqb (tfactors s) (tfactors t)
  then mkTerm (cadd (tconst s) (tconst t)) (tfactors s)
  else Err RuntimeError.

(** [Term.__mul__] with a term, exppoly.py:279-283. *)
Definition term_mul (s t : term) : res term :=
  mkTerm (cmul (tconst s) (tconst t)) (tfactors s ++ tfactors t).

(** [Term.__neg__], exppoly.py:295-296. *)
Definition term_neg (t : term) : res term := mkTerm (copp (tconst t)) (tfactors t).

(** [reduce(operator.add, ts, 0)], exppoly.py:306: [0 + t] is [t] by exppoly.py:269-277. *)
Definition reduce_terms (ts : list term) : res term :=
  match ts with
  | [] => Err Unreachable
  | t :: ts' => foldM term_add ts' t
  end.

(** [_merge_common_terms], exppoly.py:302-307. *)
Definition merge_common_terms (terms : list term) : res (list term) :=
  mapM (fun factors => reduce_terms (filter (fun x => fset_eqb (tfactors x) factors) terms))
       (ord so (dedup fset_eqb (map tfactors terms))).

(** [Poly], exppoly.py:310-322: the list of merged terms. *)
Definition poly := list term.

(** [Poly.__init__], exppoly.py:317-322. *)
Definition mkPoly (terms : list term) : res poly := merge_common_terms terms.

(** [const] and [var], exppoly.py:37-59. *)
Definition pconst (x : N) : res poly := do t <- mkTerm x []; mkPoly [t].
Definition pvar (x : string) (power : Z) : res poly :=
  do f <- mkFactor x power; do t <- mkTerm (ofZ 1) [f]; mkPoly [t].

(** [Poly.is_function_of], exppoly.py:324-334. *)
Definition poly_is_function_of (p : poly) (name : string) : bool :=
  existsb (fun t => term_is_function_of t name) p.

(** [Poly.collect_for], exppoly.py:336-348. *)
Definition poly_collect_for (p : poly) (f : factor) : res poly :=
  do ts <- mapM (fun x => term_collect_for x f) (filter (fun x => fmem f (tfactors x)) p);
  mkPoly ts.

(** [Poly.reject], exppoly.py:350-360. *)
Definition poly_reject (p : poly) (name : string) : res poly :=
  mkPoly (filter (fun x => negb (term_is_function_of x name)) p).

(** [Poly.eval], exppoly.py:362-374. *)
Definition poly_eval (m : varmap) (p : poly) : res R :=
  foldM (fun result t => do v <- term_eval m t; Ok (result + v)%R) p 0%R.

(** [Poly.is_constant], exppoly.py:376-382. *)
Definition poly_is_constant (p : poly) : bool := forallb term_is_constant p.

(** [Poly.highest_power], exppoly.py:384-395: [max] of an empty list raises. *)
Definition poly_highest_power (p : poly) (name : string) : res nat :=
  match map (fun t => term_highest_power t name) p with
  | [] => Err ValueError
  | n :: ns => Ok (fold_left Nat.max ns n)
  end.

(** [Poly.__eq__], exppoly.py:422-424: equality of the sets of terms. *)
Definition poly_eqb (p q : poly) : bool :=
  forallb (fun s => existsb (term_eqb s) q) p && forallb (fun t => existsb (term_eqb t) p) q.

(** [Poly.__add__] with a polynomial, exppoly.py:426-428. *)
Definition poly_add (p q : poly) : res poly := mkPoly (p ++ q).

(** [Poly.__add__] with a number, exppoly.py:430-438. *)
Definition poly_add_num (p : poly) (c : N) : res poly :=
  if cis 0 c then Ok p else do q <- pconst c; poly_add p q.

(** [Poly.__neg__], exppoly.py:440-441. *)
Definition poly_neg (p : poly) : res poly := do ts <- mapM term_neg p; mkPoly ts.

(** [Poly.__mul__] with a polynomial, exppoly.py:449-451. *)
Definition poly_mul (p q : poly) : res poly :=
  do ts <- mapM (fun xy => term_mul (fst xy) (snd xy))
                (flat_map (fun x => map (fun y => (x, y)) q) p);
  mkPoly ts.

(** [Poly.__mul__] with a number, exppoly.py:453-461. *)
Definition poly_mul_num (p : poly) (c : N) : res poly :=
  if cis 1 c then Ok p else do q <- pconst c; poly_mul p q.

(** The Python objects an expression over the API may evaluate to. *)
Inductive obj := ONum (c : N) | OPoly (p : poly).

(** [Poly.__pow__], exppoly.py:463-468. [reduce] starts at the integer 1, which is returned
    for the power 0; [1 * p] is [p]. *)
Definition poly_pow (p : poly) (power : Z) : res obj :=
  if (power <? 0)%Z then Err RuntimeError
  else match Z.to_nat power with
       | O => Ok (ONum (ofZ 1))
       | S n => do r <- foldM (fun acc x => poly_mul acc x) (repeat p n) p; Ok (OPoly r)
       end.

(** [poly * obj]: dispatch between exppoly.py:449-458. *)
Definition poly_mul_obj (p : poly) (o : obj) : res poly :=
  match o with ONum c => poly_mul_num p c | OPoly q => poly_mul p q end.

(** [Term.substitute], exppoly.py:225-246. *)
Definition term_substitute (t : term) (name : string) (q : poly) : res poly :=
  let factors := filter (fun f => negb (String.eqb (fname f) name)) (tfactors t) in
  let power := fold_left (fun pw f => if String.eqb (fname f) name then fpow f else pw)
                         (tfactors t) 0 in
  do t' <- mkTerm (tconst t) factors;
  do p' <- mkPoly [t'];
  do o <- poly_pow q (Z.of_nat power);
  poly_mul_obj p' o.

(** [result + p] where [result] starts as the integer 0, exppoly.py:408-411, 426-438. *)
Definition obj_add_poly (o : obj) (p : poly) : res obj :=
  match o with
  | ONum c => do r <- poly_add_num p c; Ok (OPoly r)
  | OPoly q => do r <- poly_add q p; Ok (OPoly r)
  end.

(** [Poly.substitute], exppoly.py:397-411: the integer 0 is returned for no terms. *)
Definition poly_substitute (p : poly) (name : string) (q : poly) : res obj :=
  foldM (fun result t => do s <- term_substitute t name q; obj_add_poly result s)
        p (ONum (ofZ 0)).

(** Expressions over objects, as Python evaluates them. Arithmetic between two plain numbers
    is not part of exppoly.py; it is the arithmetic of the numeric domain. *)
Definition obj_add (a b : obj) : res obj :=
  match a, b with
  | ONum c, ONum d => Ok (ONum (cadd c d))
  | OPoly p, ONum c => do r <- poly_add_num p c; Ok (OPoly r)
  | ONum c, OPoly p => do r <- poly_add_num p c; Ok (OPoly r)   (* __radd__, :437-438 *)
  | OPoly p, OPoly q => do r <- poly_add p q; Ok (OPoly r)
  end.

Definition obj_neg (a : obj) : res obj :=
  match a with
  | ONum c => Ok (ONum (copp c))
  | OPoly p => do r <- poly_neg p; Ok (OPoly r)
  end.

(** [__sub__] and [__rsub__], exppoly.py:443-447. *)
Definition obj_sub (a b : obj) : res obj :=
  match a, b with
  | ONum c, ONum d => Ok (ONum (cadd c (copp d)))
  | OPoly p, _ => do nb <- obj_neg b; obj_add (OPoly p) nb
  | ONum c, OPoly q => do nq <- poly_neg q; obj_add (OPoly nq) (ONum c)
  end.

Definition obj_mul (a b : obj) : res obj :=
  match a, b with
  | ONum c, ONum d => Ok (ONum (cmul c d))
  | OPoly p, ONum c => do r <- poly_mul_num p c; Ok (OPoly r)
  | ONum c, OPoly p => do r <- poly_mul_num p c; Ok (OPoly r)   (* __rmul__, :460-461 *)
  | OPoly p, OPoly q => do r <- poly_mul p q; Ok (OPoly r)
  end.

Definition obj_pow (a : obj) (n : Z) : res obj :=
  match a with
  | ONum c => if (n <? 0)%Z then Err TypeError   (* number arithmetic, not modelled *)
              else Ok (ONum (Nat.iter (Z.to_nat n) (cmul c) (ofZ 1)))
  | OPoly p => poly_pow p n
  end.

(** [.substitute] is a method of polynomials only; its argument must be a polynomial
    (exppoly.py:397-398), otherwise plum raises. *)
Definition obj_substitute (a : obj) (name : string) (b : obj) : res obj :=
  match a, b with
  | OPoly p, OPoly q => poly_substitute p name q
  | OPoly _, ONum _ => Err DispatchError
  | ONum _, _ => Err AttributeError
  end.

(** [_as_poly], exppoly.py:471-478. *)
Definition as_poly (o : obj) : res poly :=
  match o with OPoly p => Ok p | ONum c => pconst c end.

(** [ExpPoly], exppoly.py:481-496. *)
Record exppoly := ExpPoly { econst : N; epoly : poly }.

(** Conversion of the second constructor argument: it must be a [Poly] (exppoly.py:493-494). *)
Definition mkExpPoly (c : N) (o : obj) : res exppoly :=
  match o with OPoly p => Ok (ExpPoly c p) | ONum _ => Err DispatchError end.

(** [ExpPoly.substitute], exppoly.py:498-509. *)
Definition exppoly_substitute (e : exppoly) (name : string) (q : poly) : res exppoly :=
  do o <- poly_substitute (epoly e) name q; mkExpPoly (econst e) o.

(** [ExpPoly.eval], exppoly.py:511-520. *)
Definition exppoly_eval (m : varmap) (e : exppoly) : res R :=
  do v <- poly_eval m (epoly e); Ok (val (econst e) * exp v)%R.

(** [ExpPoly.translate_var], exppoly.py:606-618. *)
Definition exppoly_translate_var (e : exppoly) (name : string) (q : poly) : res exppoly :=
  do x <- pvar name 1;
  do xq <- poly_add x q;
  do o <- poly_substitute (epoly e) name xq;
  mkExpPoly (econst e) o.

(** [ExpPoly.__eq__], exppoly.py:717-719. *)
Definition exppoly_eqb (e f : exppoly) : bool :=
  ceqb (econst e) (econst f) && poly_eqb (epoly e) (epoly f).

(** [ExpPoly.__mul__], exppoly.py:721-727. *)
Definition exppoly_mul (e f : exppoly) : res exppoly :=
  do p <- poly_add (epoly e) (epoly f); Ok (ExpPoly (cmul (econst e) (econst f)) p).
Definition exppoly_mul_num (e : exppoly) (c : N) : res exppoly :=
  Ok (ExpPoly (cmul (econst e) c) (epoly e)).

(** [ExpPoly.__neg__], exppoly.py:732-733. *)
Definition exppoly_neg (e : exppoly) : res exppoly := Ok (ExpPoly (copp (econst e)) (epoly e)).

End Model.

Arguments Term {N} _ _.
Arguments tconst {N} _.
Arguments tfactors {N} _.
Arguments ONum {N} _.
Arguments OPoly {N} _.
Arguments ExpPoly {N} _ _.
Arguments econst {N} _.
Arguments epoly {N} _.
