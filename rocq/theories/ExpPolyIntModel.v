(** Model of the integration routines of gpcm/exppoly.py. *)
From Coq Require Import Reals ZArith List Bool String.
From Verif Require Import Py ExpPolyModel Gauss Gauss3.
Import ListNotations.

(** [safe_sqrt], exppoly.py:13-22. The cast of the floor 1e-30 to the dtype of [x] is taken
    to be a cast to floats: for an integer [x] Python would use the floor 0, which gives the
    same value unless [x < 1]. *)
Definition safe_sqrt (x : R) : R := sqrt (Rmax x (/ 10 ^ 30)).

(** Division. Python floats raise on a zero divisor; tensors would give inf or nan, which are
    not modelled, so that this error stands for both. *)
Definition rdiv (x y : R) : res R := if Reqb y 0 then Err ZeroDivisionError else Ok (x / y)%R.

Section IntModel.
Context (N : numdom) (so : setorder).
(** Injection of computed real values (results of [B.sqrt], divisions by a coefficient) into
    the numeric domain. *)
Context (ofR : R -> N).

Notation poly := (poly N).
Notation exppoly := (exppoly N).

(** Name or limits accepted by [integrate_box]: an infinite number (of either sign), see
    [is_inf], exppoly.py:25-34, or a finite number, tensor or polynomial. *)
Inductive limit := LInf | LObj (o : obj N).

Definition is_inf (l : limit) : bool := match l with LInf => true | LObj _ => false end.

(** The check [highest_power(name) != 2], exppoly.py:621-622 and elsewhere. *)
Definition check_quadratic (p : poly) (name : string) : res unit :=
  do h <- poly_highest_power N p name;
  if Nat.eqb h 2 then Ok tt else Err RuntimeError.

(** [ExpPoly._integrate], exppoly.py:620-635. *)
Definition integrate1 (e : exppoly) (name : string) : res exppoly :=
  do _ <- check_quadratic (epoly e) name;
  do a <- poly_collect_for N so (epoly e) (Factor name 2);
  do b <- poly_collect_for N so (epoly e) (Factor name 1);
  do c <- poly_reject N so (epoly e) name;
  if negb (poly_is_constant N a) then Err RuntimeError else
  do a <- poly_eval N (fun _ => None) a;
  do r <- rdiv (- PI) a;
  do q <- rdiv (- / 4)%R a;
  do t <- mkTerm N so (ofR q) [];
  do tp <- mkPoly N so [t];
  do b2 <- poly_pow N so b 2;
  do prod <- poly_mul_obj N so tp b2;
  do s <- poly_add N so prod c;
  Ok (ExpPoly (cmul (econst e) (ofR (safe_sqrt r))) s).

(** [ExpPoly.integrate], exppoly.py:522-536. *)
Definition integrate_names (e : exppoly) (names : list string) : res exppoly := foldM integrate1 names e.
Definition integrate (e : exppoly) (names : list string) (m : varmap) : res R :=
  do e' <- integrate_names e names; exppoly_eval N m e'.

(** [ExpPoly._integrate_half1], exppoly.py:637-655. *)
Definition integrate_half1 (e : exppoly) (name : string) (m : varmap) : res R :=
  do _ <- check_quadratic (epoly e) name;
  do a <- poly_collect_for N so (epoly e) (Factor name 2);
  do b <- poly_collect_for N so (epoly e) (Factor name 1);
  do c <- poly_reject N so (epoly e) name;
  do a <- poly_eval N m a;
  do b <- poly_eval N m b;
  do c <- poly_eval N m c;
  do r <- rdiv (- PI) a;
  do q <- rdiv (- / 4 * b ^ 2)%R a;
  do z <- rdiv (/ 2 * b)%R (safe_sqrt (- a));
  Ok (/ 2 * val (econst e) * safe_sqrt r * exp (q + c) * (1 - erf z))%R.

(** [ExpPoly._integrate_half2], exppoly.py:657-709. Reshaping is the identity at one element
    of the broadcast result. *)
Definition integrate_half2 (e : exppoly) (name1 name2 : string) (m : varmap) : res R :=
  let p := epoly e in
  do _ <- check_quadratic p name1;
  do _ <- check_quadratic p name2;
  do a11 <- poly_collect_for N so p (Factor name1 2);
  do a22 <- poly_collect_for N so p (Factor name2 2);
  do p1 <- poly_collect_for N so p (Factor name1 1);
  do a12 <- poly_collect_for N so p1 (Factor name2 1);
  do p1' <- poly_collect_for N so p (Factor name1 1);
  do b1 <- poly_reject N so p1' name2;
  do p2 <- poly_collect_for N so p (Factor name2 1);
  do b2 <- poly_reject N so p2 name1;
  do r1 <- poly_reject N so p name1;
  do c <- poly_reject N so r1 name2;
  do a11 <- poly_eval N m a11;
  do a22 <- poly_eval N m a22;
  do a12 <- poly_eval N m a12;
  do b1 <- poly_eval N m b1;
  do b2 <- poly_eval N m b2;
  do c <- poly_eval N m c;
  let a11 := (-2 * a11)%R in
  let a22 := (-2 * a22)%R in
  let a12 := (-1 * a12)%R in
  let a_det := (a11 * a22 - a12 ^ 2)%R in
  do ia11 <- rdiv a22 a_det;
  do ia12 <- rdiv (- a12) a_det;
  do ia22 <- rdiv a11 a_det;
  let mu1 := (ia11 * b1 + ia12 * b2)%R in
  let mu2 := (ia12 * b1 + ia22 * b2)%R in
  do x1 <- rdiv (- mu1) (safe_sqrt ia11);
  do x2 <- rdiv (- mu2) (safe_sqrt ia22);
  do rho <- rdiv ia12 (safe_sqrt (ia11 * ia22));
  let cdf_part := bvn_cdf x1 x2 rho in
  let quad_form := (/ 2 * (ia11 * b1 ^ 2 + ia22 * b2 ^ 2 + 2 * ia12 * b1 * b2))%R in
  do det_part <- rdiv (2 * PI) (safe_sqrt a_det);
  Ok (val (econst e) * cdf_part * (det_part * exp (quad_form + c)))%R.

(** [ExpPoly.integrate_half], exppoly.py:538-556. *)
Definition integrate_half (e : exppoly) (names : list string) (m : varmap) : res R :=
  match names with
  | [x] => integrate_half1 e x m
  | [x; y] => integrate_half2 e x y m
  | _ => Err NotImplementedError
  end.

(** The inner loop body of [integrate_box], exppoly.py:590-596, for one part. *)
Definition box_part (name : string) (lower upper : limit) (part : exppoly) : res (list exppoly) :=
  do us <- match upper with
           | LInf => Ok []
           | LObj o => do u <- as_poly N so o; do t <- exppoly_translate_var N so part name u; Ok [t]
           end;
  do ls <- match lower with
           | LInf => Ok []
           | LObj o => do l <- as_poly N so o; do t <- exppoly_translate_var N so part name l;
                       do n <- exppoly_neg N t; Ok [n]
           end;
  Ok (us ++ ls).

(** One iteration of the outer loop, exppoly.py:588-597. *)
Definition box_step (parts : list exppoly) (nl : string * limit * limit) : res (list exppoly) :=
  let '(name, lower, upper) := nl in
  do l <- mapM (box_part name lower upper) parts; Ok (List.concat l).

(** The doubly infinite ones are integrated first, exppoly.py:573-580. *)
Definition box_filter (st : exppoly * list (string * limit * limit)) (nl : string * limit * limit)
  : res (exppoly * list (string * limit * limit)) :=
  let '(ep, acc) := st in
  let '(name, lower, upper) := nl in
  if is_inf lower && is_inf upper
  then do ep' <- integrate1 ep name; Ok (ep', acc)
  else Ok (ep, acc ++ [nl]).

(** [ExpPoly.integrate_box], exppoly.py:558-604. *)
Definition integrate_box (e : exppoly) (name_and_lims : list (string * limit * limit)) (m : varmap) : res R :=
  do st <- foldM box_filter name_and_lims (e, []);
  let '(ep, nls) := st in
  match nls with
  | [] => exppoly_eval N m ep
  | _ =>
    do parts <- foldM box_step nls [ep];
    let names := map (fun nl => fst (fst nl)) nls in
    foldM (fun result part => do v <- integrate_half part names m; Ok (result + v)%R) parts 0%R
  end.

End IntModel.

Arguments LInf {N}.
Arguments LObj {N} _.
