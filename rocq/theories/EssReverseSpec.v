(** Specification of reversibility of a slice-sampling move, independent of the sampler's code:
    the random numbers that a pass uses, their density, and the numbers of the reverse pass. *)
From Coq Require Import Reals List.
Import ListNotations.
Local Open Scope R_scope.

(** The random numbers of one pass, in the order in which they are drawn: the standard
    exponential number, the draw from the prior, the end of the initial bracket and the
    angles. *)
Record numbers (D : Type) := Numbers {
  n_exp : R; n_prior : D -> R; n_bracket : R; n_angles : list R }.
Arguments Numbers {D} _ _ _ _.
Arguments n_exp {D} _.
Arguments n_prior {D} _ _.
Arguments n_bracket {D} _.
Arguments n_angles {D} _.

(** The density, up to a constant, of the zero-mean normal prior with precision matrix [P] over
    the indices [idx]. *)
Definition sum {D} (idx : list D) (f : D -> R) : R := fold_right (fun d s => f d + s) 0 idx.
Definition prior {D} (idx : list D) (P : D -> D -> R) (x : D -> R) : R :=
  exp (- (1 / 2) * sum idx (fun i => sum idx (fun j => x i * P i j * x j))).

(** A generator that deals prescribed numbers and keeps the product of the densities with which a
    random generator would have drawn them: uniform between the limits asked for, standard
    exponential, and normal with zero mean and precision matrix [P] over the indices [idx].  The
    product is zero once a number could not have been drawn or the numbers have run out. *)
Inductive number (D : Type) := Real (r : R) | Tensor (t : D -> R).
Arguments Real {D} _.
Arguments Tensor {D} _.
Record dealer (D : Type) := Dealer { rest : list (number D); weight : R }.
Arguments Dealer {D} _ _.
Arguments rest {D} _.
Arguments weight {D} _.
Definition deal {D} (ns : list (numbers D)) : dealer D :=
  Dealer (flat_map (fun n => Real (n_exp n) :: Tensor (n_prior n) :: Real (n_bracket n) :: map Real (n_angles n)) ns) 1.
Definition uniform_density (l u r : R) : R :=
  if Rle_dec l r then if Rle_dec r u then / (u - l) else 0 else 0.
Definition exponential_density (r : R) : R := if Rlt_dec 0 r then exp (- r) else 0.
Definition deal_uniform {D} (l u : R) (g : dealer D) : R * dealer D :=
  match rest g with
  | Real r :: g' => (r, Dealer g' (weight g * uniform_density l u r))
  | _ => (0, Dealer [] 0)
  end.
Definition deal_exponential {D} (g : dealer D) : R * dealer D :=
  match rest g with
  | Real r :: g' => (r, Dealer g' (weight g * exponential_density r))
  | _ => (0, Dealer [] 0)
  end.
Definition deal_prior {D} idx P (g : dealer D) : (D -> R) * dealer D :=
  match rest g with
  | Tensor t :: g' => (t, Dealer g' (weight g * prior idx P t))
  | _ => (fun _ => 0, Dealer [] 0)
  end.

(** The unnormalised posterior from which the sampler is to sample. *)
Definition posterior {D} idx P (log_lik : (D -> R) -> R) (x : D -> R) : R :=
  prior idx P x * exp (log_lik x).

(** The point reached from [x], and the numbers with which the reverse pass returns from there:
    the same slice height, the ellipse turned by the accepted angle and all angles measured from
    the accepted one.  Given the accepted angle the pairs [(x d, y d)] turn by that angle, the
    other angles shift by it, the accepted angle changes sign and the exponential number shifts,
    so the map preserves volume. *)
Definition reached {D} (x : D -> R) (n : numbers D) : D -> R :=
  let th := last (n_angles n) 0 in fun d => cos th * x d + sin th * n_prior n d.
Definition reverse {D} (log_lik : (D -> R) -> R) (x : D -> R) (n : numbers D) : numbers D :=
  let th := last (n_angles n) 0 in
  Numbers (log_lik (reached x n) - (log_lik x - n_exp n))
          (fun d => cos th * n_prior n d - sin th * x d)
          (n_bracket n - th)
          (map (fun a => a - th) (removelast (n_angles n)) ++ [- th]).
