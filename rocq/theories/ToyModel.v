(** Model of the scripts /repo/experiments/eq.py, smk.py and mauna_loa.py: the times of data and plots,
    the removed region, the kernel of the data and the preparation of the Mauna Loa data.  Numbers are
    exact reals. *)
From Coq Require Import Reals ZArith List Bool.
From Verif Require Import Py UtilModel GpcmModel PaperModel.
Import ListNotations.
Local Open Scope R_scope.

(** eq.py 9-11 and smk.py 9-11: the times of the data. *)
Definition toy_times : res (list R) := linspace (-44) 44 881.
(** eq.py 12. *)
Definition eq_t_plot : res (list R) := linspace 44 44 500.
(** smk.py 12. *)
Definition smk_t_plot : res (list R) := linspace 0 10 500.

(** eq.py 27-30 and smk.py 28-31: remove the region [-8.8, 8.8]. *)
Definition remove_region (d : list (R * R)) : list (R * R) :=
  filter (fun p => negb ((if Rle_dec (-88 / 10) (fst p) then true else false) && (if Rle_dec (fst p) (88 / 10) then true else false))) d.

(** smk.py 15-16: the kernel of the data; [stretch(1)] divides inputs by one. *)
Definition smk_toy_kernel (x y : R) : R :=
  fun_mul (fun x => cos (2 * PI * x)) (fun x y => EQ (x / 1) (y / 1)) x y
  + fun_mul (fun x => sin (2 * PI * x)) (fun x y => EQ (x / 1) (y / 1)) x y.

(** Python: [l[-n:]], for positive [n]. *)
Definition last_n {A} (n : nat) (l : list A) : list A := skipn (length l - n) l.

(** mauna_loa.py 8-17: the last [n] observations, times from zero, values normalised in place. *)
Definition mauna_loa (n : nat) (index values : list R) : res (list R * list R) :=
  let t := last_n n index in
  do t <- match t with [] => Err IndexError | t0 :: _ => Ok (map (fun x => x - t0) t) end;
  let y := last_n n values in
  let y := let m := np_mean y in map (fun x => x - m) y in
  let y := let s := np_std y in map (fun x => x / s) y in
  Ok (t, y).
