(** Model of /repo/gpcm/gpcm.py: the constructor and the integrals of the GPCM and the CGPCM.

    Tensors are nested lists of reals. A computation on broadcast tensors is the computation on
    every element: [integrate_box] and [eval] act element by element on the values of the
    variables (exppoly.py:106-119, 621-701), and the symbolic part does not look at them. *)
From Coq Require Import Reals ZArith List Bool String.
From Verif Require Import Py ExpPolyModel ExpPolySpec ExpPolyIntModel.
Import ListNotations.
Local Open Scope string_scope.
Local Open Scope R_scope.

(** * Numerical helpers *)

(** [int(np.ceil(x))]: the least integer not below [x]. *)
Definition iceil (x : R) : Z := (1 - up (- x))%Z.

(** [B.linspace(a, b, n)]: [n] evenly spaced points; a negative count is refused by NumPy. *)
Definition linspace (a b : R) (n : Z) : res (list R) :=
  if (n <? 0)%Z then Err ValueError
  else Ok (map (fun i => if Nat.eqb i 0 then a else a + INR i * ((b - a) / (IZR n - 1))) (seq 0 (Z.to_nat n))).

(** The builtins [min] and [max] on a sequence; empty sequences raise. *)
Definition lmin (l : list R) : res R :=
  match l with [] => Err ValueError | x :: l' => Ok (fold_left Rmin l' x) end.
Definition lmax (l : list R) : res R :=
  match l with [] => Err ValueError | x :: l' => Ok (fold_left Rmax l' x) end.

(** [x ** 0.25] on floats. A negative base gives a complex number in Python, with which the
    rest of the code cannot compute: an error here. *)
Definition quartic_root (x : R) : res R :=
  if Rlt_dec x 0 then Err TypeError else Ok (sqrt (sqrt x)).

(** [l[i]] for a non-negative index. *)
Definition item (l : list R) (i : nat) : res R :=
  match nth_error l i with Some x => Ok x | None => Err IndexError end.

(** A keyword argument that the code uses although it may be [None]: arithmetic on [None]
    raises. *)
Definition given {A} (o : option A) : res A := match o with Some a => Ok a | None => Err TypeError end.

(** * Conversions *)

(** [scale_to_factor], gpcm.py:18-27. *)
Definition scale_to_factor (scale : R) : res R := rdiv (PI / 2) (2 * scale ^ 2).

(** [factor_to_scale], gpcm.py:30-39. The square root of a negative number is NaN in NumPy:
    an error here. *)
Definition factor_to_scale (factor : R) : res R :=
  if Rlt_dec factor 0 then Err ValueError else rdiv 1 (sqrt (4 * factor / PI)).

(** * The constructor *)

(** The attributes that the constructor sets, gpcm.py:110-119, 134-140, 206-219. *)
Record gpcm := GPCM {
  g_causal : bool;
  g_noise : R;
  g_alpha : R;
  g_alpha_t : R;
  g_gamma : R;
  g_extent : R;
  g_n_u : Z;
  g_t_u : list R;
  g_n_z : Z;
  g_t_z : list R;
  g_omega : R;
  g_omega_t : R
}.

(** The keyword arguments of the constructor that matter here, gpcm.py:84-106. [fix_noise],
    [fix_window], [fix_scale] and [scheme] are stored for [__prior__] only. *)
Record gpcm_args := GPCMArgs {
  a_causal : bool;
  a_noise : R;
  a_alpha : option R;
  a_alpha_t : option R;
  a_window : option R;
  a_gamma : option R;
  a_scale : option R;
  a_omega : option R;
  a_n_u : option Z;
  a_n_u_cap : Z;
  a_t_u : option (list R);
  a_n_z : option Z;
  a_n_z_cap : Z;
  a_t_z : option (list R);
  a_extend_t_z : bool;
  a_t : option (list R)
}.

(** The arguments of [GPCM(window=w, scale=s, t=t)], gpcm.py:84-106, and of
    [CGPCM(window=w, scale=s, t=t)], gpcm.py:301-302. *)
Definition default_args (causal : bool) (window scale : R) (t : list R) : gpcm_args :=
  GPCMArgs causal (5 / 100) None None (Some window) None (Some scale) None None 300 None None 300 None false (Some t).

(** gpcm.py:122-123. *)
Definition init_alpha (a : gpcm_args) : res R :=
  match a_alpha a with Some x => Ok x | None => do w <- given (a_window a); scale_to_factor w end.

(** gpcm.py:125-129. *)
Definition init_alpha_t (a : gpcm_args) (alpha : R) : res R :=
  match a_alpha_t a with
  | Some x => Ok x
  | None => if a_causal a then quartic_root (8 * alpha / PI) else quartic_root (2 * alpha / PI)
  end.

(** gpcm.py:131-132. *)
Definition init_gamma (a : gpcm_args) (alpha : R) : res R :=
  match a_gamma a with
  | Some x => Ok x
  | None => do s <- given (a_scale a); do f <- scale_to_factor s; Ok (f - / 2 * alpha)
  end.

(** gpcm.py:143-171: the inducing points of the filter. *)
Definition init_t_u (a : gpcm_args) (alpha : R) : res (Z * list R) :=
  match a_t_u a with
  | Some t_u =>
      Ok (match a_n_u a with Some n => n | None => Z.of_nat (List.length t_u) end, t_u)
  | None =>
      do fs <- factor_to_scale alpha;
      let t_u_max := 2 * fs in
      do n_u <- match a_n_u a with
                | Some n => Ok n
                | None =>
                    do w <- given (a_window a); do s <- given (a_scale a);
                    do q <- rdiv (2 * 2 * w) s;
                    let n := iceil q in
                    Ok (if (n >? a_n_u_cap a)%Z then a_n_u_cap a else n)
                end;
      if a_causal a
      then
        do d_t_u <- rdiv t_u_max (IZR n_u - 1);
        let n_u := (n_u + 2)%Z in
        do t_u <- linspace (-2 * d_t_u) t_u_max n_u; Ok (n_u, t_u)
      else
        let n_u := if (n_u mod 2 =? 0)%Z then (n_u + 1)%Z else n_u in
        do t_u <- linspace (- t_u_max) t_u_max n_u; Ok (n_u, t_u)
  end.

(** gpcm.py:173-188: the inducing points of the excitation process, before extension. *)
Definition init_t_z (a : gpcm_args) : res (Z * list R) :=
  match a_t_z a with
  | Some t_z =>
      Ok (match a_n_z a with Some n => n | None => Z.of_nat (List.length t_z) end, t_z)
  | None =>
      do t <- given (a_t a);
      do n_z <- match a_n_z a with
                | Some n => Ok n
                | None =>
                    do hi <- lmax t; do lo <- lmin t; do s <- given (a_scale a);
                    do q <- rdiv (2 * (hi - lo)) s;
                    let n := iceil q in
                    Ok (if (n >? a_n_z_cap a)%Z then a_n_z_cap a else n)
                end;
      do lo <- lmin t; do hi <- lmax t;
      do t_z <- linspace lo hi n_z; Ok (n_z, t_z)
  end.

(** gpcm.py:190-204: [extend_t_z]. Division by zero on NumPy floats gives an infinity and
    then an error in [int], or not-a-number inducing points: an error here. *)
Definition extend_t_z (a : gpcm_args) (alpha : R) (nt : Z * list R) : res (Z * list R) :=
  if a_extend_t_z a then
    let n_z := fst nt in
    do fs <- factor_to_scale alpha;
    let t_z_extra := 2 * fs in
    do t <- given (a_t a);
    do hi <- lmax t; do lo <- lmin t;
    do d_t_u <- rdiv (hi - lo) (IZR n_z - 1);
    do q <- rdiv t_z_extra d_t_u;
    let n_z_extra := iceil q in
    let t_z_extra := IZR n_z_extra * d_t_u in
    if a_causal a
    then
      let n_z := (n_z + n_z_extra)%Z in
      do t_z <- linspace (lo - t_z_extra) hi n_z; Ok (n_z, t_z)
    else
      let n_z := (n_z + 2 * n_z_extra)%Z in
      do t_z <- linspace (lo - t_z_extra) (hi + t_z_extra) n_z; Ok (n_z, t_z)
  else Ok nt.

(** gpcm.py:211-213. *)
Definition init_omega (a : gpcm_args) (t_z : list R) : res R :=
  match a_omega a with
  | Some x => Ok x
  | None => do z1 <- item t_z 1; do z0 <- item t_z 0; scale_to_factor (/ 2 * (z1 - z0))
  end.

(** [GPCM.__init__], gpcm.py:84-219. *)
Definition new_gpcm (a : gpcm_args) : res gpcm :=
  do alpha <- init_alpha a;
  do alpha_t <- init_alpha_t a alpha;
  do gamma <- init_gamma a alpha;
  do fs <- factor_to_scale alpha;
  let extent := 4 * fs in
  do nu <- init_t_u a alpha;
  do nz0 <- init_t_z a;
  do nz <- extend_t_z a alpha nz0;
  do omega <- init_omega a (snd nz);
  do omega_t <- quartic_root (2 * omega / PI);
  Ok (GPCM (a_causal a) (a_noise a) alpha alpha_t gamma extent (fst nu) (snd nu) (fst nz) (snd nz) omega omega_t).

(** * Kernels and integrals *)

Section Gpcm.
Context (N : numdom) (so : setorder).
(** [ofR r]: the number or tensor element that holds [r] (the attributes of the model are
    Python floats before [__prior__] and tensors afterwards). *)
Context (ofR : R -> N).
Local Notation pexpr := (pexpr N).

(** [var(x)], exppoly.py:31-41. *)
Definition v_ (x : string) : pexpr := EVar x 1.

(** The expressions that [k_h] and [k_xs] pass to [ExpPoly]; the arguments are expressions. *)
Definition k_h_expr (m : gpcm) (t1 t2 : pexpr) : pexpr :=
  ENeg (EAdd (EMul (EConst (ofR (g_alpha m))) (EAdd (EPow t1 2) (EPow t2 2)))
             (EMul (EConst (ofR (g_gamma m))) (EPow (ESub t1 t2) 2))).
Definition k_xs_expr (m : gpcm) (t1 t2 : pexpr) : pexpr :=
  EMul (ENeg (EConst (ofR (g_omega m)))) (EPow (ESub t1 t2) 2).

(** [GPCM.k_h(t1, t2)], gpcm.py:221-238. *)
Definition k_h (m : gpcm) (t1 t2 : pexpr) : res (exppoly N) :=
  do p <- run N so (k_h_expr m t1 t2); mkExpPoly N (ofR (g_alpha_t m ^ 2)) p.

(** [GPCM.k_xs], gpcm.py:255-266. *)
Definition k_xs (m : gpcm) (t1 t2 : pexpr) : res (exppoly N) :=
  do p <- run N so (k_xs_expr m t1 t2); mkExpPoly N (ofR (g_omega_t m)) p.

(** The keyword arguments of [eval] and [integrate_box]: variable names with their values. *)
Definition kwargs (l : list (string * R)) : varmap :=
  fun x => match find (fun p => String.eqb (fst p) x) l with Some p => Some (snd p) | None => None end.

(** The limit [var(x)] of an integral. *)
Definition lim_var (x : string) : res (limit N) := do o <- run N so (v_ x); Ok (LObj o).

(** [compute_K_u], gpcm.py:305-320. *)
Definition compute_K_u (m : gpcm) : res (list (list R)) :=
  do e <- k_h m (v_ "t1") (v_ "t2");
  mapM (fun t1 => mapM (fun t2 => exppoly_eval N (kwargs [("t1", t1); ("t2", t2)]) e) (g_t_u m)) (g_t_u m).

(** [compute_K_z], gpcm.py:323-334. *)
Definition compute_K_z (m : gpcm) : res (list (list R)) :=
  do e1 <- k_xs m (v_ "t1") (v_ "tau");
  do e2 <- k_xs m (v_ "tau") (v_ "t2");
  do e <- exppoly_mul N so e1 e2;
  mapM (fun t1 => mapM (fun t2 => integrate N so ofR e ["tau"] (kwargs [("t1", t1); ("t2", t2)])) (g_t_z m)) (g_t_z m).

(** The upper limit of the causal and the acausal model, gpcm.py:357-360, 402-405, 446-451,
    481-484. *)
Definition upper_limit (m : gpcm) (x : string) : res (limit N) :=
  if g_causal m then lim_var x else Ok LInf.

(** [compute_i_hx], gpcm.py:337-363, at one pair of times. *)
Definition compute_i_hx (m : gpcm) (t1 t2 : option R) : res R :=
  let t1 := match t1 with Some t => t | None => 0 end in
  let t2 := match t2 with Some t => t | None => 0 end in
  do e <- k_h m (ESub (v_ "t1") (v_ "tau")) (ESub (v_ "t2") (v_ "tau"));
  do upper <- upper_limit m "min_t1_t2";
  integrate_box N so ofR e [("tau", LInf, upper)]
    (kwargs [("t1", t1); ("t2", t2); ("min_t1_t2", Rmin t1 t2)]).

(** The symbolic part of [compute_I_ux], gpcm.py:394-397. *)
Definition I_ux_expq (m : gpcm) : res (exppoly N) :=
  do e1 <- k_h m (ESub (v_ "t1") (v_ "tau")) (v_ "t_u_1");
  do e2 <- k_h m (v_ "t_u_2") (ESub (v_ "t2") (v_ "tau"));
  exppoly_mul N so e1 e2.

(** [compute_I_ux], gpcm.py:366-419, before the axes of defaulted times are squeezed: index
    order (t1, t2, t_u_1, t_u_2). A defaulted time is the vector [0]. *)
Definition compute_I_ux4 (m : gpcm) (t1 t2 : option (list R)) : res (list (list (list (list R)))) :=
  let t1 := match t1 with Some t => t | None => [0] end in
  let t2 := match t2 with Some t => t | None => [0] end in
  do e <- I_ux_expq m;
  do upper <- upper_limit m "min_t1_t2";
  mapM (fun t1 => mapM (fun t2 => mapM (fun u1 => mapM (fun u2 =>
    integrate_box N so ofR e [("tau", LInf, upper)]
      (kwargs [("t1", t1); ("t2", t2); ("t_u_1", u1); ("t_u_2", u2); ("min_t1_t2", Rmin t1 t2)]))
    (g_t_u m)) (g_t_u m)) t2) t1.

(** The squeezed result for defaulted times, gpcm.py:412-413: [result[0, 0, :, :]]. *)
Definition compute_I_ux (m : gpcm) : res (list (list R)) :=
  do r <- compute_I_ux4 m None None;
  match r with (x :: _) :: _ => Ok x | _ => Err IndexError end.

(** [compute_I_hz], gpcm.py:422-457. *)
Definition compute_I_hz (m : gpcm) (t : list R) : res (list (list (list R))) :=
  do e1 <- k_h m (ESub (v_ "t") (v_ "tau1")) (ESub (v_ "t") (v_ "tau2"));
  do e2 <- k_xs m (v_ "tau1") (v_ "t_z_1");
  do e3 <- k_xs m (v_ "t_z_2") (v_ "tau2");
  do e12 <- exppoly_mul N so e1 e2;
  do e <- exppoly_mul N so e12 e3;
  do upper1 <- upper_limit m "t";
  do upper2 <- upper_limit m "t";
  mapM (fun t => mapM (fun z1 => mapM (fun z2 =>
    integrate_box N so ofR e [("tau1", LInf, upper1); ("tau2", LInf, upper2)]
      (kwargs [("t", t); ("t_z_1", z1); ("t_z_2", z2)]))
    (g_t_z m)) (g_t_z m)) t.

(** [compute_I_uz], gpcm.py:460-484. *)
Definition compute_I_uz (m : gpcm) (t : list R) : res (list (list (list R))) :=
  do e1 <- k_h m (ESub (v_ "t") (v_ "tau")) (v_ "t_u");
  do e2 <- k_xs m (v_ "tau") (v_ "t_z");
  do e <- exppoly_mul N so e1 e2;
  do upper <- upper_limit m "t";
  mapM (fun t => mapM (fun u => mapM (fun z =>
    integrate_box N so ofR e [("tau", LInf, upper)] (kwargs [("t", t); ("t_u", u); ("t_z", z)]))
    (g_t_z m)) (g_t_u m)) t.

End Gpcm.

(** [GPCM.k_h()], gpcm.py:240-253: the value of the returned kernel at two inputs. The
    external [EQ().stretch(s)] is exp(-(t1 - t2)^2 / (2 s^2)), and [k *= f] multiplies by
    f(t1) f(t2). [1 / (2 gamma)] and its square root raise or are NaN unless gamma > 0. *)
Definition k_h_kernel (m : gpcm) (t1 t2 : R) : res R :=
  do q <- rdiv 1 (2 * g_gamma m);
  if Rlt_dec q 0 then Err ValueError else
  let s := sqrt q in
  let k := exp (- (((t1 - t2) / s) ^ 2) / 2) in
  let window t := exp (- g_alpha m * t ^ 2) in
  let k := window t1 * k * window t2 in
  let step t := if Rle_dec 0 t then 1 else 0 in
  Ok (if g_causal m then step t1 * k * step t2 else k).
