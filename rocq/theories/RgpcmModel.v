(** Model of /repo/gpcm/rgpcm.py: the constructor, the prior, the covariance matrices and the
    integrals of the RGPCM, and of [invert_perm] (/repo/gpcm/util.py).

    Tensors are nested lists of reals. Divisions by zero, which give infinities or NaN on
    tensors and an exception on Python floats, are errors. *)
From Coq Require Import Reals ZArith List Bool String.
From Verif Require Import Py ExpPolyModel ExpPolyIntModel GpcmModel.
Import ListNotations.
Local Open Scope R_scope.

(** * Indexing *)

(** [x[i] = v] on an array, for a non-negative index. *)
Fixpoint set_nth {A} (l : list A) (i : nat) (v : A) : res (list A) :=
  match l, i with
  | [], _ => Err IndexError
  | _ :: l', O => Ok (v :: l')
  | x :: l', S i' => do r <- set_nth l' i' v; Ok (x :: r)
  end.

(** [x[i]]: a negative index counts from the end. *)
Definition py_item {A} (l : list A) (i : Z) : res A :=
  let n := Z.of_nat (List.length l) in
  let j := if (i <? 0)%Z then (i + n)%Z else i in
  if (j <? 0)%Z then Err IndexError
  else match nth_error l (Z.to_nat j) with Some x => Ok x | None => Err IndexError end.

(** [B.take(x, idx, axis=0)]. *)
Definition take {A} (l : list A) (idx : list Z) : res (list A) := mapM (py_item l) idx.

(** [invert_perm], util.py:127-136. *)
Definition invert_perm (perm : list nat) : res (list Z) :=
  foldM (fun inv ip => set_nth inv (snd ip) (Z.of_nat (fst ip)))
    (combine (seq 0 (List.length perm)) perm) (repeat (-1)%Z (List.length perm)).

(** * The constructor *)

(** The attributes that the constructor sets, rgpcm.py:107-113, 161-178. *)
Record rgpcm := RGPCM {
  r_noise : R;
  r_alpha : R;
  r_alpha_t : R;
  r_lam : R;
  r_extent : R;
  r_a : R;
  r_b : R;
  r_m_max : Z;
  r_ms : list Z;
  r_n_z : Z;
  r_n_u : Z;
  r_t_u : list R;
  r_gamma : R;
  r_gamma_t : R
}.

(** The keyword arguments, rgpcm.py:59-84. *)
Record rgpcm_args := RGPCMArgs {
  ra_noise : R;
  ra_alpha : option R;
  ra_alpha_t : option R;
  ra_window : option R;
  ra_lam : option R;
  ra_gamma : option R;
  ra_gamma_t : option R;
  ra_a : option R;
  ra_b : option R;
  ra_m_max : option Z;
  ra_m_max_cap : Z;
  ra_n_z : option Z;
  ra_scale : option R;
  ra_ms : option (list Z);
  ra_n_u : option Z;
  ra_n_u_cap : Z;
  ra_t_u : option (list R);
  ra_t : option (list R)
}.

(** [RGPCM(window=w, scale=s, t=t)], rgpcm.py:59-84. *)
Definition rdefault_args (window scale : R) (t : list R) : rgpcm_args :=
  RGPCMArgs (5 / 100) None None (Some window) None None None None None None 150 None (Some scale) None None 300 None (Some t).

(** [B.sqrt] on a number. NaN for negative numbers: an error here. *)
Definition np_sqrt (x : R) : res R := if Rlt_dec x 0 then Err ValueError else Ok (sqrt x).

(** rgpcm.py:97-98. *)
Definition rinit_alpha (a : rgpcm_args) : res R :=
  match ra_alpha a with Some x => Ok x | None => do w <- given (ra_window a); rdiv 1 w end.

(** rgpcm.py:100-101. *)
Definition rinit_alpha_t (a : rgpcm_args) (alpha : R) : res R :=
  match ra_alpha_t a with Some x => Ok x | None => np_sqrt (2 * alpha) end.

(** rgpcm.py:103-104. *)
Definition rinit_lam (a : rgpcm_args) : res R :=
  match ra_lam a with Some x => Ok x | None => do s <- given (ra_scale a); rdiv 1 s end.

(** rgpcm.py:115-135. *)
Definition rinit_t_u (a : rgpcm_args) (alpha : R) : res (Z * list R) :=
  match ra_t_u a with
  | Some t_u => Ok (match ra_n_u a with Some n => n | None => Z.of_nat (List.length t_u) end, t_u)
  | None =>
      do t_u_max <- rdiv PI alpha;
      do n_u <- match ra_n_u a with
                | Some n => Ok n
                | None =>
                    do w <- given (ra_window a); do s <- given (ra_scale a);
                    do q <- rdiv (2 * 2 * w) s;
                    let n := iceil q in
                    Ok (if (n >? ra_n_u_cap a)%Z then ra_n_u_cap a else n)
                end;
      do t_u <- linspace 0 t_u_max n_u; Ok (n_u, t_u)
  end.

(** rgpcm.py:137-138. *)
Definition rinit_a (a : rgpcm_args) (t_u : list R) : res R :=
  match ra_a a with
  | Some x => Ok x
  | None => do t <- given (ra_t a); do lo <- lmin t; do mu <- lmax t_u; Ok (lo - mu)
  end.

(** rgpcm.py:140-141. *)
Definition rinit_b (a : rgpcm_args) : res R :=
  match ra_b a with Some x => Ok x | None => do t <- given (ra_t a); lmax t end.

(** rgpcm.py:143-156. *)
Definition rinit_m_max (a : rgpcm_args) (lo hi : R) : res Z :=
  match ra_m_max a, ra_n_z a with
  | Some m, _ => Ok m
  | None, Some n => Ok (iceil (IZR n / 2))
  | None, None =>
      do s <- given (ra_scale a);
      do freq <- rdiv 1 s;
      let m := iceil (freq * (hi - lo)) in
      Ok (if (m >? ra_m_max_cap a)%Z then ra_m_max_cap a else m)
  end.

(** [B.range(n)]. *)
Definition zrange (n : Z) : list Z := map Z.of_nat (seq 0 (Z.to_nat n)).

(** rgpcm.py:158-159. *)
Definition rinit_ms (a : rgpcm_args) (m_max : Z) : list Z :=
  match ra_ms a with Some l => l | None => zrange (2 * m_max + 1) end.

(** rgpcm.py:170-171. *)
Definition rinit_gamma (a : rgpcm_args) (t_u : list R) : res R :=
  match ra_gamma a with
  | Some x => Ok x
  | None => do u1 <- item t_u 1; do u0 <- item t_u 0; rdiv 1 (2 * (u1 - u0))
  end.

(** rgpcm.py:173-174. *)
Definition rinit_gamma_t (a : rgpcm_args) (gamma : R) : res R :=
  match ra_gamma_t a with Some x => Ok x | None => np_sqrt (2 * gamma) end.

(** [RGPCM.__init__], rgpcm.py:59-178. *)
Definition new_rgpcm (a : rgpcm_args) : res rgpcm :=
  do alpha <- rinit_alpha a;
  do alpha_t <- rinit_alpha_t a alpha;
  do lam <- rinit_lam a;
  do extent <- rdiv 4 alpha;
  do nu <- rinit_t_u a alpha;
  do lo <- rinit_a a (snd nu);
  do hi <- rinit_b a;
  do m_max <- rinit_m_max a lo hi;
  let ms := rinit_ms a m_max in
  do gamma <- rinit_gamma a (snd nu);
  do gamma_t <- rinit_gamma_t a gamma;
  Ok (RGPCM (ra_noise a) alpha alpha_t lam extent lo hi m_max ms (Z.of_nat (List.length ms)) (fst nu) (snd nu)
        (Rmin gamma (alpha / (3 / 2))) gamma_t).

(** The values that the optimiser gives to the learnable parameters in [__prior__]. *)
Record rparams := RParams {
  p_noise : R;
  p_alpha : R;
  p_alpha_t : R;
  p_lam : R;
  p_gamma_factor : R;
  p_t_u : list R
}.

(** [RGPCM.__prior__], rgpcm.py:191-219, without the kernel matrices: the attributes after
    the learnable parameters have taken the values [p] (no [fix_*] flag set). *)
Definition rprior (m : rgpcm) (p : rparams) : res rgpcm :=
  do gamma <- rdiv (p_alpha p) (p_gamma_factor p);
  Ok (RGPCM (p_noise p) (p_alpha p) (p_alpha_t p) (p_lam p) (r_extent m) (r_a m) (r_b m) (r_m_max m) (r_ms m)
        (r_n_z m) (r_n_u m) (p_t_u p) gamma (r_gamma_t m)).

(** The constraints that [ps.positive] and [ps.bounded] put on these values,
    rgpcm.py:195-217. *)
Definition rparams_ok (m : rgpcm) (p : rparams) : Prop :=
  0 < p_noise p /\ 0 < p_alpha p /\ 0 < p_alpha_t p /\ 0 < p_lam p
  /\ 1 < p_gamma_factor p < 10 ^ 4
  /\ List.length (p_t_u p) = List.length (r_t_u m)
  /\ exists mu, lmax (r_t_u m) = Ok mu /\ Forall (fun u => - / 10 ^ 4 < u < mu * (3 / 2)) (p_t_u p).

(** The initial value of [gamma_factor], rgpcm.py:192. *)
Definition gamma_factor_init (m : rgpcm) : res R := rdiv (r_alpha m) (r_gamma m).

(** * Covariance matrices *)

(** [compute_K_u], rgpcm.py:222-236. *)
Definition rcompute_K_u (m : rgpcm) : res (list (list R)) :=
  do c <- rdiv (r_gamma_t m ^ 2) (2 * r_gamma m);
  Ok (map (fun t1 => map (fun t2 => c * exp (- r_gamma m * Rabs (t1 - t2))) (r_t_u m)) (r_t_u m)).

(** [psd_matern_12], rgpcm.py:239-250. *)
Definition psd_matern_12 (omega lam lam_t : R) : res R := rdiv (2 * lam_t * lam) (lam ^ 2 + omega ^ 2).

(** [B.cast(dtype, c)] of a condition. *)
Definition cast_bool (b : bool) : R := if b then 1 else 0.

(** Element [k] of the diagonal [alpha] of [compute_K_z], rgpcm.py:264-270. *)
Definition K_z_alpha (m : rgpcm) (k : Z) : res R :=
  let h := IZR k - cast_bool (k >? r_m_max m)%Z * IZR (r_m_max m) in
  do omega <- rdiv (2 * PI * h) (r_b m - r_a m);
  let lam_t := 1 in
  do psd <- psd_matern_12 omega (r_lam m) lam_t;
  do alpha <- rdiv (/ 2 * (r_b m - r_a m)) psd;
  Ok (alpha + alpha * cast_bool (k =? 0)%Z).

(** Element [k] of the vector [beta], rgpcm.py:271. [lam_t] is 1. *)
Definition K_z_beta (m : rgpcm) (k : Z) : R := 1 / sqrt 1 * cast_bool (k <=? r_m_max m)%Z.

(** [compute_K_z], rgpcm.py:253-273: a diagonal plus a rank-one matrix. *)
Definition rcompute_K_z (m : rgpcm) : res (list (list R)) :=
  do alphas <- mapM (K_z_alpha m) (r_ms m);
  let iks := combine (seq 0 (List.length (r_ms m))) (combine (r_ms m) alphas) in
  Ok (map (fun p => map (fun q =>
        (if Nat.eqb (fst p) (fst q) then snd (snd p) else 0) + K_z_beta m (fst (snd p)) * K_z_beta m (fst (snd q)))
        iks) iks).

(** * Integrals *)

(** [compute_i_hx], rgpcm.py:276-292. *)
Definition rcompute_i_hx (m : rgpcm) (t1 t2 : option R) : res R :=
  let t1 := match t1 with Some t => t | None => 0 end in
  let t2 := match t2 with Some t => t | None => 0 end in
  do c <- rdiv (r_alpha_t m ^ 2 / 2) (r_alpha m);
  Ok (c * exp (- r_lam m * Rabs (t1 - t2))).

(** [B.sign]. *)
Definition sign (x : R) : R := if Rlt_dec 0 x then 1 else if Rlt_dec x 0 then -1 else 0.

(** [integral_abcd], rgpcm.py:341-368. *)
Definition integral_abcd (a b c d : R) : res R :=
  let s := sign a in
  let condition := if Rle_dec 0 (a * b) then 1 else 0 in
  do q <- rdiv (s * d) c;
  let part1 := q * (1 - exp (2 * c * s * Rmin (Rabs a) (Rabs b))) in
  let part2 := 1 - exp (c * a - d * Rabs a) - exp (c * b - d * Rabs b) + exp (c * (a + b) - d * Rabs (a - b)) in
  rdiv (condition * part1 + part2) (c ^ 2 - d ^ 2).

(** [integral_abcd_lu], rgpcm.py:371-390. *)
Definition integral_abcd_lu (a_lb a_ub b_lb b_ub c d : R) : res R :=
  do x1 <- integral_abcd a_ub b_ub c d;
  do x2 <- integral_abcd a_lb b_lb c d;
  do x3 <- integral_abcd a_ub b_lb c d;
  do x4 <- integral_abcd a_lb b_ub c d;
  Ok (x1 + x2 + - x3 + - x4).

(** One element of [compute_I_ux], rgpcm.py:323-329. *)
Definition I_ux_elem (m : rgpcm) (t1 t2 t_u_1 t_u_2 : R) : res R :=
  let ga := r_gamma m - r_alpha m in
  do x <- integral_abcd_lu (- t1) (t_u_2 - t1) (- t2) (t_u_1 - t2) ga (r_lam m);
  Ok (r_alpha_t m ^ 2 * r_gamma_t m ^ 2 * exp (- r_gamma m * (t_u_1 + t_u_2) + ga * (t1 + t2)) * x).

(** [compute_I_ux], rgpcm.py:295-338, before the axes of defaulted times are squeezed: index
    order (t1, t2, t_u_1, t_u_2). *)
Definition rcompute_I_ux4 (m : rgpcm) (t1 t2 : option (list R)) : res (list (list (list (list R)))) :=
  let t1 := match t1 with Some t => t | None => [0] end in
  let t2 := match t2 with Some t => t | None => [0] end in
  mapM (fun t1 => mapM (fun t2 => mapM (fun u1 => mapM (fun u2 => I_ux_elem m t1 t2 u1 u2)
    (r_t_u m)) (r_t_u m)) t2) t1.

(** The squeezed result for defaulted times, rgpcm.py:331-332. *)
Definition rcompute_I_ux (m : rgpcm) : res (list (list R)) :=
  do r <- rcompute_I_ux4 m None None;
  match r with (x :: _) :: _ => Ok x | _ => Err IndexError end.

(** [_I_hx_0_cos], rgpcm.py:471-490. *)
Definition I_hx_0_cos (m : rgpcm) (n : Z) (t : R) : res R :=
  do omega_n <- rdiv (2 * PI * IZR n) (r_b m - r_a m);
  let t_less_a := t - r_a m in
  do c1 <- rdiv (r_alpha_t m ^ 2) (4 * r_alpha m ^ 2 + omega_n ^ 2);
  do c2 <- rdiv (r_alpha_t m ^ 2) (2 * (r_alpha m + r_lam m));
  Ok (c1 * (2 * r_alpha m * (cos (omega_n * t_less_a) - exp (-2 * r_alpha m * t_less_a)) + omega_n * sin (omega_n * t_less_a))
      + c2 * exp (-2 * r_alpha m * t_less_a)).

(** [_I_hx_0_sin], rgpcm.py:493-504. *)
Definition I_hx_0_sin (m : rgpcm) (n : Z) (t : R) : res R :=
  do omega <- rdiv (2 * PI * IZR (n - r_m_max m)) (r_b m - r_a m);
  let t_less_a := t - r_a m in
  do c1 <- rdiv (r_alpha_t m ^ 2) (4 * r_alpha m ^ 2 + omega ^ 2);
  Ok (c1 * (omega * (exp (-2 * r_alpha m * t_less_a) - cos (omega * t_less_a)) + 2 * r_alpha m * sin (omega * t_less_a))).

(** A table of elements: [f(rows[:, None], cols[None, :])]. *)
Definition table {A} (f : A -> A -> res R) (rows cols : list A) : res (list (list R)) :=
  mapM (fun i => mapM (fun j => f i j) cols) rows.

(** [B.concat(x, y, axis=last)] of two matrices: the numbers of rows must agree. *)
Definition hconcat (x y : list (list R)) : res (list (list R)) :=
  if Nat.eqb (List.length x) (List.length y) then Ok (map (fun p => fst p ++ snd p) (combine x y))%list else Err ValueError.

(** [B.transpose] of a matrix with [n] columns. *)
Definition transpose (n : nat) (x : list (list R)) : list (list R) :=
  map (fun j => map (fun r => nth j r 0) x) (seq 0 n).

Section Sorted.

(** [np.argsort]. *)
Context (argsort : list Z -> list nat).

(** [compute_I_hz], rgpcm.py:393-468, at one time. *)
Definition I_hz_at (m : rgpcm) (t : R) : res (list (list R)) :=
  let perm := argsort (r_ms m) in
  do inverse_perm <- invert_perm perm;
  let m_max := r_m_max m in
  do ms <- take (r_ms m) (map Z.of_nat perm);
  (* m, n <= M *)
  let ns := filter (fun k => (k <=? m_max)%Z) ms in
  do I_hz_mnleM <- table (fun i j =>
      do x1 <- I_hx_0_cos m (- i + j) t; do x2 <- I_hx_0_cos m (i + j) t; Ok (/ 2 * (x1 + x2))) ns ns;
  (* m, n > M *)
  let ns := map (fun k => (k - m_max)%Z) (filter (fun k => (k >? m_max)%Z) ms) in
  do I_hz_mngtM <- table (fun i j =>
      do x1 <- I_hx_0_cos m (- i + j) t; do x2 <- I_hx_0_cos m (i + j) t; Ok (/ 2 * (x1 - x2))) ns ns;
  (* 0 < m <= M and n > M *)
  let ns := filter (fun k => ((0 <? k) && (k <=? m_max))%Z) ms in
  let ns2 := filter (fun k => (k >? m_max)%Z) ms in
  do I_hz_mleM_ngtM <- table (fun i j =>
      do x1 <- I_hx_0_sin m (i + j) t; do x2 <- I_hx_0_sin m (- i + j) t; Ok (/ 2 * (x1 + x2))) ns ns2;
  (* m = 0 and n > M *)
  let ns := filter (fun k => (k =? 0)%Z) ms in
  do I_hz_0_gtM <- table (fun i j => I_hx_0_sin m (i + j) t) ns ns2;
  let I_hz_mleM_ngtM := (I_hz_0_gtM ++ I_hz_mleM_ngtM)%list in
  let I_hz_mgtM_nleM := transpose (List.length ns2) I_hz_mleM_ngtM in
  do top <- hconcat I_hz_mnleM I_hz_mleM_ngtM;
  do bottom <- hconcat I_hz_mgtM_nleM I_hz_mngtM;
  let result := (top ++ bottom)%list in
  do result <- take result inverse_perm;
  mapM (fun r => take r inverse_perm) result.

(** [compute_I_hz], rgpcm.py:393-468. *)
Definition rcompute_I_hz (m : rgpcm) (t : list R) : res (list (list (list R))) := mapM (I_hz_at m) t.

(** [_integral_lu0], rgpcm.py:565-568. *)
Definition integral_lu0 (m : rgpcm) (l u : R) : res R :=
  let ag := r_alpha m - r_gamma m in
  do q <- rdiv 1 ag;
  Ok (q * (1 - exp (ag * (l - u)))).

(** [_integral_luk_leq_M], rgpcm.py:571-581. *)
Definition integral_luk_leq_M (m : rgpcm) (l u : R) (k : Z) : res R :=
  let ag := r_alpha m - r_gamma m in
  do om <- rdiv (2 * PI * IZR k) (r_b m - r_a m);
  do q <- rdiv 1 (ag ^ 2 + om ^ 2);
  Ok (q * ((ag * cos (om * (u - r_a m)) + om * sin (om * (u - r_a m)))
           - exp (ag * (l - u)) * (ag * cos (om * (l - r_a m)) + om * sin (om * (l - r_a m))))).

(** [_integral_luk_g_M], rgpcm.py:584-598. *)
Definition integral_luk_g_M (m : rgpcm) (l u : R) (k : Z) : res R :=
  let ag := r_alpha m - r_gamma m in
  do om <- rdiv (2 * PI * IZR (k - r_m_max m)) (r_b m - r_a m);
  do q <- rdiv (-1) (ag ^ 2 + om ^ 2);
  Ok (q * ((- ag * sin (om * (u - r_a m)) + om * cos (om * (u - r_a m)))
           - exp (ag * (l - u)) * (- ag * sin (om * (l - r_a m)) + om * cos (om * (l - r_a m))))).

(** One row of [compute_I_uz], rgpcm.py:507-562: one time and one inducing point. *)
Definition I_uz_at (m : rgpcm) (t t_u : R) : res (list R) :=
  let perm := argsort (r_ms m) in
  do inverse_perm <- invert_perm perm;
  do ms <- take (r_ms m) (map Z.of_nat perm);
  let factor := r_alpha_t m * r_gamma_t m * exp (- r_gamma m * t_u) in
  do I_uz0 <- mapM (fun k => do x <- integral_lu0 m (t - t_u) t; Ok (x + IZR k)) (filter (fun k => (k =? 0)%Z) ms);
  do I_uz_leM <- mapM (fun k => integral_luk_leq_M m (t - t_u) t k) (filter (fun k => ((0 <? k) && (k <=? r_m_max m))%Z) ms);
  do I_uz_gtM <- mapM (fun k => integral_luk_g_M m (t - t_u) t k) (filter (fun k => (k >? r_m_max m)%Z) ms);
  do result <- take (I_uz0 ++ I_uz_leM ++ I_uz_gtM)%list inverse_perm;
  Ok (map (fun x => factor * x) result).

(** [compute_I_uz], rgpcm.py:507-562. *)
Definition rcompute_I_uz (m : rgpcm) (t : list R) : res (list (list (list R))) :=
  mapM (fun t => mapM (fun u => I_uz_at m t u) (r_t_u m)) t.

End Sorted.

(** [RGPCM.k_h()], rgpcm.py:180-189: the value of the returned kernel at two inputs. The
    external [Exp().stretch(s)] is exp(-|t1 - t2| / s). *)
Definition rk_h_kernel (m : rgpcm) (t1 t2 : R) : res R :=
  do s <- rdiv 1 (r_lam m);
  do q <- rdiv (Rabs (t1 - t2)) s;
  let window t := exp (- r_alpha m * Rabs t) in
  let step t := if Rle_dec 0 t then 1 else 0 in
  Ok (step t1 * (window t1 * exp (- q) * window t2) * step t2).
