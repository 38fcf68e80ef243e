(** Model of the computations of gpcm/approx.py on one fixed set of hyperparameters, and of
    [kernel_approx] and the prior of gpcm/model.py.

    Shapes are types: [n] data points, [nu] inducing points for u, [nz] for z.  A tensor with a
    leading data axis is a function of the data index.  Arithmetic is exact; jitting, casting
    and gradients are not modelled. *)
From Coq Require Import Reals String.
From mathcomp Require Import all_ssreflect all_algebra.
From Verif Require Import Py RMat NormalModel.
Set Implicit Arguments.
Unset Strict Implicit.
Unset Printing Implicit Defensive.
Local Open Scope ring_scope.
Delimit Scope R_scope with Re.

(** The part of a GPCM that the approximations use: [K_u], [K_z] and the noise variance
    (model.py 40-45). *)
Record gp (nu nz : nat) := GP { K_u : 'M[R]_nu; K_z : 'M[R]_nz; noise : R }.

(** What [compute_i_hx(t, t)], [compute_I_ux()], [compute_I_hz(t)] and [compute_I_uz(t)]
    returned for the times [t] (approx.py 144-147). *)
Record integrals (n nu nz : nat) := Integrals {
  ig_hx : 'I_n -> R;
  ig_ux : 'M[R]_nu;
  ig_hz : 'I_n -> 'M[R]_nz;
  ig_uz : 'I_n -> 'M[R]_(nu, nz) }.

(** approx.py 132-172: the namespace that [construct_terms] returns.  Without observations the
    code leaves out [y] and [I_uz_sum]; the model passes zeros, which prediction does not read. *)
Record terms (n nu nz : nat) := Terms {
  ts_I_hx : 'I_n -> R;
  ts_I_ux : 'M[R]_nu;
  ts_I_hz : 'I_n -> 'M[R]_nz;
  ts_I_uz : 'I_n -> 'M[R]_(nu, nz);
  ts_K_u_squeezed : 'I_n -> 'M[R]_nz;
  ts_K_z_squeezed : 'I_n -> 'M[R]_nu;
  ts_A_sum : 'M[R]_nu;
  ts_B_sum : 'M[R]_nz;
  ts_c_sum : R;
  ts_y : 'I_n -> R;
  ts_I_uz_sum : 'M[R]_(nu, nz) }.

Section Approx.
Variable chol : forall n, 'M[R]_n -> 'M[R]_n.

(** model.py 42-45: [K_u_inv] and [K_z_inv]. *)
Definition K_u_inv nu nz (m : gp nu nz) : 'M[R]_nu := pd_inv chol (K_u m).
Definition K_z_inv nu nz (m : gp nu nz) : 'M[R]_nz := pd_inv chol (K_z m).

(** approx.py 132-172: [construct_terms]. *)
Definition construct_terms n nu nz (m : gp nu nz) (ig : integrals n nu nz) (y : 'I_n -> R)
    : terms n nu nz :=
  let I_hx_sum := \sum_i ig_hx ig i in
  let I_hz_sum := \sum_i ig_hz ig i in
  let I_ux_sum := INR n *: ig_ux ig in
  let K_u_squeezed := fun i => (ig_uz ig i)^T *m K_u_inv m *m ig_uz ig i in
  let K_z_squeezed := fun i => ig_uz ig i *m K_z_inv m *m (ig_uz ig i)^T in
  Terms (ig_hx ig) (ig_ux ig) (ig_hz ig) (ig_uz ig) K_u_squeezed K_z_squeezed
    (I_ux_sum - \sum_i K_z_squeezed i)
    (I_hz_sum - \sum_i K_u_squeezed i)
    (I_hx_sum
     - sum_mul (K_u_inv m) I_ux_sum
     - sum_mul (K_z_inv m) I_hz_sum
     + \sum_i sum_mul (K_u_inv m) (K_z_squeezed i))%Re
    y
    (\sum_i y i *: ig_uz ig i).

(** approx.py 252-262: [_q_optimal] with a second moment [x2]. *)
Definition q_optimal_m2 n a b (noise : R) (A : 'M[R]_a) (I : 'I_n -> 'M[R]_(a, b))
    (I_sum : 'M[R]_(a, b)) (K : 'M[R]_a) (x : 'cV[R]_b) (x2 : 'M[R]_b) : natnormal a :=
  NatNormal ((/ noise)%Re *: (I_sum *m x))
    (K + (/ noise)%Re *: (A + \sum_i (I i *m x2 *m (I i)^T))).

(** approx.py 252-262: [_q_optimal] without a second moment. *)
Definition q_optimal n a b (noise : R) (A : 'M[R]_a) (I : 'I_n -> 'M[R]_(a, b))
    (I_sum : 'M[R]_(a, b)) (K : 'M[R]_a) (x : 'cV[R]_b) : natnormal a :=
  NatNormal ((/ noise)%Re *: (I_sum *m x))
    (K + (/ noise)%Re *: (A + \sum_i ((I i *m x) *m (I i *m x)^T))).

(** approx.py 174-191: [q_u_optimal]. *)
Definition q_u_optimal n nu nz (m : gp nu nz) (ts : terms n nu nz) (z : 'cV[R]_nz) : natnormal nu :=
  q_optimal (noise m) (ts_A_sum ts) (ts_I_uz ts) (ts_I_uz_sum ts) (K_u m) z.

(** approx.py 193-211: [q_u_optimal_mean_field]. *)
Definition q_u_optimal_mean_field n nu nz (m : gp nu nz) (ts : terms n nu nz) (q_z : natnormal nz)
    : natnormal nu :=
  q_optimal_m2 (noise m) (ts_A_sum ts) (ts_I_uz ts) (ts_I_uz_sum ts) (K_u m)
    (mean chol q_z) (m2 chol q_z).

(** approx.py 213-230: [q_z_optimal]. *)
Definition q_z_optimal n nu nz (m : gp nu nz) (ts : terms n nu nz) (u : 'cV[R]_nu) : natnormal nz :=
  q_optimal (noise m) (ts_B_sum ts) (fun i => (ts_I_uz ts i)^T) (ts_I_uz_sum ts)^T (K_z m) u.

(** approx.py 232-250: [q_z_optimal_mean_field]. *)
Definition q_z_optimal_mean_field n nu nz (m : gp nu nz) (ts : terms n nu nz) (q_u : natnormal nu)
    : natnormal nz :=
  q_optimal_m2 (noise m) (ts_B_sum ts) (fun i => (ts_I_uz ts i)^T) (ts_I_uz_sum ts)^T (K_z m)
    (mean chol q_u) (m2 chol q_u).

(** approx.py 264-284: [_predict_moments], at data point [i]. *)
Definition predict_moments n nu nz (m : gp nu nz) (ts : terms n nu nz)
    (u : 'cV[R]_nu) (u2 : 'M[R]_nu) (z : 'cV[R]_nz) (z2 : 'M[R]_nz) (i : 'I_n) : R * R :=
  let m1 := (u^T *m ts_I_uz ts i *m z) ord0 ord0 in
  let A := ts_I_ux ts - ts_K_z_squeezed ts i in
  let B_ := ts_I_hz ts i - ts_K_u_squeezed ts i in
  let c := (ts_I_hx ts i
            - sum_mul (K_u_inv m) (ts_I_ux ts)
            - sum_mul (K_z_inv m) (ts_I_hz ts i)
            + sum_mul (K_u_inv m) (ts_K_z_squeezed ts i))%Re in
  let m2 := (sum_mul A u2 + sum_mul B_ z2 + c
             + sum_mul u2 (ts_I_uz ts i *m z2 *m (ts_I_uz ts i)^T))%Re in
  (m1, m2).

(** approx.py 46-90: the counter [_q_i] and the variational posteriors [q_u[i]], [q_z[i]] held
    in the parameter store. *)
Record approx (nu nz : nat) := Approx {
  ap_i : nat;
  ap_qs_u : nat -> natnormal nu;
  ap_qs_z : nat -> natnormal nz }.

(** approx.py 46-55, 69-78: the current prior. *)
Definition p_u nu nz (m : gp nu nz) (ap : approx nu nz) : natnormal nu :=
  if ap_i ap is i.+1 then ap_qs_u ap i else NatNormal 0 (K_u m).
Definition p_z nu nz (m : gp nu nz) (ap : approx nu nz) : natnormal nz :=
  if ap_i ap is i.+1 then ap_qs_z ap i else NatNormal 0 (K_z m).

(** approx.py 57-60, 80-83: the current posterior. *)
Definition q_u nu nz (ap : approx nu nz) : natnormal nu := ap_qs_u ap (ap_i ap).
Definition q_z nu nz (ap : approx nu nz) : natnormal nz := ap_qs_z ap (ap_i ap).

(** approx.py 62-67, 85-90: the setters. *)
Definition set_q_u nu nz (ap : approx nu nz) (d : natnormal nu) : approx nu nz :=
  Approx (ap_i ap) (fun i => if i == ap_i ap then d else ap_qs_u ap i) (ap_qs_z ap).
Definition set_q_z nu nz (ap : approx nu nz) (d : natnormal nz) : approx nu nz :=
  Approx (ap_i ap) (ap_qs_u ap) (fun i => if i == ap_i ap then d else ap_qs_z ap i).

(** approx.py 121-130: [condition]; the terms that it stores are passed around explicitly. *)
Definition condition nu nz (ap : approx nu nz) : approx nu nz :=
  Approx (ap_i ap).+1 (ap_qs_u ap) (ap_qs_z ap).

(** approx.py 616-633: the mean-field ELBO at given posteriors and priors. *)
Definition elbo_at n nu nz (m : gp nu nz) (ts : terms n nu nz)
    (pu : natnormal nu) (pz : natnormal nz) (qu : natnormal nu) (qz : natnormal nz) : R :=
  (- (1 / 2) * INR n * ln (2 * PI * noise m)
   + (- (1 / 2) / noise m)
     * (\sum_i (ts_y ts i * ts_y ts i)
        + sum_mul (ts_A_sum ts) (m2 chol qu)
        + sum_mul (ts_B_sum ts) (m2 chol qz)
        + \sum_i sum_mul (ts_I_uz ts i *m m2 chol qz *m (ts_I_uz ts i)^T)%R (m2 chol qu)
        + ts_c_sum ts
        - 2 * sum_mul (mean chol qu) (ts_I_uz_sum ts *m mean chol qz)%R)
   - kl chol qu pu
   - kl chol qz pz)%Re.

(** approx.py 585-633: [MeanField.elbo] with its argument [collapsed]. *)
Definition elbo n nu nz (m : gp nu nz) (ts : terms n nu nz) (ap : approx nu nz)
    (collapsed : option string) : res R :=
  match collapsed with
  | None => Ok (elbo_at m ts (p_u m ap) (p_z m ap) (q_u ap) (q_z ap))
  | Some "z"%string =>
      Ok (elbo_at m ts (p_u m ap) (p_z m ap) (q_u ap) (q_z_optimal_mean_field m ts (q_u ap)))
  | Some "u"%string =>
      Ok (elbo_at m ts (p_u m ap) (p_z m ap) (q_u_optimal_mean_field m ts (q_z ap)) (q_z ap))
  | Some _ => Err ValueError
  end.

(** approx.py 642-660: [MeanField.predict]. *)
Definition predict_mean_field n nu nz (m : gp nu nz) (ts : terms n nu nz) (ap : approx nu nz)
    (i : 'I_n) : R * R :=
  let pu := p_u m ap in let pz := p_z m ap in
  let mm := predict_moments m ts (mean chol pu) (m2 chol pu) (mean chol pz) (m2 chol pz) i in
  (mm.1, mm.2 - mm.1 * mm.1 + noise m)%Re.

(** approx.py 460-479: [Structured.log_Z_u]. *)
Definition log_Z_u n nu nz (m : gp nu nz) (ts : terms n nu nz) (u : 'cV[R]_nu) : R :=
  let q_z := q_z_optimal m ts u in
  let quadratic := (\sum_i (ts_y ts i * ts_y ts i) + sum_mul u (ts_A_sum ts *m u) + ts_c_sum ts)%Re in
  (1 / 2 * (- INR n * ln (2 * PI * noise m)
            - quadratic / noise m
            + logdet chol (K_z m)
            - logdet chol (nn_prec q_z)
            + iqf chol (nn_prec q_z) (nn_lam q_z)))%Re.

(** approx.py 511-534: [Structured.predict], for the samples [us] of u; [tsd] are the terms of
    the data that the model was conditioned on, [ts] those of the prediction times. *)
Definition predict_structured n n' nu nz (m : gp nu nz) (tsd : terms n nu nz) (ts : terms n' nu nz)
    (us : seq 'cV[R]_nu) (i : 'I_n') : R * R :=
  let mm u := let q := q_z_optimal m tsd u in
              predict_moments m ts u (u *m u^T) (mean chol q) (m2 chol q) i in
  let m1 := ((\sum_(u <- us) (mm u).1) / INR (size us))%Re in
  let m2 := ((\sum_(u <- us) (mm u).2) / INR (size us))%Re in
  (m1, m2 - m1 * m1 + noise m)%Re.

(** approx.py 557-570: [Structured.predict_z], feature [k] for the samples [zs] of z. *)
Definition predict_z_structured nz (zs : seq 'cV[R]_nz) (k : 'I_nz) : R * R :=
  let m1 := ((\sum_(z <- zs) z k ord0) / INR (size zs))%Re in
  let m2 := ((\sum_(z <- zs) (z k ord0 * z k ord0)%Re) / INR (size zs))%Re in
  (m1, m2 - m1 * m1)%Re.

(** approx.py 677-684: [MeanField.predict_z], feature [k]. *)
Definition predict_z_mean_field nu nz (m : gp nu nz) (ap : approx nu nz) (k : 'I_nz) : R * R :=
  (mean chol (p_z m ap) k ord0, var chol (p_z m ap) k k).

(** approx.py 322-326: [diff], the sum of the root mean square changes of the four tensors. *)
Definition rms a b (x y : 'M[R]_(a, b)) : R :=
  sqrt ((\sum_i \sum_j ((x i j - y i j) * (x i j - y i j))) / INR (a * b))%Re.
Definition diff nu nz (qu : natnormal nu) (qz : natnormal nz) (lu : natnormal nu) (lz : natnormal nz) : R :=
  (rms (nn_lam qu) (nn_lam lu) + rms (nn_prec qu) (nn_prec lu)
   + rms (nn_lam qz) (nn_lam lz) + rms (nn_prec qz) (nn_prec lz))%Re.

(** approx.py 338-352: the loop of [_fit_mean_field_ca], with [iters] iterations to go.  Returns
    the last iterates and the arguments of all calls of the callback. *)
Fixpoint ca_loop n nu nz (m : gp nu nz) (ts : terms n nu nz) (iters : nat)
    (qu : natnormal nu) (qz : natnormal nz) : (natnormal nu * natnormal nz) * seq (natnormal nu * natnormal nz) :=
  match iters with
  | 0 => ((qu, qz), [::])
  | k.+1 =>
      let qu' := q_u_optimal_mean_field m ts qz in
      let qz' := q_z_optimal_mean_field m ts qu' in
      if Rlt_dec (diff qu' qz' qu qz) (1 / 10 ^ 6)%Re
      then ((qu', qz'), [:: (qu', qz')])
      else let r := ca_loop m ts k qu' qz' in (r.1, (qu', qz') :: r.2)
  end.

(** approx.py 296-356: [_fit_mean_field_ca]: the new state and the callbacks. *)
Definition fit_mean_field_ca n nu nz (m : gp nu nz) (ts : terms n nu nz) (iters : nat)
    (ap : approx nu nz) : approx nu nz * seq (natnormal nu * natnormal nz) :=
  let r := ca_loop m ts iters (q_u ap) (q_z ap) in
  (set_q_z (set_q_u ap r.1.1) r.1.2, r.2).

(** model.py 201-226: [kernel_approx] at the times [t1] and [t2]; [i_hx] and [I_ux] stand for
    [compute_i_hx] and [compute_I_ux]. *)
Definition kernel_approx nu a b (Ku : 'M[R]_nu) (i_hx : R -> R -> R) (I_ux : R -> R -> 'M[R]_nu)
    (t1 : 'I_a -> R) (t2 : 'I_b -> R) (u : 'cV[R]_nu) : 'M[R]_(a, b) :=
  let inv_L_u := solve (chol Ku) 1%:M in
  let prod := inv_L_u *m u in
  \matrix_(p, q)
    let trisolved := inv_L_u *m I_ux (t1 p) (t2 q) *m inv_L_u^T in
    (i_hx (t1 p) (t2 q) - (\tr trisolved - \tr (prod^T *m trisolved *m prod)))%Re.

(** approx.py 286-293: [_sample_kernel], which takes the sample of the whitened variables. *)
Definition sample_kernel nu a (Ku : 'M[R]_nu) (i_hx : R -> R -> R) (I_ux : R -> R -> 'M[R]_nu)
    (t_k : 'I_a -> R) (u : 'cV[R]_nu) : 'M[R]_(a, 1) :=
  kernel_approx Ku i_hx I_ux t_k (fun _ : 'I_1 => 0%Re) (Ku *m u).
End Approx.
