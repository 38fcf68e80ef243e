(** Model of [AbstractGPCM.predict_filter] of gpcm/model.py, and of the kernel of the filter of
    gpcm/rgpcm.py.

    The random numbers, the Cholesky factorisation [chol], the factorisation [root] with which
    stheno draws samples, and the kernel object [k] that [self.k_h()] returns are arguments. *)
From Coq Require Import Reals.
From mathcomp Require Import all_ssreflect all_algebra.
From Verif Require Import Py RMat NormalModel GpcmModel RgpcmModel UtilModel MinPhaseModel.
Set Implicit Arguments.
Unset Strict Implicit.
Unset Printing Implicit Defensive.
Local Open Scope ring_scope.
Delimit Scope R_scope with Re.

(** mlkernels: the kernel matrix between two vectors of inputs. *)
Definition kmat (k : R -> R -> R) a b (s : 'I_a -> R) (t : 'I_b -> R) : 'M[R]_(a, b) :=
  \matrix_(i, j) k (s i) (t j).

(** rgpcm.py 180-189: [RGPCM.k_h()], the value of the returned kernel at two inputs.  The
    external [Exp().stretch(s)] is exp(-|t1 - t2| / s), and [k *= f] multiplies by f(t1) f(t2). *)
Definition rk_h_kernel (m : rgpcm) (t1 t2 : R) : R :=
  (let k := exp (- (Rabs (t1 - t2) / (1 / r_lam m))) in
   let window t := exp (- r_alpha m * Rabs t) in
   let step t := if Rle_dec 0 t then 1 else 0 in
   step t1 * (window t1 * k * window t2) * step t2)%Re.

Section Filter.
Variable chol : forall n, 'M[R]_n -> 'M[R]_n.
Variable root : forall n, 'M[R]_n -> 'M[R]_n.
Variable k : R -> R -> R.

(** stheno: [h = GP(k); h = h | (h(t_u), u)] at the times [t]: mean and covariance of the
    process with kernel [k] given its values [u] at [t_u].  [eps] is what LAB adds to the
    diagonal before it factorises. *)
Definition posterior_mean (eps : R) nu n (t_u : 'I_nu -> R) (u : 'cV[R]_nu) (t : 'I_n -> R) : 'cV[R]_n :=
  kmat k t t_u *m (pd_inv chol (kmat k t_u t_u + eps%:M) *m u).
Definition posterior_var (eps : R) nu n (t_u : 'I_nu -> R) (t : 'I_n -> R) : 'M[R]_n :=
  kmat k t t - kmat k t t_u *m (pd_inv chol (kmat k t_u t_u + eps%:M) *m kmat k t_u t).

(** model.py 174-181: [sample_h], given the draws [e_u] and [e_h]. *)
Definition sample_h (eps : R) nu n (K_u : 'M[R]_nu) (t_u : 'I_nu -> R) (p_u : natnormal nu) (t_h : 'I_n -> R)
    (e_u : 'cV[R]_nu) (e_h : 'cV[R]_n) : 'cV[R]_n :=
  let u := K_u *m sample chol p_u e_u in
  posterior_mean eps t_u u t_h + root (posterior_var eps t_u t_h) *m e_h.

(** model.py 171-172: the default times. *)
Definition filter_times (extent : R) (t_h : option (seq R)) : res (seq R) :=
  if t_h is Some t then Ok t else linspace (- extent)%Re extent 601.

(** Samples that contain [nan]s make all summaries [nan]. *)
Fixpoint all_some A (l : seq (option A)) : option (seq A) :=
  match l with
  | [::] => Some [::]
  | Some x :: l => if all_some l is Some xs then Some (x :: xs) else None
  | None :: _ => None
  end.

(** model.py 158-199: [predict_filter]; [noises] are the draws for the samples.  [None] stands
    for summaries that consist of [nan]s. *)
Definition predict_filter (eps extent : R) nu (K_u : 'M[R]_nu) (t_u : 'I_nu -> R) (p_u : natnormal nu)
    (t_h : option (seq R)) (noises : seq ('cV[R]_nu * (nat -> R))) (minimum : bool)
    : res (seq R * option (seq summary)) :=
  bind (filter_times extent t_h) (fun t_h =>
  let n := size t_h in
  let times (i : 'I_n) := nth 0%Re t_h i in
  let transform (h : 'cV[R]_n) :=
    let h := [seq h i ord0 | i <- enum 'I_n] in
    if minimum then min_phase h else Ok (Some h) in
  bind (mapM (fun e => transform (sample_h eps K_u t_u p_u times e.1 (\col_i e.2 (nat_of_ord i)))) noises) (fun samples =>
  bind (if minimum then if t_h is t0 :: _ then Ok [seq (t - t0)%Re | t <- t_h] else Err IndexError else Ok t_h) (fun t_h' =>
  if samples is [::] then Err ValueError else
  Ok (t_h', if all_some samples is Some hs
            then Some [seq summarise_samples [seq nth 0%Re h i | h <- hs] false | i <- iota 0 n]
            else None)))).
End Filter.
