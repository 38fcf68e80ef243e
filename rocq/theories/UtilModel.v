(** Model of the numerical helpers of gpcm/util.py: [autocorr], [estimate_psd],
    [summarise_samples] and [hessian]; and of the diagnostic of gpcm/sample.py.

    Vectors are lists of exact reals.  A division by zero, which NumPy turns into [nan] or
    [inf], is Coq's total division here; the theorems exclude it. *)
From Coq Require Import Reals ZArith List Bool.
From Verif Require Import Py.
Import ListNotations.
Local Open Scope R_scope.

(** NumPy: [np.sum] of a vector, and of [f 0, ..., f (n - 1)]. *)
Definition np_sum (l : list R) : R := fold_right Rplus 0 l.
Definition sumn (n : nat) (f : nat -> R) : R := np_sum (map f (seq 0 n)).

(** NumPy: [np.mean] and [np.std] of a vector. *)
Definition np_mean (l : list R) : R := np_sum l / INR (length l).
Definition np_std (l : list R) : R :=
  sqrt (np_mean (map (fun x => (x - np_mean l) * (x - np_mean l)) l)).

(** An element of a vector at an integer position; zero outside. *)
Definition zget (l : list R) (z : Z) : R :=
  if (z <? 0)%Z then 0 else nth (Z.to_nat z) l 0.

(** Python: the slice [l[:z]]. *)
Definition slice_to {A} (l : list A) (z : Z) : list A :=
  if (0 <=? z)%Z then firstn (Z.to_nat z) l else firstn (length l - Z.to_nat (- z)) l.

(** NumPy: [np.correlate(a, v, mode="full")], whose entries are the sums of [a[n + k] v[n]] over
    [n] for [k] from [-(len(v) - 1)] to [len(a) - 1]. *)
Definition np_correlate_full (a v : list R) : list R :=
  map (fun i => sumn (length v) (fun n =>
         zget a (Z.of_nat n + Z.of_nat i - (Z.of_nat (length v) - 1)) * nth n v 0))
      (seq 0 (length a + length v - 1)).

(** util.py 173-211: [autocorr] of a flat series.  NumPy refuses to correlate empty vectors. *)
Definition autocorr (x : list R) (lags : option Z) (cov window : bool) : res (list R) :=
  match x with
  | [] => Err ValueError
  | _ =>
      let mean := np_mean x in
      let x := map (fun v => v - mean) x in
      let k := np_correlate_full x x in
      let k := skipn (length k / 2) k in
      let k :=
        if window then map (fun v => v / INR (length x)) k
        else map (fun p => fst p / snd p)
               (combine k (map (fun i => INR (length x - i)) (seq 0 (length x)))) in
      let k := match lags with Some lags => slice_to k (lags + 1) | None => k end in
      if cov then Ok k
      else match k with
           | [] => Err IndexError
           | k0 :: _ => Ok (map (fun v => v / k0) k)
           end
  end.

(** sample.py 126-134: the effective sample size that [sample] reports, for the first entries
    [chain] of all states so far ([samples] in the code); [None] is [nan]. *)
Definition effective_sample_size (chain : list R) : res (option R) :=
  let m := 20%nat in
  if (m <? length chain)%nat then
    do corrs <- autocorr (skipn m chain) (Some 5%Z) false true;
    Ok (Some (INR (length chain) / (1 + 2 * np_sum corrs)))
  else Ok None.

(** NumPy: the real part of [np.fft.fft], entry [m]. *)
Definition fft_re (l : list R) (m : nat) : R :=
  sumn (length l) (fun j => nth j l 0 * cos (2 * PI * INR j * INR m / INR (length l))).

(** NumPy: [np.fft.fftfreq(n)]: [0, ..., (n - 1) // 2, -(n // 2), ..., -1], over [n]. *)
Definition fftfreq (n : nat) : list R :=
  map (fun i => INR i / INR n) (seq 0 ((n - 1) / 2 + 1)) ++
  map (fun i => - INR (n / 2 - i) / INR n) (seq 0 (n / 2)).

(** NumPy: [np.trapz(y, x)], in the order of the arrays. *)
Definition trapz (y x : list R) : R :=
  sumn (length y - 1) (fun i => (nth (S i) x 0 - nth i x 0) * (nth (S i) y 0 + nth i y 0) / 2).

(** NumPy: [np.log10]. *)
Definition log10 (x : R) : R := ln x / ln 10.

(** Python: [k[1:-1]]. *)
Definition inner {A} (l : list A) : list A := removelast (tl l).

(** util.py 81-124: [estimate_psd].  [freqs >= 0] selects entries of both arrays. *)
Definition estimate_psd (t k : list R) (n_zero : nat) (db : bool) : res (list R * list R) :=
  match t with
  | [] => Err IndexError
  | t0 :: t' =>
      if Req_EM_T t0 0 then
        let k := k ++ repeat 0 n_zero in
        let k_symmetric := k ++ rev (inner k) in
        let n := length k_symmetric in
        match k, t' with
        | [], _ => Err ValueError
        | _, [] => Err IndexError
        | k0 :: _, t1 :: _ =>
            let freqs := map (fun f => f / (t1 - t0)) (fftfreq n) in
            let psd := map (fun m => Rabs (fft_re k_symmetric m)) (seq 0 n) in
            let total_power := trapz psd freqs in
            let psd := map (fun v => v / (total_power / k0)) psd in
            let psd := if db then map (fun v => 10 * log10 v) psd else psd in
            let inds := filter (fun p => if Rle_dec 0 (fst p) then true else false) (combine freqs psd) in
            Ok (map fst inds, map snd inds)
        end
      else Err ValueError
  end.

(** A sorted copy of a vector, as [np.quantile] makes. *)
Fixpoint insert (x : R) (l : list R) : list R :=
  match l with
  | [] => [x]
  | y :: l' => if Rle_dec x y then x :: l else y :: insert x l'
  end.
Definition np_sort (l : list R) : list R := fold_right insert [] l.

(** NumPy: [np.quantile(samples, q)] with linear interpolation: position [q (n - 1)] of the
    sorted vector. *)
Definition np_quantile (l : list R) (q : R) : R :=
  let a := np_sort l in
  let r := q * INR (length l - 1) in
  let i := Z.to_nat (Int_part r) in
  nth i a 0 + (r - INR i) * (nth (Nat.min (S i) (length l - 1)) a 0 - nth i a 0).

(** The statistics that [summarise_samples] returns, at one input. *)
Record summary := Summary {
  sm_mean : R;
  sm_var : R;
  err_68_lower : R;
  err_68_upper : R;
  err_95_lower : R;
  err_95_upper : R;
  err_99_lower : R;
  err_99_upper : R;
  sm_all_samples : list R }.

(** util.py 43-78: [summarise_samples] at one input, for the samples there ([axis=0]).  The
    three randomly selected samples are not modelled. *)
Definition summarise_samples (samples : list R) (db : bool) : summary :=
  let transform x := if db then 10 * log10 x else x in
  Summary
    (transform (np_mean samples))
    (transform (np_std samples) * transform (np_std samples))
    (transform (np_quantile samples (32 / 100)))
    (transform (np_quantile samples (1 - 32 / 100)))
    (transform (np_quantile samples (25 / 1000)))
    (transform (np_quantile samples (1 - 25 / 1000)))
    (transform (np_quantile samples (15 / 10000)))
    (transform (np_quantile samples (1 - 15 / 10000)))
    (map transform samples).

(** util.py 228-244: [hessian]: [shape] is the shape of [x] and [jac] the result of
    [jax.jacrev(jax.jacrev(...))] at [x]. *)
Definition hessian (shape : list nat) (jac : nat -> nat -> R) : res (nat -> nat -> R) :=
  match shape with
  | [_; 1%nat] => Ok (fun i j => (jac i j + jac j i) / 2)
  | _ => Err ValueError
  end.
