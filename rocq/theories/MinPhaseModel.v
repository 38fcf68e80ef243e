(** Model of [min_phase] of gpcm/util.py and of the routines of NumPy and SciPy that it calls.

    Vectors are lists of exact numbers.  NumPy's logarithm of zero is [-inf], after which every
    entry of the Fourier transforms is [nan]: the result [None] stands for a vector of [nan]s.
    (A filter of length one that is zero is counted as such a case too.) *)
From Coq Require Import Reals List.
From Verif Require Import Py.
From Coquelicot Require Import Complex.
Import ListNotations.
Local Open Scope R_scope.

(** [exp(1j * theta)]. *)
Definition cis (theta : R) : C := (cos theta, sin theta).
Definition csumn (n : nat) (f : nat -> C) : C := fold_right Cplus 0%C (map f (seq 0 n)).
Definition angle (n j k : nat) : R := 2 * PI * INR j * INR k / INR n.

(** NumPy: [np.fft.fft] and [np.fft.ifft]. *)
Definition fft (x : list C) : list C :=
  let n := length x in
  map (fun k => csumn n (fun j => (nth j x 0 * cis (- angle n j k))%C)) (seq 0 n).
Definition ifft (x : list C) : list C :=
  let n := length x in
  map (fun j => (/ RtoC (INR n) * csumn n (fun k => nth k x 0 * cis (angle n j k)))%C) (seq 0 n).

(** SciPy: [scipy.signal.hilbert] of a real vector: the spectrum times [h], with [h] one at zero
    and, for an even length, in the middle, two at the positive frequencies, and zero at the
    negative ones. *)
Definition hilbert_weight (n k : nat) : R :=
  if Nat.eqb k 0 then 1
  else if andb (Nat.even n) (Nat.eqb k (Nat.div2 n)) then 1
  else if Nat.ltb k (Nat.div2 (n + 1)) then 2 else 0.
Definition hilbert (x : list R) : list C :=
  let n := length x in
  let xf := fft (map RtoC x) in
  ifft (map (fun k => (nth k xf 0 * RtoC (hilbert_weight n k))%C) (seq 0 n)).

(** util.py 28-40: [min_phase].  NumPy refuses to transform an empty vector. *)
Definition min_phase (h : list R) : res (option (list R)) :=
  match h with
  | [] => Err ValueError
  | _ =>
      let spec := fft (map RtoC h) in
      let mag := map Cmod spec in
      if existsb (fun a => if Req_EM_T a 0 then true else false) mag then Ok None
      else
        let phase := map (fun z => snd (Copp z)) (hilbert (map ln mag)) in
        Ok (Some (map fst (ifft (map (fun ap => (RtoC (fst ap) * cis (snd ap))%C) (combine mag phase)))))
  end.
