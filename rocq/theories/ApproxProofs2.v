(** Further proofs about the model of approx.py: joint positivity, runs of the fixed-point
    iteration and the kernel approximation. *)
From Coq Require Import Reals Lra Psatz String.
From mathcomp Require Import all_ssreflect all_algebra.
From Verif Require Import Py RMat RChol RTac NormalModel NormalSpec NormalProofs ApproxModel ApproxSpec ApproxProofs.
Set Implicit Arguments.
Unset Strict Implicit.
Unset Printing Implicit Defensive.
Import GRing.Theory.
Local Open Scope ring_scope.
Delimit Scope R_scope with Re.

(** Schur complements. *)
Lemma schur_aux (a b : R) : (a + 2 * - b + b = a - b)%Re.
Proof. ring. Qed.

Lemma schur_psd a b (A : 'M[R]_a) (C : 'M[R]_(a, b)) (K : 'M[R]_b) : symm A -> spd K ->
  (forall (x : 'cV[R]_a) (w : 'cV[R]_b),
     (0 <= dot x (A *m x) + 2 * dot x (C *m w) + dot w (K *m w))%Re) ->
  psd (A - C *m invmx K *m C^T).
Proof.
  move=> SA HK H; have U := spd_unit HK; have SK := symm_inv (proj1 HK).
  split; first by rewrite /symm linearB /= !trmx_mul trmxK SA SK mulmxA.
  move=> x; have := H x (- (invmx K *m (C^T *m x))).
  rewrite !mulmxN !dotNr !dotNl opprK mulKVmx // mulmxBl dotDr dotNr -!mulmxA.
  have -> : dot (invmx K *m (C^T *m x)) (C^T *m x) = dot x (C *m (invmx K *m (C^T *m x))).
    by rewrite dotC [RHS]dot_mx.
  by rewrite [X in Rle 0 X]schur_aux.
Qed.

Section Approx2.
Variable chol : forall n, 'M[R]_n -> 'M[R]_n.
Hypothesis Hc : chol_ok chol.

Section WP.
Variables (n nu nz : nat) (m : gp nu nz) (ig : integrals n nu nz) (y : 'I_n -> R).
Hypothesis WP : well_posed m ig.
Let ts := construct_terms chol m ig y.

Lemma A_at_psd i : psd (A_at chol m ig y i).
Proof.
  have [HKu [HKz [Hn [S1 [S2 J]]]]] := WP.
  rewrite /A_at /= /K_z_inv pd_invE //; apply: schur_psd => // x w; exact: (proj1 (J i x w)).
Qed.
Lemma B_at_psd i : psd (B_at chol m ig y i).
Proof.
  have [HKu [HKz [Hn [S1 [S2 J]]]]] := WP.
  rewrite /B_at /= /K_u_inv pd_invE //.
  rewrite -[X in _ *m X](trmxK (ig_uz ig i)); apply: schur_psd => // w x.
  have -> : dot w ((ig_uz ig i)^T *m x) = dot x (ig_uz ig i *m w) by rewrite dot_mx trmxK dotC.
  exact: (proj2 (J i x w)).
Qed.
Lemma A_sum_psd : psd (ts_A_sum ts).
Proof. by rewrite A_sumE; apply: psd_sum => i; exact: A_at_psd. Qed.
Lemma B_sum_psd : psd (ts_B_sum ts).
Proof. by rewrite B_sumE; apply: psd_sum => i; exact: B_at_psd. Qed.
End WP.

(** * Runs of the fixed-point iteration *)

Section Run.
Variables (n nu nz : nat) (m : gp nu nz) (ts : terms n nu nz).
Hypotheses (HKu : spd (K_u m)) (HKz : spd (K_z m)) (Hn : Rlt 0 (noise m)).
Hypotheses (HA : psd (ts_A_sum ts)) (HB : psd (ts_B_sum ts)).
Let pu : natnormal nu := NatNormal 0 (K_u m).
Let pz : natnormal nz := NatNormal 0 (K_z m).
Let f := q_u_optimal_mean_field chol m ts.
Let g := q_z_optimal_mean_field chol m ts.
Let el (q : natnormal nu * natnormal nz) := elbo_at chol m ts pu pz q.1 q.2.

(** Every reachable pair is proper, and every step improves the bound. *)
Lemma ca_step qu qz : spd (nn_prec qu) -> spd (nn_prec qz) ->
  [/\ spd (nn_prec (f qz)), spd (nn_prec (g (f qz))) & Rle (el (qu, qz)) (el (f qz, g (f qz)))].
Proof.
  move=> Hu Hz; have Hf := f_spd Hc HKu Hn HA Hz; have Hg := g_spd Hc HKz Hn HB Hf.
  split=> //.
  have [H1 _] := opt_u_max Hc HKu Hn HA Hu Hz.
  have [H2 _] := opt_z_max Hc HKz Hn HB Hf Hz.
  exact: Rle_trans H1 H2.
Qed.

Definition nondecreasing (l : seq R) : Prop :=
  forall k, (k.+1 < size l)%N -> Rle (nth R0 l k) (nth R0 l k.+1).

Lemma ca_loop_run iters qu qz : spd (nn_prec qu) -> spd (nn_prec qz) ->
  nondecreasing (map el ((qu, qz) :: (ca_loop chol m ts iters qu qz).2))
  /\ (ca_loop chol m ts iters qu qz).1 = last (qu, qz) (ca_loop chol m ts iters qu qz).2
  /\ (spd (nn_prec (ca_loop chol m ts iters qu qz).1.1)
     /\ spd (nn_prec (ca_loop chol m ts iters qu qz).1.2)).
Proof.
  elim: iters qu qz => [|k IH] qu qz Hu Hz /=; first by [].
  have [Hf Hg Hstep] := ca_step Hu Hz.
  case: Rlt_dec => /= D.
    by split=> // - [|[|k']].
  have [I1 [I2 I3]] := IH _ _ Hf Hg; split; last by split.
  by move=> [|k'] H /=; [exact: Hstep|exact: (I1 k')].
Qed.
End Run.

(** * The fixed-point loop *)

Section Generic.
Variables (T : Type) (step : T -> T) (change : T -> T -> R) (tol : R).

Fixpoint loop (iters : nat) (x : T) : T * seq T :=
  match iters with
  | 0 => (x, [::])
  | k.+1 =>
      if Rlt_dec (change x (step x)) tol then (step x, [:: step x])
      else let r := loop k (step x) in (r.1, step x :: r.2)
  end.

Lemma loop_iter iters x :
  let s := fun k => iter k step x in
  exists N, [/\ (N <= iters)%N,
    (loop iters x).2 = map (fun k => s k.+1) (iota 0 N),
    (loop iters x).1 = s N,
    forall k, (k.+1 < N)%N -> ~ Rlt (change (s k) (s k.+1)) tol
    & (N < iters)%N -> exists2 k, N = k.+1 & Rlt (change (s k) (s k.+1)) tol].
Proof.
  elim: iters x => [|iters IH] x s.
    by exists 0%N; split.
  rewrite /=; have Es : forall k, s k.+1 = iter k step (step x).
    by move=> k; rewrite /s iterSr.
  case: Rlt_dec => D.
    by exists 1%N; split=> // _; exists 0%N.
  have [N [H1 H2 H3 H4 H5]] := IH (step x).
  exists N.+1; split.
  - exact: H1.
  - rewrite [iota 0 N.+1]/= -[1%N]addn0 iotaDl map_cons -map_comp [(_, _).2]/= H2; congr (_ :: _).
    by apply: eq_map => k; rewrite -Es.
  - by rewrite H3 Es.
  - case=> [|k] Hk; first by [].
    by rewrite !Es; apply: H4.
  - by move=> /H5 [k -> Hk]; exists k.+1; [|rewrite !Es].
Qed.
End Generic.

Section Loop.
Variables (n nu nz : nat) (m : gp nu nz) (ts : terms n nu nz).

Definition ca_iterate (q : natnormal nu * natnormal nz) : natnormal nu * natnormal nz :=
  let qu := q_u_optimal_mean_field chol m ts q.2 in (qu, q_z_optimal_mean_field chol m ts qu).
Definition ca_change (q q' : natnormal nu * natnormal nz) : R := diff q'.1 q'.2 q.1 q.2.

Lemma ca_loop_iter iters qu qz :
  let s := fun k => iter k ca_iterate (qu, qz) in
  let tol := (1 / 10 ^ 6)%Re in
  exists N, [/\ (N <= iters)%N,
    (ca_loop chol m ts iters qu qz).2 = map (fun k => s k.+1) (iota 0 N),
    (ca_loop chol m ts iters qu qz).1 = s N,
    forall k, (k.+1 < N)%N -> ~ Rlt (ca_change (s k) (s k.+1)) tol
    & (N < iters)%N -> exists2 k, N = k.+1 & Rlt (ca_change (s k) (s k.+1)) tol].
Proof.
  have -> : ca_loop chol m ts iters qu qz = loop ca_iterate ca_change (1 / 10 ^ 6)%Re iters (qu, qz).
    elim: iters qu qz => [//|k IH] qu qz.
    by rewrite /=; case: Rlt_dec => D //=; rewrite IH.
  exact: loop_iter.
Qed.
End Loop.

(** * The kernel approximation *)

Section Kernel.
Variables (nu a b : nat) (Ku : 'M[R]_nu) (i_hx : R -> R -> R) (I_ux : R -> R -> 'M[R]_nu).
Hypothesis HK : spd Ku.

Lemma kernel_approxE (t1 : 'I_a -> R) (t2 : 'I_b -> R) (u : 'cV[R]_nu) p q :
  kernel_approx chol Ku i_hx I_ux t1 t2 u p q =
  (i_hx (t1 p) (t2 q) - \tr (invmx Ku *m I_ux (t1 p) (t2 q))%R
   + dot (invmx Ku *m u) (I_ux (t1 p) (t2 q) *m (invmx Ku *m u)))%Re.
Proof.
  have [HL [PL EL]] := Hc HK; have U := lower_unit HL PL.
  rewrite /kernel_approx mxE /solve mulmx1; set L := chol Ku; set I := I_ux _ _.
  have EK : (invmx L)^T *m invmx L = invmx Ku.
    by rewrite trmx_inv -invmxM ?unitmx_tr // EL.
  have -> : \tr (invmx L *m I *m (invmx L)^T) = \tr (invmx Ku *m I).
    by rewrite mxtrace_mulC mulmxA EK.
  have -> : \tr ((invmx L *m u)^T *m (invmx L *m I *m (invmx L)^T) *m (invmx L *m u)) =
     dot (invmx Ku *m u) (I *m (invmx Ku *m u)).
    have -> : (invmx L *m u)^T *m (invmx L *m I *m (invmx L)^T) *m (invmx L *m u) =
      (invmx Ku *m u)^T *m (I *m (invmx Ku *m u)).
      by rewrite -EK !trmx_mul trmxK !mulmxA.
    by rewrite dotE mxtrace_scalar.
  by rfield.
Qed.
End Kernel.
End Approx2.
