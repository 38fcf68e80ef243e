(** Non-vacuity of C126: the normal distribution function is as the theorem needs it. *)
From Coq Require Import Reals ZArith List Lra Lia.
From Coquelicot Require Import Coquelicot.
From Verif Require Import Py UtilModel Gauss TrackModel TrackSpec TrackProps.
Import ListNotations.
Local Open Scope R_scope.

(** scipy: [st.norm.cdf], by its relation to the error function. *)
Definition norm_cdf (x : R) : R := (1 + erf (x / sqrt 2)) / 2.

Lemma erf_strict x y : x < y -> erf x < erf y.
Proof.
  intros H. destruct (MVT_gen erf x y (fun z => 2 / sqrt PI * exp (- z ^ 2))) as [c [_ E]].
  - intros z _. apply erf_derive.
  - intros z _. apply continuity_pt_filterlim, (ex_derive_continuous erf z). eexists. apply erf_derive.
  - assert (0 < 2 / sqrt PI * exp (- c ^ 2)); [|nra].
    apply Rmult_lt_0_compat; [|apply exp_pos]. apply Rdiv_lt_0_compat; [lra|]. apply sqrt_lt_R0, PI_RGT_0.
Qed.

Example C126_witness :
  symmetric_cdf norm_cdf
  /\ (let '(mean, std, p) := compare norm_cdf [1; 3] [0; 0] in
      mean = 2 /\ std = 1 / sqrt 2 /\ exists v, p = Ok v /\ v < 1 / 2)
  /\ (let '(mean, std, p) := compare norm_cdf [1; 3] [0; 2] in mean = 1 /\ std = 0 /\ p = Err ZeroDivisionError).
Proof.
  assert (S2 : 0 < sqrt 2) by (apply sqrt_lt_R0; lra).
  assert (C : symmetric_cdf norm_cdf).
  { split.
    - intros x y H. unfold norm_cdf. assert (erf (x / sqrt 2) < erf (y / sqrt 2)); [|lra].
      apply erf_strict. apply Rmult_lt_compat_r; [now apply Rinv_0_lt_compat|auto].
    - intros x. unfold norm_cdf. replace (- x / sqrt 2) with (- (x / sqrt 2)) by (field; lra). rewrite erf_odd. field. }
  split; auto.
  assert (M : np_mean [1; 3] = 2) by (unfold np_mean; simpl; field).
  assert (M0 : np_mean [0; 0] = 0) by (unfold np_mean; simpl; field).
  assert (M02 : np_mean [0; 2] = 1) by (unfold np_mean; simpl; field).
  assert (N : [1; 3] <> []) by discriminate.
  split.
  - pose proof (C126_compare norm_cdf C [1; 3] [0; 0] eq_refl N) as H. destruct (compare norm_cdf [1; 3] [0; 0]) as [[mean std] p] eqn:E.
    destruct H as [A [B [_ [D [F _]]]]]. unfold aggregate in A. rewrite M, M0 in A.
    assert (Es : std = 1 / sqrt 2).
    { unfold compare in E. injection E as _ <- _. cbn [combine map fst snd length INR]. replace (1 + 1) with 2 by ring. 
      assert (np_std [1 - 0; 3 - 0] = 1) as ->; [|reflexivity].
      unfold np_std. assert (np_mean [1 - 0; 3 - 0] = 2) as -> by (unfold np_mean; simpl; field).
      cbn [map]. assert (np_mean [(1 - 0 - 2) * (1 - 0 - 2); (3 - 0 - 2) * (3 - 0 - 2)] = 1) as -> by (unfold np_mean; simpl; field). apply sqrt_1. }
    split; [lra|]. split; auto.
    assert (P : 0 < std) by (rewrite Es; apply Rdiv_lt_0_compat; lra).
    destruct p as [v|e].
    + exists v. split; auto. destruct (F v eq_refl) as [F1 F2]. rewrite M, M0 in F2.
      destruct (Req_dec v (1 / 2)) as [Z|Z]; [apply F2 in Z; lra|lra].
    + exfalso. unfold compare in E. injection E as _ E2 E3. rewrite E2 in E3. destruct (Req_EM_T std 0); [lra|discriminate].
  - pose proof (C126_compare norm_cdf C [1; 3] [0; 2] eq_refl N) as H. destruct (compare norm_cdf [1; 3] [0; 2]) as [[mean std] p] eqn:E.
    destruct H as [A [B [G [D [F _]]]]]. unfold aggregate in A. rewrite M, M02 in A.
    assert (std = 0). { apply G. exists 1. intros [|[|i]] x y Hx Hy; simpl in *; [injection Hx as <-; injection Hy as <-; ring|injection Hx as <-; injection Hy as <-; ring|]. destruct i; discriminate. }
    split; [lra|]. split; auto. now apply D.
Qed.
