(** The property C129: samples that are interpolated. *)
From Coq Require Import Reals Lra List ZArith Lia.
From mathcomp Require Import all_ssreflect all_algebra.
From Verif Require Import Py RMat RChol NormalModel NormalSpec NormalProofs RTac ApproxModel FilterModel SampleModel ExpPolyModel ExpPolyIntModel ExpPolyIntProofs ExpPolyIntProps.
From Verif Require Import KernelSpec KernelProps InterpModel.
From Verif Require GpcmModel GpcmSpec GpcmInit.
Set Implicit Arguments.
Unset Strict Implicit.
Unset Printing Implicit Defensive.
Import GRing.Theory.
Local Open Scope ring_scope.
Delimit Scope R_scope with Re.

(** * The third inducing point *)

(** The third inducing point of a causal model is at zero, and exactly two are before it. *)
Theorem C129_third :
  forall a m, GpcmModel.new_gpcm a = Ok m -> GpcmModel.a_causal a = true -> GpcmModel.a_t_u a = None -> (0 < GpcmModel.g_alpha m)%Re ->
    Z.lt 3 (GpcmModel.g_n_u m) ->
    Z.of_nat (List.length (GpcmModel.g_t_u m)) = GpcmModel.g_n_u m
    /\ forall i x, nth_error (GpcmModel.g_t_u m) i = Some x ->
         (i = 2%N -> x = 0%Re) /\ (List.In i [:: 0%N; 1%N] -> (x < 0)%Re) /\ ((2 < i)%coq_nat -> (0 < x)%Re).
Proof.
  move=> a m Hm Hc Ht Ha Hn.
  have [_ [_ [_ [_ [Hu _]]]]] := GpcmInit.new_gpcm_inv a m Hm.
  have [r [L [_ [PL [_]]]]] := GpcmInit.t_u_inv a (GpcmModel.g_alpha m) _ _ Ha Ht Hu; rewrite Hc => - [En [Nr [Pn [Ll G]]]].
  split; first by rewrite Ll Z2Nat.id.
  have Pr : (0 < IZR r - 1)%Re.
    have : Z.le 2 r by lia.
    by move/IZR_le => ?; lra.
  have Pd : (0 < L / (IZR r - 1))%Re by exact: Rdiv_lt_0_compat.
  have Ed : ((L - - 2 * (L / (IZR r - 1))) / (IZR (GpcmModel.g_n_u m) - 1) = L / (IZR r - 1))%Re.
    rewrite En plus_IZR; field; split; lra.
  move=> i x Hx; have := G i x Hx; rewrite Ed; move: (L / (IZR r - 1))%Re Pd => d Pd ->.
  split; [|split].
  - move=> ->; rewrite /=; ring.
  - case=> [<-|[<-|[]]] /=; lra.
  - move=> Hi; have := le_INR _ _ Hi; rewrite /=; nra.
Qed.
Print Assumptions C129_third.

(** * The loops *)
Lemma draw_until_spec A (bad : A -> bool) draws : forall u r, draw_until bad u draws = Some r ->
  ~~ bad r /\ (r = u \/ List.In r draws).
Proof.
  elim: draws => [|d draws IH] u r /=; case E: (bad u) => //.
  - by move=> [<-]; rewrite E; split=> //; left.
  - by move/IH => [H1 H2]; split=> //; right; case: H2 => [->|H2]; [left|right].
  - by move=> [<-]; rewrite E; split=> //; left.
Qed.

(** * What is shown *)

(** [K] is the normalised kernel of the process that belongs to the values [u] of the filter. *)
Definition shows chol nu (Ku : 'M[R]_nu) i_hx I_ux n (t : 'I_n -> R) (u : 'cV[R]_nu) (K : 'M[R]_n) : Prop :=
  psd K /\ (forall p, K p p = 1%Re) /\ (forall p q, Rabs (K p q) <= 1)%Re
  /\ exists v, (0 < v)%Re /\ kernel_approx chol Ku i_hx I_ux t t u = v *: K
  (* and is stationary *)
  /\ forall p q p' q', (t p - t q = t p' - t q')%Re -> K p q = K p' q'.

Lemma normalised_shows chol (Hc : chol_ok chol) (N : numdom) (so : setorder) (ofR : R -> N) (Ho : forall r, val (ofR r) = r)
    nu (Ku : 'M[R]_nu) i_hx I_ux (Q : quantities so ofR Ku i_hx I_ux) n (t : 'I_n.+1 -> R) u :
  exists K, normalised (kernel_approx chol Ku i_hx I_ux t t u) true = Ok K /\ shows chol Ku i_hx I_ux t u K.
Proof.
  have [k [[P [_ [k0 [_ B]]]] [_ E]]] := C96_kernels Hc Ho Q u.
  have {E} E := E _ _ t t; rewrite /shows E {E}.
  rewrite /normalised; case: insubP => [o _ Eo|]; last by rewrite ltn0Sn.
  have D p : smat k t t p p = k 0%Re by rewrite mxE Rminus_diag_eq.
  exists (\matrix_(p, q) (smat k t t p q / k 0)%Re); split; first by congr Ok; apply/matrixP => p q; rewrite [LHS]mxE [RHS]mxE D.
  have S : smat k t t = k 0%Re *: (\matrix_(p, q) (smat k t t p q / k 0)%Re).
    apply/matrixP => p q; rewrite !mxE; change ((k (t p - t q) = k 0 * (k (t p - t q) / k 0))%Re); field; lra.
  split.
    have -> : \matrix_(p, q) (smat k t t p q / k 0)%Re = (/ k 0)%Re *: smat k t t.
      by apply/matrixP => p q; rewrite !mxE [LHS]Rmult_comm.
    by apply: psd_scale; [apply: Rlt_le; exact: Rinv_0_lt_compat|exact: P].
  split; [|split].
  - move=> p; rewrite mxE D; field; lra.
  - move=> p q; rewrite !mxE /Rdiv Rabs_mult (Rabs_pos_eq (/ k 0)%Re); last by apply: Rlt_le; exact: Rinv_0_lt_compat.
    apply: (Rmult_le_reg_r (k 0%Re)) => //; rewrite Rmult_assoc Rinv_l; last lra.
    case: (Req_dec (t p - t q)%Re 0%Re) => [->|/B]; first rewrite Rabs_pos_eq; lra.
  - exists (k 0%Re); split=> //; split=> // p q p' q' H; by rewrite !mxE H.
Qed.

Lemma mean_mix chol k eps nu n (t_u : 'I_nu -> R) (t : 'I_n -> R) c u1 u2 :
  posterior_mean chol k eps t_u (mix c u1 u2) t = mix c (posterior_mean chol k eps t_u u1 t) (posterior_mean chol k eps t_u u2 t).
Proof. by rewrite /posterior_mean /mix !mulmxDr -!scalemxAr. Qed.

(** Whatever is drawn: the result has a kernel and a filter for each weight, which belong to the same
    values at the inducing points, and the value that determines the filter at zero grows with the
    weight, from about zero to a quarter and more. *)
Theorem C129_interpolation :
  forall chol, chol_ok chol ->
  forall (N : numdom) (so : setorder) (ofR : R -> N), (forall r, val (ofR r) = r) ->
  forall nu (Ku : 'M[R]_nu) i_hx I_ux, quantities so ofR Ku i_hx I_ux ->
  forall k eps n (t_u : 'I_nu -> R) (t : 'I_n.+1 -> R) third draws1 draws2 r,
    sample_interpolation chol k eps Ku i_hx I_ux t_u t third draws1 draws2 = Some r ->
    exists (us : seq 'cV[R]_nu) l, let z j : R := nth 0 us j third ord0 in
      r = Ok l /\ size us = 5%N /\ size l = 5%N
      /\ (forall j, (j < 5)%N -> let u := nth 0 us j in let p := nth (0, 0) l j in
           shows chol Ku i_hx I_ux t u p.1 /\ p.2 = posterior_mean chol k eps t_u u t)
      (* the first sample is one that was drawn *)
      /\ List.In (nth 0 us 0%N) draws1
      (* from smooth to rough *)
      /\ (Rabs (z 0%N) <= 1 / 100)%Re
      /\ (forall j j', (j < j')%N -> (j' < 5)%N -> z j < z j')%Re
      /\ (forall j, (0 < j)%N -> (j < 5)%N -> 4 / 100 < z j)%Re.
Proof.
  move=> chol Hc N so ofR Ho nu Ku i_hx I_ux Q k eps n t_u t third draws1 draws2 r.
  rewrite /sample_interpolation.
  case E1: draw_until => [u1|//]; case E2: draw_until => [u2|//] [<-].
  have [S1 I1] := draw_until_spec E1; have [S2 _] := draw_until_spec E2.
  have B1 : (Rabs (u1 third ord0) <= 1 / 100)%Re by move: S1; rewrite /not_smooth; case: Rlt_dec => // H _; lra.
  have B2 : (1 / 2 <= u2 third ord0)%Re by move: S2; rewrite /not_rough; case: Rlt_dec => // H _; lra.
  have B3 : (- (1 / 100) <= u1 third ord0 <= 1 / 100)%Re by move: B1; rewrite /Rabs; case: Rcase_abs; lra.
  have In1 : List.In u1 draws1.
    case: I1 => // E; move: B1; rewrite E mxE Rabs_pos_eq; lra.
  have M c : mix c u1 u2 third ord0 = (c * u2 third ord0 + (1 - c) * u1 third ord0)%Re by rewrite !mxE.
  have G : forall ws, exists l, mapM (fun c => bind (normalised (kernel_approx chol Ku i_hx I_ux t t (mix c u1 u2)) true) (fun K =>
      Ok (K, mix c (posterior_mean chol k eps t_u u1 t) (posterior_mean chol k eps t_u u2 t)))) ws = Ok l /\ size l = size ws
      /\ forall j, (j < size ws)%N -> let u := nth 0 [seq mix c u1 u2 | c <- ws] j in let p := nth (0, 0) l j in
           shows chol Ku i_hx I_ux t u p.1 /\ p.2 = posterior_mean chol k eps t_u u t.
    elim=> [|c ws [l [El [Sl Hl]]]]; first by exists [::].
    have [K [EK SK]] := normalised_shows Hc Ho Q t (mix c u1 u2).
    exists ((K, mix c (posterior_mean chol k eps t_u u1 t) (posterior_mean chol k eps t_u u2 t)) :: l).
    split; first by cbn [mapM]; rewrite EK; cbn [bind]; rewrite El.
    split; first by rewrite /= Sl.
    by case=> [|j] Hj /=; [rewrite mean_mix|exact: Hl].
  have [l [El [Sl Hl]]] := G weights.
  exists [seq mix c u1 u2 | c <- weights], l; cbv zeta; split; first exact: El.
  split; first by rewrite size_map. split; first exact: Sl.
  split; first exact: Hl.
  have E0 : mix 0 u1 u2 = u1 by rewrite /mix scale0r add0r Rminus_0_r; exact: scale1r.
  have N5 j : (j < 5)%N -> nth 0 [seq mix c u1 u2 | c <- weights] j = mix (nth 0%Re weights j) u1 u2.
    by move=> Hj; rewrite (nth_map 0%Re).
  split; [|split; [|split]].
  - by rewrite N5 //= E0.
  - by rewrite N5 //= E0.
  - move=> j j' H H'; rewrite !N5 ?(ltn_trans H) // !M.
    have W : (nth 0 weights j < nth 0 weights j')%Re.
      by case: j H => [|[|[|[|[|j]]]]]; case: j' H' => [|[|[|[|[|j']]]]] //= _ _; lra.
    move: B3 B2 W => B3 B2 W; nra.
  - move=> j H H'; rewrite !N5 // M.
    have W : (1 / 10 <= nth 0 weights j <= 1)%Re by case: j H H' => [|[|[|[|[|j]]]]] //= _ _; lra.
    move: B3 B2 W => B3 B2 W; nra.
Qed.
Print Assumptions C129_interpolation.

(** At the inducing points the filter misses the values by what the regularisation makes of them. *)
Theorem C129_filter :
  forall chol, chol_ok chol -> forall k eps nu (t_u : 'I_nu -> R) (u : 'cV[R]_nu), spd (kmat k t_u t_u + eps%:M) ->
    exists w, (kmat k t_u t_u + eps%:M) *m w = u /\ posterior_mean chol k eps t_u u t_u = u - eps *: w.
Proof.
  move=> chol Hc k eps nu t_u u H; exists (invmx (kmat k t_u t_u + eps%:M) *m u).
  have U := spd_unit H.
  split; first by rewrite mulKVmx.
  rewrite /posterior_mean pd_invE //; set w := _ *m u.
  have <- : (kmat k t_u t_u + eps%:M) *m w = u by rewrite /w mulKVmx.
  by rewrite mulmxDl mul_scalar_mx addrK.
Qed.
Print Assumptions C129_filter.

(** With a kernel that vanishes at negative times, as those of the causal models do (C93_models), what
    is shown does not depend on the values at the inducing points to the left of zero. *)
Theorem C129_left :
  forall chol, chol_ok chol -> forall k eps nu (t_u : 'I_nu -> R) n (t : 'I_n -> R) (u u' : 'cV[R]_nu),
    (forall s s', (s' < 0)%Re -> k s s' = 0%Re) -> (0 < eps)%Re -> spd (kmat k t_u t_u + eps%:M) ->
    (forall i, (0 <= t_u i)%Re -> u i ord0 = u' i ord0) ->
    posterior_mean chol k eps t_u u t = posterior_mean chol k eps t_u u' t.
Proof.
  move=> chol Hc k eps nu t_u n t u u' Hk He H E; apply/eqP; rewrite -subr_eq0; apply/eqP.
  rewrite /posterior_mean pd_invE // -!mulmxBr; set d := u - u'.
  have Z a (s : 'I_a -> R) : kmat k s t_u *m d = 0.
    apply/matrixP => p q; rewrite !mxE big1 // => j _; rewrite !mxE !ord1.
    case: (Rlt_le_dec (t_u j) 0%Re) => [/Hk ->|/E ->]; [exact: mul0r|by rewrite subrr mulr0].
  have U := spd_unit H.
  have -> : invmx (kmat k t_u t_u + eps%:M) *m d = (/ eps)%Re *: d.
    rewrite -[RHS](mulKmx U) -scalemxAr mulmxDl Z add0r mul_scalar_mx scalerA.
    have -> : (/ eps)%Re * eps = 1 by change ((/ eps * eps = 1)%Re); apply: Rinv_l; lra.
    by rewrite scale1r.
  by rewrite -scalemxAr Z scaler0.
Qed.
Print Assumptions C129_left.

(** Not vacuous: draws that end both loops. *)
Example C129_witness : exists r,
  sample_interpolation some_chol (fun s s' => if Req_EM_T s s' then 1%Re else 0%Re) 1 (1%:M : 'M[R]_3) (fun _ _ => 1%Re) (fun _ _ => 1%:M)
    (fun i => INR i) (fun i : 'I_2 => INR i) (inord 2) [:: const_mx 1%Re; const_mx (1 / 200)%Re] [:: const_mx 1%Re] = Some r.
Proof.
  rewrite /sample_interpolation /draw_until /not_smooth /not_rough !mxE.
  case: Rlt_dec => H1; last by case: H1; rewrite Rabs_pos_eq; lra.
  case: Rlt_dec => H3; first by exfalso; move: H3; rewrite Rabs_pos_eq; lra.
  case: Rlt_dec => H4; last by case: H4; lra.
  case: Rlt_dec => H5; first lra.
  by eexists.
Qed.
Example C129_witness_models : chol_ok some_chol /\ exists nu (Ku : 'M[R]_nu) i_hx I_ux, quantities (N := RTensorDom) ord_id idR Ku i_hx I_ux.
Proof.
  have [H [A _]] := C96_witness; split=> //.
  by have [m [G [i_hx [I_ux [_ [_ [_ [_ Q]]]]]]]] := A true; exists _, (K_u G), i_hx, I_ux.
Qed.
