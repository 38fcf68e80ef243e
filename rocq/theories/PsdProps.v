(** The properties C67 and C68 of [closest_psd], stated on the model. *)
From Coq Require Import Reals Lra.
From mathcomp Require Import all_ssreflect all_algebra.
From Verif Require Import RMat RChol RTac PsdModel PsdSpec PsdProofs.
Set Implicit Arguments.
Unset Strict Implicit.
Unset Printing Implicit Defensive.
Import GRing.Theory.
Local Open Scope ring_scope.
Delimit Scope R_scope with Re.

(** What the code computes from a decomposition of a symmetric matrix. *)
Lemma closest_psdE n svd (a u v : 'M[R]_n) s : symm a -> svd a = (u, s, v) ->
  closest_psd svd a false = u *m diag_mx (\row_k Rmax ((u^T *m v) k k * s ord0 k)%Re 0%Re) *m v^T.
Proof. by move=> Sa E; rewrite /closest_psd symmetrised // E scale_cols. Qed.

Lemma closest_psd_invE n svd (a u v : 'M[R]_n) s : psd a -> svd a = (u, s, v) -> is_svd a (u, s, v) ->
  closest_psd svd a true =
  u *m diag_mx (\row_k (if Req_EM_T (s ord0 k) 0%Re then 0%Re else (1 / s ord0 k)%Re)) *m u^T.
Proof.
  move=> Pa E HS.
  have Er : \row_k Rmax ((u^T *m v) k k * s ord0 k)%Re 0%Re = s.
    by apply/rowP => k; rewrite [LHS]mxE (psd_shrunk HS (erefl _) Pa).
  rewrite /closest_psd (symmetrised (proj1 Pa)) E scale_cols Er; set t' := \row_k _.
  rewrite (WE HS (erefl _)) mulmxA -[u *m _ *m _]mulmxA (psd_diagW HS (erefl _) (t := t')) //.
  by move=> k E0; rewrite mxE; case: Req_EM_T.
Qed.

Lemma pinv_aux (x : R) : let t := if Req_EM_T x 0%Re then 0%Re else (1 / x)%Re in
  (x * t * x = x /\ t * x * t = t)%Re.
Proof. by case: Req_EM_T => N /=; split; [rewrite N; ring|ring|field|field]. Qed.

(** * C67: positive semi-definite matrices *)

Theorem C67_closest_psd :
  forall n (svd : 'M[R]_n -> 'M[R]_n * 'rV[R]_n * 'M[R]_n) (a : 'M[R]_n),
    (psd a -> is_svd a (svd a) -> closest_psd svd a false = a /\ is_pinv a (closest_psd svd a true))
    /\ (spd a -> is_svd a (svd a) -> closest_psd svd a true = invmx a)
    /\ (forall inv, closest_psd svd a inv = closest_psd svd ((/ 2)%Re *: (a + a^T)) inv).
Proof.
  move=> n svd a.
  have P1 : psd a -> is_svd a (svd a) -> closest_psd svd a false = a /\ is_pinv a (closest_psd svd a true).
    case E : (svd a) => [[u s] v] Pa HS; split.
      rewrite (closest_psdE (proj1 Pa) E).
      have -> : \row_k Rmax ((u^T *m v) k k * s ord0 k)%Re 0%Re = s.
        by apply/rowP => k; rewrite [LHS]mxE (psd_shrunk HS (erefl _) Pa).
      by case: HS => _ [_ [_ <-]].
    rewrite (closest_psd_invE Pa E HS); set t := \row_k _.
    have [uu _] := HS.
    have Ea : a = u *m diag_mx s *m u^T.
      by rewrite {1}(proj2 (proj2 (proj2 HS))) (WE HS (erefl _)) mulmxA -[u *m _ *m _]mulmxA (psd_core HS (erefl _) Pa).
    have K (x y : 'M[R]_n) : u *m x *m u^T *m (u *m y *m u^T) = u *m (x *m y) *m u^T.
      by rewrite !mulmxA -(mulmxA (u *m x)) uu mulmx1.
    have D (x y : 'rV[R]_n) : diag_mx x *m diag_mx y = diag_mx (\row_k (x ord0 k * y ord0 k)).
      apply/matrixP => i j; rewrite mul_diag_mx !mxE; by case: (i =P j) => [->|_]; rewrite ?mulr1n ?mulr0n ?mulr0.
    have T k : (s ord0 k * t ord0 k * s ord0 k = s ord0 k)%Re /\ (t ord0 k * s ord0 k * t ord0 k = t ord0 k)%Re.
      by rewrite mxE; exact: pinv_aux.
    rewrite /is_pinv Ea !K !D; split; [|split; [|split]].
    - by congr (_ *m diag_mx _ *m _); apply/rowP => k; rewrite !mxE; case: (T k); rewrite mxE.
    - by congr (_ *m diag_mx _ *m _); apply/rowP => k; rewrite !mxE; case: (T k); rewrite mxE.
    - by rewrite /symm !trmx_mul trmxK tr_diag_mx mulmxA.
    - by rewrite /symm !trmx_mul trmxK tr_diag_mx mulmxA.
  split; [exact: P1|split].
    move=> Sa HS; have [_ [H _]] := P1 (spd_psd Sa) HS; have U := spd_unit Sa.
    set p := closest_psd _ _ _ in H *.
    have H1 : a *m p = 1%:M by rewrite -[LHS](mulmxK U) H mulmxV.
    by rewrite -[p](mulKmx U) H1 mulmx1.
  move=> inv; rewrite /closest_psd.
  have -> : (/ 2)%Re *: ((/ 2)%Re *: (a + a^T) + ((/ 2)%Re *: (a + a^T))^T) = (/ 2)%Re *: (a + a^T).
    by apply: symmetrised; rewrite /symm linearZ linearD /= trmxK addrC.
  by [].
Qed.
Print Assumptions C67_closest_psd.

(** A symmetric orthogonal matrix. *)
Definition refl2 : 'M[R]_2 :=
  \matrix_(i, j) (if i == ord0 then (if j == ord0 then (3 / 5)%Re else (4 / 5)%Re)
                  else (if j == ord0 then (4 / 5)%Re else (- (3 / 5))%Re)).
Lemma refl2_sym : refl2^T = refl2.
Proof. by apply/matrixP => i j; rewrite !mxE; case: (i == ord0); case: (j == ord0). Qed.
Lemma refl2_orth : refl2^T *m refl2 = 1%:M.
Proof.
  rewrite refl2_sym; apply/matrixP => i j; rewrite !mxE !big_ord_recl big_ord0 !mxE.
  case: i => - [|[|//]] Hi; case: j => - [|[|//]] Hj; rewrite /= ?mulr1n ?mulr0n addr0.
  - by rewrite -[LHS]/(3 / 5 * (3 / 5) + 4 / 5 * (4 / 5))%Re -[RHS]/1%Re; field.
  - by rewrite -[LHS]/(3 / 5 * (4 / 5) + 4 / 5 * (- (3 / 5)))%Re -[RHS]/0%Re; field.
  - by rewrite -[LHS]/(4 / 5 * (3 / 5) + - (3 / 5) * (4 / 5))%Re -[RHS]/0%Re; field.
  - by rewrite -[LHS]/(4 / 5 * (4 / 5) + - (3 / 5) * (- (3 / 5)))%Re -[RHS]/1%Re; field.
Qed.

Definition vals2 : 'rV[R]_2 := \row_k (if k == ord0 then 2%Re else 1%Re).
Definition mat2 : 'M[R]_2 := refl2 *m diag_mx vals2 *m refl2^T.
Definition svd2 (_ : 'M[R]_2) := (refl2, vals2, refl2).

Lemma vals2_pos k : (0 < vals2 ord0 k)%Re.
Proof. by rewrite mxE; case: (k == ord0); lra. Qed.

Lemma spd_diag n (s : 'rV[R]_n) : (forall k, (0 < s ord0 k)%Re) -> spd (diag_mx s).
Proof.
  move=> H; have P := psd_diag (fun k => Rlt_le _ _ (H k)); split; first exact: (proj1 P).
  move=> x Hx; case: (proj2 P x) => // E; case: Hx.
  have D := psd_null P (esym E); apply/colP => k.
  have := congr1 (fun M : 'cV[R]_n => M k ord0) D; rewrite mul_diag_mx !mxE => /(congr1 (fun r => (/ s ord0 k * r)%Re)).
  have N : s ord0 k <> 0%Re by have := H k; lra.
  rewrite -[X in X = _]/(/ s ord0 k * (s ord0 k * x k ord0))%Re -Rmult_assoc Rinv_l // Rmult_1_l => ->.
  exact: Rmult_0_r.
Qed.

Example C67_witness : spd mat2 /\ is_svd mat2 (svd2 mat2).
Proof.
  have U : refl2 *m refl2^T = 1%:M by exact: mulmx1C refl2_orth.
  split; last by split; [exact: refl2_orth|split; [exact: refl2_orth|split; [move=> k; apply: Rlt_le; exact: vals2_pos|]]].
  have Ps := spd_diag vals2_pos; split.
    by rewrite /symm /mat2 !trmx_mul trmxK tr_diag_mx mulmxA.
  move=> x Hx; rewrite /mat2 -!mulmxA dot_mx; apply: (proj2 Ps) => E; apply: Hx.
  by rewrite -[x]mul1mx -U -mulmxA E mulmx0.
Qed.

(** * C68: symmetric matrices *)

Lemma sq_aux (x y : R) : (0 <= x -> 0 <= y -> x <> y -> x * x <> y * y)%Re.
Proof. by move=> Hx Hy N E; apply: N; apply: Rsqr_inj. Qed.

Lemma cancel_aux (w x y : R) : x <> y -> (w * y = x * w)%Re -> w = 0%Re.
Proof.
  move=> N E; have : (w * (y - x) = 0)%Re by rewrite Rmult_minus_distr_l E; ring.
  by case/Rmult_integral => // E'; case: N; lra.
Qed.

Lemma distinct_aligned n (a u v : 'M[R]_n) s : symm a -> is_svd a (u, s, v) -> distinct s ->
  forall i j, i <> j -> (u^T *m v) i j = 0%Re.
Proof.
  move=> Sa HS Ds i j Nij; set W := u^T *m v.
  have W1 := WW HS (erefl W); have W2 := WW' HS (erefl W).
  have C : diag_mx s *m W^T = W *m diag_mx s.
    have := core HS (erefl W) => E; rewrite -E.
    have : (u^T *m a *m u)^T = (diag_mx s *m W^T)^T by rewrite E.
    by rewrite !trmx_mul !trmxK tr_diag_mx Sa mulmxA => ->.
  have C' : W^T *m diag_mx s = diag_mx s *m W.
    have K : W^T *m diag_mx s *m W^T = diag_mx s by rewrite -mulmxA C mulmxA W1 mul1mx.
    by rewrite -[in RHS]K -[RHS]mulmxA W1 mulmx1.
  have E : W *m diag_mx s *m diag_mx s = diag_mx s *m diag_mx s *m W.
    by rewrite -C -!mulmxA C'.
  have El : (W *m diag_mx s *m diag_mx s) i j = W i j * s ord0 j * s ord0 j.
    by rewrite mul_mx_diag [LHS]mxE mul_mx_diag [X in X * _]mxE.
  have Er : (diag_mx s *m diag_mx s *m W) i j = s ord0 i * (s ord0 i * W i j).
    by rewrite -mulmxA mul_diag_mx [LHS]mxE mul_diag_mx [X in _ * X]mxE.
  have E' := congr1 (fun M : 'M[R]_n => M i j) E; rewrite El Er in E'.
  have [_ [_ [s0 _]]] := HS.
  apply: (@cancel_aux _ (s ord0 i * s ord0 i)%Re (s ord0 j * s ord0 j)%Re).
    by apply: sq_aux => //; exact: Ds.
  rewrite -[LHS]/(W i j * (s ord0 j * s ord0 j)) mulrA E'; exact: mulrA.
Qed.

(** Missing from the full claim: decompositions with repeated singular values whose left and
    right vectors are not aligned, where the claim is false. *)
Theorem C68_nearest_partial :
  forall n (svd : 'M[R]_n -> 'M[R]_n * 'rV[R]_n * 'M[R]_n) (a u v : 'M[R]_n) s,
    symm a -> svd a = (u, s, v) -> is_svd a (u, s, v) ->
    (distinct s \/ (forall i j, i <> j -> (u^T *m v) i j = 0%Re)) ->
    nearest_psd a (closest_psd svd a false).
Proof.
  move=> n svd a u v s Sa E HS H.
  have HW : forall i j, i <> j -> (u^T *m v) i j = 0%Re.
    by case: H => // Ds; exact: (distinct_aligned Sa HS Ds).
  rewrite (closest_psdE Sa E) (result_eigen HS (erefl _) HW) [X in nearest_psd X](a_eigen HS (erefl _) HW).
  by apply: nearest; case: HS.
Qed.
Print Assumptions C68_nearest_partial.

(** An indefinite matrix with distinct singular values. *)
Definition svd3 (_ : 'M[R]_2) : 'M[R]_2 * 'rV[R]_2 * 'M[R]_2 :=
  (refl2, vals2, refl2 *m diag_mx (\row_k (if k == ord0 then 1%Re else (-1)%Re))).
Definition mat3 : 'M[R]_2 := refl2 *m diag_mx (\row_k (if k == ord0 then 2%Re else (-1)%Re)) *m refl2^T.
Lemma mone_aux : (-1 * -1 = 1)%Re.
Proof. ring. Qed.

Example C68_witness : symm mat3 /\ is_svd mat3 (svd3 mat3) /\ distinct vals2.
Proof.
  split; first by rewrite /symm /mat3 !trmx_mul trmxK tr_diag_mx mulmxA.
  have D (x y : 'rV[R]_2) : diag_mx x *m diag_mx y = diag_mx (\row_k (x ord0 k * y ord0 k)).
    apply/matrixP => i j; rewrite mul_diag_mx !mxE; by case: (i =P j) => [->|_]; rewrite ?mulr1n ?mulr0n ?mulr0.
  split.
    split; first exact: refl2_orth.
    split.
      rewrite trmx_mul tr_diag_mx mulmxA -(mulmxA _ refl2^T) refl2_orth mulmx1 D.
      apply/matrixP => i j; rewrite !mxE; case: (i == j); rewrite ?mulr0n // !mulr1n.
      by case: (i == ord0); [exact: Rmult_1_l|exact: mone_aux].
    split; first by move=> k; apply: Rlt_le; exact: vals2_pos.
    rewrite trmx_mul tr_diag_mx !mulmxA -(mulmxA _ (diag_mx _) (diag_mx _)) D /mat3.
    congr (_ *m diag_mx _ *m _); apply/rowP => k; rewrite !mxE.
    by case: (k == ord0); [exact: esym (Rmult_1_r _)|exact: esym (Rmult_1_l _)].
  move=> i j; rewrite !mxE; case: i => - [|[|//]] Hi; case: j => - [|[|//]] Hj /= N; try lra.
  - by case: N; exact: val_inj.
  - by case: N; exact: val_inj.
Qed.

(** The matrix [refl2] is its own right factor with unit singular values: the code then returns
    a matrix that is not even symmetric. *)
Definition svd4 (_ : 'M[R]_2) : 'M[R]_2 * 'rV[R]_2 * 'M[R]_2 := (1%:M, const_mx 1%Re, refl2).

Theorem C68_nearest_refuted :
  ~ (forall n (svd : 'M[R]_n -> 'M[R]_n * 'rV[R]_n * 'M[R]_n) (a : 'M[R]_n),
       symm a -> is_svd a (svd a) -> psd (closest_psd svd a false)).
Proof.
  move=> H; have := H 2%N svd4 refl2 refl2_sym.
  have S : is_svd refl2 (svd4 refl2).
    split; first by rewrite trmx1 mul1mx.
    split; first exact: refl2_orth.
    split; first by move=> k; rewrite mxE; lra.
    by rewrite mul1mx diag_const_mx mul1mx refl2_sym.
  move=> /(_ S) [] /(congr1 (fun M : 'M[R]_2 => M ord0 (lift ord0 ord0))) + _.
  rewrite mxE (closest_psdE (svd := svd4) (a := refl2) refl2_sym (erefl (svd4 refl2))) trmx1 !mul1mx mul_diag_mx !mxE /=.
  rewrite Rmax_right; last lra.
  rewrite Rmax_left; last lra.
  move=> E; have : (0 * (4 / 5) = 3 / 5 * 1 * (4 / 5))%Re by [].
  lra.
Qed.
Print Assumptions C68_nearest_refuted.
