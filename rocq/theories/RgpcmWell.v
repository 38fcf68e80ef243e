(** Every RGPCM with distinct inducing points and features is well posed on its support. *)
From Coq Require Import Reals ZArith List String Lra.
From mathcomp Require Import all_ssreflect all_algebra.
From Verif Require Import Py ListFacts ExpPolyIntModel ExpPolyIntProofs RMat NormalModel NormalProofs RTac ApproxModel ApproxSpec ApproxProofs2.
From Verif Require Import GpcmModel RgpcmModel GpcmBridge GpcmWell GpcmKernelPsd KernelProofs RgpcmBridge.
From Verif Require GaussFeat GpcmSpec GpcmProps3 GpcmEntries RgpcmSpec RgpcmProps RgpcmProps2 RgpcmUx OuEntries.
Set Implicit Arguments.
Unset Strict Implicit.
Unset Printing Implicit Defensive.
Import GRing.Theory.
Local Open Scope ring_scope.
Delimit Scope R_scope with Re.

(** The converse of Schur complements. *)
Lemma schur_joint a b (A : 'M[R]_a) (C : 'M[R]_(a, b)) (K : 'M[R]_b) : spd K ->
  (forall x, (0 <= dot x ((A - C *m invmx K *m C^T) *m x))%Re) ->
  forall x w, (0 <= dot x (A *m x) + 2 * dot x (C *m w) + dot w (K *m w))%Re.
Proof.
  move=> HK H x w; have U := spd_unit HK; have [S P] := HK; have [IS _] := spd_inv HK.
  have Q : (0 <= dot (w + invmx K *m (C^T *m x)) (K *m (w + invmx K *m (C^T *m x))))%Re.
    by set v := w + _; case: (v =P 0) => [->|/P Pv]; [rewrite mulmx0 dot0r; right|left].
  move: Q (H x); rewrite mulmxDr mulKVmx // dotDl !dotDr mulmxBl dotDr dotNr.
  have -> : dot (invmx K *m (C^T *m x)) (K *m w) = dot x (C *m w).
    by rewrite (dot_mx K) S mulKVmx // [RHS]dot_mx.
  have -> : dot w (C^T *m x) = dot x (C *m w) by rewrite dotC [RHS]dot_mx.
  have -> : dot (invmx K *m (C^T *m x)) (C^T *m x) = dot x (C *m invmx K *m C^T *m x).
    by rewrite dotC -!mulmxA [RHS]dot_mx.
  toR => ? ?; lra.
Qed.

Lemma sub_entry nu nz (A : 'M[R]_nu) T (W : 'M[R]_nz) (w : nat -> nat -> R) (v : R) i j : A i j = v -> (forall k l : 'I_nz, W k l = w k l) ->
  (A - mat nu nz T *m W *m (mat nu nz T)^T) i j
  = (v - Sum nz (fun k => Sum nz (fun l => w k l * (GpcmEntries.get2 T i k * GpcmEntries.get2 T j l))))%Re.
Proof.
  move=> <- H; rewrite -mulmxA; set X := _ *m _; rewrite mxE [(- X) i j]mxE; congr (_ - _).
  rewrite mxE SumE; apply: eq_bigr => k _; rewrite !mxE SumE mulr_sumr; apply: eq_bigr => l _.
  rewrite H !mxE; exact: bil_aux.
Qed.

Section Main.
Variables (argsort : list Z -> list nat) (Has : RgpcmSpec.argsorts argsort).
Variable m : rgpcm.
Hypothesis Hm : well_rgpcm m.
Notation nu := (List.length (r_t_u m)).
Notation nz := (List.length (r_ms m)).

Lemma ms_pos : List.Forall (fun k => Z.le Z0 k) (r_ms m).
Proof. by case: Hm => _ [_ [_ [_ [H _]]]]; apply/List.Forall_forall. Qed.

Lemma rgpcm_gp_total : exists G, rgpcm_gp m = Ok G.
Proof.
  case: (Hm) => -[[Pa Pg Pl] _] [Hab _]; rewrite /rgpcm_gp.
  have [Kz [-> _]] := RgpcmProps2.C35_K_z m Pl Hab; have [Ku [-> _]] := RgpcmProps2.C36_K_u m Pg.
  by eexists.
Qed.
Lemma rgpcm_integrals_total t : exists I, rgpcm_integrals argsort m t = Ok I.
Proof.
  case: (Hm) => -[[Pa Pg Pl] [_ [_ [Ng [Nl _]]]]] [Hab [HM _]]; rewrite /rgpcm_integrals.
  have [|hx ->] := mapM_total (fun s => rcompute_i_hx m (Some s) (Some s)) t.
    by move=> s _; rewrite /rcompute_i_hx rdiv_ok; [eexists|lra].
  have [ux ->] : exists ux, rcompute_I_ux m = Ok ux.
    have [T [HT [S _]]] := RgpcmProps.C29_I_ux m [:: 0%Re] [:: 0%Re] Ng Nl.
    have E : rcompute_I_ux4 m None None = rcompute_I_ux4 m (Some [:: 0%Re]) (Some [:: 0%Re]) by [].
    rewrite /rcompute_I_ux E HT /=; case: T {HT} S => [[] //|X T] [_ F].
    by have [+ _] := List.Forall_inv F; case: X {F} => [//|Y X] _; eexists.
  have [hz [-> _]] := RgpcmProps.C30_I_hz argsort m t Has Pa Pl Hab HM ms_pos.
  have [uz [-> _]] := RgpcmProps.C32_I_uz argsort m t Has Ng Hab HM ms_pos.
  by eexists.
Qed.

Lemma rgpcm_well t G I : in_support m t -> rgpcm_gp m = Ok G -> rgpcm_integrals argsort m t = Ok I ->
  well_posed G I /\ residual_nonneg G I.
Proof.
  move=> Hs; case: (Hm) => Gm [Hab [HM [ND [_ Pn]]]]; have Hp := ms_pos.
  case: (Gm) => -[Pa Pg Pl] [_ [_ [Ng [Nl [NDu Pu]]]]].
  rewrite /rgpcm_gp => H; have [Kz [EKz {}H]] := bindP H; have [Ku [EKu {H} [<-]]] := bindP H.
  rewrite /rgpcm_integrals => H; have [hx [Ehx {}H]] := bindP H; have [ux [Eux {}H]] := bindP H.
  have [hz [Ehz {}H]] := bindP H; have [uz [Euz {H} [<-]]] := bindP H.
  have SKu : spd (mat nu nu Ku) by apply: (rK_spd Gm EKu).
  have SKz : spd (mat nz nz Kz).
    have [K' [EK' [Sh [Sy P]]]] := RgpcmProps2.C35_K_z m Pl Hab.
    have {EK'} E : K' = Kz by move: EK'; rewrite EKz => -[].
    have P' : GpcmProps3.positive_definite K' by move=> c L Ec; apply: P => //; apply/List.Exists_exists.
    subst K'; apply: mat_spd => [i j Hi Hj|c Hc]; last by have := GpcmEntries.pd_Sum Kz nz c Sh P' Hc.
    exact: (OuEntries.Kz_sym m Pl Hab HM ND Hp Kz i j EKz Hi Hj).
  have R1 (a : 'I_(List.length t)) : [/\ (List.nth a t R0 <= r_b m)%Re,
     (forall u, List.In u (r_t_u m) -> (r_a m <= List.nth a t R0 - u)%Re) & (r_a m <= List.nth a t R0)%Re].
    have /ltP Ha := ltn_ord a; have [[A B] C] := Hs _ (List.nth_In t R0 Ha); by split.
  have [Yu _] := spd_inv SKu; have [Yz _] := spd_inv SKz.
  have [Su Iu] := inv_sum SKu; have [Sz Iz] := inv_sum SKz.
  split.
    split=> //; split=> //; split=> //; split; [|split] => /=.
    - apply: mat_symm => i j Hi Hj; exact: (OuEntries.ux_sym m Ng Nl ux Eux i j Hi Hj).
    - move=> a; have /ltP Ha := ltn_ord a; have [R2 R3 R4] := R1 a.
      apply: mat_symm => i j Hi Hj.
      exact: (OuEntries.hz_sym argsort Has m Pa Pl Hab HM Hp t hz Ehz a Ha R2 R4 i j Hi Hj).
    - move=> a x w; have /ltP Ha := ltn_ord a; have [R2 R3 R4] := R1 a; split.
        apply: schur_joint => // {}x.
        have := OuEntries.facts_schur argsort Has m Pa Pg Pl Ng Nl Pu Hab HM ND Hp t Kz ux uz EKz Eux Euz a Ha R2 R3 R4 _ Sz Iz (ofcol x).
        rewrite (@dot_mx_sum _ _ _ _ (fun i j => GpcmEntries.get2 ux i j - Sum nz (fun k => Sum nz (fun l =>
          ofmx (invmx (mat nz nz Kz)) k l * (GpcmEntries.get3 uz a i k * GpcmEntries.get3 uz a j l)))))%Re // => i j.
        by apply: sub_entry => [|k l]; rewrite ?mxE ?ofmxE.
      rewrite [dot x (mat nu nz _ *m w)]dot_mat !dot_mat2.
      exact: (OuEntries.facts_joint2 argsort Has m Pa Pg Pl Ng Pu Hab HM Hp t Ku hz uz EKu Ehz Euz a Ha R2 R3 R4 (ofcol x) (ofcol w)).
  move=> a; have /ltP Ha := ltn_ord a; have [R2 R3 R4] := R1 a.
  have := OuEntries.facts_residual argsort Has m Pa Pg Pl Ng Nl Pu Hab HM ND Hp t Ku Kz ux hx hz uz EKu EKz Ehx Eux Ehz Euz a Ha R2 R3 R4 _ Sz Iz _ Iu.
  rewrite /= (tr_sum (F := GpcmEntries.get2 ux) Yu) => [|i j]; last by rewrite mxE.
  rewrite (tr_sum (F := GpcmEntries.get3 hz a) Yz) => [|i j]; last by rewrite mxE.
  set B := mat nu nz (List.nth a uz nil).
  have -> : \tr (invmx (mat nu nu Ku) *m (B *m invmx (mat nz nz Kz) *m B^T)) =
            \tr (invmx (mat nz nz Kz) *m (B^T *m (invmx (mat nu nu Ku) *m B))).
    by rewrite -(mulmxA B) (mulmxA (invmx (mat nu nu Ku))) mxtrace_mulC -mulmxA.
  rewrite (tr_sum (F := fun k k' => Sum nu (fun i => Sum nu (fun j =>
    ofmx (invmx (mat nu nu Ku)) i j * (GpcmEntries.get3 uz a i k * GpcmEntries.get3 uz a j k'))%Re)) Yz) // => k k'.
  rewrite mxE SumE; apply: eq_bigr => i _; rewrite !mxE SumE mulr_sumr; apply: eq_bigr => j _.
  rewrite ofmxE mxE; exact: bil_aux.
Qed.
End Main.
