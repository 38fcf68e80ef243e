(** The property C115: the non-causal GPCM has no arrow of time. *)
From Coq Require Import Reals ZArith List Lra Lia String FunctionalExtensionality Permutation.
From mathcomp Require Import all_ssreflect all_algebra fingroup perm.
From Verif Require Import Py ExpPolyModel ExpPolyIntModel ExpPolyIntProofs RMat RChol RTac NormalModel NormalProofs ApproxModel ApproxSpec ApproxProofs ApproxProofs2 EvidenceModel.
From Verif Require Import GpcmModel GpcmGood GpcmBridge GpcmWell UnitProps GpcmUnitProps BasisSpec BasisProofs ReorderSpec ReorderSpec2 ReorderProofs ReorderProps ReverseSpec.
From Verif Require GpcmSpec GpcmProps GpcmEntries OrderSpec GpcmInit ReorderEntries ReverseEntries ReverseInit.
Set Implicit Arguments.
Unset Strict Implicit.
Unset Printing Implicit Defensive.
Import GRing.Theory.
Local Open Scope ring_scope.
Delimit Scope R_scope with Re.

Lemma mat_eq p q (T T' : list (list R)) :
  (forall (i : 'I_p) (j : 'I_q), GpcmEntries.get2 T' i j = GpcmEntries.get2 T i j) -> mat p q T' = mat p q T.
Proof. by move=> H; apply/matrixP=> i j; rewrite !mxE; exact: H. Qed.

(** The model with reflected inducing points sees in the reflected times exactly what the model
    sees in the times. *)
Theorem C115_reflected :
  forall (d : R) (N : numdom) (so so' : setorder) (ofR : R -> N) (m : gpcm) (t t' : list R),
    (forall x, val (ofR x) = x) -> GpcmProps.tensors N -> good_gpcm m -> g_causal m = false ->
    exists S, gsession so ofR m t t' = Ok S
      /\ well_posed (s_gp S) (s_data S) /\ well_posed (s_gp S) (s_pred S)
      /\ gsession so' ofR (reflected d m) (List.map (back d) t) (List.map (back d) t') = Ok S.
Proof.
  move=> d N so so' ofR m t t' Ho Te Gm Nc.
  have M := proj1 Gm.
  have [G EG] := gpcm_gp_total so Ho Gm Te.
  have [D ED] := gpcm_integrals_total so Ho Gm t Te.
  have [P EP] := gpcm_integrals_total so Ho Gm t' Te.
  exists (Session G D P); split; first by rewrite /gsession EG ED EP.
  split; first by have [] := gpcm_well Ho Gm EG ED.
  split; first by have [] := gpcm_well Ho Gm EG EP.
  have Gm' := ReverseEntries.good_back d m Gm.
  have [G' EG'] := gpcm_gp_total so' Ho Gm' Te.
  have [D' ED'] := gpcm_integrals_total so' Ho Gm' (List.map (back d) t) Te.
  have [P' EP'] := gpcm_integrals_total so' Ho Gm' (List.map (back d) t') Te.
  rewrite /gsession EG' ED' EP' /bind; congr Ok.
  rewrite /gpcm_gp /gpcm_integrals in EG ED EP EG' ED' EP'.
  have [Kz [EKz {}EG]] := bindP EG; have [Ku [EKu {}EG]] := bindP EG; case: EG => <-.
  have [hx [Ehx {}ED]] := bindP ED.
  have [ux [Eux {}ED]] := bindP ED.
  have [hz [Ehz {}ED]] := bindP ED.
  have [uz [Euz {}ED]] := bindP ED.
  case: ED => <-.
  have [hy [Ehy {}EP]] := bindP EP.
  have [uy [Euy {}EP]] := bindP EP.
  have [hw [Ehw {}EP]] := bindP EP.
  have [uw [Euw {}EP]] := bindP EP.
  case: EP => <-.
  have [Kz' [EKz' {}EG']] := bindP EG'; have [Ku' [EKu' {}EG']] := bindP EG'; case: EG' => <-.
  have [hx' [Ehx' {}ED']] := bindP ED'.
  have [ux' [Eux' {}ED']] := bindP ED'.
  have [hz' [Ehz' {}ED']] := bindP ED'.
  have [uz' [Euz' {}ED']] := bindP ED'.
  case: ED' => <-.
  have [hy' [Ehy' {}EP']] := bindP EP'.
  have [uy' [Euy' {}EP']] := bindP EP'.
  have [hw' [Ehw' {}EP']] := bindP EP'.
  have [uw' [Euw' {}EP']] := bindP EP'.
  case: EP' => <-.
  move: Euy Euy'; rewrite Eux Eux' => - [<-] [<-].
  have lo a (i : 'I_a) : (i < a)%coq_nat by exact/ltP.
  have F1 := mat_eq (fun i j => ReverseEntries.Ku_back d N so so' ofR Ho m _ _ _ _ EKu EKu' (lo _ i) (lo _ j)).
  have F2 := mat_eq (fun i j => ReverseEntries.Kz_back d N so so' ofR Ho m M _ _ _ _ EKz EKz' (lo _ i) (lo _ j)).
  have F3 := mat_eq (fun i j => ReverseEntries.ux_back d N so so' ofR Ho m M Nc _ _ _ _ Eux Eux' (lo _ i) (lo _ j)).
  have F4 a := mat_eq (fun i j => ReverseEntries.hz_back d N so so' ofR Ho m M Nc _ _ _ _ _ _ Ehz Ehz' (lo _ a) (lo _ i) (lo _ j)).
  have F5 a := mat_eq (fun i j => ReverseEntries.hz_back d N so so' ofR Ho m M Nc _ _ _ _ _ _ Ehw Ehw' (lo _ a) (lo _ i) (lo _ j)).
  have F6 a := mat_eq (fun i j => ReverseEntries.uz_back d N so so' ofR Ho m M Nc _ _ _ _ _ _ Euz Euz' (lo _ a) (lo _ i) (lo _ j)).
  have F7 a := mat_eq (fun i j => ReverseEntries.uz_back d N so so' ofR Ho m M Nc _ _ _ _ _ _ Euw Euw' (lo _ a) (lo _ i) (lo _ j)).
  have F8 a := ReverseEntries.hxs_back d N so so' ofR Ho m M Nc _ _ _ a Ehx Ehx'.
  have F9 a := ReverseEntries.hxs_back d N so so' ofR Ho m M Nc _ _ _ a Ehy Ehy'.
  clear -F1 F2 F3 F4 F5 F6 F7 F8 F9.
  change (g_t_u (reflected d m)) with (List.map (back 0) (g_t_u m)); change (g_t_z (reflected d m)) with (List.map (back d) (g_t_z m)).
  change (g_noise (reflected d m)) with (g_noise m).
  have Eu := List.map_length (back 0) (g_t_u m).
  have Ez := List.map_length (back d) (g_t_z m).
  have Et s := List.map_length (back d) s.
  move: (List.length (List.map (back 0) (g_t_u m))) (List.length (List.map (back d) (g_t_z m))) (List.length (List.map (back d) t)) (List.length (List.map (back d) t')) Eu Ez (Et t) (Et t').
  move=> nu nz n n' -> -> -> ->.
  rewrite F1 F2 F3; congr Session; congr Integrals; apply: functional_extensionality => i.
  - by apply: F8; exact/ltP.
  - exact: F4.
  - exact: F6.
  - by apply: F9; exact/ltP.
  - exact: F5.
  - exact: F7.
Qed.
Print Assumptions C115_reflected.

(** What the approximations see with the inducing variables in another order. *)
Definition order_session (S : session) (s : 'S_(s_nu S)) (r : 'S_(s_nz S)) : session :=
  Session (order_gp s r (s_gp S)) (order_integrals s r (s_data S)) (order_integrals s r (s_pred S)).

(** The automatic model for the data in reverse is the automatic model for the data with all
    inducing points reflected, and what the approximations see is the same with the inducing
    variables in reverse order.  Excluded are single inducing points, which [linspace] puts at
    the left end. *)
Theorem C115_automatic :
  forall (d : R) (N : numdom) (so so' : setorder) (ofR : R -> N) (a : gpcm_args) (m : gpcm) (t t1 t2 : list R),
    (forall x, val (ofR x) = x) -> GpcmProps.tensors N ->
    a_causal a = false -> a_t_u a = None -> a_t_z a = None -> a_t a = Some t ->
    new_gpcm a = Ok m -> good_gpcm m -> List.length (g_t_u m) <> 1%N -> List.length (g_t_z m) <> 1%N ->
    exists m' S (s : 'S_(s_nu S)) (r : 'S_(s_nz S)),
      new_gpcm (OrderSpec.with_t a (List.map (back d) t)) = Ok m'
      /\ g_t_u m' = g_t_u m /\ g_t_z m' = List.rev (List.map (back d) (g_t_z m))
      /\ gsession so ofR m t1 t2 = Ok S
      /\ well_posed (s_gp S) (s_data S) /\ well_posed (s_gp S) (s_pred S)
      /\ (forall i, s i = rev_ord i) /\ (forall i, r i = rev_ord i)
      /\ gsession so' ofR m' (List.map (back d) t1) (List.map (back d) t2) = Ok (order_session s r).
Proof.
  move=> d N so so' ofR a m t t1 t2 Ho Te Nc Nu Nz Et Em Gm Lu Lz.
  have [Em' Eu] := ReverseInit.new_back d a t Nc Nu Nz Et m Em Lu Lz.
  have Ncm : g_causal m = false.
    by move: Em; rewrite /new_gpcm => E; repeat (have [? [_ {}E]] := bindP E); case: E => <-.
  have [S [ES [W1 [W2 ES']]]] := C115_reflected d so so t1 t2 Ho Te Gm Ncm.
  have Gr := ReverseEntries.good_back d m Gm.
  have Pu := Permutation_rev (g_t_u (reflected d m)); have Pz := Permutation_rev (g_t_z (reflected d m)).
  have [s [r [G [D [P [Hs [Hr [E [_ [_ E']]]]]]]]]] := C114_session so so' (List.map (back d) t1) (List.map (back d) t2) Ho Te Gr Pu Pz.
  have {E}ES' : S = Session G D P by move: ES'; rewrite E => - [].
  exists (mirrored d m); rewrite ES' in ES W1 W2 *; exists (Session G D P), s, r.
  have [_ [_ [_ [_ [Ndu [Ndz _]]]]]] := Gr.
  have R (l : list R) (x : 'S_(List.length l)) : List.NoDup l -> (forall i : 'I_(List.length l), List.nth i (List.rev l) R0 = List.nth (x i) l R0) -> forall i, x i = rev_ord i.
    move=> Nd H i; apply: val_inj => /=; move/List.NoDup_nth: Nd => /(_ R0) Nd.
    have Li : (i < List.length l)%coq_nat by exact/ltP.
    have B : (List.length l - i.+1 < List.length l)%coq_nat by rewrite -minusE; lia.
    rewrite (Nd (x i) (List.length l - i.+1)%N _ B) //; first by exact/ltP.
    by rewrite -H List.rev_nth // minusE.
  split=> //; split; first exact: Eu.
  do 5! split=> //; first by apply: R.
  by split; first by apply: R.
Qed.
Print Assumptions C115_automatic.

(** The quantities for the kernel: at lags or times in reverse they are the same. *)
Theorem C115_kernel :
  forall (d e : R) (N : numdom) (so so' : setorder) (ofR : R -> N) (m : gpcm),
    (forall x, val (ofR x) = x) -> GpcmSpec.moderate_model m -> g_causal m = false ->
    (forall t1 t2 v v', compute_i_hx N so ofR m (Some t1) (Some t2) = Ok v ->
       compute_i_hx N so' ofR (reflected d m) (Some (back e t1)) (Some (back e t2)) = Ok v' -> v' = v)
    /\ (forall l1 l2 T T' a b i j v v', compute_I_ux4 N so ofR m (Some l1) (Some l2) = Ok T ->
       compute_I_ux4 N so' ofR (reflected d m) (Some (List.map (back e) l1)) (Some (List.map (back e) l2)) = Ok T' ->
       GpcmSpec.at4 T a b i j = Some v -> GpcmSpec.at4 T' a b i j = Some v' -> v' = v).
Proof.
  move=> d e N so so' ofR m Ho M Nc; split.
  - by move=> t1 t2 v v'; exact: (ReverseEntries.hx_back d N so so' ofR Ho m M Nc).
  - by move=> l1 l2 T T' a b i j v v'; exact: (ReverseEntries.ux4_back d N so so' ofR Ho m M Nc).
Qed.
Print Assumptions C115_kernel.

(** From the data to the predictions: the default model for data in reverse gives the same bounds
    and at the times in reverse the same predictions, and its fits are the same with the inducing
    variables in reverse order. *)
Theorem C115_default :
  forall (d : R) (N : numdom) (so so' : setorder) (ofR : R -> N) (window scale : R) (data : list R) (x1 x2 : R) (t1 t2 : list R),
    (forall x, val (ofR x) = x) -> GpcmProps.tensors N ->
    (/ 10 ^ 5 <= window <= 10 ^ 5)%Re -> (/ 10 ^ 5 <= scale)%Re -> (scale ^ 2 < 2 * window ^ 2)%Re ->
    List.In x1 data -> List.In x2 data -> (scale < 2 * (x2 - x1))%Re ->
    (forall a b, List.In a data -> List.In b data -> (a - b <= 10 ^ 5)%Re) ->
    exists m m' S S' (s : 'S_(s_nu S)) (r : 'S_(s_nz S)),
      new_gpcm (default_args false window scale data) = Ok m
      /\ new_gpcm (default_args false window scale (List.map (back d) data)) = Ok m'
      /\ gsession so ofR m t1 t2 = Ok S
      /\ gsession so' ofR m' (List.map (back d) t1) (List.map (back d) t2) = Ok S'
      /\ S' = order_session s r /\ (forall i, s i = rev_ord i) /\ (forall i, r i = rev_ord i)
      /\ forall chol, chol_ok chol -> forall y y',
         let D := construct_terms chol (s_gp S) (s_data S) y in
         let D1 := construct_terms chol (order_gp s r (s_gp S)) (order_integrals s r (s_data S)) y in
         let P := construct_terms chol (s_gp S) (s_pred S) y' in
         let P1 := construct_terms chol (order_gp s r (s_gp S)) (order_integrals s r (s_pred S)) y' in
         (forall ap, (forall i, proper (ap_qs_u ap i)) -> (forall i, proper (ap_qs_z ap i)) ->
            (forall iters, fit_mean_field_ca chol (order_gp s r (s_gp S)) D1 iters (order_state s r ap)
               = let f := fit_mean_field_ca chol (s_gp S) D iters ap in (order_state s r f.1, [seq order_pair s r q | q <- f.2]))
            /\ (forall collapsed, elbo chol (order_gp s r (s_gp S)) D1 (order_state s r ap) collapsed = elbo chol (s_gp S) D ap collapsed)
            /\ (forall i, predict_mean_field chol (order_gp s r (s_gp S)) P1 (order_state s r ap) i = predict_mean_field chol (s_gp S) P ap i))
         /\ (forall us i, predict_structured chol (order_gp s r (s_gp S)) D1 P1 [seq rows s u | u <- us] i = predict_structured chol (s_gp S) D P us i).
Proof.
  move=> d N so so' ofR w sc data x1 x2 t1 t2 Ho Te Hw Hs Hsw I1 I2 Hd Hb.
  have [m [Em Gm]] := default_good false w sc data x1 x2 Hw Hs Hsw I1 I2 Hd Hb.
  have P5 : (0 < / 10 ^ 5)%Re by apply: Rinv_0_lt_compat; apply: pow_lt; lra.
  have Sw : (sc < 4 * w)%Re.
    by apply: Rnot_le_lt => C; have : ((4 * w) ^ 2 <= sc ^ 2)%Re; [apply: pow_incr; lra|have : (0 < w ^ 2)%Re by apply: pow_lt; lra]; move=> /= *; lra.
  have Lu : List.length (g_t_u m) <> 1%N by apply: (ReverseInit.default_many _ _ _ _ Em) => //; lra.
  have Lz : List.length (g_t_z m) <> 1%N.
    have [lo Elo] : exists lo, lmin data = Ok lo by case: (data) I1 => [[]|z l _]; eexists.
    have [hi Ehi] : exists hi, lmax data = Ok hi by case: (data) I1 => [[]|z l _]; eexists.
    have [_ Mlo] := GpcmInit.lmin_spec _ _ Elo; have [_ Mhi] := GpcmInit.lmax_spec _ _ Ehi.
    have L1 := Mlo x1 I1; have L2 := Mhi x2 I2.
    have [dd [N2 [_ [Ll _]]]] := default_spacing false w sc data m lo hi Em ltac:(lra) Elo Ehi ltac:(lra).
    by rewrite Ll; lia.
  have [m' [S [s [r [Em' [_ [_ [ES [W1 [W2 [Hs' [Hr' ES']]]]]]]]]]]] :=
    @C115_automatic d N so so' ofR (default_args false w sc data) m data t1 t2 Ho Te erefl erefl erefl erefl Em Gm Lu Lz.
  exists m, m', S, (order_session s r), s, r; do 7! split=> //.
  move=> chol Hc y y'; have := C114_inference Hc s r y y' W1 W2; cbv zeta => - [_ [_ [_ [_ [_ [A [_ [_ [_ [B _]]]]]]]]]].
  split=> //; move=> ap Hu Hz; have [A1 [A2 [A3 _]]] := A ap Hu Hz; by [].
Qed.
Print Assumptions C115_default.

(** Non-vacuity: the data at 0, 1 and 3 in reverse are the data at 0, 2 and 3. *)
Example C115_witness :
  List.map (back 3) [:: 0%Re; 1%Re; 3%Re] = [:: 3%Re; 2%Re; 0%Re]
  /\ (/ 10 ^ 5 <= 1 <= 10 ^ 5)%Re /\ (1 ^ 2 < 2 * 1 ^ 2)%Re /\ (1 < 2 * (3 - 0))%Re
  /\ (forall a b, List.In a [:: 0%Re; 1%Re; 3%Re] -> List.In b [:: 0%Re; 1%Re; 3%Re] -> (a - b <= 10 ^ 5)%Re).
Proof.
  split; first by rewrite /back /=; congr [:: _; _; _]; lra.
  split; first by split; lra.
  split; first lra; split; first lra.
  by move=> a b [<-|[<-|[<-|[]]]] [<-|[<-|[<-|[]]]]; lra.
Qed.
