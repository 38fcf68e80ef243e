(** The order of a list of data: what is computed per time, and the constructors. *)
From Coq Require Import Reals ZArith List String Permutation Lra.
From mathcomp Require Import all_ssreflect all_algebra.
From Verif Require Import Py ExpPolyModel ExpPolyIntModel RMat NormalModel ApproxModel GpcmModel GpcmBridge RgpcmModel RgpcmBridge OrderSpec.
Set Implicit Arguments.
Unset Strict Implicit.
Unset Printing Implicit Defensive.
Delimit Scope R_scope with Re.

Lemma mapM_at A B (f : A -> res B) l r d d' : mapM f l = Ok r ->
  List.length r = List.length l /\ forall i, (i < List.length l)%coq_nat -> f (List.nth i l d) = Ok (List.nth i r d').
Proof.
  elim: l r => [|x l IH] r /=.
    by case=> <-; split=> // i /Nat.nlt_0_r.
  case Ex: (f x) => [v|e] //=; case El: (mapM f l) => [vs|e] //= -[<-].
  have [L N] := IH _ El; split=> /=; first by rewrite L.
  case=> [|i] //= /Lt.lt_S_n; exact: N.
Qed.

Lemma mapM_some A B (f : A -> res B) l : (forall x, List.In x l -> exists v, f x = Ok v) -> exists r, mapM f l = Ok r.
Proof.
  elim: l => [|x l IH] H /=; first by exists nil.
  have [v ->] := H x (or_introl erefl).
  have [|r ->] := IH; first by move=> x' I; apply: H; right.
  by exists (v :: r).
Qed.

Lemma mapM_In A B (f : A -> res B) l r x : mapM f l = Ok r -> List.In x l -> exists v, f x = Ok v.
Proof.
  elim: l r => [|a l IH] r //=.
  case Ex: (f a) => [v|e] //=; case El: (mapM f l) => [vs|e] //= _ [<-|I]; first by exists v.
  exact: IH El I.
Qed.

(** What is computed separately for every time. *)
Definition pointwise X (C : list R -> res (list X)) : Prop :=
  exists F, (forall t, C t = mapM F t) \/ exists e, forall t, C t = Err e.

Lemma pointwise_sub X (C : list R -> res (list X)) t t' r : pointwise C -> C t = Ok r ->
  (forall x, List.In x t' -> List.In x t) -> exists r', C t' = Ok r'.
Proof.
  move=> [F [H|[e H]]] E S; rewrite H in E; last by [].
  rewrite H; apply: mapM_some => x I; exact: mapM_In E (S x I).
Qed.

Lemma pointwise_eq X (C : list R -> res (list X)) t t' r r' i i' d : pointwise C -> C t = Ok r -> C t' = Ok r' ->
  (i < List.length t)%coq_nat -> (i' < List.length t')%coq_nat -> List.nth i t R0 = List.nth i' t' R0 ->
  List.nth i r d = List.nth i' r' d.
Proof.
  move=> [F [H|[e H]]] E E' L L' Et; rewrite H in E; rewrite H in E'; last by [].
  have [_ N] := mapM_at R0 d E; have [_ N'] := mapM_at R0 d E'.
  by have := N _ L; rewrite Et (N' _ L') => -[].
Qed.

Lemma pointwise_bind A X (r : res A) (C : A -> list R -> res (list X)) :
  (forall a, pointwise (C a)) -> pointwise (fun t => bind r (fun a => C a t)).
Proof.
  move=> H; case: r => [a|e] /=; first exact: H.
  by exists (fun _ => Err e); right; exists e.
Qed.

Lemma pointwise_mapM X (F : R -> res X) : pointwise (mapM F).
Proof. by exists F; left. Qed.

Ltac pw := repeat (apply: pointwise_bind => ?); exact: pointwise_mapM.


(** Integrals computed per time. *)
Section Points.
Variables (nu nz : nat) (hx : list R -> res (list R)) (ux : res (list (list R)))
  (hz : list R -> res (list (list (list R)))) (uz : list R -> res (list (list (list R)))).
Hypothesis Phx : pointwise hx.
Hypothesis Phz : pointwise hz.
Hypothesis Puz : pointwise uz.

Definition all_integrals (t : list R) : res (integrals (List.length t) nu nz) :=
  bind (hx t) (fun h => bind ux (fun x => bind (hz t) (fun hz => bind (uz t) (fun uz =>
  Ok (Integrals (fun i : 'I_(List.length t) => List.nth i h R0) (mat nu nu x)
        (fun i : 'I_(List.length t) => mat nz nz (List.nth i hz nil))
        (fun i : 'I_(List.length t) => mat nu nz (List.nth i uz nil))))))).

Lemma all_inv t D : all_integrals t = Ok D -> exists h x a b, [/\ hx t = Ok h, ux = Ok x, hz t = Ok a & uz t = Ok b] /\
  D = Integrals (fun i : 'I_(List.length t) => List.nth i h R0) (mat nu nu x)
        (fun i : 'I_(List.length t) => mat nz nz (List.nth i a nil))
        (fun i : 'I_(List.length t) => mat nu nz (List.nth i b nil)).
Proof.
  rewrite /all_integrals; case Eh: (hx t) => [h|] //=; case Ex: ux => [x|] //=.
  case Ea: (hz t) => [a|] //=; case Eb: (uz t) => [b|] //= -[<-].
  by exists h, x, a, b.
Qed.

Lemma all_sub t t' D : all_integrals t = Ok D -> (forall x, List.In x t' -> List.In x t) ->
  exists D', all_integrals t' = Ok D'.
Proof.
  move=> /all_inv [h [x [a [b [[Eh Ex Ea Eb] _]]]]] S; rewrite /all_integrals Ex.
  have [h' ->] := pointwise_sub Phx Eh S; have [a' ->] := pointwise_sub Phz Ea S.
  by have [b' ->] := pointwise_sub Puz Eb S; eexists; reflexivity.
Qed.

Lemma all_point t t' D D' (i : 'I_(List.length t)) (i' : 'I_(List.length t')) :
  all_integrals t = Ok D -> all_integrals t' = Ok D' ->
  List.nth i t R0 = List.nth i' t' R0 -> same_point D i D' i'.
Proof.
  move=> /all_inv [h [x [a [b [[Eh Ex Ea Eb] ->]]]]] /all_inv [h' [x' [a' [b' [[Eh' Ex' Ea' Eb'] ->]]]]] Et.
  have Li : (i < List.length t)%coq_nat by apply/ltP.
  have Li' : (i' < List.length t')%coq_nat by apply/ltP.
  rewrite /same_point /=; rewrite Ex in Ex'; case: Ex' => ->.
  split; first exact: (pointwise_eq _ Phx Eh Eh' Li Li' Et); split=> //.
  by split; congr mat; [exact: (pointwise_eq _ Phz Ea Ea' Li Li' Et)|exact: (pointwise_eq _ Puz Eb Eb' Li Li' Et)].
Qed.

Lemma perm_index (data data' : list (R * R)) : Permutation data data' ->
  exists s : 'I_(List.length (times data')) -> 'I_(List.length (times data)), bijective s /\
    forall i : 'I_(List.length (times data')), List.nth i data' (R0, R0) = List.nth (s i) data (R0, R0).
Proof.
  move=> /(Permutation_nth _ _ (R0, R0)) /= [L [f [Fb [Fi Fn]]]].
  have E : List.length (times data) = List.length data by rewrite /times List.map_length.
  have E' : List.length (times data') = List.length data by rewrite /times List.map_length.
  have B (i : 'I_(List.length (times data'))) : (f i < List.length (times data))%N.
    by apply/ltP; rewrite E; apply: Fb; rewrite -E'; apply/ltP.
  exists (fun i => Ordinal (B i)); split.
    apply: inj_card_bij; last by rewrite !card_ord E E'.
    move=> i j [] Ef; apply: val_inj => /=; apply: Fi => //; rewrite -E'; exact/ltP.
  by move=> i /=; apply: Fn; rewrite -E'; apply/ltP.
Qed.

Lemma all_order data data' D : Permutation data data' -> all_integrals (times data) = Ok D ->
  exists D', all_integrals (times data') = Ok D' /\ same_observations D (observed (data:=data)) D' (observed (data:=data')).
Proof.
  move=> P E; have [|D' E'] := all_sub (t':=times data') E.
    by move=> x; apply: Permutation_in; apply: Permutation_sym; apply: Permutation_map.
  exists D'; split=> //; have [s [B H]] := perm_index P; split.
    have [h [x [a [b [[_ Ex _ _] ->]]]]] := all_inv E; have [h' [x' [a' [b' [[_ Ex' _ _] ->]]]]] := all_inv E' => /=.
    by rewrite Ex in Ex'; case: Ex' => ->.
  exists s; split=> // i; split.
    apply: all_point E E' _; rewrite /times.
    have -> : R0 = fst (R0, R0) by []. rewrite !List.map_nth. by rewrite H.
  rewrite /observed; have -> : R0 = snd (R0, R0) by []. by rewrite !List.map_nth H.
Qed.
End Points.

Section Models.
Variables (N : numdom) (so : setorder) (ofR : R -> N) (m : gpcm) (argsort : list Z -> list nat) (m' : rgpcm).

Lemma hz_pointwise : pointwise (compute_I_hz N so ofR m).
Proof. by rewrite /compute_I_hz; pw. Qed.
Lemma uz_pointwise : pointwise (compute_I_uz N so ofR m).
Proof. by rewrite /compute_I_uz; pw. Qed.
Lemma hx_pointwise : pointwise (mapM (fun s => compute_i_hx N so ofR m (Some s) (Some s))).
Proof. exact: pointwise_mapM. Qed.

Lemma gpcm_all t : gpcm_integrals so ofR m t = all_integrals (List.length (g_t_u m)) (List.length (g_t_z m))
  (mapM (fun s => compute_i_hx N so ofR m (Some s) (Some s))) (compute_I_ux N so ofR m) (compute_I_hz N so ofR m) (compute_I_uz N so ofR m) t.
Proof. reflexivity. Qed.

Lemma rhz_pointwise : pointwise (rcompute_I_hz argsort m').
Proof. exact: pointwise_mapM. Qed.
Lemma ruz_pointwise : pointwise (rcompute_I_uz argsort m').
Proof. exact: pointwise_mapM. Qed.
Lemma rhx_pointwise : pointwise (mapM (fun s => rcompute_i_hx m' (Some s) (Some s))).
Proof. exact: pointwise_mapM. Qed.

Lemma rgpcm_all t : rgpcm_integrals argsort m' t = all_integrals (List.length (r_t_u m')) (List.length (r_ms m'))
  (mapM (fun s => rcompute_i_hx m' (Some s) (Some s))) (rcompute_I_ux m') (rcompute_I_hz argsort m') (rcompute_I_uz argsort m') t.
Proof. reflexivity. Qed.
End Models.

Lemma fold_perm (op : R -> R -> R) l l' x : (forall a b, op a b = op b a) -> (forall a b c, op a (op b c) = op (op a b) c) ->
  Permutation l l' -> List.fold_left op l x = List.fold_left op l' x.
Proof.
  move=> Hc Ha P; elim: P x => [|a s s' _ IH|a b s|s s' s'' _ IH _ IH'] x //=.
  - by rewrite -!Ha (Hc a b).
  - by rewrite IH IH'.
Qed.

Lemma lmin_perm t t' : Permutation t t' -> lmin t = lmin t'.
Proof.
  elim=> [|a s s' P IH|a b s|s s' s'' _ -> _ ->] //=; last by rewrite Rmin_comm.
  by rewrite (fold_perm _ Rmin_comm Rmin_assoc P).
Qed.

Lemma lmax_perm t t' : Permutation t t' -> lmax t = lmax t'.
Proof.
  elim=> [|a s s' P IH|a b s|s s' s'' _ -> _ ->] //=; last by rewrite Rmax_comm.
  by rewrite (fold_perm _ Rmax_comm Rmax_assoc P).
Qed.
