(** C06, the true part: polynomials without vanishing coefficients that are equal as functions
    compare equal. *)
From Coq Require Import Reals ZArith List Bool String Permutation Lia Lra Arith.
From Verif Require Import Py ExpPolyModel ListFacts ExpPolyProofs ExpPolySpec ExpPolyProofs2 PolyIdent.
Import ListNotations.
Local Open Scope string_scope.

Section Canon.
Context (N : numdom).
Implicit Types (t s : term N) (p q : poly N).

(** Powers as digits: the weight of a list of digits in base [D]. *)
Fixpoint weight (D : nat) (dig : string -> nat) (L : list string) : nat :=
  match L with [] => 0 | x :: L => dig x + D * weight D dig L end.

Lemma weight_inj D d e : forall L, (forall x, In x L -> d x < D) -> (forall x, In x L -> e x < D) ->
  weight D d L = weight D e L -> forall x, In x L -> d x = e x.
Proof.
  induction L as [|y L IH]; intros Hd He E x Hx; [destruct Hx|]. cbn [weight] in E.
  assert (A := Hd y (or_introl eq_refl)). assert (B := He y (or_introl eq_refl)).
  assert (Ey : d y = e y).
  { rewrite (Nat.mul_comm D), (Nat.mul_comm D (weight D e L)) in E.
    assert (M : (d y + weight D d L * D) mod D = (e y + weight D e L * D) mod D) by now rewrite E.
    rewrite !Nat.mod_add, !Nat.mod_small in M by lia. exact M. }
  destruct Hx as [<-|Hx]; [exact Ey|].
  apply IH; auto; try (intros; apply Hd || apply He; right; assumption).
  apply (Nat.mul_cancel_l _ _ D); lia.
Qed.

(** The assignment x_i := z^(D^i). *)
Fixpoint kron (D : nat) (z : R) (L : list string) : string -> R :=
  match L with
  | [] => fun _ => 1%R
  | x :: L => fun y => if String.eqb y x then z else (kron D z L y ^ D)%R
  end.

Lemma powsum_cons n f fs :
  powsum n (f :: fs) = (if String.eqb (fname f) n then fpow f else 0) + powsum n fs.
Proof. unfold powsum. cbn [filter]. destruct (fname f =? n); reflexivity. Qed.

Lemma weight_add D d e : forall L, weight D (fun x => d x + e x) L = weight D d L + weight D e L.
Proof. induction L as [|x L IH]; [reflexivity|]. cbn [weight]. rewrite IH. lia. Qed.
Lemma weight_ext D d e : forall L, (forall x, In x L -> d x = e x) -> weight D d L = weight D e L.
Proof.
  induction L as [|x L IH]; intros E; [reflexivity|]. cbn [weight].
  rewrite (E x), IH; auto with datatypes.
Qed.
Lemma weight_zero D : forall L, weight D (fun _ => 0) L = 0.
Proof. induction L; [reflexivity|]. cbn [weight]. rewrite IHL. lia. Qed.

Lemma kron_single D z k y : forall L, NoDup L -> In y L ->
  (kron D z L y ^ k)%R = (z ^ weight D (fun x => if String.eqb y x then k else 0%nat) L)%R.
Proof.
  induction L as [|x L IH]; intros ND I; [destruct I|]. inversion_clear ND as [|? ? Nx ND'].
  cbn [kron weight]. destruct (String.eqb_spec y x) as [E|E].
  - subst y. rewrite (weight_ext D _ (fun _ => 0)).
    + rewrite weight_zero, Nat.mul_0_r, Nat.add_0_r. reflexivity.
    + intros w Hw. destruct (String.eqb_spec x w); [subst; contradiction|reflexivity].
  - destruct I as [I|I]; [congruence|]. rewrite Nat.add_0_l.
    rewrite <- (pow_mult (kron D z L y)), Nat.mul_comm, pow_mult, IH by assumption.
    rewrite <- !pow_mult. f_equal. lia.
Qed.

Lemma factors_kron D z L fs : NoDup L -> (forall f, In f fs -> In (fname f) L) ->
  rprod (map (fval (kron D z L)) fs) = (z ^ weight D (fun x => powsum x fs) L)%R.
Proof.
  intros ND. induction fs as [|f fs IH]; intros I.
  { change (fun x => powsum x []) with (fun _ : string => 0). rewrite weight_zero. reflexivity. }
  cbn [map]. rewrite rprod_cons.
  rewrite IH by auto with datatypes. unfold fval at 1.
  rewrite kron_single by auto with datatypes. rewrite <- pow_add, <- weight_add. f_equal.
  apply weight_ext. intros x _. rewrite powsum_cons. reflexivity.
Qed.

(** The weight of a term and the coefficient of a weight in a polynomial. *)
Definition tw D L t : nat := weight D (fun x => powsum x (tfactors t)) L.
Definition coef D L p (w : nat) : R :=
  rsum (map (fun t => val (tconst t)) (filter (fun t => Nat.eqb (tw D L t) w) p)).

Lemma rsum_zero_map {A} (f : A -> R) l : (forall x, In x l -> f x = 0%R) -> rsum (map f l) = 0%R.
Proof.
  induction l as [|x l IH]; intros H; [reflexivity|]. cbn [map]. rewrite rsum_cons, IH, (H x); auto with datatypes.
  lra.
Qed.
Lemma rsum_add_map {A} (f g : A -> R) l : rsum (map (fun x => f x + g x)%R l) = (rsum (map f l) + rsum (map g l))%R.
Proof. induction l as [|x l IH]; [unfold rsum; cbn; lra|]. cbn [map]. rewrite !rsum_cons, IH. lra. Qed.

(** One summand picked out of [seq]. *)
Lemma rsum_pick (c : R) z w : forall M, w < M ->
  rsum (map (fun j => (if Nat.eqb w j then c else 0) * z ^ j)%R (seq 0 M)) = (c * z ^ w)%R.
Proof.
  induction M as [|M IH]; intros H; [lia|]. rewrite seq_S, map_app, rsum_app. cbn [map].
  rewrite rsum_cons. change (rsum []) with 0%R. cbn [Nat.add].
  destruct (Nat.eqb_spec w M) as [E|E].
  - subst. rewrite rsum_zero_map; [lra|]. intros j Hj. apply in_seq in Hj.
    destruct (Nat.eqb_spec M j); [lia|]. lra.
  - rewrite IH by lia. lra.
Qed.

Lemma poly_as_univariate D L z M : NoDup L -> forall p,
  (forall t f, In t p -> In f (tfactors t) -> In (fname f) L) ->
  (forall t, In t p -> tw D L t < M) ->
  pval N (kron D z L) p = rsum (map (fun j => (coef D L p j * z ^ j)%R) (seq 0 M)).
Proof.
  intros ND. induction p as [|t p IH]; intros I W.
  { symmetry. apply rsum_zero_map. intros j _. unfold coef, rsum. cbn. lra. }
  unfold pval in *. cbn [map]. rewrite rsum_cons, IH.
  2:{ intros u f Hu. apply I. right. exact Hu. }
  2:{ intros u Hu. apply W. right. exact Hu. }
  unfold tval at 1. rewrite factors_kron; [|exact ND|intros f Hf; apply (I t); [left; reflexivity|exact Hf]].
  fold (tw D L t). rewrite <- (rsum_pick (val (tconst t)) z (tw D L t) M) by (apply W; left; reflexivity).
  rewrite <- rsum_add_map. f_equal. apply map_ext. intros j. unfold coef. cbn [filter].
  destruct (tw D L t =? j)%nat; cbn [map]; [rewrite rsum_cons|]; lra.
Qed.

Definition nonvanishing p : Prop := Forall (fun t => val (tconst t) <> 0%R) p.

(** In a well-formed polynomial without vanishing coefficients, terms with the same factors are
    the same. *)
Lemma same_factors_FOP p : wf_poly N p -> nonvanishing p ->
  ForallOrdPairs (fun s t => fset_eqb (tfactors s) (tfactors t) = false) p.
Proof.
  intros [_ C] NV. induction C as [|t p A C IH]; [constructor|]. inversion_clear NV as [|? ? N0 NV'].
  constructor; [|apply IH, NV'].
  rewrite Forall_forall in *. intros u Hu. destruct (fset_eqb (tfactors t) (tfactors u)) eqn:E; [|reflexivity].
  destruct (A u Hu E) as (_ & _ & [Z|Z]); apply isz_val in Z; [contradiction|].
  exfalso. apply (NV' u Hu). exact Z.
Qed.

Lemma fset_of_powsum t s : wf_term N t -> wf_term N s ->
  (forall x, powsum x (tfactors t) = powsum x (tfactors s)) -> fset_eqb (tfactors t) (tfactors s) = true.
Proof.
  intros Wt Ws E. apply fset_eqb_iff. intros [x k].
  assert (P : forall u, wf_term N u -> In (Factor x k) (tfactors u) -> 1 <= k).
  { intros u [[_ V] _] I. rewrite Forall_forall in V. exact (V _ I). }
  split; intros I.
  - assert (Hk := P t Wt I). apply (powsum_factor N t x k Wt Hk) in I. apply (powsum_factor N s x k Ws Hk).
    rewrite <- E. exact I.
  - assert (Hk := P s Ws I). apply (powsum_factor N s x k Ws Hk) in I. apply (powsum_factor N t x k Wt Hk).
    rewrite E. exact I.
Qed.

Lemma powsum_out t x : ~ In x (tnames N t) -> powsum x (tfactors t) = 0.
Proof.
  intros H. unfold powsum. rewrite filter_nil; [reflexivity|]. intros f Hf. apply String.eqb_neq. intros E.
  apply H. rewrite <- E. apply in_map. exact Hf.
Qed.

Lemma powsum_le t x : forall D, (forall f, In f (tfactors t) -> fpow f < D) -> 0 < D -> wf_term N t ->
  powsum x (tfactors t) < D.
Proof.
  intros D H HD W. destruct (in_dec string_dec x (tnames N t)) as [I|I]; [|rewrite powsum_out; auto].
  apply in_map_iff in I. destruct I as [f [<- Hf]]. rewrite (powsum_wf _ _ (proj1 W) Hf). auto.
Qed.

Lemma bound_exists {A} (f : A -> nat) l : exists D, 0 < D /\ forall x, In x l -> f x < D.
Proof.
  induction l as [|x l [D [P H]]]; [exists 1; split; [lia|intros ? []]|].
  exists (Nat.max D (S (f x))). split; [lia|]. intros y [<-|Hy]; [lia|]. specialize (H y Hy). lia.
Qed.

Lemma coef_single D L p t : In t p -> ForallOrdPairs (fun s u => tw D L s <> tw D L u) p ->
  coef D L p (tw D L t) = val (tconst t).
Proof.
  intros I F. unfold coef. induction F as [|u p A F IH]; [destruct I|]. cbn [filter].
  rewrite Forall_forall in A. destruct I as [->|I].
  - rewrite Nat.eqb_refl. cbn [map]. rewrite filter_nil, rsum_cons; [unfold rsum; cbn; lra|].
    intros s Hs. apply Nat.eqb_neq. intros E. apply (A s Hs). symmetry. exact E.
  - destruct (Nat.eqb_spec (tw D L u) (tw D L t)) as [E|E]; [exfalso; apply (A t I E)|apply IH, I].
Qed.

Lemma equal_functions_equal_terms p q :
  wf_poly N p -> wf_poly N q -> nonvanishing p -> nonvanishing q ->
  (forall env, pval N env p = pval N env q) ->
  forall t, In t p -> exists s, In s q /\ val (tconst t) = val (tconst s) /\ fset_eqb (tfactors t) (tfactors s) = true.
Proof.
  intros Wp Wq Np Nq E t It.
  set (L := nodup string_dec (pnames N p ++ pnames N q)).
  assert (NDL : NoDup L) by apply NoDup_nodup.
  assert (IL : forall u x, In u p \/ In u q -> In x (tnames N u) -> In x L).
  { intros u x Hu Hx. apply nodup_In. apply in_or_app. destruct Hu as [Hu|Hu]; [left|right];
      apply in_flat_map; exists u; auto. }
  destruct (bound_exists (fun f => fpow f) (flat_map (fun u => tfactors u) (p ++ q))) as [D [PD HD]].
  assert (HD' : forall u f, In u p \/ In u q -> In f (tfactors u) -> fpow f < D).
  { intros u f Hu Hf. apply HD. apply in_flat_map. exists u. split; [|exact Hf]. apply in_or_app. exact Hu. }
  destruct (bound_exists (tw D L) (p ++ q)) as [M [_ HM]].
  assert (Wt : forall u, In u p \/ In u q -> wf_term N u).
  { intros u [Hu|Hu]; [destruct Wp as [W _]|destruct Wq as [W _]]; rewrite Forall_forall in W; auto. }
  assert (Inj : forall u v, In u p \/ In u q -> In v p \/ In v q -> tw D L u = tw D L v ->
            fset_eqb (tfactors u) (tfactors v) = true).
  { intros u v Hu Hv T. apply fset_of_powsum; auto. intros x.
    destruct (in_dec string_dec x L) as [Ix|Ix].
    - refine (weight_inj D (fun x => powsum x (tfactors u)) (fun x => powsum x (tfactors v)) L _ _ T x Ix);
        intros y _; apply powsum_le; auto.
      + intros f Hf. apply (HD' u); auto.
      + intros f Hf. apply (HD' v); auto.
    - rewrite !powsum_out; auto.
      + intros H. apply Ix. apply (IL v); auto.
      + intros H. apply Ix. apply (IL u); auto. }
  assert (FOP : forall r, wf_poly N r -> nonvanishing r -> (forall u, In u r -> In u p \/ In u q) ->
            ForallOrdPairs (fun s u => tw D L s <> tw D L u) r).
  { intros r Wr Nr Hr. assert (F := same_factors_FOP r Wr Nr). clear Wr Nr.
    induction F as [|u r A F IH]; [constructor|]. constructor; [|apply IH; auto with datatypes].
    rewrite Forall_forall in *. intros v Hv T. specialize (A v Hv).
    rewrite (Inj u v) in A; [discriminate| | |exact T]; apply Hr; [left|right]; auto. }
  assert (C : forall j, j < M -> coef D L p j = coef D L q j).
  { intros j Hj. assert (Z : (coef D L p j - coef D L q j = 0)%R); [|lra].
    apply (poly_zero M (fun j => (coef D L p j - coef D L q j)%R)); [|exact Hj].
    intros z. specialize (E (kron D z L)).
    rewrite (poly_as_univariate D L z M NDL p), (poly_as_univariate D L z M NDL q) in E.
    - transitivity (rsum (map (fun j => (coef D L p j * z ^ j + - (coef D L q j * z ^ j))%R) (seq 0 M))).
      { f_equal. apply map_ext. intros i. ring. }
      rewrite rsum_add_map, E.
      assert (O : forall l (f : nat -> R), rsum (map (fun i => - f i)%R l) = (- rsum (map f l))%R).
      { clear. intros l f. induction l as [|x l IH]; [unfold rsum; cbn; lra|]. cbn [map]. rewrite !rsum_cons, IH. lra. }
      rewrite O. lra.
    - intros u f Hu Hf. apply (IL u); [right; exact Hu|]. apply in_map. exact Hf.
    - intros u Hu. apply HM, in_or_app. right. exact Hu.
    - intros u f Hu Hf. apply (IL u); [left; exact Hu|]. apply in_map. exact Hf.
    - intros u Hu. apply HM, in_or_app. left. exact Hu. }
  assert (Ct := coef_single D L p t It (FOP p Wp Np (fun u H => or_introl H))).
  assert (Hm : tw D L t < M) by (apply HM, in_or_app; left; exact It).
  rewrite (C _ Hm) in Ct.
  destruct (filter (fun s => Nat.eqb (tw D L s) (tw D L t)) q) as [|s l] eqn:Eq.
  { exfalso. unfold coef in Ct. rewrite Eq in Ct. unfold rsum in Ct. cbn in Ct. unfold nonvanishing in Np.
    rewrite Forall_forall in Np. apply (Np t It). symmetry. exact Ct. }
  assert (Is : In s (filter (fun s => Nat.eqb (tw D L s) (tw D L t)) q)) by (rewrite Eq; left; reflexivity).
  apply filter_In in Is. destruct Is as [Is Es]. apply Nat.eqb_eq in Es.
  exists s. split; [exact Is|]. split.
  - rewrite <- Ct, <- Es. apply coef_single; [exact Is|]. apply FOP; auto.
  - rewrite fset_eqb_sym. apply Inj; auto.
Qed.
End Canon.

(** C06: for exact numbers, two polynomials that exist at run time, that have no vanishing
    coefficient and that take the same value under every assignment compare equal. *)
Theorem C06_without_vanishing_coefficients_partial :
  forall (N : numdom) (p q : poly N),
    (forall a b : N, val a = val b -> ceqb a b = true) ->
    built N p -> built N q ->
    Forall (fun t => val (tconst t) <> 0%R) p -> Forall (fun t => val (tconst t) <> 0%R) q ->
    (forall env, evalp N env p = evalp N env q) ->
    poly_eqb N p q = true.
Proof.
  intros N p q He Bp Bq Np Nq E.
  assert (Wp := built_wf N p Bp). assert (Wq := built_wf N q Bq).
  assert (V : forall env, pval N env p = pval N env q).
  { intros env. specialize (E env). rewrite !evalp_eq in E. injection E as E. exact E. }
  unfold poly_eqb. apply andb_true_intro. split; apply forallb_forall.
  - intros t It. apply existsb_exists.
    destruct (equal_functions_equal_terms N p q Wp Wq Np Nq V t It) as (s & Is & Ev & Ef).
    exists s. split; [exact Is|]. unfold term_eqb. rewrite (He _ _ Ev), Ef. reflexivity.
  - intros t It. apply existsb_exists.
    destruct (equal_functions_equal_terms N q p Wq Wp Nq Np (fun env => eq_sym (V env)) t It) as (s & Is & Ev & Ef).
    exists s. split; [exact Is|]. unfold term_eqb. rewrite (He _ _ Ev), Ef. reflexivity.
Qed.
Print Assumptions C06_without_vanishing_coefficients_partial.

(** (x + y)^2 and x^2 + 2 x y + y^2 under different set orders. *)
Example C06_partial_witness :
  exists p q,
    run ZDom ord_id (EPow (EAdd (EVar "x" 1) (EVar "y" 1)) 2) = Ok (OPoly p) /\
    run ZDom ord_rev (EAdd (EAdd (EVar "y" 2) (EMul (ENum (2%Z : C ZDom)) (EMul (EVar "y" 1) (EVar "x" 1)))) (EVar "x" 2))
      = Ok (OPoly q) /\ p <> q /\
    Forall (fun t : term ZDom => tconst t <> (0%Z : C ZDom)) p /\ Forall (fun t : term ZDom => tconst t <> (0%Z : C ZDom)) q /\ poly_eqb ZDom p q = true.
Proof.
  do 2 eexists. split; [vm_compute; reflexivity|]. split; [vm_compute; reflexivity|].
  split; [discriminate|]. repeat split; repeat constructor; cbn; discriminate.
Qed.
