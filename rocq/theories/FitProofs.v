(** Lemmas about the orchestration model. *)
From Coq Require Import ZArith List Bool String Lia Arith.
From Verif Require Import Py FitModel FitSpec.
Import ListNotations.
Local Open Scope list_scope.

Section Gibbs.
Variables H U Z_ S Data : Type.
Variable sample_u : H -> Data -> S -> Z_ -> S * U.
Variable sample_z : H -> Data -> S -> U -> S * Z_.
Variable h : H.
Variable d : Data.
Local Notation loop := (gibbs_loop H U Z_ S Data sample_u sample_z h d).
Local Notation step := (gibbs_step S U Z_ (sample_u h d) (sample_z h d)).
Local Notation chain := (gibbs_chain S U Z_ (sample_u h d) (sample_z h d)).

Lemma chain_step k x : chain k (step x) = step (chain k x).
Proof. induction k; cbn [gibbs_chain]; [reflexivity|]. rewrite IHk. reflexivity. Qed.

Definition kept (sub : option Z) (i : Z) : bool :=
  match sub with None => true | Some s => (i mod s =? 0)%Z end.

(** The indices, among [iters] from [i] on, that the loop keeps. *)
Fixpoint indices (sub : option Z) (i : Z) (k iters : nat) : list nat :=
  match iters with
  | O => []
  | Datatypes.S iters => (if kept sub i then [k] else []) ++ indices sub (i + 1) (Datatypes.S k) iters
  end.

Definition st (x : S * U * Z_) : S := fst (fst x).
Definition uu (x : S * U * Z_) : U := snd (fst x).
Definition zz (x : S * U * Z_) : Z_ := snd x.

Lemma indices_shift sub : forall iters i k,
  indices sub i (Datatypes.S k) iters = map Datatypes.S (indices sub i k iters).
Proof.
  induction iters; intros i k; [reflexivity|]. cbn [indices]. rewrite map_app, (IHiters _ (Datatypes.S k)).
  destruct (kept sub i); reflexivity.
Qed.

Lemma loop_chain sub : forall iters i x,
  loop sub i iters (st x) (uu x) (zz x)
  = (st (chain iters x),
     map (fun k => uu (chain (Datatypes.S k) x)) (indices sub i 0 iters),
     map (fun k => zz (chain (Datatypes.S k) x)) (indices sub i 0 iters)).
Proof.
  induction iters as [|n IH]; intros i x; [reflexivity|].
  cbn [gibbs_loop].
  assert (St : step x = (let (s1, u1) := sample_u h d (st x) (zz x) in
                         let (s2, z2) := sample_z h d s1 u1 in (s2, u1, z2))).
  { destruct x as [[s u] z]. reflexivity. }
  destruct (sample_u h d (st x) (zz x)) as [s1 u1].
  destruct (sample_z h d s1 u1) as [s2 z2].
  specialize (IH (i + 1)%Z (step x)). rewrite St in IH at 1 2 3.
  change (st (s2, u1, z2)) with s2 in IH. change (uu (s2, u1, z2)) with u1 in IH.
  change (zz (s2, u1, z2)) with z2 in IH. rewrite IH. fold (kept sub i).
  rewrite chain_step. cbn [indices]. rewrite indices_shift.
  assert (E1 : map (fun k => uu (chain (Datatypes.S k) (step x))) (indices sub (i + 1) 0 n)
             = map (fun k => uu (chain (Datatypes.S k) x)) (map Datatypes.S (indices sub (i + 1) 0 n))).
  { rewrite map_map. apply map_ext. intros k. rewrite chain_step. reflexivity. }
  assert (E2 : map (fun k => zz (chain (Datatypes.S k) (step x))) (indices sub (i + 1) 0 n)
             = map (fun k => zz (chain (Datatypes.S k) x)) (map Datatypes.S (indices sub (i + 1) 0 n))).
  { rewrite map_map. apply map_ext. intros k. rewrite chain_step. reflexivity. }
  rewrite E1, E2. cbn [gibbs_chain].
  assert (Su : uu (step x) = u1) by (rewrite St; reflexivity).
  assert (Sz : zz (step x) = z2) by (rewrite St; reflexivity).
  destruct (kept sub i); cbn [app map]; [|reflexivity].
  cbn [gibbs_chain]. rewrite Su, Sz. reflexivity.
Qed.

Lemma indices_all : forall iters i k, indices None i k iters = seq k iters.
Proof. induction iters; intros; [reflexivity|]. cbn [indices kept app seq]. rewrite IHiters. reflexivity. Qed.

(** Without kept indices. *)
Lemma indices_none s : forall r i k,
  (forall j, (0 <= j < Z.of_nat r)%Z -> ((i + j) mod s)%Z <> 0%Z) -> indices (Some s) i k r = [].
Proof.
  induction r as [|r IH]; intros i k N; [reflexivity|]. cbn [indices kept].
  destruct (Z.eqb_spec (i mod s) 0) as [E|E].
  { exfalso. apply (N 0%Z); [lia|]. rewrite Z.add_0_r. exact E. }
  cbn [app]. apply IH. intros j Hj. replace (i + 1 + j)%Z with (i + (1 + j))%Z by lia. apply N. lia.
Qed.

Lemma indices_app sub : forall a b i k,
  indices sub i k (a + b) = indices sub i k a ++ indices sub (i + Z.of_nat a) (k + a) b.
Proof.
  induction a as [|a IH]; intros b i k.
  { cbn [indices app Nat.add]. rewrite Z.add_0_r, Nat.add_0_r. reflexivity. }
  cbn [indices Nat.add]. rewrite IH, app_assoc. do 2 f_equal; lia.
Qed.

Lemma indices_block s j k : (0 < s)%nat ->
  indices (Some (Z.of_nat s)) (Z.of_nat (j * s)) k s = [k].
Proof.
  intros Hs. destruct s as [|r]; [lia|]. cbn [indices kept].
  replace (Z.of_nat (j * Datatypes.S r) mod Z.of_nat (Datatypes.S r))%Z with 0%Z.
  2:{ rewrite Nat2Z.inj_mul, Z.mod_mul; lia. }
  cbn [Z.eqb app]. f_equal. apply indices_none. intros i Hi.
  replace (Z.of_nat (j * Datatypes.S r) + 1 + i)%Z with (1 + i + Z.of_nat j * Z.of_nat (Datatypes.S r))%Z by lia.
  rewrite Z.mod_add by lia. rewrite Z.mod_small by lia. lia.
Qed.

Lemma indices_blocks s : (0 < s)%nat -> forall n j k,
  indices (Some (Z.of_nat s)) (Z.of_nat (j * s)) k (n * s) = map (fun i => (k + i * s)%nat) (seq 0 n).
Proof.
  intros Hs. induction n as [|n IH]; intros j k; [reflexivity|].
  change (Datatypes.S n * s)%nat with (s + n * s)%nat. rewrite indices_app, indices_block by exact Hs.
  replace (Z.of_nat (j * s) + Z.of_nat s)%Z with (Z.of_nat (Datatypes.S j * s)) by lia.
  rewrite IH. cbn [seq map app]. f_equal; [lia|]. rewrite <- seq_shift, map_map. apply map_ext. intros i. lia.
Qed.
End Gibbs.

(** Exclusions. *)
Lemma previous_names q_i e :
  In e (flat_map (fun i => [ExU i; ExZ i]) (seq 0 q_i)) <-> (index_of e < q_i)%nat.
Proof.
  rewrite in_flat_map. split.
  - intros (i & Hi & He). apply in_seq in Hi. destruct He as [<-|[<-|[]]]; cbn; lia.
  - intros L. exists (index_of e). split; [apply in_seq; lia|]. destruct e; cbn; auto.
Qed.

Lemma previous_nodup : forall q k, NoDup (flat_map (fun i => [ExU i; ExZ i]) (seq k q)).
Proof.
  induction q as [|q IH]; intros k; [constructor|]. cbn [seq flat_map app].
  assert (N : forall e, In e (flat_map (fun i => [ExU i; ExZ i]) (seq (Datatypes.S k) q)) -> (k < index_of e)%nat).
  { intros e He. apply in_flat_map in He. destruct He as (i & Hi & He). apply in_seq in Hi.
    destruct He as [<-|[<-|[]]]; cbn; lia. }
  constructor; [|constructor; [|apply IH]].
  - intros [E|I]; [discriminate|]. specialize (N _ I). cbn in N. lia.
  - intros I. specialize (N _ I). cbn in N. lia.
Qed.

(** Names of models. *)
Lemma elem_In s l : elem s l = true <-> In s l.
Proof.
  unfold elem. rewrite existsb_exists. split.
  - intros (x & Hx & E). apply String.eqb_eq in E. subst. exact Hx.
  - intros I. exists s. split; [exact I|apply String.eqb_refl].
Qed.
Lemma remove_In s t l : In t (remove_name s l) <-> In t l /\ t <> s.
Proof.
  unfold remove_name. rewrite filter_In, negb_true_iff, String.eqb_neq. intuition congruence.
Qed.

(** The variable container. *)
Section Store.
Variable V : Type.
Local Notation store := (store V).
Implicit Types (s : store).
Lemma lookup_In s n : lookup V s n <> None <-> In n (names V s).
Proof.
  induction s as [|[m v] s IH]; cbn [lookup names map fst In]; [intuition|].
  destruct (String.eqb_spec n m) as [E|E].
  - subst. split; [auto|discriminate].
  - rewrite IH. unfold names. intuition congruence.
Qed.
Lemma lookup_assign s n x m :
  lookup V (assign V s n x) m
  = if String.eqb m n then option_map (fun v => Variable_ V x (visible V v)) (lookup V s n) else lookup V s m.
Proof.
  induction s as [|[k v] s IH].
  { cbn. destruct (m =? n)%string; reflexivity. }
  cbn [assign]. destruct (String.eqb_spec n k) as [E|E]; cbn [lookup].
  - subst k. destruct (String.eqb_spec m n) as [E2|E2].
    + subst. rewrite String.eqb_refl. reflexivity.
    + reflexivity.
  - rewrite IH. destruct (String.eqb_spec m n) as [E2|E2].
    + subst m. destruct (String.eqb_spec n k); [contradiction|]. reflexivity.
    + reflexivity.
Qed.
Lemma lookup_app s t n : lookup V (s ++ t) n = match lookup V s n with Some v => Some v | None => lookup V t n end.
Proof. induction s as [|[m v] s IH]; cbn [app lookup]; [reflexivity|]. destruct (n =? m)%string; auto. Qed.

Lemma lookup_load1 s n x m :
  lookup V (load1 V s (n, x)) m
  = if String.eqb m n then Some (Variable_ V x (match lookup V s n with Some v => visible V v | None => false end))
    else lookup V s m.
Proof.
  unfold load1. cbn [fst snd]. destruct (lookup V s n) as [v|] eqn:E.
  - rewrite lookup_assign, E. reflexivity.
  - rewrite lookup_app. cbn [lookup]. destruct (String.eqb_spec m n) as [E2|E2].
    + subst. rewrite E. reflexivity.
    + destruct (lookup V s m); reflexivity.
Qed.

(** Values in a saved dictionary; a later entry would win. *)
Fixpoint last_value (data : list (string * V)) (n : string) : option V :=
  match data with
  | [] => None
  | (m, x) :: data => match last_value data n with Some y => Some y | None => if String.eqb n m then Some x else None end
  end.

Lemma lookup_load : forall data s n,
  lookup V (load V s data) n
  = match last_value data n with
    | Some x => Some (Variable_ V x (match lookup V s n with Some v => visible V v | None => false end))
    | None => lookup V s n
    end.
Proof.
  induction data as [|[m x] data IH]; intros s n; [reflexivity|].
  unfold load in *. cbn [fold_left last_value]. rewrite IH, lookup_load1.
  destruct (last_value data n) as [y|].
  - destruct (String.eqb_spec n m) as [E|E]; [subst|]; reflexivity.
  - destruct (String.eqb_spec n m) as [E|E]; [subst|]; reflexivity.
Qed.

Lemma last_value_save_aux s : forall l n, NoDup l -> (forall k, In k l -> lookup V s k <> None) ->
  last_value (flat_map (fun n => match lookup V s n with Some v => [(n, value V v)] | None => [] end) l) n
  = if in_dec string_dec n l then option_map (value V) (lookup V s n) else None.
Proof.
  induction l as [|k l IH]; intros n N A; [reflexivity|].
  inversion_clear N. cbn [flat_map].
  destruct (lookup V s k) as [v|] eqn:E; [|exfalso; apply (A k); [left; reflexivity|exact E]].
  cbn [app last_value]. rewrite IH; auto; [|intros; apply A; right; assumption].
  destruct (in_dec string_dec n l) as [I|I].
  - destruct (in_dec string_dec n (k :: l)) as [I2|I2]; [|exfalso; apply I2; right; exact I].
    destruct (lookup V s n) eqn:E3; [reflexivity|]. exfalso. apply (A n); [right; exact I|exact E3].
  - destruct (String.eqb_spec n k) as [E2|E2].
    + subst. destruct (in_dec string_dec k (k :: l)) as [I2|I2]; [|exfalso; apply I2; left; reflexivity].
      rewrite E. reflexivity.
    + destruct (in_dec string_dec n (k :: l)) as [[I2|I2]|I2]; congruence.
Qed.

Lemma last_value_save s n : NoDup (names V s) -> last_value (save V s) n = option_map (value V) (lookup V s n).
Proof.
  intros N. unfold save. rewrite last_value_save_aux; auto.
  - destruct (in_dec string_dec n (names V s)) as [I|I]; [reflexivity|].
    destruct (lookup V s n) eqn:E; [|reflexivity]. exfalso. apply I, lookup_In. congruence.
  - intros k I. apply lookup_In, I.
Qed.

Lemma assign_names s n x : names V (assign V s n x) = names V s.
Proof.
  induction s as [|[m v] s IH]; [reflexivity|]. cbn [assign]. destruct (n =? m)%string; [reflexivity|].
  cbn [names map fst] in *. f_equal. exact IH.
Qed.
End Store.
