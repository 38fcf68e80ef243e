(** The properties C28-C38 and C72-C75 of rgpcm.py, and its part of C16, C17 and C19, stated on
    the model. *)
From Coq Require Import Reals ZArith List Bool Lia Lra Psatz Permutation Sorted.
From Coquelicot Require Import Coquelicot.
From Verif Require Import Py ListFacts ExpPolyModel ExpPolyIntModel ExpPolyIntProofs GpcmModel GpcmSpec GpcmProofs2 Gauss Gauss2 GpcmPsd GpcmInit GpcmProps.
From Verif Require Import Glue RgpcmModel RgpcmSpec RgpcmAbcd RgpcmUx RgpcmPerm RgpcmHz RgpcmUz RgpcmCov RgpcmInit.
Import ListNotations.
Local Open Scope R_scope.

(** * C28: the a-b-c-d integral *)

Theorem C28_integral_abcd :
  forall a b c d, c <> 0 -> c ^ 2 <> d ^ 2 ->
    exists v, integral_abcd a b c d = Ok v
      /\ is_rect_integral (fun x y => exp (c * (x + y) - d * Rabs (x - y))) 0 a 0 b v
      /\ integral_abcd b a c d = Ok v.
Proof.
  intros a b c d Nc H. destruct (nondeg c d H) as [Np Nm]. exists (abcd c d a b).
  split; [now apply abcd_total|]. split; [now apply abcd_spec|]. rewrite abcd_total by auto. f_equal. now apply abcd_sym.
Qed.

Print Assumptions C28_integral_abcd.

Theorem C28_integral_abcd_lu :
  forall a_lb a_ub b_lb b_ub c d, c <> 0 -> c ^ 2 <> d ^ 2 ->
    exists v, integral_abcd_lu a_lb a_ub b_lb b_ub c d = Ok v
      /\ is_rect_integral (fun x y => exp (c * (x + y) - d * Rabs (x - y))) a_lb a_ub b_lb b_ub v
      /\ integral_abcd_lu b_lb b_ub a_lb a_ub c d = Ok v.
Proof.
  intros a0 a1 b0 b1 c d Nc H. destruct (nondeg c d H) as [Np Nm]. eexists.
  split; [now apply abcd_lu_total|]. split; [now apply abcd_lu_spec|]. rewrite abcd_lu_total by auto. f_equal.
  rewrite (abcd_sym c d Nc Np Nm b1 a1), (abcd_sym c d Nc Np Nm b0 a0), (abcd_sym c d Nc Np Nm b1 a0), (abcd_sym c d Nc Np Nm b0 a1). ring.
Qed.

Print Assumptions C28_integral_abcd_lu.

(** Bounds of opposite signs. *)
Example C28_witness : exists v, integral_abcd (-1) 2 1 3 = Ok v
  /\ is_rect_integral (fun x y => exp (1 * (x + y) - 3 * Rabs (x - y))) 0 (-1) 0 2 v.
Proof. destruct (C28_integral_abcd (-1) 2 1 3) as [v [H [I _]]]; [lra|lra|]. eauto. Qed.

(** * C29: I_ux *)

Theorem C29_I_ux :
  forall (m : rgpcm) (t1 t2 : list R),
    r_gamma m <> r_alpha m -> (r_gamma m - r_alpha m) ^ 2 <> r_lam m ^ 2 ->
    exists T, rcompute_I_ux4 m (Some t1) (Some t2) = Ok T
      /\ shape4 T (List.length t1) (List.length t2) (List.length (r_t_u m)) (List.length (r_t_u m))
      /\ (forall p q i j x1 x2 ui uj,
            nth_error t1 p = Some x1 -> nth_error t2 q = Some x2 ->
            nth_error (r_t_u m) i = Some ui -> nth_error (r_t_u m) j = Some uj ->
            exists v, at4 T p q i j = Some v
              /\ is_rect_integral (fun x y =>
                   r_alpha_t m ^ 2 * r_gamma_t m ^ 2
                   * exp (- r_alpha m * (x + y) - r_gamma m * (uj - x) - r_gamma m * (ui - y))
                   * exp (- r_lam m * Rabs ((x1 - x) - (x2 - y)))) 0 uj 0 ui v)
      (* it depends on t1 - t2 only *)
      /\ (forall s1 s2 S p q p' q' i j x1 x2 y1 y2, rcompute_I_ux4 m (Some s1) (Some s2) = Ok S ->
            nth_error t1 p = Some x1 -> nth_error t2 q = Some x2 -> nth_error s1 p' = Some y1 -> nth_error s2 q' = Some y2 ->
            x1 - x2 = y1 - y2 -> at4 T p q i j = at4 S p' q' i j)
      (* swapping times and inducing points *)
      /\ (exists S, rcompute_I_ux4 m (Some t2) (Some t1) = Ok S /\ forall p q i j, at4 T p q i j = at4 S q p j i).
Proof.
  intros m t1 t2 Hg Hl.
  assert (V : forall t1 t2, rcompute_I_ux4 m (Some t1) (Some t2)
    = Ok (map (fun x1 => map (fun x2 => map (fun u1 => map (fun u2 => ux_value m x1 x2 u1 u2) (r_t_u m)) (r_t_u m)) t2) t1)).
  { intros s1 s2. unfold rcompute_I_ux4. repeat (apply mapM_ext_In; intros ? _). now apply ux_elem. }
  assert (A : forall t1 t2 p q i j,
    at4 (map (fun x1 => map (fun x2 => map (fun u1 => map (fun u2 => ux_value m x1 x2 u1 u2) (r_t_u m)) (r_t_u m)) t2) t1) p q i j
    = match nth_error t1 p, nth_error t2 q, nth_error (r_t_u m) i, nth_error (r_t_u m) j with
      | Some x1, Some x2, Some ui, Some uj => Some (ux_value m x1 x2 ui uj) | _, _, _, _ => None end).
  { intros s1 s2 p q i j. unfold at4, at3, at2. rewrite nth_error_map. destruct (nth_error s1 p); simpl; auto.
    rewrite nth_error_map. destruct (nth_error s2 q); simpl; auto. rewrite nth_error_map. destruct (nth_error (r_t_u m) i); simpl; auto.
    rewrite nth_error_map. destruct (nth_error (r_t_u m) j); simpl; auto. }
  eexists. split; [apply V|]. split; [|split; [|split]].
  - apply (mapM4_at (fun x1 x2 u1 u2 => I_ux_elem m x1 x2 u1 u2)). apply (V t1 t2).
  - intros p q i j x1 x2 ui uj E1 E2 Ei Ej. rewrite A, E1, E2, Ei, Ej. eexists. split; [reflexivity|]. now apply (ux_spec m Hg Hl).
  - intros s1 s2 S p q p' q' i j x1 x2 y1 y2 HS E1 E2 E1' E2' D. rewrite V in HS. injection HS as <-. rewrite !A, E1, E2, E1', E2'.
    destruct (nth_error (r_t_u m) i), (nth_error (r_t_u m) j); auto. f_equal. now apply ux_stationary.
  - eexists. split; [apply V|]. intros p q i j. rewrite !A.
    destruct (nth_error t1 p), (nth_error t2 q), (nth_error (r_t_u m) i), (nth_error (r_t_u m) j); auto. f_equal. now apply ux_swap.
Qed.

Print Assumptions C29_I_ux.

(** A model for the examples. *)
Definition toy : rgpcm := RGPCM 1 2 2 3 2 (-1) 4 2 [3; 0; 4; 1; 2]%Z 5 2 [0; 1] 1 1.

Example C29_witness : exists T, rcompute_I_ux4 toy (Some [0; 5]) (Some [1]) = Ok T /\ at4 T 1 0 0 1 <> None.
Proof.
  destruct (C29_I_ux toy [0; 5] [1]) as [T [H [_ [I _]]]]; simpl; try lra. exists T. split; auto.
  destruct (I 1%nat 0%nat 0%nat 1%nat 5 1 0 1) as [v [E _]]; auto. congruence.
Qed.

(** * C30: I_hz within the support of the basis *)

Theorem C30_I_hz :
  forall (argsort : list Z -> list nat) (m : rgpcm) (ts : list R),
    argsorts argsort ->
    0 < r_alpha m -> 0 < r_lam m -> r_a m < r_b m -> (0 <= r_m_max m)%Z -> List.Forall (fun k => (0 <= k)%Z) (r_ms m) ->
    exists T, rcompute_I_hz argsort m ts = Ok T
      /\ shape3 T (List.length ts) (List.length (r_ms m)) (List.length (r_ms m))
      /\ (forall n i j, at3 T n i j = at3 T n j i)
      /\ forall n i j t ki kj,
           nth_error ts n = Some t -> nth_error (r_ms m) i = Some ki -> nth_error (r_ms m) j = Some kj ->
           r_a m <= t <= r_b m ->
           exists v, at3 T n i j = Some v
             /\ is_integral (fun tau => r_alpha_t m ^ 2 * exp (-2 * r_alpha m * (t - tau)) * beta m ki tau * beta m kj tau)
                  m_infty t v.
Proof.
  intros argsort m ts Ha Hal Hl Hab HM Hp.
  assert (V : rcompute_I_hz argsort m ts = Ok (map (fun t => map (fun i => map (hz m t i) (r_ms m)) (r_ms m)) ts)).
  { unfold rcompute_I_hz. apply mapM_ext_In. intros t _. now apply hz_at_value. }
  eexists. split; [exact V|]. split; [|split].
  - split; [apply map_length|]. apply List.Forall_forall. intros x Hx. apply in_map_iff in Hx. destruct Hx as [t [<- _]].
    split; [apply map_length|]. apply List.Forall_forall. intros r Hr. apply in_map_iff in Hr. destruct Hr as [i [<- _]]. apply map_length.
  - intros n i j. unfold at3. rewrite nth_error_map. destruct (nth_error ts n) as [t|]; simpl; auto. rewrite !table_at2g.
    destruct (nth_error (r_ms m) i) as [ki|], (nth_error (r_ms m) j) as [kj|]; auto. f_equal.
    unfold hz, hz_cc, hz_ss. destruct (ki <=? r_m_max m)%Z, (kj <=? r_m_max m)%Z; auto.
    + rewrite (Z.add_comm kj ki). replace (cosv m t (- kj + ki)) with (cosv m t (- ki + kj)); auto.
      unfold cosv. replace (- kj + ki)%Z with (- (- ki + kj))%Z by lia. rewrite om_opp by auto. unfold Icos.
      replace (- om m (- ki + kj) * (t - r_a m)) with (- (om m (- ki + kj) * (t - r_a m))) by ring. rewrite cos_neg, sin_neg.
      replace ((- om m (- ki + kj)) ^ 2) with (om m (- ki + kj) ^ 2) by ring. f_equal. f_equal. f_equal. ring.
    + replace (kj - r_m_max m + (ki - r_m_max m))%Z with (ki - r_m_max m + (kj - r_m_max m))%Z by lia.
      set (p := (ki - r_m_max m)%Z). set (q := (kj - r_m_max m)%Z).
      replace (cosv m t (- q + p)) with (cosv m t (- p + q)); auto.
      unfold cosv. replace (- q + p)%Z with (- (- p + q))%Z by lia. rewrite om_opp by auto. unfold Icos.
      replace (- om m (- p + q) * (t - r_a m)) with (- (om m (- p + q) * (t - r_a m))) by ring. rewrite cos_neg, sin_neg.
      replace ((- om m (- p + q)) ^ 2) with (om m (- p + q) ^ 2) by ring. f_equal. f_equal. f_equal. ring.
  - intros n i j t ki kj Hn Hi Hj Ht. unfold at3. rewrite nth_error_map, Hn. simpl. rewrite table_at2g, Hi, Hj.
    eexists. split; [reflexivity|]. now apply (hz_integral m Hal Hl Hab).
Qed.

Print Assumptions C30_I_hz.

(** A sorting routine. *)
Fixpoint insert_ix (l : list Z) (i : nat) (is : list nat) : list nat :=
  match is with
  | [] => [i]
  | j :: is' => if (nth i l 0 <=? nth j l 0)%Z then i :: j :: is' else j :: insert_ix l i is'
  end.
Definition insertion_argsort (l : list Z) : list nat := fold_right (insert_ix l) [] (seq 0 (List.length l)).

Lemma insertion_argsort_ok : argsorts insertion_argsort.
Proof.
  intros l. unfold insertion_argsort. generalize (seq 0 (List.length l)) as s. intros s.
  assert (P : forall i is, Permutation (insert_ix l i is) (i :: is)).
  { intros i is. induction is as [|j is IH]; simpl; auto. destruct (_ <=? _)%Z; auto. rewrite perm_swap. now constructor. }
  split.
  - induction s as [|i s IH]; simpl; auto. rewrite P. now constructor.
  - induction s as [|i s IH]; simpl; [constructor|]. set (is := fold_right (insert_ix l) [] s) in *. clearbody is. clear s.
    induction is as [|j is IHi]; simpl; [repeat constructor|]. simpl in IH. apply StronglySorted_inv in IH. destruct IH as [S F].
    destruct (Z.leb_spec (nth i l 0%Z) (nth j l 0%Z)) as [L|L].
    + simpl. constructor; [constructor; auto|]. constructor; auto. rewrite List.Forall_forall in *. intros x Hx. specialize (F x Hx). lia.
    + simpl. constructor; auto. rewrite List.Forall_forall in *. intros x Hx. apply in_map_iff in Hx. destruct Hx as [k [<- Hk]].
      apply (Permutation_in _ (P i is)) in Hk. destruct Hk as [<-|Hk]; [lia|]. apply F. now apply (in_map (fun i => nth i l 0%Z)).
Qed.

Example C30_witness :
  exists T, rcompute_I_hz insertion_argsort toy [1; 4] = Ok T
    /\ exists v, at3 T 1 0 3 = Some v
       /\ is_integral (fun tau => r_alpha_t toy ^ 2 * exp (-2 * r_alpha toy * (4 - tau)) * beta toy 3 tau * beta toy 1 tau) m_infty 4 v.
Proof.
  destruct (C30_I_hz insertion_argsort toy [1; 4]) as [T [H [_ [_ I]]]]; simpl; try lra; try lia.
  - apply insertion_argsort_ok.
  - repeat constructor; lia.
  - exists T. split; auto. apply (I 1%nat 0%nat 3%nat 4 3%Z 1%Z); simpl; auto; lra.
Qed.

(** * C31: I_hz beyond the support of the basis *)

(** The stated property is violated: at every time after [b], for every model whose first
    feature is the constant, the computed (0, 0) entry is larger than the integral. *)
Theorem C31_beyond_support_refuted :
  forall (argsort : list Z -> list nat) (m : rgpcm) (t : R) (i : nat) T,
    argsorts argsort ->
    0 < r_alpha m -> r_alpha_t m <> 0 -> 0 < r_lam m -> r_a m < r_b m -> (0 <= r_m_max m)%Z ->
    List.Forall (fun k => (0 <= k)%Z) (r_ms m) -> nth_error (r_ms m) i = Some 0%Z ->
    r_b m < t -> rcompute_I_hz argsort m [t] = Ok T ->
    exists v w, at3 T 0 i i = Some v
      /\ is_integral (fun tau => r_alpha_t m ^ 2 * exp (-2 * r_alpha m * (t - tau)) * beta m 0 tau * beta m 0 tau) m_infty t w
      /\ w < v.
Proof.
  intros argsort m t i T Ha Hal Hat Hl Hab HM Hp Hi Ht HT.
  unfold rcompute_I_hz in HT. simpl in HT. rewrite hz_at_value in HT by auto. cbn [bind] in HT. injection HT as <-.
  destruct (hz_beyond m Hal Hl Hab HM t Ht Hat) as [w [I L]]. exists (hz m t 0 0), w. split; [|split; auto].
  unfold at3. simpl. now rewrite table_at2g, Hi.
Qed.

Print Assumptions C31_beyond_support_refuted.

Example C31_witness : exists T, rcompute_I_hz insertion_argsort toy [5] = Ok T /\ exists v w, at3 T 0 1 1 = Some v
      /\ is_integral (fun tau => r_alpha_t toy ^ 2 * exp (-2 * r_alpha toy * (5 - tau)) * beta toy 0 tau * beta toy 0 tau) m_infty 5 w
      /\ w < v.
Proof.
  destruct (C30_I_hz insertion_argsort toy [5]) as [T [H _]]; simpl; try lra; try lia; try apply insertion_argsort_ok; try (repeat constructor; lia).
  exists T. split; auto. apply (C31_beyond_support_refuted insertion_argsort toy 5 1%nat T); simpl; auto; try lra; try lia; try apply insertion_argsort_ok; try (repeat constructor; lia).
Qed.

(** * C32: I_uz *)

Theorem C32_I_uz :
  forall (argsort : list Z -> list nat) (m : rgpcm) (ts : list R),
    argsorts argsort ->
    r_gamma m <> r_alpha m -> r_a m < r_b m -> (0 <= r_m_max m)%Z -> List.Forall (fun k => (0 <= k)%Z) (r_ms m) ->
    exists T, rcompute_I_uz argsort m ts = Ok T
      /\ shape3 T (List.length ts) (List.length (r_t_u m)) (List.length (r_ms m))
      /\ forall n i j t u k,
           nth_error ts n = Some t -> nth_error (r_t_u m) i = Some u -> nth_error (r_ms m) j = Some k ->
           r_a m <= t <= r_b m -> r_a m <= t - u <= r_b m ->
           exists v, at3 T n i j = Some v
             /\ is_RInt (fun tau => r_alpha_t m * r_gamma_t m * exp (- r_alpha m * tau - r_gamma m * (u - tau)) * beta m k (t - tau))
                  0 u v.
Proof.
  intros argsort m ts Ha Hg Hab HM Hp.
  assert (V : rcompute_I_uz argsort m ts = Ok (map (fun t => map (fun u => map (uz m t u) (r_ms m)) (r_t_u m)) ts)).
  { unfold rcompute_I_uz. apply mapM_ext_In. intros t _. apply mapM_ext_In. intros u _. now apply uz_at_value. }
  eexists. split; [exact V|]. split.
  - split; [apply map_length|]. apply List.Forall_forall. intros x Hx. apply in_map_iff in Hx. destruct Hx as [t [<- _]].
    split; [apply map_length|]. apply List.Forall_forall. intros r Hr. apply in_map_iff in Hr. destruct Hr as [i [<- _]]. apply map_length.
  - intros n i j t u k Hn Hi Hj Ht Hu. unfold at3. rewrite nth_error_map, Hn. simpl.
    rewrite (table_at2g (uz m t) (r_t_u m) (r_ms m) i j), Hi, Hj. eexists. split; [reflexivity|]. now apply (uz_integral m Hg).
Qed.

Print Assumptions C32_I_uz.

Example C32_witness : exists T, rcompute_I_uz insertion_argsort toy [3] = Ok T /\ exists v, at3 T 0 1 2 = Some v
    /\ is_RInt (fun tau => r_alpha_t toy * r_gamma_t toy * exp (- r_alpha toy * tau - r_gamma toy * (1 - tau)) * beta toy 4 (3 - tau)) 0 1 v.
Proof.
  destruct (C32_I_uz insertion_argsort toy [3]) as [T [H [_ I]]]; simpl; try lra; try lia; try apply insertion_argsort_ok; try (repeat constructor; lia).
  exists T. split; auto. apply (I 0%nat 1%nat 2%nat 3 1 4%Z); simpl; auto; lra.
Qed.

(** * C33: the order of the frequencies *)

(** The same model with other frequencies. *)
Definition with_ms (m : rgpcm) (ms : list Z) : rgpcm :=
  RGPCM (r_noise m) (r_alpha m) (r_alpha_t m) (r_lam m) (r_extent m) (r_a m) (r_b m) (r_m_max m) ms (Z.of_nat (List.length ms))
    (r_n_u m) (r_t_u m) (r_gamma m) (r_gamma_t m).

Theorem C33_order :
  forall (argsort argsort' : list Z -> list nat) (m : rgpcm) (ms ms' : list Z) (ts : list R),
    argsorts argsort -> argsorts argsort' ->
    0 < r_alpha m -> 0 < r_lam m -> r_a m < r_b m -> (0 <= r_m_max m)%Z -> r_gamma m <> r_alpha m ->
    List.Forall (fun k => (0 <= k)%Z) ms -> List.Forall (fun k => (0 <= k)%Z) ms' ->
    exists T T' U U',
      rcompute_I_hz argsort (with_ms m ms) ts = Ok T /\ rcompute_I_hz argsort' (with_ms m ms') ts = Ok T'
      /\ rcompute_I_uz argsort (with_ms m ms) ts = Ok U /\ rcompute_I_uz argsort' (with_ms m ms') ts = Ok U'
      /\ (forall n i j i' j' k l, nth_error ms i = Some k -> nth_error ms' i' = Some k ->
            nth_error ms j = Some l -> nth_error ms' j' = Some l -> at3 T n i j = at3 T' n i' j')
      /\ (forall n p j j' l, nth_error ms j = Some l -> nth_error ms' j' = Some l -> at3 U n p j = at3 U' n p j').
Proof.
  intros argsort argsort' m ms ms' ts Ha Ha' Hal Hl Hab HM Hg Hp Hp'.
  assert (V : forall as_ l, argsorts as_ -> List.Forall (fun k => (0 <= k)%Z) l ->
    rcompute_I_hz as_ (with_ms m l) ts = Ok (map (fun t => map (fun i => map (hz (with_ms m l) t i) l) l) ts)).
  { intros as_ l A P. unfold rcompute_I_hz. apply mapM_ext_In. intros t _. now apply (hz_at_value (with_ms m l)). }
  assert (W : forall as_ l, argsorts as_ -> List.Forall (fun k => (0 <= k)%Z) l ->
    rcompute_I_uz as_ (with_ms m l) ts = Ok (map (fun t => map (fun u => map (uz (with_ms m l) t u) l) (r_t_u m)) ts)).
  { intros as_ l A P. unfold rcompute_I_uz. apply mapM_ext_In. intros t _. apply mapM_ext_In. intros u _. now apply (uz_at_value (with_ms m l)). }
  do 4 eexists. split; [now apply V|]. split; [now apply V|]. split; [now apply W|]. split; [now apply W|]. split.
  - intros n i j i' j' k l E1 E2 E3 E4. unfold at3. rewrite !nth_error_map. destruct (nth_error ts n) as [t|]; simpl; auto.
    rewrite !table_at2g, E1, E2, E3, E4. reflexivity.
  - intros n p j j' l E1 E2. unfold at3. rewrite !nth_error_map. destruct (nth_error ts n) as [t|]; simpl; auto.
    rewrite (table_at2g (uz (with_ms m ms) t)), (table_at2g (uz (with_ms m ms') t)), E1, E2. reflexivity.
Qed.

Print Assumptions C33_order.

Example C33_witness : exists T T', rcompute_I_hz insertion_argsort (with_ms toy [3; 0; 4; 1; 2]%Z) [1] = Ok T
  /\ rcompute_I_hz insertion_argsort (with_ms toy [0; 1; 2; 3; 4]%Z) [1] = Ok T' /\ at3 T 0 0 3 = at3 T' 0 3 1 /\ at3 T 0 0 3 <> None.
Proof.
  destruct (C33_order insertion_argsort insertion_argsort toy [3; 0; 4; 1; 2]%Z [0; 1; 2; 3; 4]%Z [1]) as [T [T' [_ [_ [H [H' [_ [_ [E _]]]]]]]]];
    simpl; try lra; try lia; try apply insertion_argsort_ok; try (repeat constructor; lia).
  exists T, T'. repeat split; auto. { apply (E 0 0 3 3 1 3%Z 1%Z)%nat; auto. }
  destruct (C30_I_hz insertion_argsort (with_ms toy [3; 0; 4; 1; 2]%Z) [1]) as [T2 [H2 [_ [_ I]]]]; simpl; try lra; try lia; try apply insertion_argsort_ok; try (repeat constructor; lia).
  rewrite H in H2. injection H2 as <-. destruct (I 0%nat 0%nat 3%nat 1 3%Z 1%Z) as [v [Ev _]]; simpl; auto; try lra. congruence.
Qed.

(** * C34: invert_perm *)

Theorem C34_invert_perm :
  forall perm, Permutation perm (seq 0 (List.length perm)) ->
    exists inv, invert_perm perm = Ok inv /\ List.length inv = List.length perm
      /\ (forall i p, nth_error perm i = Some p -> nth_error inv p = Some (Z.of_nat i))
      /\ (forall p z, nth_error inv p = Some z -> (0 <= z)%Z /\ nth_error perm (Z.to_nat z) = Some p).
Proof.
  intros perm P. destruct (invert_perm_spec perm P) as [inv [E [L S]]]. exists inv. split; auto. split; auto.
  split; [intros i p; apply S|]. intros p z Hz.
  assert (Lp : (p < List.length perm)%nat) by (rewrite <- L; apply nth_error_Some; congruence).
  assert (In p perm) by (eapply Permutation_in; [apply Permutation_sym; exact P|]; apply in_seq; lia).
  apply In_nth_error in H. destruct H as [i Hi]. pose proof (proj1 (S i p) Hi) as Hz'. rewrite Hz in Hz'. injection Hz' as ->.
  split; [lia|]. now rewrite Nat2Z.id.
Qed.

Print Assumptions C34_invert_perm.



Example C34_witness : Permutation [2; 0; 1]%nat (seq 0 (List.length [2; 0; 1]%nat)) /\ invert_perm [2; 0; 1]%nat = Ok [1; 2; 0]%Z.
Proof. split; [|reflexivity]. simpl. apply Permutation_sym. apply (Permutation_trans (l' := [0; 2; 1]%nat)); [do 1 constructor; constructor|constructor]. Qed.
