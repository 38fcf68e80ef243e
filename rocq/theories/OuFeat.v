(** Finite features of the exponential kernel together with functions of its reproducing kernel
    Hilbert space, on an interval. *)
From Coq Require Import Reals ZArith Lra Lia Psatz.
From Coquelicot Require Import Coquelicot.
From Verif Require Import GaussFeat GpcmEntries RgpcmSpec KernelForm RgpcmKernel.
Local Open Scope R_scope.

(** ** Sums over grids *)
Section Riemann.
Context (F : R -> R) (a D L M B : R).
Hypothesis HD : 0 < D.
Hypothesis HL : forall x y, a <= x <= B -> a <= y <= B -> Rabs (F x - F y) <= L * Rabs (x - y).
Hypothesis HM : forall x, a <= x <= B -> Rabs (F x) <= M.
Hypothesis HF : forall x, continuous F x.
Let r (k : nat) : R := a + INR k * D.

Lemma r_S k : r (S k) = r k + D.
Proof. unfold r. rewrite S_INR. ring. Qed.
Lemma r_ge k : a <= r k.
Proof. unfold r. pose proof (pos_INR k). assert (0 <= INR k * D) by (apply Rmult_le_pos; lra). lra. Qed.

Lemma ex_F x y : ex_RInt F x y.
Proof. apply (@ex_RInt_continuous R_CompleteNormedModule). intros; apply HF. Qed.
Lemma L_pos : a < B -> 0 <= L.
Proof.
  intros H. assert (X := HL a B ltac:(lra) ltac:(lra)). pose proof (Rabs_pos (F a - F B)).
  assert (0 < Rabs (a - B)) by (apply Rabs_pos_lt; lra). nra.
Qed.

Lemma cell k y : r k <= y <= r k + D -> y <= B -> Rabs (RInt F (r k) y) <= M * D.
Proof.
  intros Hy HB. pose proof (r_ge k). assert (M0 : 0 <= M) by (eapply Rle_trans; [apply Rabs_pos|apply (HM a); lra]).
  apply Rle_trans with ((y - r k) * M).
  - apply (abs_RInt_le_const F); [lra|apply ex_F|]. intros x Hx. apply HM. lra.
  - rewrite Rmult_comm. apply Rmult_le_compat_l; lra.
Qed.

Lemma full k : r k <= B -> Rabs (Sum k (fun i => D * F (r i)) - RInt F a (r k)) <= INR k * (L * D * D).
Proof.
  induction k as [|k IH]; intros HB.
  - cbn [Sum]. replace (r 0) with a by (unfold r; cbn; ring). rewrite RInt_point. unfold zero; cbn. rewrite Rminus_0_r, Rabs_R0. lra.
  - rewrite r_S in *. cbn [Sum]. pose proof (r_ge k).
    rewrite <- (RInt_Chasles F a (r k) (r k + D)) by apply ex_F.
    assert (X : Rabs (D * F (r k) - RInt F (r k) (r k + D)) <= L * D * D).
    { apply Rle_trans with ((r k + D - r k) * (L * D)); [|lra].
      apply (is_RInt_close (fun _ => F (r k)) F); [lra| |apply (@RInt_correct R_CompleteNormedModule), ex_F|].
      - pose proof (@is_RInt_const R_NormedModule (r k) (r k + D) (F (r k))) as P.
        replace (D * F (r k)) with (scal (r k + D - r k) (F (r k))) by (unfold scal; cbn; unfold mult; cbn; ring). exact P.
      - intros x Hx. eapply Rle_trans; [apply HL; lra|]. apply Rmult_le_compat_l; [apply L_pos; lra|]. rewrite Rabs_minus_sym, Rabs_pos_eq; lra. }
    assert (HB' : r k <= B) by lra. specialize (IH HB'). rewrite S_INR.
    match goal with |- Rabs ?e <= _ => replace e with ((Sum k (fun i => D * F (r i)) - RInt F a (r k)) + (D * F (r k) - RInt F (r k) (r k + D))) end.
    + eapply Rle_trans; [apply Rabs_triang|]. lra.
    + unfold plus; cbn. ring.
Qed.

Lemma cut_sum N t : a <= t ->
  (r N <= t /\ Sum N (fun k => D * F (r k) * ind (r k) t) = Sum N (fun k => D * F (r k)))
  \/ exists j, (j < N)%nat /\ r j <= t <= r j + D /\ Sum N (fun k => D * F (r k) * ind (r k) t) = Sum (S j) (fun k => D * F (r k)).
Proof.
  intros Ht. induction N as [|N IH].
  - left. split; [unfold r; cbn; lra|reflexivity].
  - cbn [Sum]. destruct IH as [[H1 H2]|[j [H0 [H1 H2]]]].
    + assert (I1 : ind (r N) t = 1) by (unfold ind; destruct (Rle_dec (r N) t); lra). rewrite H2, I1.
      destruct (Rle_dec (r (S N)) t) as [L1|L1].
      * left. split; [exact L1|ring].
      * right. exists N. split; [lia|]. rewrite r_S in L1. split; [lra|]. cbn [Sum]. ring.
    + destruct (Rle_dec (r N) t) as [L1|L1].
      * (* the time is the next grid point *)
        assert (E : r N <= r j + D) by lra. assert (Ej : r (S j) <= r N).
        { unfold r. apply Rplus_le_compat_l, Rmult_le_compat_r; [lra|]. apply le_INR. lia. }
        rewrite r_S in Ej. assert (N = S j).
        { assert (INR N * D = INR (S j) * D) by (unfold r in *; rewrite S_INR in *; lra).
          apply INR_eq. apply Rmult_eq_reg_r with D; lra. }
        subst N. right. exists (S j). split; [lia|]. split; [rewrite r_S; lra|]. rewrite H2.
        assert (I1 : ind (r (S j)) t = 1) by (unfold ind; destruct (Rle_dec (r (S j)) t); lra). rewrite I1. cbn [Sum]. ring.
      * right. exists j. split; [lia|]. split; [auto|]. rewrite H2.
        assert (I0 : ind (r N) t = 0) by (unfold ind; destruct (Rle_dec (r N) t); lra). rewrite I0, Rmult_0_r, Rplus_0_r. reflexivity.
Qed.

Lemma riemann N t : a < B -> B = r N -> a <= t <= B ->
  Rabs (Sum N (fun k => D * F (r k) * ind (r k) t) - RInt F a t) <= (L * (B - a) + 2 * M) * D.
Proof.
  intros HB EB Ht.
  assert (L0 := L_pos HB). assert (M0 : 0 <= M) by (eapply Rle_trans; [apply Rabs_pos|apply (HM a); lra]).
  assert (EN : INR N * D = B - a) by (rewrite EB; unfold r; ring).
  assert (LD : forall k, (k <= N)%nat -> INR k * (L * D * D) <= L * (B - a) * D).
  { intros k Hk. replace (L * (B - a) * D) with (INR N * (L * D * D)) by (rewrite <- EN; ring).
    apply Rmult_le_compat_r; [apply Rmult_le_pos; [apply Rmult_le_pos|]; lra|]. now apply le_INR. }
  assert (MD : 0 <= M * D) by (apply Rmult_le_pos; lra).
  destruct (cut_sum N t ltac:(lra)) as [[H1 H2]|[j [H0 [H1 H2]]]]; rewrite H2.
  - assert (t = r N) by lra. subst t. eapply Rle_trans; [apply full; lra|]. specialize (LD N (le_n N)). lra.
  - cbn [Sum]. pose proof (r_ge j).
    rewrite <- (RInt_Chasles F a (r j) t) by apply ex_F.
    pose proof (full j ltac:(lra)) as X. pose proof (cell j t ltac:(lra) ltac:(lra)) as Y. specialize (LD j ltac:(lia)).
    assert (Z : Rabs (D * F (r j)) <= M * D).
    { rewrite Rabs_mult, (Rabs_pos_eq D) by lra. rewrite Rmult_comm. apply Rmult_le_compat_r; [lra|]. apply HM. lra. }
    match goal with |- Rabs ?e <= _ => replace e with ((Sum j (fun i => D * F (r i)) - RInt F a (r j)) + (D * F (r j) - RInt F (r j) t)) end.
    + eapply Rle_trans; [apply Rabs_triang|]. eapply Rle_trans; [apply Rplus_le_compat; [exact X|]|].
      * eapply Rle_trans; [apply Rabs_triang|]. rewrite Rabs_Ropp. apply Rplus_le_compat; [exact Z|exact Y].
      * lra.
    + unfold plus; cbn. ring.
Qed.
End Riemann.

Lemma Sum_const n v : Sum n (fun _ => v) = INR n * v.
Proof. induction n as [|n IH]; cbn [Sum]; [cbn; ring|]. rewrite IH, S_INR. ring. Qed.

(** ** Limits *)
Lemma ev_all n (P : nat -> nat -> Prop) : (forall i, (i < n)%nat -> eventually (P i)) -> eventually (fun N => forall i, (i < n)%nat -> P i N).
Proof.
  induction n as [|n IH]; intros H.
  - exists O. intros; lia.
  - destruct (IH ltac:(intros; apply H; lia)) as [A HA]. destruct (H n ltac:(lia)) as [B HB]. exists (A + B)%nat. intros N HN i Hi.
    assert (i = n \/ (i < n)%nat) as [->|Hi'] by lia; [apply HB; lia|apply HA; auto; lia].
Qed.

Lemma C1_bounds (F G : R -> R) a b : a < b -> (forall x, is_derive F x (G x)) -> (forall x, continuous G x) ->
  exists L M, (forall x y, a <= x <= b -> a <= y <= b -> Rabs (F x - F y) <= L * Rabs (x - y)) /\ forall x, a <= x <= b -> Rabs (F x) <= M.
Proof.
  intros Hab HF HG.
  destruct (bounded_continuity G a b) as [L HL]; [intros; apply HG|].
  destruct (bounded_continuity F a b) as [M HM].
  { intros x _. apply (@ex_derive_continuous R_AbsRing R_NormedModule). eexists. apply HF. }
  exists L, M. split.
  - intros x y Hx Hy. destruct (MVT_gen F y x G) as [z [Hz E]].
    + intros; apply HF.
    + intros z _. apply continuity_pt_filterlim. apply (@ex_derive_continuous R_AbsRing R_NormedModule). eexists. apply HF.
    + rewrite E, Rabs_mult. apply Rmult_le_compat_r; [apply Rabs_pos|]. left. apply HL.
      revert Hz. unfold Rmin, Rmax. destruct (Rle_dec y x); lra.
  - intros x Hx. left. now apply HM.
Qed.

Lemma INR_big x : exists n, x < INR n.
Proof.
  destruct (archimed x) as [H _]. exists (Z.to_nat (up x)). rewrite INR_IZR_INZ.
  destruct (Z_lt_le_dec (up x) 0) as [L|L].
  - apply IZR_lt in L. assert (0 <= IZR (Z.of_nat (Z.to_nat (up x)))) by (apply IZR_le; lia). lra.
  - rewrite Z2Nat.id by auto. lra.
Qed.

Definition step (a b : R) (N : nat) : R := (b - a) / INR N.
Definition grid (a b : R) (N k : nat) : R := a + INR k * step a b N.

Lemma riemann_limit (F G : R -> R) a b eps : a < b -> (forall x, is_derive F x (G x)) -> (forall x, continuous G x) -> 0 < eps ->
  eventually (fun N => forall t, a <= t <= b ->
    Rabs (Sum N (fun k => step a b N * F (grid a b N k) * ind (grid a b N k) t) - RInt F a t) <= eps).
Proof.
  intros Hab HF HG He. destruct (C1_bounds F G a b Hab HF HG) as [L [M [HL HM]]].
  set (C := L * (b - a) + 2 * M).
  destruct (INR_big ((b - a) * (Rabs C + 1) / eps)) as [N0 HN].
  assert (P0 : 0 < (b - a) * (Rabs C + 1)) by (apply Rmult_lt_0_compat; [lra|pose proof (Rabs_pos C); lra]).
  assert (P1 : 0 < (b - a) * (Rabs C + 1) / eps) by (apply Rdiv_lt_0_compat; lra).
  exists N0. intros N HN' t Ht. assert (HNN : INR N0 <= INR N) by (now apply le_INR). assert (PN : 0 < INR N) by lra.
  assert (PD : 0 < step a b N) by (apply Rdiv_lt_0_compat; lra).
  assert (EB : b = a + INR N * step a b N) by (unfold step; field; lra).
  eapply Rle_trans; [apply (riemann F a (step a b N) L M b PD HL HM); auto|].
  - intros x. apply (@ex_derive_continuous R_AbsRing R_NormedModule). eexists. apply HF.
  - fold C. apply Rle_trans with ((Rabs C + 1) * step a b N).
    + apply Rmult_le_compat_r; [lra|]. pose proof (Rle_abs C). lra.
    + unfold step. apply Rmult_le_reg_r with (INR N / eps); [apply Rdiv_lt_0_compat; lra|].
      replace ((Rabs C + 1) * ((b - a) / INR N) * (INR N / eps)) with ((b - a) * (Rabs C + 1) / eps) by (field; lra).
      replace (eps * (INR N / eps)) with (INR N) by (field; lra). lra.
Qed.

Ltac der := auto_derive; [auto|]; unfold Rminus; ring.

(** ** Features *)
Section Features.
Context (lam a b : R) (Hl : 0 < lam) (Hab : a < b).
Context (nz : nat) (c c1 c2 : nat -> R -> R).
Hypothesis Hc : forall m x, is_derive (c m) x (c1 m x).
Hypothesis Hc1 : forall m x, is_derive (c1 m) x (c2 m x).
Hypothesis Hc2 : forall m x, continuous (c2 m) x.

Let d (m : nat) (x : R) : R := c1 m x + lam * c m x.
Let d1 (m : nat) (x : R) : R := c2 m x + lam * c1 m x.
Lemma c_cont m x : continuous (c m) x.
Proof. apply (@ex_derive_continuous R_AbsRing R_NormedModule). eexists. apply Hc. Qed.
Lemma c1_cont m x : continuous (c1 m) x.
Proof. apply (@ex_derive_continuous R_AbsRing R_NormedModule). eexists. apply Hc1. Qed.
Lemma d_derive m x : is_derive (d m) x (d1 m x).
Proof. unfold d, d1. apply (@is_derive_plus R_AbsRing R_NormedModule); [apply Hc1|]. apply is_derive_scal. apply Hc. Qed.
Lemma d_cont m x : continuous (d m) x.
Proof. apply (@ex_derive_continuous R_AbsRing R_NormedModule). eexists. apply d_derive. Qed.
Lemma scal_cont k (f : R -> R) x : continuous f x -> continuous (fun x => k * f x) x.
Proof. intros H. apply (@continuous_scal_r R_UniformSpace R_AbsRing R_NormedModule k f x H). Qed.
Lemma mult_cont (f g : R -> R) x : continuous f x -> continuous g x -> continuous (fun x => f x * g x) x.
Proof. apply (@continuous_mult R_UniformSpace R_AbsRing). Qed.
Lemma plus_cont (f g : R -> R) x : continuous f x -> continuous g x -> continuous (fun x => f x + g x) x.
Proof. apply (@continuous_plus R_UniformSpace R_AbsRing R_NormedModule). Qed.
Lemma d1_cont m x : continuous (d1 m) x.
Proof. apply plus_cont; [apply Hc2|]. apply scal_cont, c1_cont. Qed.

Definition ff (N k : nat) (t : R) : R :=
  if lt_dec k N then sqrt (step a b N * (2 * lam)) * exp (- lam * (t - grid a b N k)) * ind (grid a b N k) t else exp (- lam * (t - a)).
Definition zz (N m k : nat) : R := if lt_dec k N then sqrt (step a b N / (2 * lam)) * d m (grid a b N k) else c m a.

Lemma Sum_last N (f g : nat -> R) (v : R) : (forall k, (k < N)%nat -> f k = g k) -> f N = v -> Sum (S N) f = Sum N g + v.
Proof. intros H1 H2. cbn [Sum]. rewrite H2. f_equal. now apply Sum_ext. Qed.

Lemma exp_cont k e x : continuous (fun x => exp (k * (x - e))) x.
Proof. apply (@ex_derive_continuous R_AbsRing R_NormedModule). auto_derive. auto. Qed.
Lemma exp_small t : a <= t -> 0 < exp (- lam * (t - a)) <= 1.
Proof.
  intros Ht. split; [apply exp_pos|]. rewrite <- exp_0. assert (X : - lam * (t - a) <= 0) by (assert (0 <= lam * (t - a)) by (apply Rmult_le_pos; lra); lra).
  destruct X as [X|X]; [left; now apply exp_increasing|right; now rewrite X].
Qed.
Lemma step_nonneg N : 0 <= step a b N.
Proof.
  unfold step. destruct N as [|N]; [cbn; unfold Rdiv; rewrite Rinv_0; lra|].
  apply Rmult_le_pos; [lra|]. left. apply Rinv_0_lt_compat. apply lt_0_INR. lia.
Qed.

Lemma ff_limit eps : 0 < eps -> eventually (fun N => forall s t, a <= s <= b -> a <= t <= b ->
  Rabs (Sum (S N) (fun k => ff N k s * ff N k t) - exp (- lam * Rabs (s - t))) <= eps).
Proof.
  intros He. set (F := fun x => 2 * lam * exp (2 * lam * (x - a))).
  assert (HF : forall x, is_derive F x (4 * lam ^ 2 * exp (2 * lam * (x - a)))) by (intros x; unfold F; der).
  assert (HG : forall x, continuous (fun x => 4 * lam ^ 2 * exp (2 * lam * (x - a))) x) by (intros x; apply scal_cont, exp_cont).
  generalize (riemann_limit F _ a b eps Hab HF HG He). apply filter_imp. intros N H s t Hs Ht.
  set (m := Rmin s t). assert (Hm : a <= m <= b) by (unfold m, Rmin; destruct (Rle_dec s t); lra). specialize (H m Hm).
  assert (EI : RInt F a m = exp (2 * lam * (m - a)) - 1).
  { apply is_RInt_unique. replace (exp (2 * lam * (m - a)) - 1) with (minus (exp (2 * lam * (m - a))) (exp (2 * lam * (a - a)))).
    2:{ unfold minus, plus, opp; cbn. replace (2 * lam * (a - a)) with 0 by ring. rewrite exp_0. ring. }
    apply (is_RInt_derive (fun x => exp (2 * lam * (x - a)))); intros x _; [unfold F; der|].
    unfold F. apply scal_cont, exp_cont. }
  rewrite EI in H.
  set (es := exp (- lam * (s - a))). set (et := exp (- lam * (t - a))).
  rewrite (Sum_last N _ (fun k => es * et * (step a b N * F (grid a b N k) * ind (grid a b N k) m)) (es * et)).
  2:{ intros k Hk. unfold ff. destruct (lt_dec k N); [|lia]. unfold m. rewrite <- ind_min. unfold F, es, et.
      replace (- lam * (s - grid a b N k)) with (- lam * (s - a) + lam * (grid a b N k - a)) by ring.
      replace (- lam * (t - grid a b N k)) with (- lam * (t - a) + lam * (grid a b N k - a)) by ring.
      replace (2 * lam * (grid a b N k - a)) with (lam * (grid a b N k - a) + lam * (grid a b N k - a)) by ring. rewrite !exp_plus.
      assert (Q : sqrt (step a b N * (2 * lam)) * sqrt (step a b N * (2 * lam)) = step a b N * (2 * lam)).
      { apply sqrt_sqrt. apply Rmult_le_pos; [apply step_nonneg|lra]. }
      set (q := sqrt _) in *.
      match goal with |- q * (?A * ?E) * ?i * (q * (?B * ?E) * ?j) = _ => transitivity (q * q * (A * B * E * E * (i * j))); [ring|] end.
      rewrite Q. ring. }
  2:{ unfold ff. destruct (lt_dec N N); [lia|]. reflexivity. }
  rewrite Sum_scal.
  replace (exp (- lam * Rabs (s - t))) with (es * et * exp (2 * lam * (m - a))).
  2:{ unfold es, et, m. rewrite <- !exp_plus. f_equal. rewrite Rabs_min. ring. }
  destruct (exp_small s ltac:(lra)) as [P1 P2]. destruct (exp_small t ltac:(lra)) as [P3 P4]. fold es in P1, P2. fold et in P3, P4.
  set (S := Sum N _) in *. set (e := exp (2 * lam * (m - a))) in *.
  replace (es * et * S + es * et - es * et * e) with (es * et * (S - (e - 1))) by ring.
  rewrite Rabs_mult. rewrite (Rabs_pos_eq (es * et)) by (apply Rmult_le_pos; lra).
  assert (es * et <= 1) by nra. assert (0 <= es * et) by nra. pose proof (Rabs_pos (S - (e - 1))). nra.
Qed.

Lemma fz_limit m eps : 0 < eps -> eventually (fun N => forall t, a <= t <= b ->
  Rabs (Sum (S N) (fun k => ff N k t * zz N m k) - c m t) <= eps).
Proof.
  intros He. set (F := fun x => exp (lam * (x - a)) * d m x).
  assert (HF : forall x, is_derive F x (lam * exp (lam * (x - a)) * d m x + exp (lam * (x - a)) * d1 m x)).
  { intros x. unfold F. apply (is_derive_mult (fun x => exp (lam * (x - a))) (d m) x); [der|apply d_derive|].
    intros; apply Rmult_comm. }
  assert (HG : forall x, continuous (fun x => lam * exp (lam * (x - a)) * d m x + exp (lam * (x - a)) * d1 m x) x).
  { intros x. apply plus_cont; apply mult_cont; [apply scal_cont, exp_cont|apply d_cont|apply exp_cont|apply d1_cont]. }
  generalize (riemann_limit F _ a b eps Hab HF HG He). apply filter_imp. intros N H t Ht. specialize (H t Ht).
  assert (EI : RInt F a t = exp (lam * (t - a)) * c m t - c m a).
  { apply is_RInt_unique. replace (exp (lam * (t - a)) * c m t - c m a) with (minus (exp (lam * (t - a)) * c m t) (exp (lam * (a - a)) * c m a)).
    2:{ unfold minus, plus, opp; cbn. replace (lam * (a - a)) with 0 by ring. rewrite exp_0. ring. }
    apply (is_RInt_derive (fun x => exp (lam * (x - a)) * c m x)); intros x _.
    - replace (F x) with (lam * exp (lam * (x - a)) * c m x + exp (lam * (x - a)) * c1 m x) by (unfold F, d; ring).
      apply (is_derive_mult (fun x => exp (lam * (x - a))) (c m) x); [der|apply Hc|]. intros; apply Rmult_comm.
    - unfold F. apply mult_cont; [apply exp_cont|apply d_cont]. }
  rewrite EI in H. set (et := exp (- lam * (t - a))).
  rewrite (Sum_last N _ (fun k => et * (step a b N * F (grid a b N k) * ind (grid a b N k) t)) (et * c m a)).
  2:{ intros k Hk. unfold ff, zz. destruct (lt_dec k N); [|lia]. unfold F, et.
      replace (- lam * (t - grid a b N k)) with (- lam * (t - a) + lam * (grid a b N k - a)) by ring. rewrite !exp_plus.
      assert (Q : sqrt (step a b N * (2 * lam)) * sqrt (step a b N / (2 * lam)) = step a b N).
      { pose proof (step_nonneg N). rewrite <- sqrt_mult; [|apply Rmult_le_pos; lra|apply Rmult_le_pos; [lra|left; apply Rinv_0_lt_compat; lra]].
        replace (step a b N * (2 * lam) * (step a b N / (2 * lam))) with (step a b N * step a b N) by (field; lra). now apply sqrt_square. }
      set (q := sqrt (_ * _)) in *. set (q' := sqrt (_ / _)) in *.
      match goal with |- q * ?E * ?i * (q' * ?B) = _ => transitivity (q * q' * (E * i * B)); [ring|] end.
      rewrite Q. ring. }
  2:{ unfold ff, zz. destruct (lt_dec N N); [lia|]. reflexivity. }
  rewrite Sum_scal.
  assert (E1 : et * exp (lam * (t - a)) = 1).
  { unfold et. rewrite <- exp_plus. replace (- lam * (t - a) + lam * (t - a)) with 0 by ring. apply exp_0. }
  destruct (exp_small t ltac:(lra)) as [P3 P4]. fold et in P3, P4.
  set (S := Sum N _) in *. set (e := exp (lam * (t - a))) in *.
  replace (et * S + et * c m a - c m t) with (et * (S - (e * c m t - c m a))).
  2:{ replace (c m t) with (et * e * c m t) at 2 by (rewrite E1; ring). ring. }
  rewrite Rabs_mult, (Rabs_pos_eq et) by lra. pose proof (Rabs_pos (S - (e * c m t - c m a))). nra.
Qed.

(** The inner products of the functions in the reproducing kernel Hilbert space. *)
Definition gram (m n : nat) : R := RInt (fun x => d m x * d n x / (2 * lam)) a b + c m a * c n a.

Lemma zz_limit m n eps : 0 < eps -> eventually (fun N => Rabs (Sum (S N) (fun k => zz N m k * zz N n k) - gram m n) <= eps).
Proof.
  intros He. set (F := fun x => d m x * d n x / (2 * lam)).
  assert (HF : forall x, is_derive F x ((d1 m x * d n x + d m x * d1 n x) / (2 * lam))).
  { intros x. unfold F, Rdiv.
    apply (is_derive_ext (fun x => / (2 * lam) * (d m x * d n x))); [intros; apply Rmult_comm|].
    rewrite (Rmult_comm (_ + _)). apply is_derive_scal. apply (is_derive_mult (d m) (d n) x); [apply d_derive|apply d_derive|]. intros; apply Rmult_comm. }
  assert (HG : forall x, continuous (fun x => (d1 m x * d n x + d m x * d1 n x) / (2 * lam)) x).
  { intros x. apply (continuous_ext (fun x => / (2 * lam) * (d1 m x * d n x + d m x * d1 n x))); [intros; apply Rmult_comm|].
    apply scal_cont, plus_cont; apply mult_cont; try apply d_cont; apply d1_cont. }
  generalize (riemann_limit F _ a b eps Hab HF HG He). apply filter_imp. intros N H. specialize (H b ltac:(lra)).
  rewrite (Sum_last N _ (fun k => step a b N * F (grid a b N k) * ind (grid a b N k) b) (c m a * c n a)).
  2:{ intros k Hk. unfold zz. destruct (lt_dec k N); [|lia]. unfold F.
      assert (I1 : ind (grid a b N k) b = 1).
      { unfold ind. destruct (Rle_dec (grid a b N k) b) as [|X]; [reflexivity|]. exfalso. apply X. unfold grid, step.
        assert (PN : 0 < INR N) by (apply lt_0_INR; lia). assert (INR k <= INR N) by (apply le_INR; lia).
        assert (INR k * ((b - a) / INR N) <= b - a); [|lra].
        apply Rmult_le_reg_r with (INR N); [auto|]. replace (INR k * ((b - a) / INR N) * INR N) with (INR k * (b - a)) by (field; lra). nra. }
      rewrite I1.
      assert (Q : sqrt (step a b N / (2 * lam)) * sqrt (step a b N / (2 * lam)) = step a b N / (2 * lam)).
      { apply sqrt_sqrt. apply Rmult_le_pos; [apply step_nonneg|left; apply Rinv_0_lt_compat; lra]. }
      set (q := sqrt _) in *.
      match goal with |- q * ?A * (q * ?B) = _ => transitivity (q * q * (A * B)); [ring|] end.
      rewrite Q. field. lra. }
  2:{ unfold zz. destruct (lt_dec N N); [lia|]. reflexivity. }
  unfold gram. fold F. set (S := Sum N _) in *. set (I := RInt F a b) in *.
  replace (S + c m a * c n a - (I + c m a * c n a)) with (S - I) by ring. exact H.
Qed.

(** ** The kernel given the inner products with the functions *)
Context (W : nat -> nat -> R).
Hypothesis Wsym : forall i j, (i < nz)%nat -> (j < nz)%nat -> W i j = W j i.
Hypothesis HW : forall i j, (i < nz)%nat -> (j < nz)%nat ->
  Sum nz (fun k => Sum nz (fun l => W k i * gram k l * W l j)) = W i j.

Let wc (m : nat) (t : R) : R := Sum nz (fun n => W m n * c n t).
Definition kres (s t : R) : R := exp (- lam * Rabs (s - t)) - Sum nz (fun m => Sum nz (fun n => W m n * (c m s * c n t))).

Lemma wc_left s t : Sum nz (fun m => wc m t * c m s) = Sum nz (fun m => Sum nz (fun n => W m n * (c m s * c n t))).
Proof. apply Sum_ext. intros m Hm. unfold wc. rewrite <- Sum_scal_r. apply Sum_ext. intros; ring. Qed.
Lemma wc_right s t : Sum nz (fun m => wc m s * c m t) = Sum nz (fun m => Sum nz (fun n => W m n * (c m s * c n t))).
Proof.
  rewrite Sum_swap. apply Sum_ext. intros m Hm. unfold wc. rewrite <- Sum_scal_r. apply Sum_ext. intros n Hn. rewrite (Wsym n m) by auto. ring.
Qed.
Lemma wc_both s t : Sum nz (fun m => Sum nz (fun n => wc m s * wc n t * gram m n)) = Sum nz (fun m => Sum nz (fun n => W m n * (c m s * c n t))).
Proof.
  transitivity (Sum nz (fun i => Sum nz (fun j => Sum nz (fun k => Sum nz (fun l => W k i * gram k l * W l j)) * (c i s * c j t)))).
  2:{ apply Sum_ext. intros i Hi. apply Sum_ext. intros j Hj. now rewrite HW. }
  transitivity (Sum nz (fun k => Sum nz (fun l => Sum nz (fun i => Sum nz (fun j => W k i * gram k l * W l j * (c i s * c j t)))))).
  - apply Sum_ext. intros k Hk. apply Sum_ext. intros l Hl'. unfold wc. rewrite Sum_prod, <- Sum_scal_r. apply Sum_ext. intros i Hi.
    rewrite <- Sum_scal_r. apply Sum_ext. intros j Hj. ring.
  - transitivity (Sum nz (fun k => Sum nz (fun i => Sum nz (fun l => Sum nz (fun j => W k i * gram k l * W l j * (c i s * c j t)))))).
    { apply Sum_ext. intros k Hk. apply Sum_swap. }
    rewrite Sum_swap. apply Sum_ext. intros i Hi.
    transitivity (Sum nz (fun k => Sum nz (fun j => Sum nz (fun l => W k i * gram k l * W l j * (c i s * c j t))))).
    { apply Sum_ext. intros k Hk. apply Sum_swap. }
    rewrite Sum_swap. apply Sum_ext. intros j Hj. rewrite <- Sum_scal_r. apply Sum_ext. intros k Hk. now rewrite <- Sum_scal_r.
Qed.

Lemma Sum_cont n (f : nat -> R -> R) x : (forall i, continuous (f i) x) -> continuous (fun x => Sum n (fun i => f i x)) x.
Proof. intros H. induction n as [|n IH]; cbn [Sum]; [apply continuous_const|]. now apply plus_cont. Qed.
Lemma wc_cont m x : continuous (wc m) x.
Proof. apply (Sum_cont nz (fun n x => W m n * c n x)). intros n. apply scal_cont, c_cont. Qed.

Lemma wc_bound : exists V, 0 <= V /\ forall m t, (m < nz)%nat -> a <= t <= b -> Rabs (wc m t) <= V.
Proof.
  assert (H : forall n, exists V, 0 <= V /\ forall m t, (m < n)%nat -> a <= t <= b -> Rabs (wc m t) <= V).
  { intros n. induction n as [|n [V [HV H]]]; [exists 0; split; [lra|intros; lia]|].
    destruct (bounded_continuity (wc n) a b) as [M HM]; [intros; apply wc_cont|].
    exists (Rmax V M). pose proof (Rmax_l V M). pose proof (Rmax_r V M). split; [lra|]. intros m t Hm Ht.
    assert (m = n \/ (m < n)%nat) as [->|Hm'] by lia.
    - specialize (HM t Ht). change (norm (wc n t)) with (Rabs (wc n t)) in HM. lra.
    - specialize (H m t Hm' Ht). lra. }
  apply H.
Qed.

(** A feature is a continuous function with at most one jump. *)
Definition one_jump (g : R -> R) : Prop :=
  exists (A B : R -> R) r, (forall x, continuous A x) /\ (forall x, continuous B x) /\ forall t, g t = A t * ind r t + B t.

Lemma ff_jump N k : exists (A B : R -> R) r, (forall x, continuous A x) /\ (forall x, continuous B x) /\ forall t, ff N k t = A t * ind r t + B t.
Proof.
  unfold ff. destruct (lt_dec k N).
  - exists (fun t => sqrt (step a b N * (2 * lam)) * exp (- lam * (t - grid a b N k))), (fun _ => 0), (grid a b N k).
    split; [intros; apply scal_cont, exp_cont|]. split; [intros; apply continuous_const|]. intros; ring.
  - exists (fun _ => 0), (fun t => exp (- lam * (t - a))), 0. split; [intros; apply continuous_const|]. split; [intros; apply exp_cont|]. intros; ring.
Qed.

Definition gg (N k : nat) (t : R) : R := ff N k t - Sum nz (fun m => zz N m k * wc m t).
Lemma gg_jump N k : one_jump (gg N k).
Proof.
  destruct (ff_jump N k) as [A [B [r [HA [HB E]]]]]. exists A, (fun t => B t + -1 * Sum nz (fun m => zz N m k * wc m t)), r.
  split; [auto|]. split; [|intros t; unfold gg; rewrite E; ring].
  intros x. apply plus_cont; [apply HB|]. apply scal_cont. apply (Sum_cont nz (fun m x => zz N m k * wc m x)). intros m. apply scal_cont, wc_cont.
Qed.

Lemma gg_sum N s t : Sum (S N) (fun k => gg N k s * gg N k t)
  = Sum (S N) (fun k => ff N k s * ff N k t)
    - Sum nz (fun m => wc m t * Sum (S N) (fun k => ff N k s * zz N m k)) - Sum nz (fun m => wc m s * Sum (S N) (fun k => ff N k t * zz N m k))
    + Sum nz (fun m => Sum nz (fun n => wc m s * wc n t * Sum (S N) (fun k => zz N m k * zz N n k))).
Proof.
  generalize (S N) as K. intros K. set (ff' := ff N). set (zz' := zz N).
  assert (E1 : forall t s, Sum nz (fun m => wc m t * Sum K (fun k => ff' k s * zz' m k)) = Sum K (fun k => ff' k s * Sum nz (fun m => zz' m k * wc m t))).
  { intros. transitivity (Sum nz (fun m => Sum K (fun k => wc m t0 * (ff' k s0 * zz' m k)))); [apply Sum_ext; intros; now rewrite Sum_scal|].
    rewrite Sum_swap. apply Sum_ext. intros k _. rewrite <- Sum_scal. apply Sum_ext. intros; ring. }
  assert (E2 : Sum nz (fun m => Sum nz (fun n => wc m s * wc n t * Sum K (fun k => zz' m k * zz' n k)))
     = Sum K (fun k => Sum nz (fun m => zz' m k * wc m s) * Sum nz (fun m => zz' m k * wc m t))).
  { transitivity (Sum nz (fun m => Sum nz (fun n => Sum K (fun k => zz' m k * wc m s * (zz' n k * wc n t))))).
    { apply Sum_ext. intros m _. apply Sum_ext. intros n _. rewrite <- Sum_scal. apply Sum_ext. intros; ring. }
    transitivity (Sum nz (fun m => Sum K (fun k => Sum nz (fun n => zz' m k * wc m s * (zz' n k * wc n t))))).
    { apply Sum_ext. intros m _. apply Sum_swap. }
    rewrite Sum_swap. apply Sum_ext. intros k _. now rewrite Sum_prod. }
  rewrite !E1, E2. rewrite <- !Sum_minus, <- Sum_plus. apply Sum_ext. intros k _. unfold gg. fold ff' zz'. ring.
Qed.

Theorem kres_features eps : 0 < eps -> exists K (g : nat -> R -> R), (forall k, (k < K)%nat -> one_jump (g k)) /\
  forall s t, a <= s <= b -> a <= t <= b -> Rabs (Sum K (fun k => g k s * g k t) - kres s t) <= eps.
Proof.
  intros He. destruct wc_bound as [V [HV HV']].
  set (C := 1 + 2 * (INR nz * V) + INR nz * (INR nz * (V * V))).
  assert (PC : 1 <= C).
  { unfold C. pose proof (pos_INR nz). assert (0 <= INR nz * V) by (apply Rmult_le_pos; lra).
    assert (0 <= INR nz * (INR nz * (V * V))) by (repeat apply Rmult_le_pos; lra). lra. }
  set (e := eps / C). assert (Pe : 0 < e) by (apply Rdiv_lt_0_compat; lra).
  pose proof (ff_limit e Pe) as L1.
  pose proof (ev_all nz _ (fun m Hm => fz_limit m e Pe)) as L2.
  pose proof (ev_all nz (fun m N => forall n, (n < nz)%nat -> Rabs (Sum (S N) (fun k => zz N m k * zz N n k) - gram m n) <= e)
    (fun m Hm => ev_all nz _ (fun n Hn => zz_limit m n e Pe))) as L3.
  destruct L1 as [N1 L1], L2 as [N2 L2], L3 as [N3 L3]. set (N := (N1 + N2 + N3)%nat).
  specialize (L1 N ltac:(lia)). specialize (L2 N ltac:(lia)). specialize (L3 N ltac:(lia)).
  exists (S N), (gg N). split; [intros; apply gg_jump|]. intros s t Hs Ht. rewrite gg_sum.
  specialize (L1 s t Hs Ht).
  assert (B1 : forall s t, a <= s <= b -> a <= t <= b -> Rabs (Sum nz (fun m => wc m t * Sum (S N) (fun k => ff N k s * zz N m k)) - Sum nz (fun m => wc m t * c m s)) <= INR nz * V * e).
  { clear s t Hs Ht L1. intros s t Hs Ht. rewrite Rmult_assoc, <- Sum_const. apply Sum_close. intros m Hm. rewrite <- Rmult_minus_distr_l, Rabs_mult.
    apply Rmult_le_compat; [apply Rabs_pos|apply Rabs_pos|auto|auto]. }
  assert (B2 : Rabs (Sum nz (fun m => Sum nz (fun n => wc m s * wc n t * Sum (S N) (fun k => zz N m k * zz N n k))) - Sum nz (fun m => Sum nz (fun n => wc m s * wc n t * gram m n)))
     <= INR nz * (INR nz * (V * V)) * e).
  { rewrite (Rmult_assoc (INR nz)), <- Sum_const. apply Sum_close. intros m Hm. rewrite (Rmult_assoc (INR nz)), <- Sum_const. apply Sum_close. intros n Hn.
    rewrite <- Rmult_minus_distr_l, !Rabs_mult.
    apply Rmult_le_compat; [apply Rmult_le_pos; apply Rabs_pos|apply Rabs_pos| |auto]. apply Rmult_le_compat; auto; apply Rabs_pos. }
  pose proof (B1 s t Hs Ht) as B3. pose proof (B1 t s Ht Hs) as B4. rewrite wc_left in B3. rewrite wc_right in B4. rewrite wc_both in B2.
  assert (Ec : eps = e + 2 * (INR nz * V * e) + INR nz * (INR nz * (V * V)) * e) by (transitivity (C * e); [unfold e; field; lra|unfold C; ring]).
  unfold kres. rewrite Ec. apply Rabs_le_between in L1. apply Rabs_le_between in B2. apply Rabs_le_between in B3. apply Rabs_le_between in B4.
  apply Rabs_le_between. lra.
Qed.
End Features.
