(** C96, C97, C98: the prediction of the kernel and of its power spectral density. *)
From Coq Require Import Reals ZArith List String Lra Lia.
From mathcomp Require Import all_ssreflect all_algebra.
From Verif Require Import Py ListFacts ExpPolyModel ExpPolyIntModel ExpPolyIntProofs ExpPolyIntProps RMat RChol RTac NormalModel NormalSpec NormalProofs ApproxModel ApproxSpec ApproxProofs ApproxProofs2 ApproxProofs3.
From Verif Require Import GpcmModel RgpcmModel GpcmGood GpcmBridge GpcmWell GpcmKernelPsd UtilModel SampleProps FilterModel FilterProps KernelModel KernelSpec KernelProofs.
From Verif Require GpcmProofs3 GpcmEntries GpcmEndProps GpcmSpec GpcmProps RgpcmProps RgpcmProps2 RgpcmUx KernelDecay PsdFlat UtilSpec UtilProofs2 UtilProps UtilProps2 GpcmInit.
Set Implicit Arguments.
Unset Strict Implicit.
Unset Printing Implicit Defensive.
Import GRing.Theory.
Local Open Scope ring_scope.
Delimit Scope R_scope with Re.

(** What the kernels are computed from, for any of the three models. *)
Inductive quantities (N : numdom) (so : setorder) (ofR : R -> N) :
    forall nu, 'M[R]_nu -> (R -> R -> R) -> (R -> R -> 'M[R]_nu) -> Prop :=
| of_gpcm m G i_hx I_ux : good_gpcm m -> gpcm_gp so ofR m = Ok G ->
    @integrals_of N so ofR m i_hx I_ux -> quantities so ofR (K_u G) i_hx I_ux
| of_rgpcm m Ku i_hx I_ux : good_rgpcm m -> rcompute_K_u m = Ok Ku ->
    @rintegrals_of m i_hx I_ux -> quantities so ofR (mat (List.length (r_t_u m)) (List.length (r_t_u m)) Ku) i_hx I_ux.

Section Facts.
Variables (chol : forall n, 'M[R]_n -> 'M[R]_n) (Hc : chol_ok chol).
Variables (N : numdom) (so : setorder) (ofR : R -> N) (Ho : forall r, val (ofR r) = r).

Lemma quantities_spd nu (Ku : 'M[R]_nu) i_hx I_ux : quantities so ofR Ku i_hx I_ux -> spd Ku.
Proof.
  case=> [m G {}i_hx {}I_ux Hm HG _|m Kl {}i_hx {}I_ux Hm HK _].
    by have [SP _] := K_u_facts Ho Hm HG.
  exact: (rK_spd Hm HK).
Qed.

Lemma quantities_stationary nu (Ku : 'M[R]_nu) i_hx I_ux u : quantities so ofR Ku i_hx I_ux ->
  stationary_covariance (fun s => kfun chol Ku i_hx I_ux u s 0%Re) /\
  forall a b (s : 'I_a -> R) (t : 'I_b -> R), kernel_approx chol Ku i_hx I_ux s t u = smat (fun s => kfun chol Ku i_hx I_ux u s 0%Re) s t.
Proof.
  move=> H; case: H u => [m G {}i_hx {}I_ux Hm HG [H1 H2]|m Kl {}i_hx {}I_ux Hm HK HI] u.
    exact: (gpcm_stationary Hc Ho Hm HG H1 H2 u).
  exact: (rgpcm_stationary Hc Hm HK HI u).
Qed.

Lemma quantities_vanish nu (Ku : 'M[R]_nu) i_hx I_ux : quantities so ofR Ku i_hx I_ux ->
  KernelDecay.vanishes (fun s => i_hx s 0%Re) /\ forall i j, KernelDecay.vanishes (fun s => I_ux s 0%Re i j).
Proof.
  case=> [m G {}i_hx {}I_ux Hm HG [H1 H2]|m Kl {}i_hx {}I_ux Hm HK HI].
    case: (Hm) => M [Pg _]; have Pa := GpcmProofs3.moderate_pos _ (proj1 (proj1 M)); split.
      apply: (KernelDecay.gpcm_hx_vanishes m Pa Pg) => s.
      exact: (GpcmProofs3.i_hx_spec N so ofR Ho m _ _ _ (proj1 (proj1 M)) (H1 _ _)).
    move=> i j; apply: (KernelDecay.gpcm_ux_vanishes m Pa Pg _ (List.nth i (g_t_u m) R0) (List.nth j (g_t_u m) R0)) => s.
    have [T [ET ->]] := H2 s 0%Re; rewrite mxE.
    exact: (GpcmEntries.ux4_get N so ofR Ho m (proj1 Hm) T s 0%Re i j ET (elimT ltP (ltn_ord i)) (elimT ltP (ltn_ord j))).
  case: (Hm) => -[Pa Pg Pl] [_ [_ [Ng [Nl [_ Pt]]]]]; split.
    apply: KernelDecay.vanishes_ext (KernelDecay.rgpcm_hx_vanishes m Pa Pl) => s.
    by rewrite (rhx_value Hm HI).
  move=> i j; have P (k : 'I_(List.length (r_t_u m))) : (0 <= List.nth k (r_t_u m) R0)%Re by apply: Pt; apply: List.nth_In; exact: (elimT ltP (ltn_ord k)).
  apply: KernelDecay.vanishes_ext (KernelDecay.rgpcm_ux_vanishes m Pa Pg Pl _ _ Ng Nl (P i) (P j)) => s.
  by rewrite (rux_value Hm HI).
Qed.

Lemma vanishes_sum (I : finType) (f : I -> R -> R) : (forall i, KernelDecay.vanishes (f i)) -> KernelDecay.vanishes (fun s => \sum_i f i s).
Proof.
  move=> H; rewrite unlock; elim: (index_enum I) => [|i r IH] /=; first exact: KernelDecay.vanishes_zero.
  by apply: KernelDecay.vanishes_plus.
Qed.

Lemma kernel_vanishes nu (Ku : 'M[R]_nu) i_hx I_ux u : quantities so ofR Ku i_hx I_ux ->
  KernelDecay.vanishes (fun s => kfun chol Ku i_hx I_ux u s 0%Re).
Proof.
  move=> H; have [V1 V2] := quantities_vanish H; have SP := quantities_spd H.
  pose v := invmx Ku *m u.
  apply: (KernelDecay.vanishes_ext (fun s => i_hx s 0 + ((-1) * (\sum_i \sum_j invmx Ku i j * I_ux s 0%Re j i)%R + (\sum_i \sum_j (v i ord0 * v j ord0) * I_ux s 0%Re i j)%R))%Re).
    move=> s; rewrite /kfun kernel_approxE // -/v; clearbody v.
    have -> : \tr (invmx Ku *m I_ux s 0%Re) = \sum_i \sum_j invmx Ku i j * I_ux s 0%Re j i by apply: eq_bigr => i _; rewrite mxE.
    have -> : dot v (I_ux s 0%Re *m v) = \sum_i \sum_j v i ord0 * v j ord0 * I_ux s 0%Re i j.
      rewrite /dot; apply: eq_bigr => i _; rewrite mxE; transitivity (v i ord0 * (\sum_j I_ux s 0%Re i j * v j ord0)) => //.
      rewrite mulr_sumr; apply: eq_bigr => j _ /=.
      by rewrite /GRing.mul /=; ring.
    ring.
  apply: KernelDecay.vanishes_plus => //; apply: KernelDecay.vanishes_plus; [apply: KernelDecay.vanishes_scal|];
    by apply: vanishes_sum => i; apply: vanishes_sum => j; apply: KernelDecay.vanishes_scal.
Qed.
End Facts.

(** * C96 *)

(** Whatever the inducing variables of the filter are, the kernel that the model predicts is the
    covariance function of a stationary process: it depends on the lag only, is even, strictly
    positive definite, largest at lag zero and vanishes for large lags. *)
Theorem C96_kernels :
  forall chol, chol_ok chol ->
  forall (N : numdom) (so : setorder) (ofR : R -> N), (forall r, val (ofR r) = r) ->
  forall nu (Ku : 'M[R]_nu) i_hx I_ux, quantities so ofR Ku i_hx I_ux ->
  forall u : 'cV[R]_nu, exists k, stationary_covariance k /\ vanishing k /\
    forall a b (s : 'I_a -> R) (t : 'I_b -> R), kernel_approx chol Ku i_hx I_ux s t u = smat k s t.
Proof.
  move=> chol Hc N so ofR Ho nu Ku i_hx I_ux H u.
  have [S E] := quantities_stationary Hc Ho u H; exists (fun s => kfun chol Ku i_hx I_ux u s 0%Re); split=> //; split=> //.
  move=> e He; have [s0 V] := kernel_vanishes Hc Ho u H He; exists s0 => s Hs.
  have [_ [_ [_ [Ev _]]]] := S; case: (Rle_lt_dec 0 s) => Ps.
    by apply: V; rewrite Rabs_pos_eq in Hs.
  have <- := Ev s; apply: V; rewrite Rabs_left in Hs => //.
Qed.
Print Assumptions C96_kernels.

Lemma size_length A (l : seq A) : size l = List.length l.
Proof. by []. Qed.

(** [n] equally spaced times from zero to [upper]. *)
Definition equally_spaced (upper : R) (n : nat) (t : seq R) : Prop :=
  size t = n /\ forall i, (i < n)%N -> nth 0%Re t i = (INR i * (upper / INR n.-1))%Re.

Lemma times_default upper n t : (1 < n)%N -> times_or upper (Z.of_nat n) None = Ok t -> equally_spaced upper n t.
Proof.
  move=> Hn; rewrite /times_or /linspace; case: (Z.ltb_spec (Z.of_nat n) 0) => [|_ [<-]]; first by have := Zle_0_nat n => A B; case: (Zlt_not_le _ _ B A).
  rewrite Znat.Nat2Z.id; split; first by rewrite (size_length _) List.map_length List.seq_length.
  move=> i Hi; have Li : (i < n)%coq_nat by apply/ltP.
  rewrite -list_nth; set f := (fun i : nat => if _ then _ else _).
  rewrite (List.nth_indep _ 0%Re (f 0%N)) ?List.map_length ?List.seq_length // List.map_nth List.seq_nth // [(0 + i)%coq_nat]/=  /f.
  case: i {Hi Li} => [|i]; first by rewrite /= Rmult_0_l.
  rewrite [Nat.eqb _ _]/= -INR_IZR_INZ -{1}(prednK (ltnW Hn)) Rplus_0_l Rminus_0_r; congr Rmult; congr Rdiv; rewrite S_INR; ring.
Qed.
Lemma times_default_ok upper n : exists t, times_or upper (Z.of_nat n) None = Ok t.
Proof.
  rewrite /times_or /linspace; case: (Z.ltb_spec (Z.of_nat n) 0) => [B|_]; last by eexists.
  by case: (Zlt_not_le _ _ B (Zle_0_nat n)).
Qed.

(** The rows of samples. *)
Lemma sample_row chol nu (Ku : 'M[R]_nu) i_hx I_ux (t : seq R) k u :
  (forall a b (s : 'I_a -> R) (r : 'I_b -> R), kernel_approx chol Ku i_hx I_ux s r (Ku *m u) = smat k s r) ->
  [seq sample_kernel chol Ku i_hx I_ux (fun i : 'I_(size t) => nth 0%Re t i) u i ord0 | i <- enum 'I_(size t)] = [seq k s | s <- t].
Proof.
  move=> E; rewrite /sample_kernel E; apply: (@eq_from_nth _ 0%Re); first by rewrite size_map size_enum_ord size_map.
  move=> i; rewrite size_map size_enum_ord => Hi.
  rewrite (nth_map (Ordinal Hi)) ?size_enum_ord // (nth_map 0%Re) // mxE nth_enum_ord //.
  by congr k; rewrite Rminus_0_r.
Qed.

Definition rows chol nu (Ku : 'M[R]_nu) i_hx I_ux (t : seq R) (us : seq 'cV[R]_nu) : seq (seq R) :=
  [seq [seq sample_kernel chol Ku i_hx I_ux (fun i : 'I_(size t) => nth 0%Re t i) u i ord0 | i <- enum 'I_(size t)] | u <- us].
Lemma sample_rows chol nu (Ku : 'M[R]_nu) i_hx I_ux extent t_k t us : times_or extent 300 t_k = Ok t -> us <> [::] -> t <> [::] ->
  model_sample_kernel chol Ku i_hx I_ux extent t_k us = Ok (t, rows chol Ku i_hx I_ux t us, mean_variance (rows chol Ku i_hx I_ux t us)).
Proof. by rewrite /model_sample_kernel => ->; case: us => // u us _; case: t. Qed.

(** Each sample of [sample_kernel] is such a covariance function at the requested times; by
    default these are 300 equally spaced times from zero to the extent.  [predict_kernel]
    reports the statistics of these samples at every time. *)
Theorem C96_samples :
  forall chol, chol_ok chol ->
  forall (N : numdom) (so : setorder) (ofR : R -> N), (forall r, val (ofR r) = r) ->
  forall nu (Ku : 'M[R]_nu) i_hx I_ux, quantities so ofR Ku i_hx I_ux ->
  forall (extent : R) (t_k : option (seq R)) (us : seq 'cV[R]_nu), us <> [::] -> t_k <> Some [::] ->
  exists t ks v S,
    model_sample_kernel chol Ku i_hx I_ux extent t_k us = Ok (t, ks, v) /\
    predict_kernel chol Ku i_hx I_ux extent t_k us = Ok (t, S) /\
    (match t_k with Some t' => t = t' | None => equally_spaced extent 300 t end) /\
    size ks = size us /\
    (forall j, (j < size us)%N -> exists k, stationary_covariance k /\ vanishing k /\ nth [::] ks j = [seq k s | s <- t]) /\
    reports ks (size t) S.
Proof.
  move=> chol Hc N so ofR Ho nu Ku i_hx I_ux H extent t_k us Hu Ht.
  have [t [Et [Et' Nt]]] : exists t, times_or extent 300 t_k = Ok t /\
    (match t_k with Some t' => t = t' | None => equally_spaced extent 300 t end) /\ t <> [::].
    case: t_k Ht => [t Ht|_]; first by exists t; split=> //; split=> // E; apply: Ht; rewrite E.
    have [t Et] := times_default_ok extent 300; exists t; split=> //.
    have D := @times_default extent 300 t isT Et; split=> //; by case: D => D _ E; rewrite E in D.
  have EM := @sample_rows chol nu Ku i_hx I_ux extent t_k t us Et Hu Nt.
  rewrite /predict_kernel EM; do 4 eexists; split; first by []. split; first by []. split; first by [].
  split; first by rewrite size_map.
  split; last by apply: reports_ok; case: (us) Hu.
  move=> j Hj; have [k [K1 [K2 K3]]] := C96_kernels Hc Ho H (Ku *m nth 0 us j).
  exists k; split=> //; split=> //.
  by rewrite (nth_map 0) //; apply: sample_row.
Qed.
Print Assumptions C96_samples.

(** * C97: normalisation *)

Lemma large_quadratic (a c b : R) : (0 < a)%Re -> exists x, (c < b + a * (x * x))%Re.
Proof.
  move=> Pa; exists (Rabs ((c - b) / a) + 1)%Re; set y := Rabs _.
  have P0 : (0 <= y)%Re by exact: Rabs_pos.
  have L : ((c - b) / a <= y)%Re by exact: Rle_abs.
  have {}L : (c - b <= a * y)%Re by have <- : (a * ((c - b) / a) = c - b)%Re; [field; lra|apply: Rmult_le_compat_l; lra].
  nra.
Qed.

Lemma delta_form n (A : 'M[R]_n) i x : dot (x *: delta_mx i ord0) (A *m (x *: delta_mx i ord0)) = (A i i * (x * x))%Re.
Proof.
  rewrite -scalemxAr -colE /dot (eq_bigr (fun j => if j == i then (A i i * (x * x))%Re else 0)); first by rewrite -big_mkcond big_pred1_eq.
  move=> j _; rewrite !mxE andbT; case: eqP => [->|_]; rewrite /= ?mulr1n ?mulr0n /GRing.mul /GRing.zero /GRing.one /=; ring.
Qed.

Lemma unnormalised chol nu (Ku : 'M[R]_nu) i_hx (I_ux : R -> R -> 'M[R]_nu) i c : chol_ok chol -> spd Ku -> (0 < I_ux 0%Re 0%Re i i)%Re ->
  exists u, forall extent t, let ks := rows chol Ku i_hx I_ux (0%Re :: t) [:: u] in
    model_sample_kernel chol Ku i_hx I_ux extent (Some (0%Re :: t)) [:: u] = Ok (0%Re :: t, ks, mean_variance ks) /\
    (c < mean_variance ks)%Re /\ forall k, List.In k ks -> (c < nth 0%Re k 0)%Re.
Proof.
  move=> Hc HK HI; have [x Hx] := large_quadratic c (i_hx 0 0 - \tr (invmx Ku *m I_ux 0%Re 0%Re)%R)%Re HI.
  exists (x *: delta_mx i ord0) => extent t ks; split; first exact: sample_rows.
  have V : nth 0%Re (nth [::] ks 0) 0 = (i_hx 0 0 - \tr (invmx Ku *m I_ux 0%Re 0%Re)%R + I_ux 0%Re 0%Re i i * (x * x))%Re.
    pose o : 'I_(size (0%Re :: t)) := @ord0 (size t).
    rewrite /ks /rows (nth_map (0 : 'cV[R]_nu)) // (nth_map o) ?size_enum_ord // sample_kernelE //.
    have -> : nth o (enum 'I_(size (0%Re :: t))) 0 = o by exact: (nth_ord_enum o o).
    rewrite [nth 0%Re (0%Re :: t) o]/=.
    by rewrite delta_form.
  have Q : (c < nth 0%Re (nth [::] ks 0) 0)%Re by rewrite V.
  split; last by move=> k [<-|[]].
  rewrite /mean_variance /ks /rows /= in Q *.
  by rewrite /np_mean /=; set w := (X in (_ < X)%Re); suff -> : w = nth 0%Re (nth [::] ks 0) 0 by []; rewrite /w /=; field.
Qed.

(** The documentation promises a normalised prediction.  Nothing is normalised: for every model
    with an inducing point (after time zero for the RGPCM) and every bound, some sample of the
    inducing variables yields a kernel with a variance beyond that bound, and this variance is
    only printed. *)
Theorem C97_refuted :
  forall chol, chol_ok chol -> forall c extent t,
  (forall (N : numdom) (so : setorder) (ofR : R -> N), (forall r, val (ofR r) = r) ->
   forall m G i_hx I_ux, good_gpcm m -> gpcm_gp so ofR m = Ok G -> @integrals_of N so ofR m i_hx I_ux -> g_t_u m <> [::] ->
   exists u ks v, model_sample_kernel chol (K_u G) i_hx I_ux extent (Some (0%Re :: t)) [:: u] = Ok (0%Re :: t, ks, v) /\
     (c < v)%Re /\ forall k, List.In k ks -> (c < nth 0%Re k 0)%Re) /\
  (forall m Ku i_hx I_ux, good_rgpcm m -> rcompute_K_u m = Ok Ku -> @rintegrals_of m i_hx I_ux ->
   (exists s, List.In s (r_t_u m) /\ (0 < s)%Re) ->
   exists u ks v, model_sample_kernel chol (mat _ _ Ku) i_hx I_ux extent (Some (0%Re :: t)) [:: u] = Ok (0%Re :: t, ks, v) /\
     (c < v)%Re /\ forall k, List.In k ks -> (c < nth 0%Re k 0)%Re).
Proof.
  move=> chol Hc c extent t; split.
    move=> N so ofR Ho m G i_hx I_ux Hm HG HI Nt.
    have SP : spd (K_u G) by apply: (quantities_spd Ho (of_gpcm Hm HG HI)).
    case: (Hm) => M [Pg [Na _]]; have Pa := GpcmProofs3.moderate_pos _ (proj1 (proj1 M)).
    have [H1 H2] := HI; have [T [ET EI]] := H2 0%Re 0%Re.
    have L0 : (0 < List.length (g_t_u m))%N by case: (g_t_u m) Nt.
    have P : (0 < I_ux 0%Re 0%Re (Ordinal L0) (Ordinal L0))%Re.
      rewrite EI mxE; apply: (KernelDecay.gpcm_ux_pos m Pa Pg (List.nth 0 (g_t_u m) R0) _ Na).
      exact: (GpcmEntries.ux4_get N so ofR Ho m (proj1 Hm) T 0%Re 0%Re 0 0 ET (elimT ltP L0) (elimT ltP L0)).
    have [u Hu] := unnormalised i_hx c Hc SP P; have [E1 [E2 E3]] := Hu extent t.
    by exists u; do 2 eexists; split; first exact: E1.
  move=> m Ku i_hx I_ux Hm HK HI [s [Is Ps]].
  have SP := rK_spd Hm HK.
  case: (Hm) => -[Pa Pg Pl] [Na [Nt [Ng [Nl _]]]].
  have [n [Ln En]] := List.In_nth _ _ R0 Is; have {}Ln := introT ltP Ln.
  have P : (0 < I_ux 0%Re 0%Re (Ordinal Ln) (Ordinal Ln))%Re.
    by rewrite (rux_value Hm HI) /= En; apply: KernelDecay.rgpcm_ux_pos.
  have [u Hu] := unnormalised i_hx c Hc SP P; have [E1 [E2 E3]] := Hu extent t.
  by exists u; do 2 eexists; split; first exact: E1.
Qed.
Print Assumptions C97_refuted.

Lemma E_np_sum Omega (E : expectation Omega) (f : nat -> Omega -> R) a n l :
  (forall j, E (f j) = a) -> E (fun w => np_sum [seq f j w | j <- iota l n]) = (INR n * a)%Re.
Proof.
  move=> H; elim: n l => [|n IH] l /=.
    by rewrite E_const Rmult_0_l.
  rewrite E_add H IH -/(INR n.+1) S_INR; ring.
Qed.

(** What holds: under the prior the printed mean variance is, on average, the variance of the
    prior, which is one unless the user overrides the scale of the filter. *)
Theorem C97_partial :
  forall chol, chol_ok chol ->
  forall (N : numdom) (so : setorder) (ofR : R -> N), (forall r, val (ofR r) = r) ->
  (forall nu (Ku : 'M[R]_nu) i_hx I_ux, quantities so ofR Ku i_hx I_ux ->
   forall Omega (E : expectation Omega) num (u : nat -> Omega -> 'cV[R]_nu), (0 < num)%N ->
   (forall j i i', E (fun w => (u j w i ord0 * u j w i' ord0)%Re) = invmx Ku i i') ->
   forall extent t, exists ks v,
     (forall w, model_sample_kernel chol Ku i_hx I_ux extent (Some (0%Re :: t)) [seq u j w | j <- iota 0 num] = Ok (0%Re :: t, ks w, v w)) /\
     E v = i_hx 0%Re 0%Re) /\
  (forall a m i_hx I_ux, new_gpcm a = Ok m -> a_alpha_t a = None -> good_gpcm m -> @integrals_of N so ofR m i_hx I_ux -> i_hx 0%Re 0%Re = 1%Re) /\
  (forall a m i_hx I_ux, new_rgpcm a = Ok m -> ra_alpha_t a = None -> @rintegrals_of m i_hx I_ux -> i_hx 0%Re 0%Re = 1%Re).
Proof.
  move=> chol Hc N so ofR Ho; split; last split.
  - move=> nu Ku i_hx I_ux H Omega E num u Hn Hu extent t.
    have SP := quantities_spd Ho H.
    pose us w := [seq u j w | j <- iota 0 num].
    exists (fun w => rows chol Ku i_hx I_ux (0%Re :: t) (us w)), (fun w => mean_variance (rows chol Ku i_hx I_ux (0%Re :: t) (us w))); split.
      by move=> w; apply: sample_rows => //; rewrite /us; case: (num) Hn.
    pose o : 'I_(size (0%Re :: t)) := @ord0 (size t).
    pose f j w := sample_kernel chol Ku i_hx I_ux (fun i : 'I_(size (0%Re :: t)) => nth 0%Re (0%Re :: t) i) (u j w) o ord0.
    have Nn : (INR num <> 0)%Re by apply: not_0_INR => En; rewrite En in Hn.
    rewrite (E_ext E (g := fun w => (/ INR num * np_sum [seq f j w | j <- iota 0 num])%Re)).
      rewrite E_scale (E_np_sum (a := i_hx 0%Re 0%Re)); first by field.
      by move=> j; rewrite (sample_kernel_avg Hc i_hx I_ux SP _ o (Hu j)).
    move=> w; rewrite /mean_variance /np_mean /Rdiv -!map_comp Rmult_comm -size_length size_map size_iota; congr (_ * np_sum _)%Re.
    apply: eq_map => j /=; rewrite (nth_map o) ?size_enum_ord // /f.
    have -> // : nth o (enum 'I_(size (0%Re :: t))) 0 = o by exact: (nth_ord_enum o o).
  - move=> a m i_hx I_ux Ha Ea Hm [H1 _]; case: Hm => M _.
    have [A _] := GpcmProps.C16_unit_power N so ofR a m 0%Re Ho Ha Ea (proj1 (proj1 M)).
    exact: A (H1 _ _).
  - move=> a m i_hx I_ux Ha Ea [H1 _]; have := H1 0%Re 0%Re; rewrite (RgpcmProps2.C16_rgpcm_unit_power a m 0%Re Ha Ea); by case.
Qed.
Print Assumptions C97_partial.

(** * C98: power spectral densities *)

Lemma mapM_exists (A B : Type) (f : A -> res B) (P : A -> B -> Prop) (l : seq A) :
  (forall a, List.In a l -> exists b, f a = Ok b /\ P a b) -> exists bs, mapM f l = Ok bs /\ List.Forall2 P l bs.
Proof.
  elim: l => [|a l IH] H; first by exists [::].
  have [b [Eb Pb]] := H a (or_introl erefl); have [|bs [Ebs Pbs]] := IH; first by move=> x Hx; apply: H; right.
  by exists (b :: bs); rewrite /= Eb /= Ebs; split=> //; constructor.
Qed.

Lemma Forall2_nth (A B : Type) (P : A -> B -> Prop) l l' a b j : List.Forall2 P l l' -> (j < size l)%N -> P (nth a l j) (nth b l' j).
Proof. by move=> H; elim: H j => [|x y l1 l2 Hxy H IH] [|j] //= Hj; apply: IH. Qed.
Lemma Forall2_size (A B : Type) (P : A -> B -> Prop) l l' : List.Forall2 P l l' -> size l' = size l.
Proof. by elim=> //= x y l1 l2 _ _ ->. Qed.

Lemma repeat_nseq (x : R) n : List.repeat x n = nseq n x.
Proof. by elim: n => //= n ->. Qed.
Lemma half_div n : n./2 = Nat.div n 2.
Proof.
  rewrite -Nat.div2_div; suff [] : n./2 = Nat.div2 n /\ n.+1./2 = Nat.div2 n.+1 by [].
  by elim: n => [|n [IH1 IH2]] //; split=> //; rewrite /= IH1.
Qed.
Lemma row_size chol nu (Ku : 'M[R]_nu) i_hx I_ux t us k : List.In k (rows chol Ku i_hx I_ux t us) -> List.length k = size t.
Proof. by move=> /List.in_map_iff [u [<- _]]; rewrite -size_length size_map size_enum_ord. Qed.

(** The decibels of numbers that have logarithms are those of [summarise_samples]. *)
Definition proper_report (samples : seq R) (r : option R * seq (option R) * seq (option R)) : Prop :=
  let s := summarise_samples samples true in
  r = (Some (sm_mean s),
       [:: Some (err_68_lower s); Some (err_68_upper s); Some (err_95_lower s); Some (err_95_upper s); Some (err_99_lower s); Some (err_99_upper s)],
       [seq Some v | v <- sm_all_samples s]).

Lemma np_sum_pos l : l <> [::] -> (forall v, List.In v l -> 0 < v)%Re -> (0 < np_sum l)%Re.
Proof.
  elim: l => // x [|y l] IH _ H; first by rewrite /= Rplus_0_r; apply: H; left.
  rewrite -[np_sum _]/(x + np_sum (y :: l))%Re; apply: Rplus_lt_0_compat; first by apply: H; left.
  by apply: IH => // v Hv; apply: H; right.
Qed.
Lemma length_pos (l : seq R) : l <> [::] -> (0 < INR (List.length l))%Re.
Proof. by case: l => // x l _; apply: lt_0_INR; apply/ltP. Qed.
Lemma np_mean_pos l : l <> [::] -> (forall v, List.In v l -> 0 < v)%Re -> (0 < np_mean l)%Re.
Proof. by move=> Nl H; apply: Rdiv_lt_0_compat; [exact: np_sum_pos|exact: length_pos]. Qed.

Lemma least l : l <> [::] -> exists m : R, List.In m l /\ forall v, List.In v l -> (m <= v)%Re.
Proof.
  elim: l => // x [|y l] IH _; first by exists x; split; [left|move=> v [<-|[]]; exact: Rle_refl].
  have [//|m [Im Hm]] := IH; case: (Rle_lt_dec x m) => H.
    by exists x; split; [left|move=> v [<-|/Hm]; [exact: Rle_refl|lra]].
  by exists m; split; [right|move=> v [<-|/Hm //]; lra].
Qed.

Lemma decibel_pos x : (0 < x)%Re -> decibel x = Some (10 * log10 x)%Re.
Proof. by move=> H; rewrite /decibel; destruct (Rlt_dec 0 x) as [?|C]. Qed.
Lemma decibel_neg x : (x <= 0)%Re -> decibel x = None.
Proof. move=> H; rewrite /decibel; destruct (Rlt_dec 0 x) as [?|C] => //; lra. Qed.

Lemma report_pos l : l <> [::] -> (forall v, List.In v l -> 0 < v)%Re -> proper_report l (decibel_report l).
Proof.
  move=> Nl H; have [m [Im Hm]] := least Nl; have Pm := H m Im.
  have Q q : (0 <= q <= 1)%Re -> (0 < np_quantile l q)%Re by move=> Hq; have := UtilProofs2.quantile_ge l q m Nl Hq Hm; lra.
  rewrite /proper_report /decibel_report /= !decibel_pos; try by apply: Q; lra.
    congr (_, _, _); elim: l H {Nl m Im Hm Pm Q} => //= x l IH H; rewrite decibel_pos; last by apply: H; left.
    by rewrite IH // => v Hv; apply: H; right.
  exact: np_mean_pos.
Qed.

Lemma psd_structure z : (0 < z)%N ->
  forall chol nu (Ku : 'M[R]_nu) i_hx I_ux (extent dt : R) (t : seq R) (us : seq 'cV[R]_nu), us <> [::] -> (0 < dt)%Re ->
  let t_k := [:: 0%Re, dt & t] in
  let M := ((size t_k + z) * 2 - 2)%N in
  exists ks v freqs psds reports,
    model_sample_kernel chol Ku i_hx I_ux extent (Some t_k) us = Ok (t_k, ks, v) /\
    predict_psd_with chol Ku i_hx I_ux z extent (Some t_k) us = Ok (freqs, psds, reports) /\
    size freqs = M./2 /\ size psds = size us /\ size reports = M./2 /\
    (forall j, (j < M./2)%N -> nth 0%Re freqs j = (INR j / (INR M * dt))%Re) /\
    (forall i, (i < size us)%N -> exists c, forall j, (j < M./2)%N ->
       nth 0%Re (nth [::] psds i) j = (c * Rabs (UtilSpec.total M (fun l => UtilSpec.even_extension (nth [::] ks i ++ nseq z 0%Re) M l * cos (2 * PI * INR l * INR j / INR M))))%Re) /\
    (forall j, (j < M./2)%N -> let samples := [seq nth 0%Re p j | p <- psds] in
       (forall v, List.In v samples -> (0 < v)%Re) -> proper_report samples (nth (None, [::], [::]) reports j)).
Proof.
  move=> Hz chol nu Ku i_hx I_ux extent dt t us Nu Hd t_k M.
  pose ks := rows chol Ku i_hx I_ux t_k us.
  have EM : model_sample_kernel chol Ku i_hx I_ux extent (Some t_k) us = Ok (t_k, ks, mean_variance ks) by apply: sample_rows.
  have EN : M = (2 * (size t_k + z) - 2)%coq_nat by rewrite /M mulnC.
  have [|fp [Efp F]] := @mapM_exists _ _ (fun k => estimate_psd t_k k z false) (fun k fp =>
      size fp.1 = M./2 /\ (forall j, (j < M./2)%N -> nth 0%Re fp.1 j = (INR j / (INR M * dt))%Re) /\ exists c, forall j, (j < M./2)%N ->
       nth 0%Re fp.2 j = (c * Rabs (UtilSpec.total M (fun l => UtilSpec.even_extension (k ++ nseq z 0%Re) M l * cos (2 * PI * INR l * INR j / INR M))))%Re) ks.
    move=> k Ik; have Lk := row_size Ik.
    have [] := UtilProps.C64_psd_grid k dt z t false Hd.
      by rewrite Lk; apply/leP; rewrite plusE; apply: leq_trans (leq_addr _ _).
    rewrite Lk -EN => freqs [psd [c [E [L1 [L2 L3]]]]]; exists (freqs, psd); split=> //.
    have D2 := half_div M.
    split; first by rewrite -/(List.length _) D2.
    split=> [j Hj|]; first by have [|A _] := L3 j; [apply/ltP; rewrite -D2|rewrite -list_nth].
    exists c => j Hj; have [|_ A] := L3 j; first by apply/ltP; rewrite -D2.
    by rewrite -list_nth A repeat_nseq.
  have NK : ks <> [::] by rewrite /ks; case: (us) Nu.
  have Sz : size fp = size us by rewrite (Forall2_size F) size_map.
  have [f0 [p0 [fp' Ef]]] : exists f0 p0 fp', fp = (f0, p0) :: fp'.
    by case: fp Sz {Efp F} => [|[f0 p0] fp'] Sz; [case: (us) Nu Sz|exists f0, p0, fp'].
  have F0 := Forall2_nth [::] (f0, p0) F (j := 0); rewrite Ef /= in F0.
  have [S0 [S1 _]] := F0 ltac:(by case: (ks) NK).
  exists ks, (mean_variance ks), f0, [seq p.2 | p <- fp]; eexists; split; first by [].
  split; first by rewrite /predict_psd_with /= EM /= Efp /= Ef.
  split=> //; split; first by rewrite size_map.
  split; first by rewrite size_map size_iota.
  split=> //; split.
    move=> i Hi; have Hi' : (i < size ks)%N by rewrite size_map.
    have [_ [_ [c Hcc]]] := Forall2_nth [::] (f0, p0) F Hi'.
    by exists c => j Hj; rewrite (nth_map (f0, p0)) ?Sz // Hcc.
  move=> j Hj samples Hp; rewrite (nth_map 0%N) ?size_iota ?S0 // nth_iota // add0n; apply: report_pos => //.
  by rewrite /samples Ef.
Qed.

(** [predict_psd]: the frequencies are equally spaced with the reciprocal of the duration of the
    padded kernel; every sampled kernel contributes one power spectral density, the absolute
    cosine transform of the symmetrised kernel times one factor; the report at a frequency is
    that of the sampled densities there in decibels as long as these are positive. *)
Theorem C98_partial :
  forall chol nu (Ku : 'M[R]_nu) i_hx I_ux (extent dt : R) (t : seq R) (us : seq 'cV[R]_nu), us <> [::] -> (0 < dt)%Re ->
  let t_k := [:: 0%Re, dt & t] in
  let M := ((size t_k + 2000) * 2 - 2)%N in
  exists ks v freqs psds reports,
    model_sample_kernel chol Ku i_hx I_ux extent (Some t_k) us = Ok (t_k, ks, v) /\
    predict_psd chol Ku i_hx I_ux extent (Some t_k) us = Ok (freqs, psds, reports) /\
    size freqs = M./2 /\ size psds = size us /\ size reports = M./2 /\
    (forall j, (j < M./2)%N -> nth 0%Re freqs j = (INR j / (INR M * dt))%Re) /\
    (forall i, (i < size us)%N -> exists c, forall j, (j < M./2)%N ->
       nth 0%Re (nth [::] psds i) j = (c * Rabs (UtilSpec.total M (fun l => UtilSpec.even_extension (nth [::] ks i ++ nseq 2000 0%Re) M l * cos (2 * PI * INR l * INR j / INR M))))%Re) /\
    (forall j, (j < M./2)%N -> let samples := [seq nth 0%Re p j | p <- psds] in
       (forall v, List.In v samples -> (0 < v)%Re) -> proper_report samples (nth (None, [::], [::]) reports j)).
Proof. exact: (@psd_structure 2000 isT). Qed.
Print Assumptions C98_partial.

Lemma sample_kernel_row chol (Hc : chol_ok chol) (N : numdom) (so : setorder) (ofR : R -> N) (Ho : forall r, val (ofR r) = r)
    nu (Ku : 'M[R]_nu) i_hx I_ux (H : quantities so ofR Ku i_hx I_ux) (u : 'cV[R]_nu) :
  exists k, stationary_covariance k /\ vanishing k /\ forall t, nth [::] (rows chol Ku i_hx I_ux t [:: u]) 0 = [seq k s | s <- t].
Proof.
  have [k [K1 [K2 K3]]] := C96_kernels Hc Ho H (Ku *m u); exists k; split=> //; split=> // t.
  by rewrite /rows /=; apply: sample_row.
Qed.

(** The times of a coarse grid: they start at zero and are then at least [S]. *)
Definition coarse (S : R) (n : nat) (t_k : seq R) : Prop :=
  size t_k = n /\ nth 0%Re t_k 0 = 0%Re /\ forall i, (0 < i < n)%N -> (S <= nth 0%Re t_k i)%Re.

Lemma coarse_mono S S' n t : (S <= S')%Re -> coarse S' n t -> coarse S n t.
Proof. by move=> L [E1 [E2 E3]]; split=> //; split=> // i Hi; apply: Rle_trans (E3 i Hi). Qed.

Definition psd_size z n : nat := (((n + z) * 2 - 2)./2)%N.

Lemma coarse_negative z k n : (0 < z)%N -> stationary_covariance k -> vanishing k -> (1 < n)%N ->
  exists S, (0 < S)%Re /\ forall t_k, coarse S n t_k -> exists fp, estimate_psd t_k [seq k s | s <- t_k] z false = Ok fp /\
    size fp.1 = psd_size z n /\ size fp.2 = psd_size z n /\ forall v, List.In v fp.2 -> (v < 0)%Re.
Proof.
  move=> Hz [_ [_ [P0 _]]] V Hn.
  pose M := (2 * (n + z) - 2)%coq_nat.
  have PM : (0 < INR M)%Re.
    by apply: lt_0_INR; apply/ltP; rewrite /M minusE subn_gt0 -{1}(muln1 2%N) ltn_mul2l /=; apply: leq_trans Hn (leq_addr _ _).
  have P2 : (0 < 4 * INR M ^ 2)%Re by nra.
  pose e := (k 0 / (4 * INR M ^ 2))%Re.
  have Pe : (0 < e)%Re by apply: Rdiv_lt_0_compat.
  have [S HS] := V e Pe; exists (Rmax S 1); split; first by have := Rmax_r S 1; lra.
  move=> t_k [Sz [T0 T1]].
  case: t_k Sz T0 T1 => [|t0 [|dt t]] Sz; [by rewrite -Sz in Hn|by rewrite -Sz in Hn|] => /= T0 T1.
  subst t0.
  have Hd : (0 < dt)%Re by have := T1 1%N Hn => /= D; have := Rmax_r S 1; lra.
  pose ks := [seq k s | s <- [:: 0%Re, dt & t]].
  have Lk : List.length ks = n by rewrite -size_length size_map.
  have [] := PsdFlat.flat_negative ks dt e z t Hd.
  - by rewrite Lk; apply/leP; exact: ltnW.
  - exact/leP.
  - move=> i [/leP I1 /ltP I2]; rewrite Lk in I2.
    have -> : List.nth i ks 0%Re = k (nth 0%Re [:: 0%Re, dt & t] i) by rewrite list_nth (nth_map 0%Re) // Sz.
    have A := T1 i ltac:(by rewrite I1 I2); apply: HS.
    have B1 := Rmax_l S 1; have B2 := Rmax_r S 1; rewrite Rabs_pos_eq; lra.
  - exact: Rlt_le.
  - rewrite Lk -/M -[List.nth 0 ks 0%Re]/(k 0%Re) (_ : 2 * INR M ^ 2 * e = k 0 / 2)%Re; first by lra.
    by rewrite /e; field; lra.
  move=> freqs [psd [E [L Ng]]].
  have [] := UtilProps.C64_psd_grid ks dt z t false Hd.
    by rewrite Lk; apply/leP; rewrite plusE; apply: leq_trans Hn (leq_addr _ _).
  move=> freqs' [psd' [c [E' [L1 [L2 _]]]]]; move: E'; rewrite E => -[E1 E2]; rewrite -{}E1 -{}E2 {freqs' psd'} in L1 L2.
  exists (freqs, psd); split=> //; rewrite /= !size_length.
  have EN : psd_size z n = Nat.div (2 * (List.length ks + z) - 2) 2 by rewrite Lk -half_div /psd_size mulnC.
  by rewrite EN; split.
Qed.

Lemma report_neg l : l <> [::] -> (forall v, List.In v l -> v < 0)%Re ->
  decibel_report l = (None, nseq 6 None, nseq (size l) None).
Proof.
  move=> Nl H.
  have Q q : (0 <= q <= 1)%Re -> (np_quantile l q <= 0)%Re by move=> Hq; apply: (PsdFlat.quantile_le l q 0%Re Nl Hq) => v Hv; have := H v Hv; lra.
  rewrite /decibel_report /= !decibel_neg; try by apply: Q; lra.
    by congr (_, _, _); elim: l H {Nl Q} => //= x l IH H; rewrite decibel_neg ?IH // => [v Hv|]; [apply: H; right|have := H x (or_introl erefl); lra].
  apply: Rlt_le; rewrite /np_mean; have L := length_pos Nl.
  have : (0 < np_sum [seq - v | v <- l])%Re by apply: np_sum_pos => [|v /List.in_map_iff [w [<- /H]]]; [case: (l) Nl|rewrite /GRing.opp /=; lra].
  have -> : np_sum [seq - v | v <- l] = (- np_sum l)%Re.
    by elim: (l) => [|x r IH]; [rewrite /= Ropp_0|rewrite -[np_sum (x :: r)]/(x + np_sum r)%Re Ropp_plus_distr -IH].
  move=> A; rewrite (_ : np_sum l / _ = - (- np_sum l / INR (List.length l)))%Re; last by field; lra.
  by apply: Ropp_lt_gt_0_contravar; apply: Rdiv_lt_0_compat.
Qed.

Lemma coarse_refuted z : (0 < z)%N ->
  forall chol, chol_ok chol ->
  forall (N : numdom) (so : setorder) (ofR : R -> N), (forall r, val (ofR r) = r) ->
  forall nu (Ku : 'M[R]_nu) i_hx I_ux, quantities so ofR Ku i_hx I_ux ->
  forall (us : seq 'cV[R]_nu) n, us <> [::] -> (1 < n)%N ->
  exists S, (0 < S)%Re /\ forall extent t_k, coarse S n t_k ->
  exists freqs psds reports,
    predict_psd_with chol Ku i_hx I_ux z extent (Some t_k) us = Ok (freqs, psds, reports) /\
    size psds = size us /\ (0 < size freqs)%N /\ size reports = size freqs /\
    (forall p v, List.In p psds -> List.In v p -> (v < 0)%Re) /\
    forall r, List.In r reports -> r = (None, nseq 6 None, nseq (size us) None).
Proof.
  move=> Hz chol Hc N so ofR Ho nu Ku i_hx I_ux H us n Nu Hn.
  have [S [PS HS]] : exists S, (0 < S)%Re /\ forall t_k, coarse S n t_k -> exists fp,
      mapM (fun k => estimate_psd t_k k z false) (rows chol Ku i_hx I_ux t_k us) = Ok fp /\ size fp = size us /\
      List.Forall (fun fp => size fp.1 = psd_size z n /\ size fp.2 = psd_size z n /\ forall v, List.In v fp.2 -> (v < 0)%Re) fp.
    elim: us {Nu} => [|u us [S [PS IH]]]; first by exists 1%Re; split; [lra|move=> t _; exists [::]].
    have [k [K1 [K2 K3]]] := sample_kernel_row Hc Ho H u.
    have [S' [PS' HS']] := coarse_negative Hz K1 K2 Hn.
    exists (Rmax S S'); split; first by have := Rmax_l S S'; lra.
    move=> t Ht; have [fp [E1 [E2 E3]]] := IH t (coarse_mono (Rmax_l _ _) Ht).
    have [f [F1 F2]] := HS' t (coarse_mono (Rmax_r _ _) Ht).
    exists (f :: fp); rewrite /rows /= in K3 E1 *; rewrite K3 F1 /= E1; split=> //; split; first by rewrite /= E2.
    by constructor.
  exists S; split=> // extent t_k Ht; have [fp [E1 [E2 E3]]] := HS t_k Ht.
  have Nt : t_k <> [::] by case: (t_k) Ht => // -[/= A _]; rewrite -A in Hn.
  have P : (0 < psd_size z n)%N by rewrite /psd_size -{2}(mul1n 2%N) -mulnBl muln2 doubleK subn_gt0 ltn_addr.
  have [f0 [p0 [fp' Ef]]] : exists f0 p0 fp', fp = (f0, p0) :: fp'.
    by case: fp E2 {E1 E3} => [|[f0 p0] fp'] Sz; [case: (us) Nu Sz|exists f0, p0, fp'].
  have S0 : size f0 = psd_size z n by rewrite Ef in E3; have [A _] := List.Forall_inv E3.
  rewrite /predict_psd_with /= (@sample_rows _ _ _ _ _ _ (Some t_k) t_k us erefl Nu Nt) /= E1 /=.
  do 3 eexists; split; first by [].
  split; first by rewrite size_map.
  split; first by rewrite Ef S0.
  split; first by rewrite size_map size_iota.
  split.
    move=> p v /List.in_map_iff [q [<- Hq]] Hv.
    by have [_ [_ A]] := proj1 (List.Forall_forall _ _) E3 q Hq; apply: A.
  move=> r /List.in_map_iff [i [<- Hi]].
  have {}Hi : (i < psd_size z n)%N by move: Hi => /List.in_seq; rewrite Ef S0; case=> _ /ltP; exact.
  rewrite report_neg; first by rewrite size_map size_map E2.
    by case: (fp) E2 => // E2; case: (us) Nu E2.
  move=> v /List.in_map_iff [p [<- /List.in_map_iff [q [<- Hq]]]].
  have [_ [Lq A]] := proj1 (List.Forall_forall _ _) E3 q Hq; apply: A.
  by rewrite -list_nth; apply: List.nth_In; apply/ltP; rewrite -size_length Lq.
Qed.

(** For all samples and every number of times there is a spacing beyond which all estimated
    power spectral densities are negative, so that every value that [predict_psd] reports is
    not a number. *)
Theorem C98_refuted :
  forall chol, chol_ok chol ->
  forall (N : numdom) (so : setorder) (ofR : R -> N), (forall r, val (ofR r) = r) ->
  forall nu (Ku : 'M[R]_nu) i_hx I_ux, quantities so ofR Ku i_hx I_ux ->
  forall (us : seq 'cV[R]_nu) n, us <> [::] -> (1 < n)%N ->
  exists S, (0 < S)%Re /\ forall extent t_k, coarse S n t_k ->
  exists freqs psds reports,
    predict_psd chol Ku i_hx I_ux extent (Some t_k) us = Ok (freqs, psds, reports) /\
    size psds = size us /\ (0 < size freqs)%N /\ size reports = size freqs /\
    (forall p v, List.In p psds -> List.In v p -> (v < 0)%Re) /\
    forall r, List.In r reports -> r = (None, nseq 6 None, nseq (size us) None).
Proof. exact: (@coarse_refuted 2000 isT). Qed.
Print Assumptions C98_refuted.

Lemma mapM_err (A B : Type) (f : A -> res B) x l e : f x = Err e -> mapM f (x :: l) = Err e.
Proof. by move=> E; rewrite /= E. Qed.

(** Times that do not start at zero are refused; the default times start at zero. *)
Theorem C98_times :
  forall chol nu (Ku : 'M[R]_nu) i_hx I_ux extent (us : seq 'cV[R]_nu), us <> [::] ->
  (forall t0 t, t0 <> 0%Re -> predict_psd chol Ku i_hx I_ux extent (Some (t0 :: t)) us = Err ValueError) /\
  exists t, equally_spaced (2 * extent)%Re 1000 t /\ nth 0%Re t 0 = 0%Re /\
    predict_psd chol Ku i_hx I_ux extent None us = predict_psd chol Ku i_hx I_ux extent (Some t) us.
Proof.
  move=> chol nu Ku i_hx I_ux extent us Nu; split.
    move=> t0 t Nt; rewrite /predict_psd; move: 2000%N => z; rewrite /predict_psd_with /= (@sample_rows _ _ _ _ _ _ (Some (t0 :: t)) (t0 :: t) us erefl Nu) //.
    have E : mapM (fun k => estimate_psd (t0 :: t) k z false) (rows chol Ku i_hx I_ux (t0 :: t) us) = Err ValueError.
      by case: us Nu => // u us _; apply: mapM_err; exact: UtilProps.C64_refuses.
    by cbn [bind]; rewrite E.
  have [t Et] := times_default_ok (2 * extent)%Re 1000; have D := @times_default _ 1000 t isT Et.
  exists t; split=> //; split; first by case: D => _ ->; rewrite ?Rmult_0_l.
  by rewrite /predict_psd; move: 2000%N => z; rewrite /predict_psd_with (_ : times_or _ 1000 None = Ok t).
Qed.
Print Assumptions C98_times.

(** * The hypotheses are met *)

Lemma toy_good : good_rgpcm RgpcmProps.toy.
Proof.
  split; first by split=> /=; lra.
  split; first by move=> /=; lra.
  split; first by move=> /=; lra.
  split; first by move=> /=; lra.
  split; first by move=> /=; lra.
  split; last by move=> t /= [<-|[<-|[]]]; lra.
  by constructor; [move=> [|[]]; lra|constructor; [case|constructor]].
Qed.
Lemma rquantities_exist m : good_rgpcm m ->
  exists Ku i_hx I_ux, rcompute_K_u m = Ok Ku /\ @rintegrals_of m i_hx I_ux.
Proof.
  move=> Hm; case: (Hm) => -[Pa Pg Pl] [_ [_ [Ng [Nl _]]]].
  do 3 eexists; split; last split.
  - by rewrite /rcompute_K_u rdiv_ok; last lra.
  - by move=> s s'; rewrite /rcompute_i_hx rdiv_ok //; lra.
  - move=> s s'; exists (List.map (fun u1 => List.map (RgpcmUx.ux_value m s s' u1) (r_t_u m)) (r_t_u m)); split; last by [].
    rewrite /rcompute_I_ux4 /= (RgpcmPerm.mapM_ext_In (fun u1 => mapM _ _) (fun u1 => List.map (RgpcmUx.ux_value m s s' u1) (r_t_u m))) //.
    by move=> u1 _; apply: RgpcmPerm.mapM_ext_In => u2 _; apply: RgpcmUx.ux_elem.
Qed.

Example C96_witness :
  chol_ok some_chol /\
  (forall causal, exists m G i_hx I_ux, good_gpcm m /\ g_causal m = causal /\ gpcm_gp ord_id idR m = Ok G /\ @integrals_of RTensorDom ord_id idR m i_hx I_ux /\
     quantities (N := RTensorDom) ord_id idR (K_u G) i_hx I_ux) /\
  exists m Ku i_hx I_ux, good_rgpcm m /\ rcompute_K_u m = Ok Ku /\ @rintegrals_of m i_hx I_ux /\
     quantities (N := RTensorDom) ord_id idR (mat _ _ Ku) i_hx I_ux.
Proof.
  split; first exact: some_chol_ok.
  split.
    move=> causal; have [_ [_ [_ [_ W]]]] := C87_witness; have [m [G [i_hx [I_ux [H1 [H2 [H3 H4]]]]]]] := W causal.
    by exists m, G, i_hx, I_ux; do ! split=> //; apply: of_gpcm.
  have [Ku [i_hx [I_ux [H1 H2]]]] := rquantities_exist toy_good.
  by exists RgpcmProps.toy, Ku, i_hx, I_ux; split; [exact: toy_good|split=> //; split=> //; apply: of_rgpcm => //; exact: toy_good].
Qed.

(** Nonempty sets of inducing points, and one after time zero. *)
Example C97_witness :
  (forall causal, exists m, new_gpcm (default_args causal 1 1 [:: 0%Re; 1%Re]) = Ok m /\ good_gpcm m /\ g_t_u m <> [::]) /\
  good_rgpcm RgpcmProps.toy /\ exists s, List.In s (r_t_u RgpcmProps.toy) /\ (0 < s)%Re.
Proof.
  split; last by split; [exact: toy_good|exists 1%Re; split; [right; left|lra]].
  move=> causal; have [m [Em Hm]] := GpcmEndProps.C86_witness causal; exists m; split=> //; split=> // Et.
  have Pa : (0 < g_alpha m)%Re by case: Hm => M _; exact: (GpcmProofs3.moderate_pos _ (proj1 (proj1 M))).
  have Pq : (0 < PI / g_alpha m)%Re by apply: Rdiv_lt_0_compat => //; exact: PI_RGT_0.
  have [] := GpcmProps.C17_filter_grid _ m (sqrt (PI / g_alpha m)) Em erefl _ Pa (sqrt_lt_R0 _ Pq).
  - by split; [|exists 1%Re, 1%Re; split=> //; split=> //; lra].
  - by rewrite -[(sqrt _ ^ 2)%Re]Rsqr_pow2 Rsqr_sqrt; [congr exp; field; lra|exact: Rlt_le].
  by move=> _ [I _]; rewrite Et in I.
Qed.

(** A coarse grid with a thousand times. *)
Example C98_witness : forall S, (0 < S)%Re -> coarse S 1000 [seq (INR i * S)%Re | i <- iota 0 1000].
Proof.
  move=> S PS; have : (0 < 1000)%N by []. move: 1000%N => n Hn; split; first by rewrite size_map size_iota.
  split=> [|i /andP [I1 I2]]; first by rewrite (nth_map 0%N) ?size_iota // nth_iota // Rmult_0_l.
  rewrite (nth_map 0%N) ?size_iota // nth_iota // add0n.
  have : (1 <= INR i)%Re by apply: (le_INR 1); apply/leP.
  nra.
Qed.
