(** Model of the orchestration in gpcm/approx.py and gpcm/model.py: schemes, fitting,
    conditioning and prediction from samples, and of [build_models] and the training
    configuration in experiments/experiment.py.

    The numerical work is abstract here: draws from conditionals, coordinate ascent and the
    optimisers are arbitrary functions.  Integers that users pass are [Z]. *)
From Coq Require Import ZArith List Bool String Ascii.
From Verif Require Import Py.
Import ListNotations.
Local Open Scope list_scope.

(** Python: [str.lower] on ASCII letters. *)
Definition lower_char (c : ascii) : ascii :=
  let n := nat_of_ascii c in
  if (Nat.leb 65 n && Nat.leb n 90)%bool then ascii_of_nat (n + 32) else c.
Fixpoint lower (s : string) : string :=
  match s with EmptyString => EmptyString | String c s => String (lower_char c) (lower s) end.

(** The approximation that a scheme stands for: [Structured], or [MeanField] with the fitting
    method [fit] (approx.py 573-583). *)
Inductive approximation := Structured | MeanField (fit : string).

(** model.py 34-37 and 52-72: the scheme is lowered by the constructor and resolved by
    [__prior__]. *)
Definition resolve_scheme (scheme : string) : res approximation :=
  let scheme := lower scheme in
  if String.eqb scheme "structured" then Ok Structured
  else if String.eqb scheme "mean-field" then Ok (MeanField "ca-collapsed-bfgs")
  else if String.eqb scheme "mean-field-ca" then Ok (MeanField "ca")
  else if String.eqb scheme "mean-field-gradient" then Ok (MeanField "bfgs")
  else if String.eqb scheme "mean-field-collapsed-gradient" then Ok (MeanField "collapsed-bfgs")
  else if String.eqb scheme "mean-field-ca-gradient" then Ok (MeanField "ca-bfgs")
  else if String.eqb scheme "mean-field-ca-collapsed-gradient" then Ok (MeanField "ca-collapsed-bfgs")
  else Err ValueError.

(** The Python values passed for the argument [current] of [ignore_qs]. *)
Inductive current_arg := CBool (b : bool) | CStr (s : string).

(** A posterior whose variables are excluded: that of u or of z, with its index.  In the code it
    is a pattern that varz resolves to all variables of that posterior. *)
Inductive excluded := ExU (i : nat) | ExZ (i : nat).

(** approx.py 92-119: [ignore_qs]; [None] is an argument that is not passed.  Neither argument
    has a default. *)
Definition ignore_qs (q_i : nat) (previous : option bool) (current : option current_arg)
    : res (list excluded) :=
  match previous, current with
  | Some previous, Some current =>
      let names := if previous then flat_map (fun i => [ExU i; ExZ i]) (seq 0 q_i) else [] in
      match current with
      | CBool true => Ok (names ++ [ExU q_i; ExZ q_i])
      | CStr "u" => Ok (names ++ [ExU q_i])
      | CStr "z" => Ok (names ++ [ExZ q_i])
      | _ => Err ValueError
      end
  | _, _ => Err TypeError
  end.

Section Fit.
(** Hyperparameters; samples of u and of z; the random state; distributions over u and over z;
    a set of observations; times to predict at; what predictions return. *)
Variables H U Z_ S DU DZ Data Times Out : Type.

(** The variables of a model: the hyperparameters and, for each index, the parameters and the
    stored samples of the posteriors.  Parameters that have not been accessed hold their random
    initial values. *)
Record vars := Vars {
  hypers : H;
  vq_u : nat -> DU;
  vq_z : nat -> DZ;
  vs_u : nat -> option (list U);
  vs_z : nat -> option (list Z_) }.

(** Draws from [q_u_optimal(ts, z)], [q_z_optimal(ts, u)], [q_u] and [q_z]. *)
Variable sample_u : H -> Data -> S -> Z_ -> S * U.
Variable sample_z : H -> Data -> S -> U -> S * Z_.
Variable sample_q_u : DU -> S -> S * U.
Variable sample_q_z : DZ -> S -> S * Z_.

(** approx.py 729-737: the loop of [gibbs_sample] from iteration [i] on. *)
Fixpoint gibbs_loop (h : H) (d : Data) (subsample : option Z) (i : Z) (iters : nat)
    (state : S) (u : U) (z : Z_) : S * list U * list Z_ :=
  match iters with
  | O => (state, [], [])
  | Datatypes.S iters =>
      let (state, u) := sample_u h d state z in
      let (state, z) := sample_z h d state u in
      let '(state', us, zs) := gibbs_loop h d subsample (i + 1) iters state u z in
      if match subsample with None => true | Some s => (i mod s =? 0)%Z end
      then (state', u :: us, z :: zs) else (state', us, zs)
  end.

(** approx.py 708-739: [gibbs_sample] for the model with variables [vs] and counter [q_i]. *)
Definition gibbs_sample (vs : vars) (q_i : nat) (d : Data) (state : S) (iters : Z)
    (subsample : option Z) (u : option U) (z : option Z_) : S * list U * list Z_ :=
  let (state, u) := match u with Some u => (state, u) | None => sample_q_u (vq_u vs q_i) state end in
  let (state, z) := match z with Some z => (state, z) | None => sample_q_z (vq_z vs q_i) state end in
  gibbs_loop (hypers vs) d subsample 0 (Z.to_nat iters) state u z.

(** The Python values passed for [optimise_hypers]. *)
Inductive opt_hypers := HBool (b : bool) | HInt (n : Z).
Definition truthy (o : opt_hypers) : bool :=
  match o with HBool b => b | HInt n => negb (n =? 0)%Z end.

(** [minimise_adam] and [minimise_l_bfgs_b] (varz), with the names to exclude. *)
Variable minimise_adam : list excluded -> Z -> Data -> vars * S * U * Z_ -> vars * S * U * Z_.
Variable minimise_l_bfgs_b : list excluded -> Z -> option string -> Data -> vars * S -> vars * S.

(** approx.py 372-396: the setters of the samples replace what is stored. *)
Definition set_samples (vs : vars) (q_i : nat) (us : list U) (zs : list Z_) : vars :=
  Vars (hypers vs) (vq_u vs) (vq_z vs)
    (fun i => if Nat.eqb i q_i then Some us else vs_u vs i)
    (fun i => if Nat.eqb i q_i then Some zs else vs_z vs i).

(** Python: [l[-1]]. *)
Definition last_of {A} (l : list A) : res A :=
  match rev l with [] => Err IndexError | x :: _ => Ok x end.

(** Python: [a // b]. *)
Definition floordiv (a b : Z) : res Z := if (b =? 0)%Z then Err ZeroDivisionError else Ok (a / b)%Z.

(** approx.py 741-783: [fit] for a structured approximation; [state] is the random state created
    with a fixed seed. *)
Definition fit_structured (vs : vars) (q_i : nat) (d : Data) (state : S) (iters : Z)
    (optimise_hypers : opt_hypers) (num_samples : Z) : res vars :=
  let '(state, us, zs) := gibbs_sample vs q_i d state (iters / 2) None None None in
  do u <- last_of us;
  do z <- last_of zs;
  do r <-
    (if truthy optimise_hypers then
       do iters_hypers <- match optimise_hypers with
                          | HBool _ => floordiv iters num_samples
                          | HInt n => Ok n
                          end;
       do names <- ignore_qs q_i (Some true) (Some (CBool true));
       Ok (minimise_adam names iters_hypers d (vs, state, u, z))
     else Ok (vs, state, u, z));
  let '(vs, state, u, z) := r in
  let thousands := if (1000 <? iters)%Z then (iters / 1000)%Z else 1%Z in
  let '(_, us, zs) := gibbs_sample vs q_i d state (thousands * 1000) (Some thousands) (Some u) (Some z) in
  Ok (set_samples vs q_i us zs).

(** approx.py 51-90: the setters of [q_u] and [q_z] write the posterior with the current index. *)
Definition set_q_u (vs : vars) (q_i : nat) (q : DU) : vars :=
  Vars (hypers vs) (fun i => if Nat.eqb i q_i then q else vq_u vs i) (vq_z vs) (vs_u vs) (vs_z vs).
Definition set_q_z (vs : vars) (q_i : nat) (q : DZ) : vars :=
  Vars (hypers vs) (vq_u vs) (fun i => if Nat.eqb i q_i then q else vq_z vs i) (vs_u vs) (vs_z vs).

(** The fixed-point iterations of coordinate ascent (modelled in ApproxModel), from the current
    posteriors and for a number of iterations. *)
Variable ca_iterations : H -> Data -> Z -> DU -> DZ -> DU * DZ.
(** [q_z_optimal_mean_field(ts, q_u)] (modelled in ApproxModel). *)
Variable q_z_optimal_mean_field : H -> Data -> DU -> DZ.

(** approx.py 296-356: [_fit_mean_field_ca]. *)
Definition fit_mean_field_ca (q_i : nat) (d : Data) (iters : Z) (vs : vars) : vars :=
  let (q_u, q_z) := ca_iterations (hypers vs) d iters (vq_u vs q_i) (vq_z vs q_i) in
  set_q_z (set_q_u vs q_i q_u) q_i q_z.

(** approx.py 841-846: the explicit update of q(z). *)
Definition update_q_z (q_i : nat) (d : Data) (vs : vars) : vars :=
  set_q_z vs q_i (q_z_optimal_mean_field (hypers vs) d (vq_u vs q_i)).

(** approx.py 398-419: what [Structured.elbo] does to the variables: it fits a mean-field
    approximation with the default number of iterations. *)
Definition elbo_structured_effect (q_i : nat) (d : Data) (vs : vars) : vars :=
  fit_mean_field_ca q_i d 5000 vs.

(** approx.py 786-855: [fit] for a mean-field approximation with method [method]. *)
Definition fit_mean_field (method : string) (vs : vars) (q_i : nat) (d : Data) (state : S) (iters : Z)
    : res vars :=
  if String.eqb method "ca" then Ok (fit_mean_field_ca q_i d iters vs)
  else if String.eqb method "bfgs" then
    let vs := if String.eqb method "ca-bfgs" then fit_mean_field_ca q_i d iters vs else vs in
    do names <- ignore_qs q_i (Some true) None;
    let (vs, _) := minimise_l_bfgs_b names (iters / 5) None d (vs, state) in
    let vs := if String.eqb method "ca-bfgs" then fit_mean_field_ca q_i d iters vs else vs in
    Ok vs
  else if (String.eqb method "ca-collapsed-bfgs" || String.eqb method "collapsed-bfgs")%bool then
    let vs := if String.eqb method "ca-collapsed-bfgs" then fit_mean_field_ca q_i d iters vs else vs in
    do names <- ignore_qs q_i (Some true) (Some (CStr "z"));
    let (vs, _) := minimise_l_bfgs_b names (iters / 5) (Some "z"%string) d (vs, state) in
    let vs := update_q_z q_i d vs in
    let vs := if String.eqb method "ca-collapsed-bfgs" then fit_mean_field_ca q_i d iters vs else vs in
    Ok vs
  else Err ValueError.

(** The keyword arguments of a call of [fit], with their values. *)
Record fit_args := FitArgs {
  fa_iters : option Z;
  fa_rate : option unit;
  fa_optimise_hypers : option opt_hypers;
  fa_num_samples : option Z }.

(** model.py 277-279 and the two methods of [fit]: the mean-field one takes no keyword argument
    but [iters]. *)
Definition fit (scheme : string) (vs : vars) (q_i : nat) (d : Data) (state : S) (args : fit_args) : res vars :=
  do a <- resolve_scheme scheme;
  let iters := match fa_iters args with Some n => n | None => 5000%Z end in
  match a with
  | Structured =>
      fit_structured vs q_i d state iters
        (match fa_optimise_hypers args with Some o => o | None => HBool true end)
        (match fa_num_samples args with Some n => n | None => 5%Z end)
  | MeanField method =>
      match fa_rate args, fa_optimise_hypers args, fa_num_samples args with
      | None, None, None => fit_mean_field method vs q_i d state iters
      | _, _, _ => Err TypeError
      end
  end.

(** An instantiated model: its variables, the counter and the terms of the last conditioning
    ([self.ts], unset before the first one), here represented by the observations. *)
Record instance := Instance { in_vs : vars; in_q_i : nat; in_ts : option Data }.

(** approx.py 121-130 and model.py 74-75: [condition]. *)
Definition condition (i : instance) (d : Data) : instance :=
  Instance (in_vs i) (Datatypes.S (in_q_i i)) (Some d).

(** approx.py 29-32: [_columns(xs, num)]. *)
Definition columns {A} (xs : list A) (num : nat) : list A := firstn (Nat.min (List.length xs) num) xs.

(** Draws of [num] samples from the prior of u and of z. *)
Variable prior_u : H -> nat -> S -> list U.
Variable prior_z : H -> nat -> S -> list Z_.

(** approx.py 505-509, 551-555: the samples of the current prior; reading samples that were never
    stored fails. *)
Definition sample_p_u (i : instance) (num : nat) (state : S) : res (list U) :=
  match in_q_i i with
  | O => Ok (prior_u (hypers (in_vs i)) num state)
  | Datatypes.S j =>
      match vs_u (in_vs i) j with Some us => Ok (columns us num) | None => Err KeyError end
  end.
Definition sample_p_z (i : instance) (num : nat) (state : S) : res (list Z_) :=
  match in_q_i i with
  | O => Ok (prior_z (hypers (in_vs i)) num state)
  | Datatypes.S j =>
      match vs_z (in_vs i) j with Some zs => Ok (columns zs num) | None => Err KeyError end
  end.

(** What [Structured.predict] averages, [Structured.sample_kernel] stacks and
    [Structured.predict_z] averages for a non-empty list of samples. *)
Variable predict_with : H -> Data -> Times -> list U -> Out.
Variable kernel_with : H -> Times -> U -> Out.
Variable features_with : H -> list Z_ -> Out.
(** What [MeanField.predict_z] returns. *)
Variable features_mean_field : DZ -> Out.
(** The priors of u and of z. *)
Variable prior_u_dist : H -> DU.
Variable prior_z_dist : H -> DZ.
(** The summary of filters sampled given samples from a distribution over u. *)
Variable filter_with : H -> DU -> Times -> nat -> S -> Out.

(** approx.py 511-534: [Structured.predict]; the terms [self.ts] are read for every sample, and an
    empty list of results cannot be unpacked. *)
Definition predict_structured (i : instance) (t : Times) (num : nat) (state : S) : res Out :=
  do us <- sample_p_u i num state;
  match us with
  | [] => Err ValueError
  | _ =>
      match in_ts i with
      | Some d => Ok (predict_with (hypers (in_vs i)) d t us)
      | None => Err AttributeError
      end
  end.

(** approx.py 536-549: [Structured.sample_kernel]: one result for each sample. *)
Definition sample_kernel_structured (i : instance) (t : Times) (num : nat) (state : S) : res (list Out) :=
  do us <- sample_p_u i num state;
  match us with
  | [] => Err ValueError
  | _ => Ok (map (kernel_with (hypers (in_vs i)) t) us)
  end.

(** approx.py 557-570: [Structured.predict_z]. *)
Definition predict_z_structured (i : instance) (num : nat) (state : S) : res Out :=
  do zs <- sample_p_z i num state;
  match zs with [] => Err ValueError | _ => Ok (features_with (hypers (in_vs i)) zs) end.

(** approx.py 69-78: the current prior of z. *)
Definition p_z (i : instance) : DZ :=
  match in_q_i i with O => prior_z_dist (hypers (in_vs i)) | Datatypes.S j => vq_z (in_vs i) j end.

(** approx.py 46-55: the current prior of u. *)
Definition p_u (i : instance) : DU :=
  match in_q_i i with O => prior_u_dist (hypers (in_vs i)) | Datatypes.S j => vq_u (in_vs i) j end.

(** model.py 158-199: [predict_filter], for every scheme: [num] times a sample of u from
    [approximation.p_u], then the filter given that sample, summarised. *)
Definition predict_filter (i : instance) (t : Times) (num : nat) (state : S) : Out :=
  filter_with (hypers (in_vs i)) (p_u i) t num state.

(** approx.py 677-684: [MeanField.predict_z], which takes no argument; [num_samples] is what is
    passed by keyword, if anything. *)
Definition predict_z_mean_field (i : instance) (num_samples : option nat) : res Out :=
  match num_samples with None => Ok (features_mean_field (p_z i)) | Some _ => Err TypeError end.

(** model.py 146-156: [predict_fourier], which passes [num_samples] by keyword. *)
Definition predict_fourier (scheme : string) (i : instance) (num_samples : nat) (state : S) : res Out :=
  do a <- resolve_scheme scheme;
  match a with
  | Structured => predict_z_structured i num_samples state
  | MeanField _ => predict_z_mean_field i (Some num_samples)
  end.
End Fit.

(** The models of the three families (experiments/experiment.py 150-202). *)
Inductive family := FGPCM | FCGPCM | FRGPCM.

(** Python: [name in names] and [set(names) - {name}]; only membership and emptiness of the
    result are used. *)
Definition elem (s : string) (l : list string) : bool := existsb (String.eqb s) l.
Definition remove_name (s : string) (l : list string) : list string :=
  filter (fun t => negb (String.eqb s t)) l.

(** experiment.py 119-208: [build_models], the families in the order of construction. *)
Definition build_models (names : list string) : res (list family) :=
  let '(models, names) :=
    if elem "gpcm" names then ([FGPCM], remove_name "gpcm" names) else ([], names) in
  let '(models, names) :=
    if elem "cgpcm" names then (models ++ [FCGPCM], remove_name "cgpcm" names) else (models, names) in
  let '(models, names) :=
    if elem "gprv" names then (models ++ [FRGPCM], remove_name "gprv" names) else (models, names) in
  match names with [] => Ok models | _ => Err ValueError end.

(** experiment.py 102-111: the training configuration made from the command-line arguments. *)
Definition train_config (iters : option Z) (fix_hypers : bool) : fit_args :=
  FitArgs (match iters with Some 0%Z => None | o => o end) None
    (if fix_hypers then Some (HBool (negb fix_hypers)) else None) None.

(** The variable container (varz) and its persistence.  A variable has a value and is visible to
    optimisers or not; names are unique. *)
Section Store.
Variable V : Type.
Record variable := Variable_ { value : V; visible : bool }.
Definition store := list (string * variable).

(** Lookup by name. *)
Fixpoint lookup (s : store) (n : string) : option variable :=
  match s with
  | [] => None
  | (m, v) :: s => if String.eqb n m then Some v else lookup s n
  end.
Definition names (s : store) : list string := map fst s.

(** varz: [assign] keeps visibility. *)
Fixpoint assign (s : store) (n : string) (x : V) : store :=
  match s with
  | [] => []
  | (m, v) :: s => if String.eqb n m then (m, Variable_ x (visible v)) :: s else (m, v) :: assign s n x
  end.

(** model.py 249-258: [save]: a dictionary from every name to its value. *)
Definition save (s : store) : list (string * V) :=
  flat_map (fun n => match lookup s n with Some v => [(n, value v)] | None => [] end) (names s).

(** model.py 260-274: [load]. *)
Definition load1 (s : store) (p : string * V) : store :=
  match lookup s (fst p) with
  | Some _ => assign s (fst p) (snd p)
  | None => s ++ [(fst p, Variable_ (snd p) false)]
  end.
Definition load (s : store) (data : list (string * V)) : store := fold_left load1 data s.

(** varz: without names, the optimisers work on the visible variables. *)
Definition optimised (s : store) : list string :=
  map fst (filter (fun p => visible (snd p)) s).

(** varz: [unbounded], [positive], ... with a name: an existing variable is returned as it is,
    otherwise a visible one is created with the initial value. *)
Definition get_or_init (s : store) (n : string) (init : V) : store :=
  match lookup s n with Some _ => s | None => s ++ [(n, Variable_ init true)] end.
End Store.
