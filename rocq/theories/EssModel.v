(** Model of gpcm/sample.py: elliptical slice sampling.

    A tensor is a function from its index set to the reals.  Random numbers come from an
    arbitrary generator: a state [G] that every draw advances.  Exceptions are values.  The
    infinite retry loop takes fuel; a run that does not finish within its fuel is [None], and
    theorems are stated for every amount of fuel. *)
From Coq Require Import Reals List.
Import ListNotations.
Local Open Scope R_scope.

Section Ess.
(** Indices of the tensor, and the generator with its three kinds of draws:
    [rng.uniform(l, u)], [rng.exponential(1.0)] and [sample_prior()]. *)
Variables (D G : Type).
Definition tensor := D -> R.
Variable uniform : R -> R -> G -> R * G.
Variable exponential : G -> R * G.
Variable sample_prior : G -> tensor * G.
Variable log_lik : tensor -> R.

(** The attributes [x], [log_lik_x], [y], [theta], [x_proposed] and [log_lik_x_proposed] of the
    sampler (sample.py 28-39, 50-64), with the generator.  [y] and the proposal are undefined
    attributes before the first sample; they are arbitrary here and never read before being
    written. *)
Record ess := Ess {
  x : tensor;
  log_lik_x : R;
  y : tensor;
  theta : R;
  x_proposed : tensor;
  log_lik_x_proposed : R;
  gen : G }.

(** sample.py 41-48: [move]. *)
Definition move (self : ess) (x' : tensor) : ess :=
  Ess x' (log_lik x') (y self) (theta self) (x_proposed self) (log_lik_x_proposed self) (gen self).

(** sample.py 27-39: [__init__]. *)
Definition init (x_init : option tensor) (g : G) : ess :=
  match x_init with
  | Some x0 => move (Ess x0 0 x0 0 x0 0 g) x0
  | None => let (x0, g') := sample_prior g in move (Ess x0 0 x0 0 x0 0 g') x0
  end.

(** sample.py 50-52: [_establish_ellipse]. *)
Definition establish_ellipse (self : ess) : ess :=
  let (y', g) := sample_prior (gen self) in
  Ess (x self) (log_lik_x self) y' (theta self) (x_proposed self) (log_lik_x_proposed self) g.

(** sample.py 54-64: [_draw_proposal]. *)
Definition draw_proposal (self : ess) (lower upper : R) : ess :=
  let (th, g) := uniform lower upper (gen self) in
  let xp := fun d => cos th * x self d + sin th * y self d in
  Ess (x self) (log_lik_x self) (y self) th xp (log_lik xp) g.

(** sample.py 66-73: [_draw_bracket]. *)
Definition draw_bracket (self : ess) : (R * R) * ess :=
  let (th, g) := uniform 0 (2 * PI) (gen self) in
  ((th - 2 * PI, th),
   Ess (x self) (log_lik_x self) (y self) (theta self) (x_proposed self) (log_lik_x_proposed self) g).

(** One pass through the body of [_draw]: the bracket and the sampler after the proposal. *)
Record attempt := Attempt { at_lower : R; at_upper : R; at_self : ess }.

(** sample.py 75-103: [_draw], after [attempts] attempts.  The recursive calls do not pass
    [max_attempts] on, so the default of 100 applies to them; [sample] never passes another
    value.  [fuel] is the number of calls still allowed by the check against 100.  Returns the
    attempts made, the final sampler and either the accepted state, its log-likelihood and the
    reported number, or [None] for [SampleFailedException]. *)
Fixpoint draw_rec (fuel attempts : nat) (self : ess) (lower upper u : R)
    : list attempt * ess * option (tensor * R * nat) :=
  match fuel with
  | O => ([], self, None)
  | S fuel =>
      let self := draw_proposal self lower upper in
      let here := Attempt lower upper self in
      if Rgt_dec (log_lik_x_proposed self) u then
        ([here], self, Some (x_proposed self, log_lik_x_proposed self, (attempts + 1)%nat))
      else
        let '(l, self', r) :=
          if Rgt_dec (theta self) 0 then draw_rec fuel (attempts + 1) self lower (theta self) u
          else draw_rec fuel (attempts + 1) self (theta self) upper u in
        (here :: l, self', r)
  end.
Definition draw (self : ess) (lower upper u : R) (attempts max_attempts : nat) :=
  draw_rec (max_attempts + 1 - attempts) attempts self lower upper u.

(** What one pass through the loop of [_sample] did: the sampler before it, the slice height,
    the ellipse and bracket, and the attempts. *)
Record try := Try {
  tr_before : ess;
  tr_u : R;
  tr_start : ess;
  tr_lower : R;
  tr_upper : R;
  tr_attempts : list attempt;
  tr_after : ess;
  tr_result : option (tensor * R * nat) }.

(** sample.py 160-178: the body of the loop. *)
Definition sample_try (self : ess) : try :=
  let (e, g) := exponential (gen self) in
  let self1 := Ess (x self) (log_lik_x self) (y self) (theta self) (x_proposed self) (log_lik_x_proposed self) g in
  let u := log_lik_x self - e in
  let self2 := establish_ellipse self1 in
  let '((lower, upper), self3) := draw_bracket self2 in
  let '(l, self4, r) := draw self3 lower upper u 1 100 in
  let self5 :=
    match r with
    | Some (x', ll, _) =>
        Ess x' ll (y self4) (theta self4) (x_proposed self4) (log_lik_x_proposed self4) (gen self4)
    | None => self4
    end in
  Try self u self3 lower upper l self5 r.

(** sample.py 152-182: [_sample] with at most [fuel] passes.  Returns the passes, the sampler and
    the reported number of attempts; timing is not modelled. *)
Fixpoint sample_one (fuel : nat) (self : ess) : option (list try * ess * nat) :=
  match fuel with
  | O => None
  | S fuel =>
      let t := sample_try self in
      match tr_result t with
      | Some (_, _, attempts) => Some ([t], tr_after t, attempts)
      | None =>
          match sample_one fuel (tr_after t) with
          | Some (l, s, a) => Some (t :: l, s, a)
          | None => None
          end
      end
  end.

(** sample.py 105-150: [sample], with and without tracing: the samplers after each sample (their
    [x] are the returned samples), the passes and the reported attempts per sample. *)
Fixpoint sample (fuel num : nat) (self : ess) : option (list (list try * ess * nat) * ess) :=
  match num with
  | O => Some ([], self)
  | S num =>
      match sample_one fuel self with
      | Some (l, s, a) =>
          match sample fuel num s with
          | Some (rest, s') => Some ((l, s, a) :: rest, s')
          | None => None
          end
      | None => None
      end
  end.

(** The list that [sample] returns. *)
Definition samples (r : list (list try * ess * nat)) : list tensor :=
  map (fun p => x (snd (fst p))) r.
End Ess.

(** A history of calls on one sampler: [move(x)] and [sample(num)].  Returns every pass made,
    every sampler state at a pass boundary or after a call, and the final state. *)
Inductive op (D : Type) := Move (x : tensor D) | Sample (num : nat).
Arguments Move {D} _.
Arguments Sample {D} _.

Section History.
Variables (D G : Type).
Variable uniform : R -> R -> G -> R * G.
Variable exponential : G -> R * G.
Variable sample_prior : G -> tensor D * G.
Variable log_lik : tensor D -> R.

(** sample.py 41-48 and 105-150, in any order. *)
Fixpoint exec (fuel : nat) (ops : list (op D)) (s : ess D G)
    : option (list (try D G) * list (ess D G) * ess D G) :=
  match ops with
  | [] => Some ([], [s], s)
  | Move x' :: ops =>
      match exec fuel ops (move D G log_lik s x') with
      | Some (t, v, s') => Some (t, s :: v, s')
      | None => None
      end
  | Sample num :: ops =>
      match sample D G uniform exponential sample_prior log_lik fuel num s with
      | Some (r, s1) =>
          let t1 := flat_map (fun p => fst (fst p)) r in
          match exec fuel ops s1 with
          | Some (t, v, s') => Some (t1 ++ t, s :: map (tr_after D G) t1 ++ v, s')
          | None => None
          end
      | None => None
      end
  end.
End History.
