(** Model of how a fitted model makes a forecast: [model.condition(t, y).predict(t_new)], as in
    /repo/experiments/paper/vix_forecast.py 105-110 and in the README, with the numerical functions
    of ApproxModel.v.  The integrals at the times come from the model (GpcmBridge.v, RgpcmBridge.v)
    and are arguments here. *)
From Coq Require Import Reals.
From mathcomp Require Import all_ssreflect all_algebra.
From Verif Require Import Py RMat NormalModel ApproxModel.
Set Implicit Arguments.
Unset Strict Implicit.
Unset Printing Implicit Defensive.
Local Open Scope ring_scope.

(** What fitting leaves behind: approx.py 46-90, the approximation; the structured one has samples of
    u besides (approx.py 366-396). *)
Inductive fitted nu nz :=
| FitStructured (ap : approx nu nz) (us : seq 'cV[R]_nu)
| FitMeanField (ap : approx nu nz).

Section Forecast.
Variable chol : forall n, 'M[R]_n -> 'M[R]_n.

(** A set of observations: integrals at its times, and values. *)
Record observations nu nz := Observations {
  ob_n : nat;
  ob_ig : integrals ob_n nu nz;
  ob_y : 'I_ob_n -> R }.

(** A conditioned model: approx.py 121-130 sets the counter and the terms [self.ts]. *)
Record conditioned nu nz := Conditioned {
  co_fit : fitted nu nz;
  co_n : nat;
  co_ts : terms co_n nu nz }.

(** model.py 72-73 and approx.py 121-130: [condition] of a fitted model. *)
Definition condition_on nu nz (m : gp nu nz) (f : fitted nu nz) (d : observations nu nz) : conditioned nu nz :=
  Conditioned
    (match f with FitStructured ap us => FitStructured (condition ap) us | FitMeanField ap => FitMeanField (condition ap) end)
    (construct_terms chol m (ob_ig d) (@ob_y _ _ d)).

(** [predict] of a conditioned model at times with integrals [ig]: approx.py 511-534 [Structured] and
    642-660 [MeanField]. *)
Definition predict_at nu nz (m : gp nu nz) (c : conditioned nu nz) n (ig : integrals n nu nz) (i : 'I_n) : R * R :=
  let ts := construct_terms chol m ig (fun _ => R0) in
  match co_fit c with
  | FitStructured _ us => predict_structured chol m (co_ts c) ts us i
  | FitMeanField ap => predict_mean_field chol m ts ap i
  end.

(** vix_forecast.py 108-109: a forecast. *)
Definition forecast nu nz (m : gp nu nz) (f : fitted nu nz) (d : observations nu nz) n (ig : integrals n nu nz) (i : 'I_n) : R * R :=
  predict_at m (condition_on m f d) ig i.
End Forecast.
