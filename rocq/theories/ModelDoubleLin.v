(** * The Kalman filter with one state and linear models in IEEE-754 doubles

    The extended Kalman filter with [LinearAnalyticConditionalGaussian] models of one state,
    one measurement and at most one input (or sensor parameter), all of dimension 1.
    Simplifications as in ModelDoubleKF. *)
From Coq Require Import ZArith.
From Flocq Require Import Core.Core BinarySingleNaN.
From mathcomp Require Import all_ssreflect.
From Verif Require Import Outcome ModelDouble ModelDoubleKF.
Set Implicit Arguments. Unset Strict Implicit. Unset Printing Implicit Defensive.

(** linearanalyticconditionalgaussian.cpp 68-79 [ExpectedValueGet]: [args] the matrices and
    the arguments, [b] the mean of the noise; the sum starts with 0 *)
Definition l_pred (args : seq (double * double)) (b : double) : double :=
  dadd (foldl (fun a p => dadd a (dot1 p.1 p.2)) d0 args) b.
(** a second argument if the model has one: its matrix and its value
    (linearanalyticmeasurementmodel_gaussianuncertainty.cpp 47-54,
    analyticsystemmodel_gaussianuncertainty.cpp 55-61) *)
Definition input := option (double * double).
Definition l_args (A x : double) (u : input) : seq (double * double) :=
  (A, x) :: (if u is Some p then [:: p] else [::]).
(** one update: matrix, input, mean and variance of the noise; a measurement comes first *)
Inductive lupd :=
| LSys of double & input & double & double
| LMeas of double & double & input & double & double.
(** extendedkalmanfilter.cpp 74-100: prediction and derivative at the estimate *)
Definition l_upd (s : dkf) (f : lupd) : kupd :=
  match f with
  | LSys A u b Q => KSys (l_pred (l_args A (k_mu s) u) b) A Q
  | LMeas z H u b N => KMeas z (l_pred (l_args H (k_mu s) u) b) H N
  end.
Definition l_step (s : dkf) (f : lupd) : dkf := k_step s (l_upd s f).
Definition l_run (s : dkf) (fs : seq lupd) : dkf := foldl l_step s fs.
