(** * Specification vocabulary for the Kalman filter in doubles *)
From Coq Require Import ZArith Reals.
From Flocq Require Import Core.Core BinarySingleNaN.
From mathcomp Require Import all_ssreflect.
From Verif Require Import Outcome ModelDouble SpecDouble ModelDoubleKF.
Set Implicit Arguments. Unset Strict Implicit. Unset Printing Implicit Defensive.
Local Open Scope R_scope.

(** the variance after one update, without rounding: prediction adds, measuring adds up
    the information 1/P + H^2/R *)
Definition variance (p : R) (f : kupd) : R :=
  match f with
  | KSys _ F Q => v2R F ^ 2 * p + v2R Q
  | KMeas _ _ H R => / (/ p + v2R H ^ 2 / v2R R)
  end.
Definition variance_run (p : R) (fs : seq kupd) : R := foldl variance p fs.
(** the variance and the numbers of the models are far from overflow and underflow *)
Definition mid (r : R) : Prop := bpow radix2 (-200) <= r <= bpow radix2 200.
Definition factor (x : double) : Prop :=
  is_finite x = true /\ (v2R x = 0 \/ bpow radix2 (-100) <= Rabs (v2R x) <= bpow radix2 100).
Definition noise (x : double) : Prop := is_finite x = true /\ mid (v2R x).
(** an update whose measurement is at most [c] times more precise than the prior *)
Definition fair (c : nat) (p : R) (f : kupd) : Prop :=
  match f with
  | KSys _ F Q => factor F /\ (noise Q \/ is_finite Q = true /\ v2R Q = 0)
  | KMeas _ _ H R => [/\ factor H, noise R & v2R H ^ 2 * p <= INR c * v2R R]
  end.
(** every update of a run is fair and leaves the variance in range *)
Fixpoint fair_run (c : nat) (p : R) (fs : seq kupd) : Prop :=
  match fs with
  | [::] => True
  | f :: fs' => [/\ fair c p f, mid (variance p f) & fair_run c (variance p f) fs']
  end.
(** number of roundings that bounds the error of [n] updates *)
Definition kroundings (c n : nat) : nat := (n * (9 * c + 3))%N.
(** the exact gain for a variance and the exact mean after a measurement *)
Definition gain (p : R) (H N : double) : R := p * v2R H / (v2R H ^ 2 * p + v2R N).
(** a finite double of absolute value at most [2^300] *)
Definition usual (x : double) : Prop := is_finite x = true /\ Rabs (v2R x) <= bpow radix2 300.
(** a measurement with numbers in range (any precision) *)
Definition reading (f : kupd) : Prop :=
  if f is KMeas z Z H R then [/\ usual z, usual Z, is_finite H = true & noise R] else False.
