(** * Specification for the moments of a particle set in doubles *)
From Coq Require Import ZArith Reals.
From Flocq Require Import Core.Core BinarySingleNaN.
From mathcomp Require Import all_ssreflect.
From Verif Require Import ModelDouble SpecDouble ModelDoubleHist SpecDoubleHist.
Set Implicit Arguments. Unset Strict Implicit. Unset Printing Implicit Defensive.
Local Open Scope R_scope.

(** mean, mean magnitude and covariance of the numbers [x j], [y j] with the weights [q j] *)
Definition mean (n : nat) (q x : nat -> R) : R := over n (fun j => q j * x j).
Definition size_of (n : nat) (q x : nat -> R) : R := over n (fun j => q j * Rabs (x j)).
Definition covar (n : nat) (q x y : nat -> R) : R := over n (fun j => q j * ((x j - mean n q x) * (y j - mean n q y))).
(** error of a mean after [k] roundings, and of the spread around it *)
Definition mean_tol (n k : nat) (q x : nat -> R) : R := size_of n q x * relative (k + n + 1) + INR n * bpow radix2 (-1074).
Definition spread (n k : nat) (q x : nat -> R) : R := sqrt (covar n q x x + mean_tol n k q x ^ 2).
(** finite and at most [2^e] in size *)
Definition sized (e : Z) (x : double) : Prop := is_finite x = true /\ Rabs (v2R x) <= bpow radix2 e.
