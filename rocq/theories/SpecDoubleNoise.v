(** * Specification for samples of a one-dimensional Gaussian in doubles (C112) *)
From Coq Require Import ZArith Reals.
From Flocq Require Import Core.Core BinarySingleNaN.
From mathcomp Require Import all_ssreflect.
From Verif Require Import ModelDouble SpecDouble.
Set Implicit Arguments. Unset Strict Implicit. Unset Printing Implicit Defensive.
Local Open Scope R_scope.

(** the sample a normal distribution makes of a standard draw *)
Definition affine (m s v : R) : R := m + sqrt s * v.
(** finite, 0 or of moderate size *)
Definition modest (x : double) : Prop :=
  is_finite x = true /\ (v2R x = 0 \/ bpow radix2 (-200) <= Rabs (v2R x) <= bpow radix2 200).
(** sum of a list of reals *)
Definition rtotal (l : seq R) : R := foldr Rplus 0 l.
