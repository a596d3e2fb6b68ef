(** * Specification for the density of a two-dimensional Gaussian in doubles (C114) *)
From Coq Require Import ZArith Reals.
From Flocq Require Import Core.Core BinarySingleNaN.
From mathcomp Require Import all_ssreflect.
From Verif Require Import ModelDouble SpecDouble.
Local Open Scope R_scope.

(** determinant, and by how much the product of the variances exceeds it *)
Definition det2 (a b c : R) : R := a * c - b * b.
Definition excess (a b c : R) : R := a * c / det2 a b c.
(** square of the distance from the mean in standard deviations *)
Definition maha (a b c e1 e2 : R) : R := (c * (e1 * e1) - 2 * b * (e1 * e2) + a * (e2 * e2)) / det2 a b c.
(** finite and of moderate size *)
Definition mid (x : double) : Prop := is_finite x = true /\ bpow radix2 (-100) <= v2R x <= bpow radix2 100.
Definition mid0 (x : double) : Prop :=
  is_finite x = true /\ (v2R x = 0 \/ bpow radix2 (-100) <= Rabs (v2R x) <= bpow radix2 100).
