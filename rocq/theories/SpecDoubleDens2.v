(** * Specification for the value of the density of a two-dimensional Gaussian in doubles (C115) *)
From Coq Require Import ZArith Reals.
From Flocq Require Import Core.Core BinarySingleNaN.
From mathcomp Require Import all_ssreflect.
From Verif Require Import ModelDouble SpecDouble ModelDoubleKF ModelDoubleUni SpecDoubleGauss2.
Local Open Scope R_scope.

(** the normal distribution with variances [a], [c] and covariance [b] at deviations [e1], [e2] *)
Definition normal2 (a b c e1 e2 : R) : R := exp (- (maha a b c e1 e2 / 2)) / (2 * PI * sqrt (det2 a b c)).
(** what is asked of the C library: [pow(x,2)] of a number between 1 and 2^100 is finite and right
    up to one unit in the last place *)
Definition pow2_ok (powd : double -> double -> double) : Prop :=
  forall x, is_finite x = true -> 1 <= v2R x <= bpow radix2 100 ->
    is_finite (powd x dtwo) = true /\ Rabs (v2R (powd x dtwo) - v2R x ^ 2) <= v2R x ^ 2 * / IZR (2 ^ 52).
(** an argument of moderate distance from the mean *)
Definition dev2_ok (mu x : double) : Prop :=
  [/\ is_finite mu = true, is_finite x = true &
      v2R x = v2R mu \/ bpow radix2 (-99) <= Rabs (v2R x - v2R mu) <= bpow radix2 99].
