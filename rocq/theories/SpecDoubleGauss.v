(** * Specification for the density of a one-dimensional Gaussian in doubles (C111) *)
From Coq Require Import ZArith Reals.
From Flocq Require Import Core.Core BinarySingleNaN.
From mathcomp Require Import all_ssreflect.
From Verif Require Import ModelDouble SpecDouble.
Set Implicit Arguments. Unset Strict Implicit. Unset Printing Implicit Defensive.
Local Open Scope R_scope.

(** the normal distribution with mean [m] and variance [s] *)
Definition energy (m s x : R) : R := (x - m) ^ 2 / (2 * s).
Definition normal (m s x : R) : R := exp (- energy m s x) / sqrt (2 * PI * s).

(** what is asked of the C library: [exp] of a finite number [<= 0] is finite, [>= 0] and right
    up to one unit in the last place; [pow(x,1)] is [x] *)
Definition exp_ok (expd : double -> double) : Prop :=
  forall x, is_finite x = true -> v2R x <= 0 ->
    good (expd x) /\ Rabs (v2R (expd x) - exp (v2R x)) <= exp (v2R x) * / IZR (2 ^ 52) + bpow radix2 (-1074).
Definition pow_ok (powd : double -> double -> double) : Prop := forall x, is_finite x = true -> powd x d1 = x.

(** a variance and a deviation of moderate size *)
Definition var_ok (S : double) : Prop := is_finite S = true /\ bpow radix2 (-200) <= v2R S <= bpow radix2 200.
Definition dev_ok (mu x : double) : Prop :=
  [/\ is_finite mu = true, is_finite x = true &
      v2R x = v2R mu \/ bpow radix2 (-200) <= Rabs (v2R x - v2R mu) <= bpow radix2 200].
