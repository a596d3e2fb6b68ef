(** * Specification for the histogram filter in doubles: Bayes' rule over the reals *)
From Coq Require Import ZArith Reals.
From Flocq Require Import Core.Core BinarySingleNaN.
From mathcomp Require Import all_ssreflect.
From Verif Require Import ModelDouble SpecDouble ModelDoubleHist.
Set Implicit Arguments. Unset Strict Implicit. Unset Printing Implicit Defensive.
Local Open Scope R_scope.

Definition over (n : nat) (w : nat -> R) : R := rsum [seq w i | i <- iota 0 n].
(** one update without rounding: unnormalised, normalised; a sequence of updates *)
Definition weight (n : nat) (f : hupd) (p : nat -> R) (j : nat) : R :=
  match f with
  | HTrans a => over n (fun i => v2R (a j i) * p i)
  | HLike l => v2R (l j) * p j
  end.
Definition bayes (n : nat) (p : nat -> R) (f : hupd) (j : nat) : R := weight n f p j / over n (weight n f p).
Definition bayes_run (n : nat) (p : nat -> R) (fs : seq hupd) : nat -> R := foldl (bayes n) p fs.
(** neither overflow nor underflow *)
Definition tame (r : R) : Prop := r = 0 \/ bpow radix2 (-1000) <= r <= bpow radix2 900.
Definition tame_step (n : nat) (p : nat -> R) (f : hupd) : Prop :=
  [/\ match f with
      | HTrans a => forall j i, (j < n)%N -> (i < n)%N -> good (a j i) /\ tame (v2R (a j i) * p i)
      | HLike l => forall j, (j < n)%N -> good (l j) /\ tame (v2R (l j) * p j)
      end,
      0 < over n (weight n f p) & forall j, (j < n)%N -> tame (bayes n p f j)].
Fixpoint tame_run (n : nat) (p : nat -> R) (fs : seq hupd) : Prop :=
  if fs is f :: fs' then tame_step n p f /\ tame_run n (bayes n p f) fs' else True.
(** number of roundings that [m] updates of [n] states put on a probability *)
Definition roundings (m n : nat) : nat := (2 * (m * (n + 2)) + n + 1)%N.
Definition relative (k : nat) : R := INR k / (IZR (2 ^ 53) - INR k).
(** the entries of a model are finite doubles [>= 0], at most [2^900] *)
Definition moderate (n : nat) (f : hupd) : Prop :=
  match f with
  | HTrans a => forall j i, (j < n)%N -> (i < n)%N -> good (a j i) /\ v2R (a j i) <= bpow radix2 900
  | HLike l => forall j, (j < n)%N -> good (l j) /\ v2R (l j) <= bpow radix2 900
  end.
(** some product of the update is at least the smallest positive double *)
Definition visible (n : nat) (f : hupd) (p : nat -> R) : Prop :=
  match f with
  | HTrans a => exists j i, [/\ (j < n)%N, (i < n)%N & bpow radix2 (-1074) <= v2R (a j i) * p i]
  | HLike l => exists j, (j < n)%N /\ bpow radix2 (-1074) <= v2R (l j) * p j
  end.
Definition shown (d : ddisc) (j : nat) : R := v2R (nth d0 (dd_v d) j).
Definition all_zero (n : nat) (d : ddisc) : Prop := size (dd_v d) = n /\ forall j, (j < n)%N -> good (nth d0 (dd_v d) j) /\ shown d j = 0.
