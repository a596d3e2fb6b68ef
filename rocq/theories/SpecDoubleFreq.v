(** * Specification vocabulary: how often a result occurs over all draws of the generator *)
From Coq Require Import ZArith Reals.
From Flocq Require Import Core.Core BinarySingleNaN.
From mathcomp Require Import all_ssreflect.
From Verif Require Import Outcome ModelDouble SpecDouble.
Set Implicit Arguments. Unset Strict Implicit. Unset Printing Implicit Defensive.
Local Open Scope R_scope.

(** the [2^32] values of [runif()] with a 32-bit generator *)
Definition draws : seq double := [seq dlit (Z.of_nat k) (-32) | k <- iota 0 (Z.to_nat (2 ^ 32))].
(** the number returned *)
Definition got (o : outcome nat) : option nat := if o is Ok s then Some s else None.
Definition got_state (o : outcome (option nat)) : option nat := if o is Ok s then s else None.
(** how many draws give [s] *)
Definition times (pick : double -> option nat) (s : nat) : nat := count (fun u => pick u == Some s) draws.
(** average of [g] over all draws that give a number *)
Definition average (pick : double -> option nat) (g : nat -> R) : R :=
  rsum [seq (if pick u is Some s then g s else 0) | u <- draws] / IZR (2 ^ 32).
(** as often as a share [p] of all draws, up to one draw and [n] roundings *)
Definition in_share (n : nat) (p : R) (m : nat) : Prop :=
  Rabs (INR m - IZR (2 ^ 32) * p) <= 1 + (INR n + 1) / IZR (2 ^ 19).
