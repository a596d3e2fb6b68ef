(** * Specification vocabulary for the uniform pdf in doubles *)
From Coq Require Import ZArith Reals.
From Flocq Require Import Core.Core BinarySingleNaN.
From mathcomp Require Import all_ssreflect.
From Verif Require Import ModelDouble SpecDouble.
Set Implicit Arguments. Unset Strict Implicit. Unset Printing Implicit Defensive.
Local Open Scope R_scope.

(** a centre and a width in range *)
Definition centre_ok (c : double) : Prop := is_finite c = true /\ Rabs (v2R c) <= bpow radix2 900.
Definition width_ok (w : double) : Prop := is_finite w = true /\ bpow radix2 (-900) <= v2R w <= bpow radix2 900.
Definition box_ok (c w : seq double) : Prop :=
  size c = size w /\ forall i, (i < size c)%N -> centre_ok (nth d0 c i) /\ width_ok (nth d0 w i).
(** outputs of the 32-bit generator *)
Definition output (k : Z) : Prop := (0 <= k < 2 ^ 32)%Z.
Definition outputs_ok (ks : seq Z) : Prop := forall k, List.In k ks -> output k.
(** exact volume *)
Fixpoint volume (w : seq double) : R := if w is a :: w' then v2R a * volume w' else 1.
(** larger of two absolute values *)
Definition reach (a b : R) : R := Rmax (Rabs a) (Rabs b).
(** the point that an output stands for, without rounding *)
Definition target (a b : R) (k : Z) : R := a + IZR k / IZR (2 ^ 32) * (b - a).
(** outputs in the lower half *)
Definition lower (k : Z) : bool := (k <? 2 ^ 31)%Z.
(** no prefix of the volume overflows or underflows *)
Definition volume_ok (w : seq double) : Prop :=
  INR (size w) <= IZR (2 ^ 45) /\
  forall j, (j <= size w)%N -> bpow radix2 (-900) <= / volume (take j w) <= bpow radix2 900.
(** coordinate by coordinate in the box *)
Definition in_box (lo hi x : seq double) : Prop :=
  forall i, (i < size x)%N -> v2R (nth d0 lo i) <= v2R (nth d0 x i) <= v2R (nth d0 hi i).
Definition all_finite (x : seq double) : Prop := forall i, (i < size x)%N -> is_finite (nth d0 x i) = true.
