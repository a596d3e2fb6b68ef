(** * Specification for tables of doubles: exact real values *)
From Coq Require Import ZArith Reals.
From Flocq Require Import Core.Core BinarySingleNaN.
From mathcomp Require Import all_ssreflect.
From Verif Require Import ModelDouble.
Set Implicit Arguments. Unset Strict Implicit. Unset Printing Implicit Defensive.
Local Open Scope R_scope.

(** real value of a double *)
Definition v2R (x : double) : R := B2R x.
(** a finite double [>= 0]: what a [Probability] can hold *)
Definition good (x : double) : Prop := is_finite x = true /\ 0 <= v2R x.
Definition goods (v : seq double) : Prop := forall x, List.In x v -> good x.
Fixpoint rsum (l : seq R) : R := if l is x :: l' then x + rsum l' else 0.
(** exact sum of a vector of doubles, exact weight of entry [i], exact share of the
    first [k] entries *)
Definition total (v : seq double) : R := rsum [seq v2R x | x <- v].
Definition exact (v : seq double) (i : nat) : R := v2R (nth d0 v i) / total v.
Definition share (v : seq double) (k : nat) : R := total (take k v) / total v.
(** at most [2^22] entries *)
Definition few (n : nat) : Prop := (Z.of_nat n <= 2 ^ 22)%Z.
(** error bound for a table over [n] entries *)
Definition tol (n : nat) : R := (2 * INR n + 2) * / IZR (2 ^ 53).
(** a table over [n] entries that follows the exact cumulative sums [ex]: correct to
    [tol n], starting at 0, and increasing up to the entry before the last *)
Definition follows (n : nat) (ex : nat -> R) (c : seq double) : Prop :=
  [/\ size c = n.+1, v2R (nth d0 c 0) = 0,
      forall k, (k <= n)%N -> good (nth d0 c k) /\ Rabs (v2R (nth d0 c k) - ex k) <= tol n &
      forall k, (k.+1 < n)%N -> v2R (nth d0 c k) <= v2R (nth d0 c k.+1)].
(** a [root] that returns numbers of (0,1] *)
Definition sane (root : double -> nat -> double) (us : seq double) : Prop :=
  forall u k, List.In u us -> (0 < k)%N -> good (root u k) /\ 0 < v2R (root u k) <= 1.
(** [root u k] is the [k]-th root of [u], up to [2^-50] *)
Definition roots (root : double -> nat -> double) : Prop :=
  forall u k, is_finite u = true -> 0 < v2R u <= 1 -> (0 < k)%N ->
  is_finite (root u k) = true /\ exists r, [/\ 0 < r, r ^ k = v2R u & Rabs (v2R (root u k) - r) <= / IZR (2 ^ 50)].
(** a draw of the 32-bit generator other than 0 *)
Definition draw32 (u : double) : Prop := exists k, u = dlit k (-32) /\ (0 < k < 2 ^ 32)%Z.
(** a sampled state lies where the exact cumulative sums put [x] *)
Definition placed (n : nat) (ex : nat -> R) (x : R) (s : nat) : Prop :=
  (s < n)%N /\ ex s - tol n < x <= ex s.+1 + tol n.
(** increasing in the wide sense *)
Fixpoint rising (l : seq R) : Prop := if l is x :: ((y :: _) as l') then x <= y /\ rising l' else True.
(** ordered uniforms without rounding: entry [i] is the product of the roots from [i] on *)
Fixpoint ordered (root : double -> nat -> double) (us : seq double) (i : nat) : seq R :=
  if us is u :: us' then v2R (root u i.+1) * head 1 (ordered root us' i.+1) :: ordered root us' i.+1 else [::].
(** [root] never exceeds 1 for arguments of (0,1] *)
Definition below1 (root : double -> nat -> double) : Prop :=
  forall u k, is_finite u = true -> 0 < v2R u <= 1 -> (0 < k)%N -> v2R (root u k) <= 1.
