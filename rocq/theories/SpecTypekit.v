(** * Vocabulary for the RTT typekit (C109), independent of the model *)
From Coq Require Import String.
From mathcomp Require Import all_ssreflect all_algebra.
From Verif Require Import ModelTypekit.
Set Implicit Arguments. Unset Strict Implicit. Unset Printing Implicit Defensive.
Import Order.TTheory GRing.Theory Num.Theory.
Local Open Scope ring_scope.

(** what the sign of an operator means to the writer of a script *)
Definition meaning (op : string) (f : fn) : Prop :=
  match f with
  | Plus => op = "+"%string
  | Minus => op = "-"%string
  | Times => op = "*"%string
  | Divide => op = "/"%string
  | Equal => op = "=="%string
  | SetAll => op = "="%string
  end.
(** [i] is the number of a row of a matrix with [n] rows, counted from 1 *)
Definition row_number (n : nat) (i : int) : bool := (1 <= i) && (i <= n%:Z).
Definition symmetric (R : Type) n (A : 'M[R]_n) : Prop := forall i j, A i j = A j i.
