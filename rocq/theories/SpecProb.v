(** * Specification vocabulary: finite distributions, prefix sums, quantiles

    Independent of the models: only big sums over lists. *)
From mathcomp Require Import all_ssreflect all_algebra.
Set Implicit Arguments. Unset Strict Implicit. Unset Printing Implicit Defensive.
Import Order.TTheory GRing.Theory Num.Theory.
Local Open Scope ring_scope.

Section SpecProb.
Variable R : realFieldType.
Implicit Types (l c : seq R) (u : R).

Definition total l : R := \sum_(x <- l) x.
(** all entries non-negative *)
Definition nonneg l : Prop := all (fun x => 0 <= x) l.
(** a finite probability distribution *)
Definition distribution l : Prop := nonneg l /\ total l = 1.
(** [c] is the table of prefix sums of [l], one entry longer than [l] *)
Definition prefix_sums l c : Prop :=
  size c = (size l).+1 /\
  forall k, (k <= size l)%N -> nth 0 c k = total (take k l).
(** state [k] is the [u]-quantile of [l] *)
Definition quantile l u (k : nat) : Prop :=
  (k < size l)%N /\ total (take k l) < u /\ u <= total (take k.+1 l).
(** weak monotonicity of a table *)
Definition nondecreasing c : Prop :=
  forall i j, (i <= j)%N -> (j < size c)%N -> nth 0 c i <= nth 0 c j.
End SpecProb.
