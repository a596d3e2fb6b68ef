(** * Specification vocabulary for [DiscretePdf] *)
From mathcomp Require Import all_ssreflect all_algebra.
From Verif Require Import Outcome SpecProb ModelDiscretePdf.
Set Implicit Arguments. Unset Strict Implicit. Unset Printing Implicit Defensive.
Import Order.TTheory GRing.Theory Num.Theory.
Local Open Scope ring_scope.

Section Spec.
Variable R : realFieldType.
(** A valid pdf with [n] states: what [ProbabilitiesGet] and
    [CumulativePDFGet] show is a distribution and its prefix sums. *)
Definition dp_valid (d : dpdf R) : Prop :=
  [/\ size (dp_vals d) = dp_n d, distribution (dp_vals d)
    & prefix_sums (dp_vals d) (dp_cum d)].
(** The probabilities after "set state [k] to [a] and rescale the others". *)
Definition rescaled (vals : seq R) (k : nat) (a : R) (i : nat) : R :=
  if i == k then a
  else if nth 0 vals k == 1 then (1 - a) / (size vals).-1%:R
  else nth 0 vals i * ((1 - a) / (1 - nth 0 vals k)).
End Spec.
