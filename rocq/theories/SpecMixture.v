(** * Specification vocabulary for mixtures *)
From mathcomp Require Import all_ssreflect all_algebra.
From Verif Require Import Outcome SpecProb ModelMixture.
Set Implicit Arguments. Unset Strict Implicit. Unset Printing Implicit Defensive.
Import Order.TTheory GRing.Theory Num.Theory.
Local Open Scope ring_scope.

Section Spec.
Variables (R : realFieldType) (eps : R) (C : Type).
(** the counter and the three vectors agree *)
Definition mix_sized (m : mix R C) : Prop :=
  [/\ size (mx_comps m) = mx_n m, size (mx_w m) = mx_n m & size (mx_cum m) = (mx_n m).+1].
(** non-empty, weights a distribution, table = prefix sums *)
Definition mix_valid (m : mix R C) : Prop :=
  [/\ mix_sized m, (0 < mx_n m)%N, distribution (mx_w m) & prefix_sums (mx_w m) (mx_cum m)].
(** one component whose weight is 1 up to the tolerance of the assert *)
Definition mix_near (m : mix R C) : Prop :=
  exists c a, [/\ m = Mix 1 [:: c] [:: a] [:: 0; 1] & 1 - eps <= a <= 1].
Definition mix_empty (m : mix R C) : Prop := m = Mix 0 [::] [::] [:: 0].
(** list without its i-th element *)
Definition without {A} (i : nat) (s : seq A) : seq A := take i s ++ drop i.+1 s.
End Spec.
