(** * Specification vocabulary for the mixture particle filter *)
From mathcomp Require Import all_ssreflect all_algebra.
From Verif Require Import Outcome SpecProb ModelMCPdf SpecMCPdf ModelMixture SpecMixture.
Set Implicit Arguments. Unset Strict Implicit. Unset Printing Implicit Defensive.
Import Order.TTheory GRing.Theory Num.Theory.
Local Open Scope ring_scope.

Section Spec.
Variables (R : realFieldType) (T : Type).
Notation part := (T * R)%type.
Notation mixture := (mix R (mcpdf R T)).
(** the weighted points of a mixture with component weights [W] and particle
    lists [ls]: every particle with the product of the two weights *)
Definition joint_of (W : seq R) (ls : seq (seq part)) : seq part :=
  flatten [seq [seq (x.1, y.1 * x.2) | x <- y.2] | y <- zip W ls].
Definition joint (m : mixture) : seq part := joint_of (mx_w m) [seq mc_los d | d <- mx_comps m].
(** component weight times total particle weight *)
Definition shares (W : seq R) (ls : seq (seq part)) : seq R := [seq y.1 * total (weights y.2) | y <- zip W ls].
(** divided by the total *)
Definition to_one (v : seq R) : seq R := [seq x / total v | x <- v].
(** the list normalised, or unchanged if that is impossible *)
Definition settled (l : seq part) : seq part := if 0 < total (weights l) then normalised l else l.
(** a mixture of valid particle sets *)
Definition fine_mixture (m : mixture) : Prop := mix_valid m /\ forall d, List.In d (mx_comps m) -> mc_valid d.
(** a component none of whose particles has a positive weight *)
Definition dead (d : mcpdf R T) : Prop := total (weights (mc_los d)) = 0.
(** the number of particles of each component *)
Definition shape (m : mixture) : seq nat := [seq size (mc_los d) | d <- mx_comps m].
End Spec.
