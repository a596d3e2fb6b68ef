(** * Specification vocabulary for particle sets *)
From mathcomp Require Import all_ssreflect all_algebra.
From Verif Require Import Outcome SpecProb ModelMCPdf.
Set Implicit Arguments. Unset Strict Implicit. Unset Printing Implicit Defensive.
Import Order.TTheory GRing.Theory Num.Theory.
Local Open Scope ring_scope.

Section Spec.
Variables (R : realFieldType) (T : Type).
Definition weights (l : seq (T * R)) : seq R := map snd l.
Definition values (l : seq (T * R)) : seq T := map fst l.
(** A valid particle set: weights form a distribution, table = prefix sums. *)
Definition mc_valid (d : mcpdf R T) : Prop :=
  [/\ distribution (weights (mc_los d)), prefix_sums (weights (mc_los d)) (mc_cum d)
    & mc_sum d = 1].
(** The two containers have matching sizes. *)
Definition mc_sized (d : mcpdf R T) : Prop := size (mc_cum d) = (size (mc_los d)).+1.
(** A valid set, or the set of zero particles. *)
Definition mc_ok (d : mcpdf R T) : Prop :=
  mc_valid d \/ (mc_los d = [::] /\ mc_cum d = [:: 0] /\ mc_sum d = 1).
(** Particle list with every weight divided by the total. *)
Definition normalised (l : seq (T * R)) : seq (T * R) :=
  map (fun x => (x.1, x.2 / total (weights l))) l.
(** All samples with weight 1/n. *)
Definition equally_weighted (v : seq T) : seq (T * R) := map (fun x => (x, (size v)%:R^-1)) v.
End Spec.
