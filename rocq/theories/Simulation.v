(** * Two computations with the same outcome and related results (proof tool) *)
From mathcomp Require Import all_ssreflect.
From Verif Require Import Outcome.
Set Implicit Arguments. Unset Strict Implicit. Unset Printing Implicit Defensive.

Definition simO A B (Q : A -> B -> Prop) (m : outcome A) (m' : outcome B) : Prop :=
  match m, m' with Ok a, Ok d => Q a d | Abort, Abort => True | UB, UB => True | _, _ => False end.
Lemma simO_bind A B C D (Q : A -> B -> Prop) (P : C -> D -> Prop) m m' f g :
  simO Q m m' -> (forall a d, Q a d -> simO P (f a) (g d)) -> simO P (obind m f) (obind m' g).
Proof. by case: m m' => [a||] [d||] //= h; apply. Qed.
Lemma simO_eq A (m m' : outcome A) : m = m' -> simO eq m m'.
Proof. by move=> ->; case: m'. Qed.
Lemma simO_same A C D (P : C -> D -> Prop) (m : outcome A) f g :
  (forall a, simO P (f a) (g a)) -> simO P (obind m f) (obind m g).
Proof. by case: m => //= a h; apply: h. Qed.
