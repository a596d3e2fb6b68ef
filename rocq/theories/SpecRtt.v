(** * Specification for the RTT property bindings: which bags describe which object *)
From Coq Require Import String Permutation List.
From mathcomp Require Import all_ssreflect all_algebra.
From Verif Require Import Outcome ModelRtt.
Set Implicit Arguments. Unset Strict Implicit. Unset Printing Implicit Defensive.
Import Order.TTheory GRing.Theory Num.Theory.
Local Open Scope ring_scope.

Section Spec.
Variable R : realFieldType.
(** the properties of a bag have different names *)
Definition named (l : items R) : Prop := NoDup (List.map fst l).
(** the elements of a vector, numbered from 1, in any order *)
Definition vec_items (v : seq R) (l : items R) : Prop :=
  [/\ named l, size l = size v
    & forall i, (i < size v)%N -> In (num_name i.+1, PDouble (nth 0 v i)) l].
Definition vec_bag (ty : string) (v : seq R) (b : bag R) : Prop := b_type b = ty /\ vec_items v (b_items b).
(** the rows of a matrix, numbered from 1, in any order *)
Definition rows_bag (ty : string) (rows : seq (seq R)) (b : bag R) : Prop :=
  [/\ b_type b = ty, named (b_items b), size (b_items b) = size rows
    & forall i, (i < size rows)%N ->
        exists2 l, In (num_name i.+1, PBag "RowVector" l) (b_items b) & vec_items (nth [::] rows i) l].
(** a rectangular matrix; a lower triangle *)
Definition shaped (m : rmat R) : Prop := forall i, (i < size (x_rows m))%N -> size (nth [::] (x_rows m) i) = x_cols m.
Definition triangle (s : rsym R) : Prop := forall i, (i < size s)%N -> size (nth [::] s i) = i.+1.
(** the matrix of all rows of a symmetric matrix, and the lower triangle of a matrix *)
Definition full (s : rsym R) : seq (seq R) :=
  mkseq (fun i => mkseq (fun j => if (j <= i)%N then nth 0 (nth [::] s i) j else nth 0 (nth [::] s j) i) (size s)) (size s).
Definition lower (rows : seq (seq R)) : rsym R := mkseq (fun i => take i.+1 (nth [::] rows i)) (size rows).
(** the value of a sample in a bag *)
Definition val_item (x : sval R) (p : prop R) : Prop :=
  match x with
  | SInt z => p = PInt R z
  | SDouble d => p = PDouble d
  | SVec v => p = PVec v \/ exists2 l, p = PBag "ColumnVector" l & named l -> vec_items v l
  end.
End Spec.
