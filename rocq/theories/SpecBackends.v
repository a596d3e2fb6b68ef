(** * Specification vocabulary: programs that do not depend on the matrix library *)
From mathcomp Require Import all_ssreflect all_algebra.
From Verif Require Import Outcome ModelBackends.
Set Implicit Arguments. Unset Strict Implicit. Unset Printing Implicit Defensive.
Import Order.TTheory GRing.Theory Num.Theory.
Local Open Scope ring_scope.

(** two results agree: equal (also in being indeterminate), or, not [strict], equal when
    both are determinate *)
Definition agree (A : Type) (strict : bool) (a b : option A) : Prop :=
  if strict then a = b else forall x y, a = Some x -> b = Some y -> x = y.

Section Spec.
Variable R : realFieldType.
Definition agree_report (strict : bool) (r s : report R) : Prop :=
  match r, s with
  | Silent, Silent => True
  | Value a, Value b => agree strict a b
  | Truth a, Truth b => agree strict a b
  | _, _ => False
  end.
Fixpoint agree_reports (strict : bool) (rs ss : seq (report R)) : Prop :=
  match rs, ss with
  | [::], [::] => True
  | r :: rs', s :: ss' => agree_report strict r s /\ agree_reports strict rs' ss'
  | _, _ => False
  end.
(** two runs: both stop at a failed check or both report the same *)
Definition agree_run (H K : Type) (strict : bool) (a : outcome (H * seq (report R))) (b : outcome (K * seq (report R))) : Prop :=
  match a, b with
  | Ok x, Ok y => agree_reports strict x.2 y.2
  | Abort, Abort => True
  | _, _ => False
  end.
(** calls that mean the same with both libraries: not [RowVector::vectorAdd], not
    [SymmetricMatrix(n, row)], not [convertToSymmetricMatrix]; parts of vectors and matrices
    are not empty; of a symmetric matrix only the diagonal is set *)
Definition portable_call (k : call R) : bool :=
  match k with
  | VAddR _ _ | SRows _ _ | MToSym _ _ => false
  | VSub _ p q => (p <= q)%N
  | MSub _ i1 i2 j1 j2 => (i1 <= i2)%N && (j1 <= j2)%N
  | SPut _ i j _ => i == j
  | _ => true
  end.
(** other elements of a symmetric matrix are set in pairs *)
Inductive portable : seq (call R) -> Prop :=
| portable_nil : portable [::]
| portable_one k p : portable_call k -> portable p -> portable (k :: p)
| portable_two a i j x p : portable p -> portable (SPut a i j x :: SPut a j i x :: p).
(** no resizing *)
Definition fixed_size (k : call R) : bool := match k with VResize _ _ | MResize _ _ _ | SResize _ _ => false | _ => true end.
End Spec.
