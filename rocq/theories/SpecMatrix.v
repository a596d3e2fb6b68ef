(** * Specification vocabulary for matrices *)
From mathcomp Require Import all_ssreflect all_algebra.
Set Implicit Arguments. Unset Strict Implicit. Unset Printing Implicit Defensive.
Import Order.TTheory GRing.Theory Num.Theory.
Local Open Scope ring_scope.

Section Spec.
Variable R : realFieldType.
(** the quadratic form v' M v *)
Definition qf n (M : 'M[R]_n) (v : 'cV[R]_n) : R := (v^T *m M *m v) 0 0.
Definition symmetric n (M : 'M[R]_n) : Prop := M^T = M.
(** symmetric positive semidefinite *)
Definition psd n (M : 'M[R]_n) : Prop := symmetric M /\ forall v, 0 <= qf M v.
(** symmetric positive definite *)
Definition pd n (M : 'M[R]_n) : Prop := symmetric M /\ forall v, v != 0 -> 0 < qf M v.
(** Loewner order *)
Definition mle n (A B : 'M[R]_n) : Prop := psd (B - A).
End Spec.
