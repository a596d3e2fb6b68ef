(** * Specification vocabulary for the singular value decomposition *)
From mathcomp Require Import all_ssreflect all_algebra.
From Verif Require Import ModelSVD.
Set Implicit Arguments. Unset Strict Implicit. Unset Printing Implicit Defensive.
Import Order.TTheory GRing.Theory Num.Theory.
Local Open Scope ring_scope.

Section Spec.
Variable R : rcfType.
(** the matrix in an array with indices from 1 *)
Definition mx m n (F : arr2 R) : 'M[R]_(m, n) := \matrix_(i, j) F i.+1 j.+1.
(** diagonal matrix of the singular values *)
Definition dmx n (w : arr1 R) : 'M[R]_n := \matrix_(i, j) (if i == j then w i.+1 else 0).
(** squared length *)
Definition sqlen n (x : 'cV[R]_n) : R := \sum_i x i 0 ^+ 2.
(** the spectral norm of [M] is at most [e] *)
Definition norm_le m n (e : R) (M : 'M[R]_(m, n)) : Prop := forall x, sqlen (M *m x) <= e ^+ 2 * sqlen x.
(** numbers that the program takes for equal differ by at most [tol] of the second *)
Definition close_le (eqv : R -> R -> bool) (tol : R) : Prop := forall a b, 0 <= b -> eqv a b -> `|a - b| <= tol * b.
(** orthonormal columns *)
Definition orthonormal m n (U : 'M[R]_(m, n)) : Prop := U^T *m U = 1%:M.
(** [X] is the Moore-Penrose inverse of [B] *)
Record moore_penrose m n (B : 'M[R]_(m, n)) (X : 'M[R]_(n, m)) : Prop := MoorePenrose {
  mp_inner : B *m X *m B = B;
  mp_outer : X *m B *m X = X;
  mp_left : (B *m X)^T = B *m X;
  mp_right : (X *m B)^T = X *m B }.
End Spec.
