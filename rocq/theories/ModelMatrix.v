(** * Matrix wrapper operations used by the models

    [Matrix], [ColumnVector] and [SymmetricMatrix] of
    src/wrappers/matrix are mathcomp matrices over an ordered field. *)
From mathcomp Require Import all_ssreflect all_algebra.
Set Implicit Arguments. Unset Strict Implicit. Unset Printing Implicit Defensive.
Import Order.TTheory GRing.Theory Num.Theory.
Local Open Scope ring_scope.

Section Matrix.
Variable R : realFieldType.

(** matrix_BOOST.cpp 296-312 [convertToSymmetricMatrix]: the lower triangle is
    copied; reading the result above the diagonal mirrors it. *)
Definition sym_lower n (M : 'M[R]_n) : 'M[R]_n :=
  \matrix_(i, j) (if (j <= i)%N then M i j else M j i).
(** matrix_EIGEN.cpp 220-229: the self-adjoint view of the upper triangle. *)
Definition sym_upper n (M : 'M[R]_n) : 'M[R]_n :=
  \matrix_(i, j) (if (i <= j)%N then M i j else M j i).
End Matrix.
