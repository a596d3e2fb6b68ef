(** * Model of the matrix and vector wrappers
    (src/wrappers/matrix/vector_BOOST.cpp, matrix_BOOST.cpp, matrix_EIGEN.cpp)

    Simplifications.  [double] is an element of an ordered field.  The libraries
    below the wrappers are modelled as they are documented: ublas checks indices
    in builds with assertions and raises an exception ([Abort]; without
    assertions the access is undefined).  A division by zero has no value in the
    model and is [Abort] as well. *)
From mathcomp Require Import all_ssreflect all_algebra.
From Verif Require Import Outcome ModelMatrix.
Set Implicit Arguments. Unset Strict Implicit. Unset Printing Implicit Defensive.
Import Order.TTheory GRing.Theory Num.Theory.
Local Open Scope ring_scope.

(** ** Vectors: [ublas::vector<double>] with indices from 0 *)
Section Vector.
Variable R : realFieldType.
Implicit Types (v : seq R).

Definition ub_get v (k : nat) : outcome R := if (k < size v)%N then at_ v k else Abort.
Definition ub_put v (k : nat) (x : R) : outcome (seq R) := if (k < size v)%N then put_ v k x else Abort.
(** [resize(n)]: keeps the elements there are, new ones are 0 *)
Definition ub_resize v (k : nat) : seq R := take k v ++ nseq (k - size v) 0.

(** vector_BOOST.cpp 93-105 and 301-313 [operator()(i)], indices from 1; 0
    becomes the largest unsigned number *)
Definition vec_get v (i : nat) : outcome R := if i is k.+1 then ub_get v k else Abort.
Definition vec_put v (i : nat) (x : R) : outcome (seq R) := if i is k.+1 then ub_put v k x else Abort.

(** vector_BOOST.cpp 57-62, 265-270 [resize] *)
Definition vec_resize v (k : nat) : seq R := ub_resize v k.
(** vector_BOOST.cpp 65-71, 273-279 [assign]: [op1] is the ublas vector;
    [rounds] of the loop have been executed *)
Definition vec_assign_loop v (k rounds : nat) (x : R) : outcome (seq R) :=
  foldO (fun w (i : nat) => ub_put w i.+1 x) (ub_resize v k) (iota 0 rounds).
Definition vec_assign v (k : nat) (x : R) : outcome (seq R) := vec_assign_loop v k k x.
(** vector_BOOST.cpp 30-32, 252-254: constructor with a value *)
Definition vec_const (k : nat) (x : R) : seq R := nseq k x.
(** vector_BOOST.cpp 33-46: constructor from two vectors.  The new vector is
    uninitialised: [junk]. *)
Definition vec_join (junk : seq R) v1 v2 : outcome (seq R) :=
  let! w := foldO (fun w (i : nat) => let! x := vec_get v1 i.+1 in ub_put w i x) junk (iota 0 (size v1)) in
  foldO (fun w (i : nat) => let! x := vec_get v2 i.+1 in ub_put w (size v1 + i) x) w (iota 0 (size v2)).
(** vector_BOOST.cpp 78-91, 286-299 [vectorAdd] *)
Definition vec_add (junk : seq R) v1 v2 : outcome (seq R) :=
  let! w := foldO (fun w (i : nat) => let! x := vec_get v1 i.+1 in vec_put w i.+1 x) junk (iota 0 (size v1)) in
  foldO (fun w (i : nat) => let! x := vec_get v2 i.+1 in vec_put w (size v1 + i).+1 x) w (iota 0 (size v2)).
(** vector_BOOST.cpp 233-240, 441-448 [sub(a,b)]: elements [a..b]; [junk] has
    [b-a+1] elements *)
Definition vec_sub (junk : seq R) v (a b : nat) : outcome (seq R) :=
  foldO (fun w (j : nat) => let! x := vec_get v j in vec_put w (j - a).+1 x) junk (iota a (b.+1 - a)).
(** vector_BOOST.cpp 412-423 [RowVector * ColumnVector] *)
Definition vec_dot v1 v2 : outcome R :=
  guard (size v1 == size v2) ;;
  foldO (fun acc (i : nat) => let! x := vec_get v1 i.+1 in let! y := vec_get v2 i.+1 in Ok (acc + x * y)) 0 (iota 0 (size v2)).
End Vector.

(** ** Matrices *)
Section Matrix.
Variable R : realFieldType.

(** The pivot search of ublas [lu_factorize]: first row with the largest
    absolute value in the column. *)
Definition lu_pivot n (A : 'M[R]_n.+1) : 'I_n.+1 :=
  foldl (fun b k => if `|A b ord0| < `|A k ord0| then k else b) ord0 (enum 'I_n.+1).
Definition lu_swapped n (A : 'M[R]_n.+1) : 'M[R]_(1 + n) := xrow ord0 (lu_pivot A) A.
(** elimination of the first column: what is left of the other rows *)
Definition lu_rest n (B : 'M[R]_(1 + n)) : 'M[R]_n :=
  drsubmx B - (B 0 0)^-1 *: dlsubmx B *m ursubmx B.

(** matrix_BOOST.cpp 240-252, 433-446: [lu_factorize], the product of the
    diagonal and one sign change per exchange of rows.  A singular matrix fails
    the assert.  The in-place factorisation works on ever smaller trailing
    blocks; here it is a recursion on the dimension. *)
Fixpoint lu_det n : 'M[R]_n -> outcome R :=
  match n return 'M[R]_n -> outcome R with
  | 0 => fun _ => Ok 1
  | n'.+1 => fun A =>
      let B := lu_swapped A in
      if B 0 0 == 0 then Abort else
      let! r := lu_det (lu_rest B) in
      Ok ((if lu_pivot A != ord0 then -1 else 1) * (B 0 0 * r))
  end.
(** matrix_BOOST.cpp 229-255, 416-447 [determinant] *)
Definition mat_det n : 'M[R]_n -> outcome R :=
  match n return 'M[R]_n -> outcome R with
  | 1 => fun A => Ok (A 0 0)
  | 2 => fun A => Ok (A 0 0 * A 1 1 - A 1 0 * A 0 1)
  | _ => fun A => lu_det A
  end.

(** [lu_substitute]: exchange of rows, forward and backward substitution, as a
    recursion on the dimension *)
Fixpoint lu_solve n m : 'M[R]_n -> 'M[R]_(n, m) -> outcome 'M[R]_(n, m) :=
  match n return 'M[R]_n -> 'M[R]_(n, m) -> outcome 'M[R]_(n, m) with
  | 0 => fun _ C => Ok C
  | n'.+1 => fun A C =>
      let B := lu_swapped A in
      let D : 'M[R]_(1 + n', m) := xrow ord0 (lu_pivot A) C in
      if B 0 0 == 0 then Abort else
      let! X := lu_solve (lu_rest B) (dsubmx D - (B 0 0)^-1 *: dlsubmx B *m usubmx D) in
      Ok (col_mx ((B 0 0)^-1 *: (usubmx D - ursubmx B *m X)) X : 'M[R]_(1 + n', m))
  end.
(** matrix_BOOST.cpp 258-293, 378-413 [inverse] *)
Definition mat_inv n : 'M[R]_n -> outcome 'M[R]_n :=
  match n return 'M[R]_n -> outcome 'M[R]_n with
  | 1 => fun A => if A 0 0 == 0 then Abort else Ok (\matrix_(i, j) (1 / A 0 0))
  | 2 => fun A =>
      let det := A 0 0 * A 1 1 - A 0 1 * A 1 0 in
      if det == 0 then Abort else
      Ok (\matrix_(i, j) (if i == 0 then if j == 0 then A 1 1 / det else - A 0 1 / det
                          else if j == 0 then - A 1 0 / det else A 0 0 / det))
  | _ => fun A => lu_solve A 1%:M
  end.

(** row [r] of a matrix, counted from 0 *)
Definition raw_row m n (A : 'M[R]_(m, n)) (r : nat) : outcome 'rV[R]_n :=
  if insub r is Some i then Ok (row i A) else Abort.
Definition raw_col m n (A : 'M[R]_(m, n)) (c : nat) : outcome 'cV[R]_m :=
  if insub c is Some j then Ok (col j A) else Abort.
(** matrix_BOOST.cpp 202-218 [Matrix::rowCopy], [columnCopy] and 366-374
    [SymmetricMatrix::rowCopy]: elements [(r,1), (r,2), ...], indices from 1 *)
Definition boost_row m n (A : 'M[R]_(m, n)) (r : nat) : outcome 'rV[R]_n :=
  if r is k.+1 then raw_row A k else Abort.
Definition boost_col m n (A : 'M[R]_(m, n)) (c : nat) : outcome 'cV[R]_m :=
  if c is k.+1 then raw_col A k else Abort.
(** matrix_EIGEN.cpp 183-191 [Matrix::rowCopy], [columnCopy]: Eigen's [row(r)]
    and [col(c)], indices from 0 *)
Definition eigen_row m n (A : 'M[R]_(m, n)) (r : nat) : outcome 'rV[R]_n := raw_row A r.
Definition eigen_col m n (A : 'M[R]_(m, n)) (c : nat) : outcome 'cV[R]_m := raw_col A c.
(** matrix_EIGEN.cpp 282-290 [SymmetricMatrix::rowCopy]: indices from 1 *)
Definition eigen_sym_row n (A : 'M[R]_n) (r : nat) : outcome 'rV[R]_n :=
  if r is k.+1 then raw_row A k else Abort.
End Matrix.
