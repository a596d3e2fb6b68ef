(** * The density of a two-dimensional Gaussian in doubles

    gaussian.cpp 75-92 and conditionalgaussian.cpp 47-57 on the Boost matrices of two rows; a
    symmetric matrix is given by its entries (1,1), (2,1), (2,2).  Simplification as in
    ModelDoubleGauss: the cached inverse and factor are recomputed. *)
From Coq Require Import ZArith.
From Flocq Require Import Core.Core BinarySingleNaN.
From mathcomp Require Import all_ssreflect.
From Verif Require Import Outcome ModelDouble ModelDoubleKF ModelDoubleUni ModelDoubleGauss ModelDoubleChol.
Set Implicit Arguments. Unset Strict Implicit. Unset Printing Implicit Defensive.

(** [-x] *)
Definition dneg : double -> double := @Bopp 53 1024.
(** matrix_BOOST.cpp 414-428 [determinant], two rows *)
Definition d2_det (a b c : double) : double := dsub (dmul a c) (dmul b b).
(** matrix_BOOST.cpp 377-399, 410 [inverse], two rows *)
Definition d2_inv (a b c : double) : low2 :=
  let det := d2_det a b c in Low2 (ddiv c det) (ddiv (dneg b) det) (ddiv a det).
(** symmetric matrix times column, row times column: matrix_BOOST.cpp 600-610 ([prod]),
    vector_BOOST.cpp 412-423 *)
Definition d2_form (i : low2) (e1 e2 : double) : double :=
  dot2 e1 e2 (dot2 (l11 i) (l21 i) e1 e2) (dot2 (l21 i) (l22 i) e1 e2).
(** gaussian.cpp 84-88, conditionalgaussian.cpp 51-54: a [Probability] is finite and [>= 0] *)
Definition d2_square (mu1 mu2 a b c x1 x2 : double) : outcome double :=
  d_prob (d2_form (d2_inv a b c) (dsub x1 mu1) (dsub x2 mu2)).
Section Gauss2.
(** [exp] and [pow] of the C library: external functions *)
Variables (expd : double -> double) (powd : double -> double -> double).
(** the square root in gaussian.cpp 81 and conditionalgaussian.cpp 55 *)
Definition d2_root (a b c : double) : double := dsqrt (dmul (powd (dmul dpi dtwo) dtwo) (d2_det a b c)).
(** gaussian.cpp 75-92 [Gaussian::ProbabilityGet] *)
Definition g2_prob (mu1 mu2 a b c x1 x2 : double) : outcome double :=
  let! t := d2_square mu1 mu2 a b c x1 x2 in d_prob (dmul (expd (dmul dmhalf t)) (ddiv d1 (d2_root a b c))).
(** conditionalgaussian.cpp 47-57 [ConditionalGaussian::ProbabilityGet] *)
Definition cg2_prob (mu1 mu2 a b c x1 x2 : double) : outcome double :=
  let! t := d2_square mu1 mu2 a b c x1 x2 in d_prob (ddiv (expd (dmul dmhalf t)) (d2_root a b c)).
End Gauss2.
