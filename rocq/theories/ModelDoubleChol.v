(** * The Cholesky factor and the samples of a two-dimensional Gaussian in doubles

    matrix_wrapper.cpp 11-44 and gaussian.cpp 97-175 on the Boost matrices of two rows, the loops
    unrolled; a symmetric matrix is given by its entries (1,1), (2,1), (2,2). *)
From Coq Require Import ZArith.
From Flocq Require Import Core.Core BinarySingleNaN.
From mathcomp Require Import all_ssreflect.
From Verif Require Import ModelDouble ModelDoubleKF ModelDoubleGauss ModelDoubleNoise.
Set Implicit Arguments. Unset Strict Implicit. Unset Printing Implicit Defensive.

(** entries (1,1), (2,1), (2,2) of a lower triangle *)
Record low2 := Low2 { l11 : double; l21 : double; l22 : double }.
(** matrix_wrapper.cpp 11-44 [cholesky_semidefinite], two rows: 20-28 for k=1 (as [n_chol]), 29-34,
    35-37 (entry (2,2)), 20-28 for k=2; 26 sets the factor to 0 and returns false *)
Definition n_chol2 (a b c : double) : bool * low2 :=
  let k1 := n_chol a in
  if ~~ k1.1 then (false, Low2 d0 d0 d0) else
  let m := if dlt k1.2 deps then d0 else ddiv b k1.2 in
  let k2 := n_chol (dsub c (dmul m m)) in
  if ~~ k2.1 then (false, Low2 d0 d0 d0) else (true, Low2 k1.2 m k2.2).
(** matrix_BOOST.cpp 164-168: row of two entries times column; ublas adds the products to 0 *)
Definition dot2 (a b v w : double) : double := dadd (dadd d0 (dmul a v)) (dmul b w).
(** gaussian.cpp 155-167: factor times draws, plus mean *)
Definition n_sample2 (mu1 mu2 a b c v w : double) : bool * (double * double) :=
  let k := n_chol2 a b c in
  (k.1, (dadd (dot2 (l11 k.2) d0 v w) mu1, dadd (dot2 (l21 k.2) (l22 k.2) v w) mu2)).
