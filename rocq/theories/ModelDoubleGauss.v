(** * The density of a one-dimensional Gaussian in doubles

    gaussian.cpp 75-92 and conditionalgaussian.cpp 47-57 on the Boost matrices of one row: every product of matrices is a sum
    of one product, the inverse and the determinant are the special cases for one row.
    Simplification: the cached inverse and factor (78-82) are recomputed, as after every
    [CovarianceSet]; the cache is the subject of ModelGauss. *)
From Coq Require Import ZArith.
From Flocq Require Import Core.Core BinarySingleNaN.
From mathcomp Require Import all_ssreflect.
From Verif Require Import Outcome ModelDouble ModelDoubleKF ModelDoubleUni ModelDoublePF.
Set Implicit Arguments. Unset Strict Implicit. Unset Printing Implicit Defensive.

Definition dsqrt : double -> double := @Bsqrt 53 1024 _ _ mode_NE.
(** [M_PI] of math.h, 3.14159265358979323846, as a double *)
Definition dpi : double := dlit 884279719003555 (-48).
Definition dmhalf : double := dlit (-1) (-1).

Section Gauss.
(** [exp] and [pow] of the C library: external functions *)
Variables (expd : double -> double) (powd : double -> double -> double).

(** matrix_BOOST.cpp 378-390 [inverse], one row *)
Definition g_inv (S : double) : double := ddiv d1 S.
(** the square root in gaussian.cpp 81 and conditionalgaussian.cpp 55, with matrix_BOOST.cpp
    416-426 [determinant], one row *)
Definition g_root (S : double) : double := dsqrt (dmul (powd (dmul dpi dtwo) d1) S).
(** gaussian.cpp 84-88, conditionalgaussian.cpp 51-54: matrix_BOOST.cpp 600-610 ([prod]) and
    vector_BOOST.cpp 412-422; a [Probability] is finite and [>= 0] *)
Definition g_square (mu S x : double) : outcome double :=
  let diff := dsub x mu in d_prob (dot1 diff (dot1 (g_inv S) diff)).
(** gaussian.cpp 75-92 [Gaussian::ProbabilityGet]: times the inverse of the root *)
Definition g_prob (mu S x : double) : outcome double :=
  let! t := g_square mu S x in d_prob (dmul (expd (dmul dmhalf t)) (ddiv d1 (g_root S))).
(** conditionalgaussian.cpp 47-57 [ConditionalGaussian::ProbabilityGet]: divided by the root *)
Definition cg_prob (mu S x : double) : outcome double :=
  let! t := g_square mu S x in d_prob (ddiv (expd (dmul dmhalf t)) (g_root S)).

(** the likelihoods of the particles for the measurement [z]: [ms] are the values the
    measurement model predicts (its [ExpectedValueGet] for each particle) *)
Definition g_likes (S z : double) (ms : seq double) : outcome (seq double) := mapO (fun m => cg_prob m S z) ms.
Section Filter.
Variables (sq : double -> double) (root : double -> nat -> double) (sc : scheme).
(** particlefilter.cpp 200-269, 317-342: an update with this measurement model *)
Definition g_step (S z : double) (ms : seq double) (us : nat -> double) (s : dpf) :
    outcome ((bool * option (seq nat)) * dpf) :=
  let! ls := g_likes S z ms in p_step sq root sc s (PMeas (fun k => nth d0 ls k) us).
End Filter.
End Gauss.
