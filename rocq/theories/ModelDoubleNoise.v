(** * Samples of a one-dimensional Gaussian in doubles

    gaussian.cpp 97-175 and conditionalgaussian.cpp 65-106 on the Boost matrices of one row,
    methods DEFAULT and CHOLESKY.  [v] is the draw [rnorm(0,1)] of the generator. *)
From Coq Require Import ZArith.
From Flocq Require Import Core.Core BinarySingleNaN.
From mathcomp Require Import all_ssreflect.
From Verif Require Import ModelDouble ModelDoubleKF ModelDoubleGauss.
Set Implicit Arguments. Unset Strict Implicit. Unset Printing Implicit Defensive.

(** [std::numeric_limits<double>::epsilon()] and its negative *)
Definition deps : double := dlit 1 (-52).
Definition dmeps : double := dlit (-1) (-52).
(** matrix_wrapper.cpp 11-44 [cholesky_semidefinite], one row: the loops over other rows
    (29-37, 40-42) are empty; 26 sets the factor to 0 and returns false *)
Definition n_chol (S : double) : bool * double :=
  let a := if dlt S deps && dlt dmeps S then d0 else S in
  if dlt a d0 then (false, d0) else (true, dsqrt a).
(** gaussian.cpp 155-167, conditionalgaussian.cpp 81-85, 94-105: factor times draw, plus mean *)
Definition n_sample (mu S v : double) : bool * double :=
  let c := n_chol S in (c.1, dadd (dot1 c.2 v) mu).
(** gaussian.cpp 105-118: the list version, one factor for all samples *)
Definition n_samples (mu S : double) (vs : seq double) : bool * seq double :=
  let c := n_chol S in (c.1, [seq dadd (dot1 c.2 v) mu | v <- vs]).
(** a chain of states, each with the mean of the one before and the same noise: a random walk,
    the system model x' = x + w of a particle (particlefilter.cpp 144-197, one particle) *)
Fixpoint n_walk (S x : double) (vs : seq double) : double :=
  if vs is v :: vs' then n_walk S (n_sample x S v).2 vs' else x.
