(** * Particle filter with a two-dimensional Gaussian measurement model in doubles

    The measurement update of the particle filter (ModelDoublePF) whose likelihoods are those of a
    two-dimensional conditional Gaussian (ModelDoubleGauss2). *)
From Coq Require Import ZArith.
From Flocq Require Import Core.Core BinarySingleNaN.
From mathcomp Require Import all_ssreflect.
From Verif Require Import Outcome ModelDouble ModelDoublePF ModelDoubleGauss ModelDoubleGauss2.
Set Implicit Arguments. Unset Strict Implicit. Unset Printing Implicit Defensive.

Section Meas2.
Variables (expd : double -> double) (powd : double -> double -> double).
(** conditionalgaussian.cpp 47-57 for each particle: [ms] are the values the measurement model
    predicts (its [ExpectedValueGet]), [z] is the measurement *)
Definition g2_likes (a b c : double) (z : double * double) (ms : seq (double * double)) : outcome (seq double) :=
  mapO (fun m => cg2_prob expd powd m.1 m.2 a b c z.1 z.2) ms.
Variables (sq : double -> double) (root : double -> nat -> double) (sc : scheme).
(** particlefilter.cpp 200-269, 317-342: an update with this measurement model *)
Definition g2_step (a b c : double) (z : double * double) (ms : seq (double * double)) (us : nat -> double) (s : dpf) :
    outcome ((bool * option (seq nat)) * dpf) :=
  let! ls := g2_likes a b c z ms in p_step sq root sc s (PMeas (fun k => nth d0 ls k) us).
End Meas2.
