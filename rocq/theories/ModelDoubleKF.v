(** * The Kalman filter with one state and one measurement in IEEE-754 doubles

    kalmanfilter.cpp [CalculateSysUpdate] and [CalculateMeasUpdate] for 1x1 matrices of
    the Boost wrapper.  They serve the extended Kalman filter with every model and, in the
    linear case, the exact filter; the prediction, its derivative and the noise covariance
    are arguments.  Simplifications: no x87 excess precision and no fused multiply-add;
    the buffers (overwritten before use) are left out. *)
From Coq Require Import ZArith.
From Flocq Require Import Core.Core BinarySingleNaN.
From mathcomp Require Import all_ssreflect.
From Verif Require Import Outcome ModelDouble.
Set Implicit Arguments. Unset Strict Implicit. Unset Printing Implicit Defensive.

(** the posterior: mean and variance *)
Record dkf := DKF { k_mu : double; k_var : double }.
(** product of 1x1 matrices (matrix_BOOST.cpp 138-144, 164-168; ublas adds the products to 0) *)
Definition dot1 (a b : double) : double := dadd d0 (dmul a b).
(** kalmanfilter.cpp 75-85: [J] the prediction, [F] its derivative, [Q] the noise *)
Definition k_sys (J F Q : double) (s : dkf) : dkf := DKF J (dadd (dot1 F (dot1 (k_var s) F)) Q).
(** kalmanfilter.cpp 87-116: [z] the measurement, [Z] the predicted one, [H] its derivative, [R] the
    noise; matrix_BOOST.cpp 258-270 for the inverse *)
Definition k_gain (H R : double) (s : dkf) : double :=
  let postHT := dot1 (k_var s) H in
  let S := dadd (dot1 H postHT) R in
  dot1 postHT (ddiv d1 S).
Definition k_meas (z Z H R : double) (s : dkf) : dkf :=
  let K := k_gain H R s in
  let innov := dsub z Z in
  let mu := dadd (dot1 K innov) (k_mu s) in
  let T := dot1 K H in
  DKF mu (dsub (k_var s) (dot1 T (k_var s))).
(** kalmanfilter.cpp 148-164 [UpdateInternal]: one update per model given; always [true] *)
Inductive kupd := KSys of double & double & double | KMeas of double & double & double & double.
Definition k_step (s : dkf) (f : kupd) : dkf :=
  match f with KSys J F Q => k_sys J F Q s | KMeas z Z H R => k_meas z Z H R s end.
Definition k_run (s : dkf) (fs : seq kupd) : dkf := foldl k_step s fs.
