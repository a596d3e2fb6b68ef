(** * Sampling of the conditional table and of a mixture in doubles *)
From Coq Require Import ZArith.
From Flocq Require Import Core.Core BinarySingleNaN.
From mathcomp Require Import all_ssreflect.
From Verif Require Import Outcome ModelDouble.
Set Implicit Arguments. Unset Strict Implicit. Unset Printing Implicit Defensive.

(** discreteconditionalpdf.cpp 135-175 [SampleFrom] for the row of the current
    arguments (how it is found is C10-C12) and a draw [u] of [runif()]; a row of sum 0
    gives NaN, which fails the assert of line 159.  [None] stands for the value -1. *)
Definition c_sample (row : seq double) (u : double) : outcome (option nat) :=
  let s := d_sum row in
  let! c := d_cum [seq ddiv x s | x <- row] in
  let! i := d_scan (size row) u 0 c in Ok (if i is s'.+1 then Some s' else None).

(** A mixture: its weights and [_cumWeights].  mixture.h 404-412 [WeightsSet] with the
    loops of [d_normalize] and [d_cum]. *)
Definition x_set (d : ddisc) (w : seq double) : outcome (bool * ddisc) := d_set_all d w.
(** mixture.h 338-362 [SampleFrom], DEFAULT: number of the component that is sampled;
    component -1 does not exist *)
Definition x_sample (d : ddisc) (u : double) : outcome nat :=
  let! i := d_scan (size (dd_v d)) u 0 (dd_c d) in if i is s.+1 then Ok s else UB.
