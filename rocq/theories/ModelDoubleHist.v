(** * The histogram filter in IEEE-754 doubles

    histogramfilter.cpp with the tables of ModelDouble.  A system or measurement
    model is the function of its [ProbabilityGet]; the result passes through the
    constructor of [Probability].  Inputs, sensor parameters and the buffers (each
    overwritten before its use) are left out: see ModelHistogram for those. *)
From Coq Require Import ZArith.
From Flocq Require Import Core.Core BinarySingleNaN.
From mathcomp Require Import all_ssreflect.
From Verif Require Import Outcome ModelDouble.
Set Implicit Arguments. Unset Strict Implicit. Unset Printing Implicit Defensive.

(** histogramfilter.cpp 51-65: the loop over [from_state] *)
Definition h_predict (a : nat -> nat -> double) (old : seq double) (to : nat) : outcome double :=
  foldO (fun temp from => let! p := d_prob (a to from) in
                          let! q := at_ old from in Ok (dadd temp (dmul p q))) d0 (iota 0 (size old)).
(** histogramfilter.cpp 42-68 [SysUpdate]; the result of [ProbabilitiesSet] is ignored *)
Definition h_sys (a : nat -> nat -> double) (d : ddisc) : outcome ddisc :=
  let! new := mapO (fun to => let! t := h_predict a (dd_v d) to in d_prob t) (iota 0 (size (dd_v d))) in
  let! r := d_set_all d new in Ok r.2.
(** histogramfilter.cpp 72-83 [MeasUpdate]; the result is ignored *)
Definition h_meas (l : nat -> double) (d : ddisc) : outcome ddisc :=
  let! new := mapO (fun k => let! q := at_ (dd_v d) k in
                             let! p := d_prob (l k) in d_prob (dmul q p)) (iota 0 (size (dd_v d))) in
  let! r := d_set_all d new in Ok r.2.
(** histogramfilter.cpp 87-95: one update per model given; always [true] *)
Inductive hupd := HTrans of (nat -> nat -> double) | HLike of (nat -> double).
Definition h_step (d : ddisc) (f : hupd) : outcome (bool * ddisc) :=
  let! d' := (match f with HTrans a => h_sys a d | HLike l => h_meas l d end) in Ok (true, d').
Definition h_run := runO h_step.
