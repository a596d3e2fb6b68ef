(** * Model of [HistogramFilter] (src/filter/histogramfilter.cpp 24-95) *)
From mathcomp Require Import all_ssreflect all_algebra.
From Verif Require Import Outcome ModelTables ModelDiscretePdf ModelModels ModelFilter.
Set Implicit Arguments. Unset Strict Implicit. Unset Printing Implicit Defensive.
Import Order.TTheory GRing.Theory Num.Theory.
Local Open Scope ring_scope.

Section Histogram.
Variables (R : realFieldType) (eps : R) (Z : Type).
(** states are [int]; the randomness type of the models is irrelevant *)
Definition hsys := smodel R int int unit.
Definition hmeas := smodel R Z int unit.

(** private buffer [_new_prob] (the buffer [_old_prob] is overwritten before
    every use), histogramfilter.cpp 24-32: copied from the prior *)
Definition hf_init (d : dpdf R) : outcome (seq R) := Ok (dp_vals d).

(** histogramfilter.cpp 53-60: the loop over [from_state] *)
Definition hf_predict (m : hsys) (u : option int) (old : seq R) (n : nat) (to : nat) : outcome R :=
  foldO (fun temp (from : nat) =>
           let! p := sm_eval m to%:Z from%:Z u in
           let! q := at_ old from in Ok (temp + p * q)) 0 (iota 0 n).

(** histogramfilter.cpp 42-68 [SysUpdate].  Storing into [_new_prob] converts
    to [Probability]; the flag of [ProbabilitiesSet] is ignored. *)
Definition hf_sys (m : hsys) (u : option int) (st : seq R * dpdf R) : outcome (seq R * dpdf R) :=
  let n := dp_n st.2 in
  let! new := foldO (fun np (to : nat) =>
                let! t := hf_predict m u (dp_vals st.2) n to in
                let! p := mkProb t in put_ np to p) st.1 (iota 0 n) in
  let! r := dp_sets eps st.2 new in
  Ok (new, r.2).

(** histogramfilter.cpp 72-83 [MeasUpdate]; the flag is ignored *)
Definition hf_meas (m : hmeas) (z : option Z) (s : option int) (st : seq R * dpdf R)
    : outcome (seq R * dpdf R) :=
  let! new := foldO (fun old (k : nat) =>
                let! q := at_ old k in
                let! v := (if z is Some v then Ok v else UB) in
                let! p := sm_eval m v k%:Z s in
                let! r := mkProb (q * p) in put_ old k r) (dp_vals st.2) (iota 0 (dp_n st.2)) in
  let! r := dp_sets eps st.2 new in
  Ok (st.1, r.2).

(** histogramfilter.cpp 87-95 *)
Definition hf_internal := two_step hf_sys hf_meas.
(** the whole object: construction and the [Update] overloads *)
Definition hf_new := f_new (dp_copy eps) hf_init.
Definition hf_call := f_call hf_internal.
End Histogram.
