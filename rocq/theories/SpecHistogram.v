(** * Specification vocabulary for the histogram filter *)
From mathcomp Require Import all_ssreflect all_algebra.
From Verif Require Import Outcome SpecProb SpecBayes ModelDiscretePdf SpecDiscretePdf
  ModelModels ModelFilter ModelHistogram.
Set Implicit Arguments. Unset Strict Implicit. Unset Printing Implicit Defensive.
Import Order.TTheory GRing.Theory Num.Theory.
Local Open Scope ring_scope.

Section Spec.
Variables (R : realFieldType) (Z : Type).
Notation hfilter := (heap (dpdf R) * filt (seq R))%type.
Notation hcall := (call (hsys R) (hmeas R Z) int Z).

(** the filter's posterior is the valid pdf [d] and its buffer fits *)
Definition holds (hf : hfilter) (d : dpdf R) : Prop :=
  [/\ f_post hf = Ok d, dp_valid d & size (fl_priv hf.2) = dp_n d].

(** arguments a user expects the pdf of a model to be evaluated at *)
Definition expected_args (noextra : bool) (x : nat) (s : option int) : option (seq int) :=
  if noextra then Some [:: x%:Z] else omap (fun y => [:: x%:Z; y]) s.

(** on the first [n] states the system model, called with input [u], has the
    non-negative transition table [a] *)
Definition sys_table (n : nat) (m : hsys R) (u : option int) (a : nat -> nat -> R) : Prop :=
  forall j i, (j < n)%N -> (i < n)%N ->
    match expected_args (sm_noextra m) i u with
    | Some args => sm_prob m args j%:Z = Ok (a j i) /\ 0 <= a j i
    | None => False
    end.
(** likewise the likelihood of measurement [z] *)
Definition meas_table (n : nat) (m : hmeas R Z) (z : Z) (s : option int) (l : nat -> R) : Prop :=
  forall i, (i < n)%N ->
    match expected_args (sm_noextra m) i s with
    | Some args => sm_prob m args z = Ok (l i) /\ 0 <= l i
    | None => False
    end.
(** every column of a transition table sums to 1 *)
Definition stochastic (n : nat) (a : nat -> nat -> R) : Prop :=
  forall i, (i < n)%N -> \sum_(j <- iota 0 n) a j i = 1.

(** the Bayesian updates a call stands for *)
Definition sys_part n (sm : option (hsys R)) u (fs : seq (factor R)) : Prop :=
  match sm with None => fs = [::] | Some m => exists a, fs = [:: Trans a] /\ sys_table n m u a end.
Definition meas_part n (mm : option (hmeas R Z)) z s (fs : seq (factor R)) : Prop :=
  match mm with None => fs = [::] | Some m => exists l, fs = [:: Like l] /\ meas_table n m z s l end.
Definition both_parts n sm u mm z s (fs : seq (factor R)) : Prop :=
  exists f1 f2, [/\ fs = f1 ++ f2, sys_part n sm u f1 & meas_part n mm z s f2].
Definition stands_for n (c : hcall) (fs : seq (factor R)) : Prop :=
  match c with
  | Update_sumzs sm u mm z s => both_parts n sm (Some u) mm z (Some s) fs
  | Update_smzs sm mm z s => both_parts n sm None mm z (Some s) fs
  | Update_smz sm mm z => both_parts n sm None mm z None fs
  | Update_sumz sm u mm z => both_parts n sm (Some u) mm z None fs
  | Update_su sm u => sys_part n sm (Some u) fs
  | Update_s sm => sys_part n sm None fs
  | Update_mzs mm z s => meas_part n mm z (Some s) fs
  | Update_mz mm z => meas_part n mm z None fs
  end.
(** probabilities shown by a pdf *)
Definition probs (d : dpdf R) (i : nat) : R := nth 0 (dp_vals d) i.
End Spec.
