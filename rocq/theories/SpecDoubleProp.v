(** * Specification for combined updates of the particle weights (C110): exact weights *)
From Coq Require Import ZArith Reals.
From Flocq Require Import Core.Core BinarySingleNaN.
From mathcomp Require Import all_ssreflect.
From Verif Require Import ModelDouble SpecDouble ModelDoubleHist SpecDoubleHist ModelDoublePF ModelDoubleProp.
Set Implicit Arguments. Unset Strict Implicit. Unset Printing Implicit Defensive.
Local Open Scope R_scope.

(** importance weight: likelihood times transition density over proposal density; 0 where
    the proposal has no density *)
Definition importance (l f g : R) : R := if Req_EM_T g 0 then 0 else l * (f / g).
Definition reweigh (n : nat) (t p : nat -> R) : nat -> R := fun j => t j * p j / over n (fun i => t i * p i).
Definition even (n : nat) : nat -> R := fun _ => / INR n.
(** exact weights after a periodic resampling or none *)
Definition drawn (n : nat) (p : nat -> R) (o : option (seq nat)) : nat -> R := if o is Some _ then even n else p.
Definition c_gain (u : cupd) : nat -> R :=
  match u with
  | One (PSys _) => fun _ => 1
  | One (PMeas l _) => fun j => v2R (l j)
  | Both _ l f g _ => fun j => importance (v2R (l j)) (v2R (f j)) (v2R (g j))
  end.
(** exact weights after an update: resampled, reweighed, resampled *)
Definition c_next (n : nat) (p : nat -> R) (u : cupd) (o : copies) : nat -> R :=
  drawn n (reweigh n (c_gain u) (drawn n p o.1)) o.2.
Fixpoint c_path (n : nat) (p : nat -> R) (us : seq cupd) (os : seq (bool * copies)) : nat -> R :=
  match us, os with
  | u :: us', o :: os' => c_path n (c_next n p u o.2) us' os'
  | _, _ => p
  end.
(** zero or of moderate size *)
Definition mid (r : R) : Prop := r = 0 \/ bpow radix2 (-990) <= r <= bpow radix2 890.
Definition c_mid (n : nat) (p : nat -> R) (u : cupd) (o : copies) : Prop :=
  let q := drawn n p o.1 in
  [/\ match u with
      | One (PSys _) => True
      | One (PMeas l _) => forall j, (j < n)%N -> good (l j)
      | Both _ l f g _ => forall j, (j < n)%N ->
          [/\ good (l j), good (f j), good (g j) &
              v2R (g j) <> 0 -> mid (v2R (f j) / v2R (g j)) /\ mid (v2R (l j) * (v2R (f j) / v2R (g j)))]
      end,
      forall j, (j < n)%N -> mid (p j) /\ mid (c_gain u j * q j),
      0 < over n (fun i => c_gain u i * q i) &
      forall j, (j < n)%N -> mid (reweigh n (c_gain u) q j)].
Fixpoint c_mids (n : nat) (p : nat -> R) (us : seq cupd) (os : seq (bool * copies)) : Prop :=
  match us, os with
  | u :: us', o :: os' => c_mid n p u o.2 /\ c_mids n (c_next n p u o.2) us' os'
  | _, _ => True
  end.
(** roundings of [m] updates of [n] particles *)
Definition c_roundings (m n : nat) : nat := (4 * (m * (n + 3)) + n + 3)%N.
