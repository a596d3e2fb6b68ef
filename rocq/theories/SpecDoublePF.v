(** * Specification for the particle weights in doubles *)
From Coq Require Import ZArith Reals.
From Flocq Require Import Core.Core BinarySingleNaN.
From mathcomp Require Import all_ssreflect.
From Verif Require Import ModelDouble SpecDouble ModelDoubleHist SpecDoubleHist ModelDoublePF.
Set Implicit Arguments. Unset Strict Implicit. Unset Printing Implicit Defensive.
Local Open Scope R_scope.

(** effective size of [n] particles with the weights [p]: [(sum p)^2 / sum p^2] *)
Definition ess (n : nat) (p : nat -> R) : R := (over n p) ^ 2 / over n (fun j => p j ^ 2).
(** [sq] squares a number of [0,2], up to one unit in the last place *)
Definition squares (sq : double -> double) : Prop :=
  forall x, good x -> v2R x <= 2 -> good (sq x) /\
    Rabs (v2R (sq x) - v2R x ^ 2) <= v2R x ^ 2 * / IZR (2 ^ 52) + bpow radix2 (-1074).
(** exact weights after an update that resampled or did not *)
Definition pf_next (n : nat) (p : nat -> R) (f : pupd) (o : option (seq nat)) : nat -> R :=
  if o is Some _ then fun _ => / INR n else
  match f with PSys _ => p | PMeas l _ => fun j => v2R (l j) * p j / over n (fun i => v2R (l i) * p i) end.
Fixpoint pf_path (n : nat) (p : nat -> R) (fs : seq pupd) (os : seq (bool * option (seq nat))) : nat -> R :=
  match fs, os with
  | f :: fs', o :: os' => pf_path n (pf_next n p f o.2) fs' os'
  | _, _ => p
  end.
(** neither overflow nor underflow *)
Definition pf_tame (n : nat) (p : nat -> R) (f : pupd) : Prop :=
  match f with
  | PSys _ => forall j, (j < n)%N -> tame (p j)
  | PMeas l _ => [/\ forall j, (j < n)%N -> good (l j) /\ tame (v2R (l j) * p j),
      0 < over n (fun i => v2R (l i) * p i) &
      forall j, (j < n)%N -> tame (v2R (l j) * p j / over n (fun i => v2R (l i) * p i))]
  end.
Fixpoint pf_tames (n : nat) (p : nat -> R) (fs : seq pupd) (os : seq (bool * option (seq nat))) : Prop :=
  match fs, os with
  | f :: fs', o :: os' => pf_tame n p f /\ pf_tames n (pf_next n p f o.2) fs' os'
  | _, _ => True
  end.
(** all [n] weights are 0 *)
Definition gone (n : nat) (d : dmc) : Prop :=
  size (dm_w d) = n /\ forall j, (j < n)%N -> good (nth d0 (dm_w d) j) /\ v2R (nth d0 (dm_w d) j) = 0.
(** the likelihoods of an update are finite doubles [>= 0], at most [2^900] *)
Definition mild (n : nat) (f : pupd) : Prop :=
  if f is PMeas l _ then forall j, (j < n)%N -> good (l j) /\ v2R (l j) <= bpow radix2 900 else True.
