(** * Specification of discrete Bayesian filtering: sums over trajectories

    Independent of every model. *)
From mathcomp Require Import all_ssreflect all_algebra.
Set Implicit Arguments. Unset Strict Implicit. Unset Printing Implicit Defensive.
Import Order.TTheory GRing.Theory Num.Theory.
Local Open Scope ring_scope.

Section Bayes.
Variable R : realFieldType.

(** one Bayesian update: a transition kernel [a to from], or the likelihood of
    the received measurement in each state *)
Inductive factor := Trans of (nat -> nat -> R) | Like of (nat -> R).
Definition is_trans (f : factor) : bool := if f is Trans _ then true else false.

(** product of all factors along the trajectory that starts in [cur] and then
    visits [rest] (one new state per transition) *)
Fixpoint weight (cur : nat) (rest : seq nat) (fs : seq factor) : R :=
  match fs with
  | [::] => 1
  | Trans a :: fs' => if rest is nxt :: rest' then a nxt cur * weight nxt rest' fs' else 0
  | Like l :: fs' => l cur * weight cur rest fs'
  end.

(** all state sequences of length [k] over [n] states *)
Fixpoint trajs (n k : nat) : seq (seq nat) :=
  if k is k'.+1 then [seq x :: t | x <- iota 0 n, t <- trajs n k'] else [:: [::]].

(** unnormalised probability that the final state is [j]: the sum, over all
    trajectories ending in [j], of initial probability times factors *)
Definition joint (n : nat) (p : nat -> R) (fs : seq factor) (j : nat) : R :=
  \sum_(x <- iota 0 n) \sum_(t <- trajs n (count is_trans fs))
     (if last x t == j then p x * weight x t fs else 0).
(** probability of all the measurements *)
Definition evidence (n : nat) (p : nat -> R) (fs : seq factor) : R :=
  \sum_(j <- iota 0 n) joint n p fs j.
End Bayes.
