(** * Specification: the posterior of a linear system with one state *)
From Coq Require Import ZArith Reals.
From Flocq Require Import Core.Core BinarySingleNaN.
From mathcomp Require Import all_ssreflect.
From Verif Require Import Outcome ModelDouble SpecDouble ModelDoubleKF SpecDoubleKF ModelDoubleLin.
Set Implicit Arguments. Unset Strict Implicit. Unset Printing Implicit Defensive.
Local Open Scope R_scope.

(** what input and noise mean add, and a bound for it *)
Definition offset (u : input) (b : double) : R := (if u is Some (B, w) then v2R B * v2R w else 0) + v2R b.
Definition offsize (u : input) (b : double) : R := (if u is Some (B, w) then Rabs (v2R B * v2R w) else 0) + Rabs (v2R b).
Definition plain (u : input) (b : double) : Prop :=
  is_finite b = true /\ (if u is Some (B, w) then is_finite B = true /\ is_finite w = true else True).
(** mean and variance after one update, without rounding: a measurement adds up information *)
Definition posterior (s : R * R) (f : lupd) : R * R :=
  match f with
  | LSys A u b Q => (v2R A * s.1 + offset u b, v2R A ^ 2 * s.2 + v2R Q)
  | LMeas z H u b N =>
      let p := / (/ s.2 + v2R H ^ 2 / v2R N) in
      (p * (s.1 / s.2 + v2R H * (v2R z - offset u b) / v2R N), p)
  end.
Definition posterior_run (s : R * R) (fs : seq lupd) : R * R := foldl posterior s fs.
(** the numbers of an update at the estimate [x] with exact variance [p], in units of the
    state, are at most [M]; those of a measurement are at most [2^e] *)
Definition calm (e : Z) (M p x : R) (f : lupd) : Prop :=
  match f with
  | LSys A u b Q => plain u b /\ Rabs (v2R A * x) + offsize u b <= M
  | LMeas z H u b N =>
      let size := Rabs (v2R z) + (Rabs (v2R H * x) + offsize u b) in
      [/\ is_finite z = true, plain u b, Rabs x <= M, size <= bpow radix2 e & Rabs (gain p H N) * size <= M]
  end.
(** the measurement is at most [c] times more precise than the prior (the prediction does not matter) *)
Definition lfair (c : nat) (p : R) (f : lupd) : Prop :=
  match f with
  | LSys A u b Q => fair c p (KSys d0 A Q)
  | LMeas z H u b N => fair c p (KMeas z d0 H N)
  end.
(** every update of a run is fair and calm at the computed estimates, the exact variance stays
    in range and not below [lo^2] *)
Fixpoint calm_run (c : nat) (M lo p : R) (s : dkf) (fs : seq lupd) : Prop :=
  match fs with
  | [::] => True
  | f :: fs' =>
      let p' := (posterior (v2R (k_mu s), p) f).2 in
      [/\ lfair c p f, calm 250 M p (v2R (k_mu s)) f, mid p' /\ lo ^ 2 <= p' & calm_run c M lo p' (l_step s f) fs']
  end.
(** every update is fair and calm at the exact means; the exact standard deviation is between [lo] and [M] *)
Fixpoint calm_exact (c : nat) (M lo : R) (q : R * R) (fs : seq lupd) : Prop :=
  match fs with
  | [::] => True
  | f :: fs' =>
      let q' := posterior q f in
      [/\ lfair c q.2 f, calm 240 M q.2 q.1 f, mid q'.2 /\ lo ^ 2 <= q'.2 <= M ^ 2 & calm_exact c M lo q' fs']
  end.
