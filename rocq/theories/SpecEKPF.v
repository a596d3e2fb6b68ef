(** * Specification vocabulary for the extended Kalman particle filter *)
From mathcomp Require Import all_ssreflect all_algebra.
From Verif Require Import Outcome SpecProb ModelTables ModelMCPdf SpecMCPdf ModelFilter ModelKalman ModelProposal SpecProposal.
Set Implicit Arguments. Unset Strict Implicit. Unset Printing Implicit Defensive.
Import Order.TTheory GRing.Theory Num.Theory.
Local Open Scope ring_scope.

Section Spec.
Variables (R : realFieldType) (T : Type).
(** the elements of [l] at the positions [pos] *)
Definition picked A (a0 : A) (l : seq A) (pos : seq nat) : seq A := [seq nth a0 l k | k <- pos].
(** when copy [i] was made from particle [pos_i], the weight that the copies of
    particle [k] have together *)
Definition mass (pos : seq nat) (ws : seq R) (k : nat) : R := \sum_(x <- zip pos ws | x.1 == k) x.2.
End Spec.

(** ** One step of the filter, said without its buffers *)
Section Step.
Variables (R : realFieldType) (n : nat).
Notation vecn := 'cV[R]_n.
Notation asys := (asys R (meas R) n).
Notation ameas := (ameas R (meas R) n).
(** the extended Kalman filter run for one update from the Gaussian with mean [x]
    and covariance [P] *)
Definition ekf_step (a : asys) (u : option (meas R)) (am : ameas) (z s : option (meas R)) (x : vecn) (P : 'M[R]_n)
    : outcome (gauss R n) :=
  match am_noextra a, am_noextra (projT2 am) with
  | true, true => let! z := need z in fresh_update (Gauss x P) (Update_smz _ (Some a) (Some am) z)
  | true, false => let! z := need z in let! s := need s in
      fresh_update (Gauss x P) (Update_smzs (Some a) (Some am) z s)
  | false, true => let! u := need u in let! z := need z in
      fresh_update (Gauss x P) (Update_sumz (Some a) u (Some am) z)
  | false, false => let! u := need u in let! z := need z in let! s := need s in
      fresh_update (Gauss x P) (Update_sumzs (Some a) u (Some am) z s)
  end.
(** the weight factor of a particle that moved from [xold] to [xnew], drawn from a
    proposal with density [dn] made from [xold] and [P] *)
Variable dn : gauss R n -> vecn -> R.
Variable dsys : asys -> vecn -> vecn -> option (meas R) -> outcome R.
Variable dmeas : ameas -> meas R -> vecn -> option (meas R) -> outcome R.
Definition factor (a : asys) u (am : ameas) z s (P : 'M[R]_n) (xnew xold : vecn) : outcome R :=
  let! v := need z in
  if am_noextra (projT2 am) then
    let! l := dmeas am v xnew None in
    let! l := mkProb l in
    let! g := ekf_step a u am z s xold P in
    if dn g xnew == 0 then Ok 0 else
    let! q := dsys a xnew xold (if am_noextra a then None else u) in
    let! q := mkProb q in
    Ok (l * (q / dn g xnew))
  else let! w := need s in let! l := dmeas am v xnew (Some w) in mkProb l.
End Step.
