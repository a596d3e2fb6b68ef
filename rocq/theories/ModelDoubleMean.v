(** * Moments of a particle set in IEEE-754 doubles (src/pdf/mcpdf.cpp)

    The weights are those of ModelDouble; [x i a] is component [a] of the value of
    particle [i].  [_SumWeights] is 1.0 after every successful [ListOfSamplesSet] or
    [ListOfSamplesUpdate] (mcpdf.h 409, 458, 503), and a failed [SumWeightsUpdate]
    (mcpdf.h 481-488) leaves it, so it is [d1] here. *)
From Coq Require Import ZArith.
From Flocq Require Import Core.Core BinarySingleNaN.
From mathcomp Require Import all_ssreflect.
From Verif Require Import Outcome ModelDouble.
Set Implicit Arguments. Unset Strict Implicit. Unset Printing Implicit Defensive.

(** the loops [for (it = los.begin(); ...) sum += term] from 0.0 *)
Definition e_sum (n : nat) (t : nat -> double) : double := foldl dadd d0 [seq t i | i <- iota 0 n].

Section Moments.
Variables (d : dmc) (x : nat -> nat -> double).
Let n := size (dm_w d).
Let w i := nth d0 (dm_w d) i.
(** mcpdf.cpp 76-84 [ExpectedValueGet], component [a]; vector_BOOST.cpp 115-121
    [operator+=], 182-186 [operator*(double)], 188-192 [operator/(double)] work
    element by element. *)
Definition e_mean (a : nat) : double := ddiv (e_sum n (fun i => dmul (x i a) (w i))) d1.
(** mcpdf.cpp 87-102 [CovarianceGet], element [(a,b)] of [_diffsum/_SumWeights]:
    vector_BOOST.cpp 205-215, 389-393: [_diff(a) * (_diff(b) * weight)]. *)
Definition e_diffsum (a b : nat) : double :=
  let ma := e_mean a in let mb := e_mean b in
  ddiv (e_sum n (fun i => dmul (dsub (x i a) ma) (dmul (dsub (x i b) mb) (w i)))) d1.
(** mcpdf.cpp 100 [convertToSymmetricMatrix], matrix_BOOST.cpp 297-312: the lower
    triangle. *)
Definition e_cov (a b : nat) : double := if (b <= a)%N then e_diffsum a b else e_diffsum b a.
End Moments.

(** mcpdf.cpp 110-124 [ExpectedValueGet] for [unsigned int]: [v i] is the value of
    particle [i].  The conversion of a double outside of the range is undefined
    ([Btrunc] of an infinity or NaN is 0: excluded first). *)
Definition e_umean (d : dmc) (v : nat -> Z) : outcome Z :=
  let r := dadd (ddiv (e_sum (size (dm_w d)) (fun i => dmul (dlit (v i) 0) (nth d0 (dm_w d) i))) d1) (dlit 1 (-1)) in
  let z := Btrunc r in
  if is_finite r && Z.leb 0 z && Z.ltb z (2 ^ 32) then Ok z else UB.
