(** * The uniform pdf in doubles (src/pdf/uniform.cpp, src/wrappers/rng/rng.cpp)

    Simplifications: as in ModelDouble.v.  The object is built by the constructor with
    centre and width (other histories are C57 and C67); the work vector is left out.
    boost::uniform_real of Boost 1.47 and later, with a generator that returns
    [k] of [0, 2^32). *)
From Coq Require Import ZArith.
From Flocq Require Import Core.Core BinarySingleNaN.
From mathcomp Require Import all_ssreflect.
From Verif Require Import Outcome ModelDouble.
Set Implicit Arguments. Unset Strict Implicit. Unset Printing Implicit Defensive.

Definition dtwo : double := dlit 2 0.
(** uniform.h 29-38: [_Lower], [_Higher], [_Height] *)
Record duni := DUni { un_lo : seq double; un_hi : seq double; un_h : double }.
(** uniform.cpp 35-36: [center - width/2.0], [center + width/2.0], of one element *)
Definition b_lo (c w : double) : double := dsub c (ddiv w dtwo).
Definition b_hi (c w : double) : double := dadd c (ddiv w dtwo).
(** uniform.cpp 29-42 *)
Definition n_new (c w : seq double) : outcome duni :=
  guard (size c == size w) ;;
  Ok (DUni [seq b_lo p.1 p.2 | p <- zip c w] [seq b_hi p.1 p.2 | p <- zip c w] (foldl ddiv d1 w)).
(** uniform.cpp 117-121, 123-127 *)
Definition n_center (d : duni) : seq double := [seq ddiv (dadd p.1 p.2) dtwo | p <- zip (un_hi d) (un_lo d)].
Definition n_width (d : duni) : seq double := [seq dsub p.1 p.2 | p <- zip (un_hi d) (un_lo d)].

(** uniform.cpp 70-73: [false] at the first element outside *)
Fixpoint n_inside (lo hi x : seq double) : outcome bool :=
  match x, lo, hi with
  | [::], _, _ => Ok true
  | a :: x', l :: lo', h :: hi' => if dlt h a || dlt a l then Ok false else n_inside lo' hi' x'
  | _, _, _ => Abort
  end.
(** uniform.cpp 67-75 [ProbabilityGet] with the conversion to [Probability] *)
Definition n_prob (d : duni) (x : seq double) : outcome double :=
  let! b := n_inside (un_lo d) (un_hi d) x in d_prob (if b then un_h d else d0).

(** boost/random/uniform_real_distribution.hpp [generate_uniform_real]:
    [numerator / divisor * (max - min) + min], repeated until it is below [max] *)
Definition r_cand (lo hi : double) (k : Z) : double :=
  dadd (dmul (ddiv (dlit k 0) (dlit 1 32)) (dsub hi lo)) lo.
(** [None]: all outputs [ks] are used up and the loop still runs *)
Fixpoint r_loop (lo hi : double) (ks : seq Z) : option (double * seq Z) :=
  if ks is k :: ks' then let x := r_cand lo hi k in if dlt x hi then Some (x, ks') else r_loop lo hi ks'
  else None.
(** rng.cpp 46-51; the constructor of uniform_real asserts [min <= max] *)
Definition r_unif (lo hi : double) (ks : seq Z) : outcome (option (double * seq Z)) :=
  guard (dle lo hi) ;; Ok (r_loop lo hi ks).
(** uniform.cpp 107: one element after the other *)
Fixpoint r_fill (bs : seq (double * double)) (ks : seq Z) : outcome (option (seq double * seq Z)) :=
  if bs is b :: bs' then
    let! r := r_unif b.1 b.2 ks in
    if r is Some (x, ks1) then
      let! q := r_fill bs' ks1 in Ok (if q is Some (xs, ks2) then Some (x :: xs, ks2) else None)
    else Ok None
  else Ok (Some ([::], ks)).
(** uniform.cpp 100-114 [SampleFrom], DEFAULT *)
Definition n_sample (d : duni) (ks : seq Z) : outcome (option (seq double * seq Z)) :=
  r_fill (zip (un_lo d) (un_hi d)) ks.
