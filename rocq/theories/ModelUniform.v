(** * Model of [Uniform] (src/pdf/uniform.cpp 29-141)

    Simplifications.  [double] is an element of an ordered field; a height that is
    not a number ([1/0]) is [HInf], an uninitialised one [HUnset].  Vectors are
    those of ModelWrapper.v (an index out of range is [Abort], the outcome of a
    build with assertions).  The draws of the random number generator in [0,1)
    are an argument; [runif(a,b)] scales them and requires [a <= b]
    (src/wrappers/rng/rng.cpp 47-52, assertion of boost::uniform_real). *)
From mathcomp Require Import all_ssreflect all_algebra.
From Verif Require Import Outcome ModelWrapper ModelDiscretePdf.
Set Implicit Arguments. Unset Strict Implicit. Unset Printing Implicit Defensive.
Import Order.TTheory GRing.Theory Num.Theory.
Local Open Scope ring_scope.

Section Uniform.
Variable R : realFieldType.
Implicit Types (c w x : seq R).

Inductive height := HUnset | HInf | HNum of R.
(** uniform.h 29-38: members; [u_dim] is [Pdf::_dimension] *)
Record uniform := Un {
  u_dim : nat; u_lo : seq R; u_hi : seq R; u_height : height; u_buf : seq R }.

(** [_Height / width(i)] *)
Definition h_div (h : height) (a : R) : height :=
  if h is HNum b then (if a == 0 then HInf else HNum (b / a)) else h.
(** uniform.cpp 35-41, 132-138: borders and height *)
Definition u_borders c w : outcome (seq R * seq R * height) :=
  guard (size c == size w) ;;
  Ok ([seq p.1 - p.2 / 2%:R | p <- zip c w], [seq p.1 + p.2 / 2%:R | p <- zip c w],
      foldl h_div (HNum 1) w).
(** uniform.cpp 29-42: constructor; [_samples] has DimensionGet() elements *)
Definition u_new c w : outcome uniform :=
  let! b := u_borders c w in Ok (Un (size c) b.1.1 b.1.2 b.2 (nseq (size c) 0)).
(** uniform.cpp 44-50: constructor with a dimension, also the default
    constructor (0) *)
Definition u_new_dim k : uniform := Un k (nseq k 0) (nseq k 0) HUnset (nseq k 0).
(** pdf.h 172-176 [DimensionSet]; not overridden *)
Definition u_dim_set (u : uniform) k : uniform := Un k (u_lo u) (u_hi u) (u_height u) (u_buf u).
(** uniform.cpp 128-141 [UniformSet] *)
Definition u_set (u : uniform) c w : outcome uniform :=
  let! b := u_borders c w in
  let u1 := Un (u_dim u) b.1.1 b.1.2 b.2 (u_buf u) in
  let u2 := if u_dim u1 == 0%N then u_dim_set u1 (size c) else u1 in
  guard (u_dim u2 == size c) ;; Ok u2.

(** uniform.cpp 69-73: the loop of [ProbabilityGet] over the indices [js] *)
Fixpoint u_inside lo hi x (js : seq nat) : outcome bool :=
  if js is j :: js' then
    let! a := vec_get x j in let! h := vec_get hi j in
    if h < a then Ok false else
    let! l := vec_get lo j in
    if a < l then Ok false else u_inside lo hi x js'
  else Ok true.
(** uniform.cpp 66-75 [ProbabilityGet], with the conversion to [Probability]
    (bfl_constants.h 41-49) *)
Definition u_prob (u : uniform) x : outcome R :=
  let! b := u_inside (u_lo u) (u_hi u) x (iota 1 (size x)) in
  if ~~ b then Ok 0 else
  match u_height u with
  | HUnset => UB
  | HInf => Abort
  | HNum r => guard (0 <= r) ;; Ok r
  end.

(** rng.cpp 47-52 *)
Definition runif (a b t : R) : outcome R := guard (a <= b) ;; Ok (a + t * (b - a)).
(** uniform.cpp 88, 108: fills the work vector *)
Definition u_fill (u : uniform) (t : nat -> R) : outcome (seq R) :=
  foldO (fun buf j => let! l := vec_get (u_lo u) j in let! h := vec_get (u_hi u) j in
                      let! r := runif l h (t j) in vec_put buf j r) (u_buf u) (iota 1 (u_dim u)).
Definition u_with_buf (u : uniform) buf := Un (u_dim u) (u_lo u) (u_hi u) (u_height u) buf.
(** uniform.cpp 101-115 [SampleFrom] of one sample; [None]: false *)
Definition u_sample (u : uniform) (m : sample_mthd) (t : nat -> R) : outcome (option (seq R) * uniform) :=
  if m is DEFAULT then let! b := u_fill u t in Ok (Some b, u_with_buf u b) else Ok (None, u).
(** uniform.cpp 77-99 [SampleFrom] of a list *)
Fixpoint u_draws (u : uniform) (ts : seq (nat -> R)) : outcome (seq (seq R) * uniform) :=
  if ts is t :: ts' then
    let! b := u_fill u t in let! r := u_draws (u_with_buf u b) ts' in Ok (b :: r.1, r.2)
  else Ok ([::], u).
Definition u_samples (u : uniform) (m : sample_mthd) (ts : seq (nat -> R)) : outcome (option (seq (seq R)) * uniform) :=
  if m is DEFAULT then let! r := u_draws u ts in Ok (Some r.1, r.2) else Ok (None, u).
(** uniform.cpp 117-121, 123-127 *)
Definition u_center (u : uniform) : seq R := [seq (p.1 + p.2) / 2%:R | p <- zip (u_hi u) (u_lo u)].
Definition u_width (u : uniform) : seq R := [seq p.1 - p.2 | p <- zip (u_hi u) (u_lo u)].

(** ** Programs with any number of objects *)
Inductive uop :=
  | UNew of seq R & seq R
  | UNewDim of nat
  | UCopy of nat                             (* copy constructor, Clone *)
  | UAssign of nat & nat                     (* operator= *)
  | USet of nat & seq R & seq R              (* UniformSet *)
  | UCenter of nat
  | UWidth of nat
  | UProb of nat & seq R                     (* ProbabilityGet *)
  | USample of nat & sample_mthd & (nat -> R)
  | USamples of nat & sample_mthd & seq (nat -> R).
Inductive ures := UNone | UVec of seq R | UVal of R | UDrawn of option (seq R) | UDrawns of option (seq (seq R)).
Definition u_step (st : seq uniform) (o : uop) : outcome (ures * seq uniform) :=
  match o with
  | UNew c w => let! u := u_new c w in Ok (UNone, rcons st u)
  | UNewDim k => Ok (UNone, rcons st (u_new_dim k))
  | UCopy i => let! u := at_ st i in Ok (UNone, rcons st u)
  | UAssign i j => let! u := at_ st j in let! st' := put_ st i u in Ok (UNone, st')
  | USet i c w => let! u := at_ st i in let! u' := u_set u c w in
                  let! st' := put_ st i u' in Ok (UNone, st')
  | UCenter i => let! u := at_ st i in Ok (UVec (u_center u), st)
  | UWidth i => let! u := at_ st i in Ok (UVec (u_width u), st)
  | UProb i x => let! u := at_ st i in let! r := u_prob u x in Ok (UVal r, st)
  | USample i m t => let! u := at_ st i in let! r := u_sample u m t in
                     let! st' := put_ st i r.2 in Ok (UDrawn r.1, st')
  | USamples i m ts => let! u := at_ st i in let! r := u_samples u m ts in
                       let! st' := put_ st i r.2 in Ok (UDrawns r.1, st')
  end.
Fixpoint u_run (st : seq uniform) (os : seq uop) : outcome (seq ures * seq uniform) :=
  if os is o :: os' then
    let! r := u_step st o in let! q := u_run r.2 os' in Ok (r.1 :: q.1, q.2)
  else Ok ([::], st).
End Uniform.
Arguments HUnset {R}. Arguments HInf {R}. Arguments UNone {R}. Arguments UNewDim {R}.
Arguments UCopy {R}. Arguments UAssign {R}. Arguments UCenter {R}. Arguments UWidth {R}.
