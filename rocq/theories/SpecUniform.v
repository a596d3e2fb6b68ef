(** * Specification of the uniform distribution over a box *)
From mathcomp Require Import all_ssreflect all_algebra.
From Verif Require Import Outcome ModelDiscretePdf ModelUniform.
Set Implicit Arguments. Unset Strict Implicit. Unset Printing Implicit Defensive.
Import Order.TTheory GRing.Theory Num.Theory.
Local Open Scope ring_scope.

Section Uniform.
Variable R : realFieldType.
Implicit Types (c w x : seq R).

(** [x] is in the closed box with centre [c] and widths [w] *)
Definition in_box c w x : Prop := size x = size c /\
  forall i, (i < size c)%N -> `|nth 0 x i - nth 0 c i| <= nth 0 w i / 2%:R.
Definition volume w : R := \prod_(a <- w) a.
Definition widths_pos w : Prop := forall a, a \in w -> 0 < a.

(** An object with the dimension it was made with ([b_room]), its dimension and
    centre and width, if given. *)
Record box := Box { b_room : nat; b_dim : nat; b_cw : option (seq R * seq R) }.

(** coordinate [a] between [m - v/2] and [m + v/2] *)
Definition between (a m v : R) : bool := (m - v / 2%:R <= a) && (a <= m + v / 2%:R).
(** outcome of a density query, for every input: only coordinates that both
    vectors have are compared *)
Definition b_prob (b : box) x : outcome R :=
  let k := b_dim b in
  let cw := if b_cw b is Some p then p else (nseq k 0, nseq k 0) in
  if ~~ [forall i : 'I_(minn (size x) k), between (nth 0 x i) (nth 0 cw.1 i) (nth 0 cw.2 i)] then Ok 0
  else if (k < size x)%N then Abort
  else if b_cw b is None then UB
  else if (0 \in cw.2) || (volume cw.2 < 0) then Abort
  else Ok (volume cw.2)^-1.
(** a sample for the draws [t] (numbered from 1) *)
Definition b_sample (b : box) (t : nat -> R) : outcome (seq R) :=
  let k := b_dim b in
  let cw := if b_cw b is Some p then p else (nseq k 0, nseq k 0) in
  if [forall i : 'I_k, 0 <= nth 0 cw.2 i] && (k == b_room b) then
    Ok (mkseq (fun i => nth 0 cw.1 i + (t i.+1 - 1 / 2%:R) * nth 0 cw.2 i) k)
  else Abort.
Definition b_set (b : box) c w : outcome box :=
  if (size c == size w) && ((b_dim b == 0%N) || (b_dim b == size c))
  then Ok (Box (b_room b) (size c) (Some (c, w))) else Abort.
Definition b_center (b : box) : seq R := if b_cw b is Some p then p.1 else nseq (b_dim b) 0.
Definition b_width (b : box) : seq R := if b_cw b is Some p then p.2 else nseq (b_dim b) 0.

Definition b_step (st : seq box) (o : uop R) : outcome (ures R * seq box) :=
  match o with
  | UNew c w => if size c == size w then Ok (UNone, rcons st (Box (size c) (size c) (Some (c, w)))) else Abort
  | UNewDim k => Ok (UNone, rcons st (Box k k None))
  | UCopy i => let! b := at_ st i in Ok (UNone, rcons st b)
  | UAssign i j => let! b := at_ st j in let! st' := put_ st i b in Ok (UNone, st')
  | USet i c w => let! b := at_ st i in let! b' := b_set b c w in
                  let! st' := put_ st i b' in Ok (UNone, st')
  | UCenter i => let! b := at_ st i in Ok (UVec (b_center b), st)
  | UWidth i => let! b := at_ st i in Ok (UVec (b_width b), st)
  | UProb i x => let! b := at_ st i in let! r := b_prob b x in Ok (UVal r, st)
  | USample i m t => let! b := at_ st i in
      if m is DEFAULT then let! r := b_sample b t in Ok (UDrawn (Some r), st) else Ok (UDrawn None, st)
  | USamples i m ts => let! b := at_ st i in
      if m is DEFAULT then let! r := mapO (b_sample b) ts in Ok (UDrawns (Some r), st)
      else Ok (UDrawns None, st)
  end.
Fixpoint b_run (st : seq box) (os : seq (uop R)) : outcome (seq (ures R)) :=
  if os is o :: os' then
    let! r := b_step st o in let! q := b_run r.2 os' in Ok (r.1 :: q)
  else Ok [::].
End Uniform.
