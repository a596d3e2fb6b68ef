(** * Model of [DiscreteConditionalPdf] (src/pdf/discreteconditionalpdf.cpp)

    Simplifications: [int] arithmetic does not overflow; the sizes of the
    conditional arguments are natural numbers; the conditional arguments stored
    in the [ConditionalPdf] base class are passed explicitly. *)
From mathcomp Require Import all_ssreflect all_algebra.
From Verif Require Import Outcome ModelTables.
Set Implicit Arguments. Unset Strict Implicit. Unset Printing Implicit Defensive.
Import Order.TTheory GRing.Theory Num.Theory.
Local Open Scope ring_scope.

Section CondPdf.
Variable R : realFieldType.
(** bfl_constants.h 21 *)
Variable eps : R.

(** discreteconditionalpdf.h: [_num_states], [_cond_arg_dims_p],
    [_probability_p].  A table entry is [None] until it is written. *)
Record dcpdf := DCPdf { dc_n : nat; dc_dims : seq nat; dc_tab : seq (option R) }.

(** discreteconditionalpdf.cpp 28-49: constructor; the table is allocated, not
    initialised. *)
Definition dc_new (n : nat) (dims : seq nat) : dcpdf :=
  DCPdf n dims (nseq ((foldl muln 1 dims) * n)%N None).

(** discreteconditionalpdf.cpp 61-81: copy constructor, the table is copied
    element by element (the copied bytes may be uninitialised). *)
Definition dc_copy (d : dcpdf) : dcpdf := DCPdf (dc_n d) (dc_dims d) (map id (dc_tab d)).

(** discreteconditionalpdf.cpp 96-115 [IndexGet]; [condargs[arg]] is read for
    every declared argument. *)
Fixpoint dc_index_loop (index block : int) (args : seq int) (dims : seq nat) : outcome int :=
  match dims, args with
  | [::], _ => Ok index
  | _ :: _, [::] => UB
  | d :: dims', a :: args' => dc_index_loop (index + a * block) (block * d%:Z) args' dims'
  end.
Definition dc_index (d : dcpdf) (input : int) (args : seq int) : outcome int :=
  dc_index_loop (0 + input * 1) (1 * (dc_n d)%:Z) args (dc_dims d).

(** Raw memory access [p[index]]. *)
Definition mem_get (t : seq (option R)) (i : int) : outcome R :=
  match i with
  | Posz k => let! x := at_ t k in (if x is Some v then Ok v else UB)
  | Negz _ => UB
  end.
Definition mem_put (t : seq (option R)) (i : int) (v : R) : outcome (seq (option R)) :=
  match i with Posz k => put_ t k (Some v) | Negz _ => UB end.

(** discreteconditionalpdf.cpp 119-124 [ProbabilityGet]; the result is
    converted to [Probability]. *)
Definition dc_get (d : dcpdf) (input : int) (args : seq int) : outcome R :=
  let! i := dc_index d input args in
  let! v := mem_get (dc_tab d) i in mkProb v.

(** discreteconditionalpdf.cpp 127-133 [ProbabilitySet]: [prob] is a plain
    double, nothing is checked. *)
Definition dc_set (d : dcpdf) (v : R) (input : int) (args : seq int) : outcome dcpdf :=
  let! i := dc_index d input args in
  let! t := mem_put (dc_tab d) i v in
  Ok (DCPdf (dc_n d) (dc_dims d) t).

(** discreteconditionalpdf.cpp 142-150: the row of the current arguments. *)
Definition dc_row (d : dcpdf) (args : seq int) : outcome (seq R) :=
  let! start := dc_index d 0 args in
  mapO (fun k : nat => mem_get (dc_tab d) (start + k%:Z)) (iota 0 (dc_n d)).

(** discreteconditionalpdf.cpp 135-175 [SampleFrom]: division by a zero row sum
    gives NaN, which fails the assert on line 159. *)
Definition dc_sample1 (d : dcpdf) (args : seq int) (u : R) : outcome int :=
  let! probs := dc_row d args in
  let s := sum_loop probs in
  if s == 0 then Abort else
  let c := cum_loop 0 (map (fun p => p / s) probs) in
  let! lastc := at_ c (dc_n d) in
  guard ((1 - eps <= lastc) && (lastc <= 1 + eps)) ;;
  let! c' := put_ c (dc_n d) 1 in
  let! r := scan (dc_n d) u 0 c' in
  Ok (r.1%:Z - 1).

(** discreteconditionalpdf.cpp 178-185 (via pdf.h 178-191). *)
Definition dc_samples (d : dcpdf) (args : seq int) (us : seq R) : outcome (seq int) :=
  mapO (dc_sample1 d args) us.

(** A history of [ProbabilitySet] calls. *)
Definition dc_sets (d : dcpdf) (h : seq (R * int * seq int)) : outcome dcpdf :=
  foldO (fun d x => dc_set d x.1.1 x.1.2 x.2) d h.
End CondPdf.
