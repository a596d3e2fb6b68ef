(** * Model of [DiscretePdf] (src/pdf/discretepdf.cpp, 265 lines) *)
From mathcomp Require Import all_ssreflect all_algebra.
From Verif Require Import Outcome ModelTables.
Set Implicit Arguments. Unset Strict Implicit. Unset Printing Implicit Defensive.
Import Order.TTheory GRing.Theory Num.Theory.
Local Open Scope ring_scope.

Section DiscretePdf.
Variable R : realFieldType.
(** bfl_constants.h 21: [NUMERIC_PRECISION] (1e-9 in the code; kept as a
    parameter so that examples can be evaluated). *)
Variable eps : R.
(** [pow(u,1.0/k)], libm. *)
Variable root : R -> nat -> R.

(** discretepdf.h: fields [_num_states], [_Values_p], [_CumPDF]. *)
Record dpdf := DPdf { dp_n : nat; dp_vals : seq R; dp_cum : seq R }.

(** pdf.h 47: [enum SampleMthd]. *)
Inductive sample_mthd := DEFAULT | BOXMULLER | CHOLESKY | RIPLEY.

(** discretepdf.cpp 225-248 [CumPDFUpdate].  The assert reads the last entry;
    it is then overwritten with 1.  (When the assert fails the program ends, so
    the half-updated table is not represented.) *)
Definition dp_cum_update (n : nat) (vals : seq R) : outcome dpdf :=
  let c := cum_loop 0 vals in
  let! lastc := at_ c n in
  guard ((1 - eps <= lastc) && (lastc <= 1 + eps)) ;;
  let! c' := put_ c n 1 in
  Ok (DPdf n vals c').

(** discretepdf.cpp 31-45 constructor: every value [1.0/n]. *)
Definition dp_new (n : nat) : outcome dpdf :=
  let! vals := mapO (fun _ : nat => divProb 1 n%:R) (iota 0 n) in
  dp_cum_update n vals.

(** discretepdf.cpp 47-57 copy constructor and 69-72 [Clone]: the table is
    recomputed, hence re-asserted. *)
Definition dp_copy (d : dpdf) : outcome dpdf := dp_cum_update (dp_n d) (dp_vals d).

(** discretepdf.cpp 80-84 [ProbabilityGet]. *)
Definition dp_get (d : dpdf) (st : int) : outcome R :=
  guard ((0 <= st) && (st < (dp_n d)%:Z)) ;; at_ (dp_vals d) `|st|%N.

(** discretepdf.cpp 86-110 [ProbabilitySet].  The first guard is the
    [Probability] argument's own constructor. *)
Definition dp_set (d : dpdf) (st : int) (a : R) : outcome (bool * dpdf) :=
  guard (0 <= a) ;;
  guard ((0 <= st) && (st < (dp_n d)%:Z)) ;;
  guard (a <= 1) ;;
  let! old := at_ (dp_vals d) `|st|%N in
  let! vals1 :=
    (if old != 1
     then mapO (fun v => mkProb (v * ((1 - a) / (1 - old)))) (dp_vals d)
     else mapO (fun _ => divProb (1 - a) (dp_n d).-1%:R) (dp_vals d)) in
  let! vals2 := put_ vals1 `|st|%N a in
  let! d' := dp_cum_update (dp_n d) vals2 in
  Ok (true, d').

(** discretepdf.cpp 207-223 [NormalizeProbs]: flag and new values. *)
Definition dp_normalize (vals : seq R) : outcome (bool * seq R) :=
  let s := sum_loop vals in
  if 0 < s then let! v := mapO (fun x => mkProb (x / s)) vals in Ok (true, v)
  else Ok (false, vals).

(** discretepdf.cpp 117-124 [ProbabilitiesSet].  On failure the values have
    been overwritten and the table kept.  The arguments are [Probability]s,
    i.e. non-negative. *)
Definition dp_sets (d : dpdf) (v : seq R) : outcome (bool * dpdf) :=
  guard (all (fun x => 0 <= x) v) ;;
  guard (size v == dp_n d) ;;
  let! r := dp_normalize v in
  if r.1 then let! d' := dp_cum_update (dp_n d) r.2 in Ok (true, d')
  else Ok (false, DPdf (dp_n d) r.2 (dp_cum d)).

(** discretepdf.cpp 181-205 [SampleFrom(Sample<int>&)]: [None] = returns false
    and leaves the sample untouched. *)
Definition dp_sample1 (d : dpdf) (m : sample_mthd) (u : R) : outcome (option int) :=
  match m with
  | DEFAULT => let! r := scan (dp_n d) u 0 (dp_cum d) in Ok (Some (r.1%:Z - 1))
  | _ => Ok None
  end.

(** discretepdf.cpp 128-177 [SampleFrom(vector<Sample<int> >&,...)].  [us] is
    the tape of draws, its length is [num_samples].  For [DEFAULT] the base
    class (pdf.h 178-191) resizes the list and calls the single sampler per
    element. *)
Definition dp_samples (d : dpdf) (m : sample_mthd) (us : seq R) : outcome (option (seq int)) :=
  match m with
  | DEFAULT =>
      let! l := mapO (fun u => let! r := scan (dp_n d) u 0 (dp_cum d) in
                               Ok (r.1%:Z - 1)) us in Ok (Some l)
  | RIPLEY =>
      if us is [::] then UB else
      let! l := scan_many (dp_n d) (ripley root us 0) 0 (dp_cum d) in
      Ok (Some (map (fun i : nat => i%:Z - 1) l))
  | _ => Ok None
  end.

(** discretepdf.cpp 250-263 [MostProbableStateGet]. *)
Definition dp_argmax (d : dpdf) : int :=
  (foldl (fun (acc : int * R * nat) v =>
            let '(best, p, i) := acc in
            if p <= v then (i%:Z, v, i.+1) else (best, p, i.+1))
         (-1, 0, 0%N) (dp_vals d)).1.1.

(** Calls that change the pdf. *)
Inductive dp_op := OpSet of int & R | OpSets of seq R.
Definition dp_step (d : dpdf) (o : dp_op) : outcome (bool * dpdf) :=
  match o with OpSet st a => dp_set d st a | OpSets v => dp_sets d v end.
End DiscretePdf.
