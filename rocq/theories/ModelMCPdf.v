(** * Model of [MCPdf] (src/pdf/mcpdf.h) over an arbitrary sample type [T]

    A weighted sample (sample/weightedsample.h) is a pair (value, weight).
    A default-constructed [WeightedSample] has an indeterminate weight; it is
    represented by an arbitrary [junk] pair over which theorems quantify. *)
From mathcomp Require Import all_ssreflect all_algebra.
From Verif Require Import Outcome ModelTables ModelDiscretePdf.
Set Implicit Arguments. Unset Strict Implicit. Unset Printing Implicit Defensive.
Import Order.TTheory GRing.Theory Num.Theory.
Local Open Scope ring_scope.

Section MCPdf.
Variable R : realFieldType.
Variable T : Type.
(** [pow(u,1.0/k)], libm *)
Variable root : R -> nat -> R.

(** mcpdf.h: [_listOfSamples], [_CumPDF], [_SumWeights]. *)
Record mcpdf := MC { mc_los : seq (T * R); mc_cum : seq R; mc_sum : R }.

(** mcpdf.h 171-189 constructor. *)
Definition mc_new (junk : T * R) (n : nat) : mcpdf := MC (nseq n junk) (nseq n.+1 0) 0.

(** mcpdf.h 203-218 copy constructor (and [Clone] 221-225). *)
Definition mc_copy (d : mcpdf) : mcpdf := MC (mc_los d) (mc_cum d) (mc_sum d).

(** mcpdf.h 343-377 [NumSamplesSet]: growing appends default samples and zero
    table entries, shrinking erases at the front of both vectors. *)
Definition mc_resize (junk : T * R) (m : nat) (d : mcpdf) : mcpdf :=
  let n := size (mc_los d) in
  if (n < m)%N then MC (mc_los d ++ nseq (m - n) junk) (mc_cum d ++ nseq (m - n) 0) (mc_sum d)
  else MC (drop (n - m) (mc_los d)) (drop (n - m) (mc_cum d)) (mc_sum d).

(** mcpdf.h 509-525 [CumPDFUpdate]: writes one entry per sample plus the first;
    writing behind the table is UB; later entries are kept. *)
Definition mc_cum_update (d : mcpdf) : outcome mcpdf :=
  let n := size (mc_los d) in
  if (size (mc_cum d) < n.+1)%N then UB
  else Ok (MC (mc_los d)
              (cum_loop 0 (map (fun x => x.2 / mc_sum d) (mc_los d)) ++ drop n.+1 (mc_cum d))
              (mc_sum d)).

(** mcpdf.h 465-489 [SumWeightsUpdate]: the stored sum changes only on success. *)
Definition mc_sum_update (d : mcpdf) : bool * mcpdf :=
  let s := sum_loop (map snd (mc_los d)) in
  if 0 < s then (true, MC (mc_los d) (mc_cum d) s) else (false, d).

(** mcpdf.h 491-506 [NormalizeWeights]; [WeightSet] asserts non-negativity
    (weightedsample.h 109-114). *)
Definition mc_normalize (d : mcpdf) : outcome (bool * mcpdf) :=
  let r := mc_sum_update d in
  if ~~ r.1 then Ok (false, r.2) else
  let! los := mapO (fun x : T * R => let w := x.2 / mc_sum r.2 in guard (0 <= w) ;; Ok (x.1, w))
                   (mc_los r.2) in
  let! d' := mc_cum_update (MC los (mc_cum r.2) 1) in
  Ok (true, d').

(** mcpdf.h 381-391 [ListOfSamplesSet(vector<WeightedSample>)]. *)
Definition mc_setW (junk : T * R) (d : mcpdf) (los : seq (T * R)) : outcome (bool * mcpdf) :=
  let d1 := mc_resize junk (size los) d in
  mc_normalize (MC los (mc_cum d1) (mc_sum d1)).

(** The common loop of mcpdf.h 403-411 and 452-459: values assigned, weight
    [1.0/n] each, sum 1, table updated. *)
Definition mc_equalise (d : mcpdf) (vals : seq T) : outcome mcpdf :=
  mc_cum_update (MC (map (fun v => (v, 1 / (size vals)%:R)) vals) (mc_cum d) 1).

(** mcpdf.h 394-419 [ListOfSamplesSet(vector<Sample>)]. *)
Definition mc_setU (junk : T * R) (d : mcpdf) (vals : seq T) : outcome (bool * mcpdf) :=
  let! d' := mc_equalise (mc_resize junk (size vals) d) vals in Ok (true, d').

(** mcpdf.h 428-438 [ListOfSamplesUpdate(vector<WeightedSample>)]. *)
Definition mc_updW (d : mcpdf) (los : seq (T * R)) : outcome (bool * mcpdf) :=
  guard (size los == size (mc_los d)) ;;
  if size los != 0%N then mc_normalize (MC los (mc_cum d) (mc_sum d)) else Ok (true, d).

(** mcpdf.h 440-462 [ListOfSamplesUpdate(vector<Sample>)]; [NumSamplesSet] on
    line 450 keeps the size. *)
Definition mc_updU (d : mcpdf) (vals : seq T) : outcome (bool * mcpdf) :=
  if size vals == size (mc_los d) then
    guard (size vals != 0%N) ;;
    let! d' := mc_equalise d vals in Ok (true, d')
  else Ok (true, d).

(** [it--; x = *it] with [it] at position [i] of the list: mcpdf.h 279-280 and
    317-318; position 0 is decremented before the beginning. *)
Definition mc_before (d : mcpdf) (i : nat) : outcome T :=
  match i with
  | 0 => UB
  | k.+1 => let! x := at_ (mc_los d) k in Ok x.1
  end.

(** mcpdf.h 294-327 [SampleFrom(Sample<T>&)]; [None] = returns false. *)
Definition mc_sample1 (d : mcpdf) (m : sample_mthd) (u : R) : outcome (option T) :=
  match m with
  | DEFAULT =>
      let! r := scan (size (mc_los d)) u 0 (mc_cum d) in
      let! x := mc_before d r.1 in Ok (Some x)
  | _ => Ok None
  end.

(** mcpdf.h 227-292 [SampleFrom(vector<Sample<T> >&,...)]; [us] is the tape of
    draws, of length [numsamples].  [DEFAULT] goes through pdf.h 178-191. *)
Definition mc_samples (d : mcpdf) (m : sample_mthd) (us : seq R) : outcome (option (seq T)) :=
  match m with
  | DEFAULT =>
      let! l := mapO (fun u => let! r := scan (size (mc_los d)) u 0 (mc_cum d) in
                               mc_before d r.1) us in Ok (Some l)
  | RIPLEY =>
      if us is [::] then UB else
      let! l := scan_many (size (mc_los d)) (ripley root us 0) 0 (mc_cum d) in
      let! xs := mapO (mc_before d) l in Ok (Some xs)
  | _ => Ok None
  end.

(** mcpdf.h 335-340 [SampleGet]. *)
Definition mc_get (d : mcpdf) (i : nat) : outcome (T * R) :=
  guard (i < size (mc_los d))%N ;; at_ (mc_los d) i.

(** The mutating calls. *)
Inductive mc_op :=
| SetW of seq (T * R) | SetU of seq T | UpdW of seq (T * R) | UpdU of seq T.
Definition mc_step (junk : T * R) (d : mcpdf) (o : mc_op) : outcome (bool * mcpdf) :=
  match o with
  | SetW l => mc_setW junk d l | SetU v => mc_setU junk d v
  | UpdW l => mc_updW d l | UpdU v => mc_updU d v
  end.
End MCPdf.
