(** * Tables of probabilities in IEEE-754 doubles

    The loops of [DiscretePdf], [Mixture] and [MCPdf] that build and search tables
    of cumulative probabilities, with every [double] operation rounded to nearest
    even (binary64 of Flocq: zeros, subnormals, infinities and NaN included).
    Simplifications: a double is computed in double (no x87 excess precision);
    loop counters are naturals (no wrap-around); sample values are left out. *)
From Coq Require Import ZArith.
From Flocq Require Import Core.Core BinarySingleNaN.
From mathcomp Require Import all_ssreflect.
From Verif Require Import Outcome.
Set Implicit Arguments. Unset Strict Implicit. Unset Printing Implicit Defensive.

Definition double := binary_float 53 1024.
#[global] Instance prec53 : Prec_gt_0 53 := erefl.
#[global] Instance emax1024 : Prec_lt_emax 53 1024 := erefl.
Definition dadd : double -> double -> double := @Bplus 53 1024 _ _ mode_NE.
Definition dsub : double -> double -> double := @Bminus 53 1024 _ _ mode_NE.
Definition dmul : double -> double -> double := @Bmult 53 1024 _ _ mode_NE.
Definition ddiv : double -> double -> double := @Bdiv 53 1024 _ _ mode_NE.
Definition dle : double -> double -> bool := @Bleb 53 1024.
Definition dlt : double -> double -> bool := @Bltb 53 1024.
Definition deq : double -> double -> bool := @Beqb 53 1024.
(** the double nearest to [m * 2^e] *)
Definition dlit (m e : Z) : double := binary_normalize 53 1024 _ _ mode_NE m e false.
Definition d0 : double := dlit 0 0.
Definition d1 : double := dlit 1 0.
(** conversion of an [unsigned int] *)
Definition dnat (n : nat) : double := dlit (Z.of_nat n) 0.
(** bfl_constants.h 21 [NUMERIC_PRECISION]: the double nearest to 0.000000001 *)
Definition dprec : double := ddiv d1 (dlit (10 ^ 9)%Z 0).

(** bfl_constants.h 41-49 [Probability(double)]: asserts finite and [>= 0]. *)
Definition d_prob (x : double) : outcome double := if is_finite x && dle d0 x then Ok x else Abort.

(** discretepdf.cpp 207-223 [NormalizeProbs]; mixture.h 557-575 [NormalizeWeights]. *)
Definition d_sum (v : seq double) : double := foldl dadd d0 v.
Definition d_normalize (v : seq double) : outcome (bool * seq double) :=
  let s := d_sum v in
  if dlt d0 s then let! v' := mapO (fun x => d_prob (ddiv x s)) v in Ok (true, v') else Ok (false, v).

(** the table 0, v0, v0+v1, ... *)
Fixpoint d_prefix (c : double) (v : seq double) : seq double :=
  c :: (if v is x :: v' then d_prefix (dadd c x) v' else [::]).
(** discretepdf.cpp 225-250 [CumPDFUpdate]; mixture.h 576-600 [CumWeightsUpdate]:
    the last entry is checked and then set to 1. *)
Definition d_cum (v : seq double) : outcome (seq double) :=
  let t := d_prefix d0 v in let c := last d0 t in
  guard (dle (dsub d1 dprec) c && dle c (dadd d1 dprec)) ;;
  put_ t (size v) d1.

(** A DiscretePdf: [_Values_p] and [_CumPDF] (the number of states is the size of
    the former). *)
Record ddisc := DDisc { dd_v : seq double; dd_c : seq double }.

(** discretepdf.cpp 31-45, constructor. *)
Definition d_new (n : nat) : outcome ddisc :=
  let! v := mapO d_prob (nseq n (ddiv d1 (dnat n))) in
  let! c := d_cum v in Ok (DDisc v c).

(** discretepdf.cpp 117-124 [ProbabilitiesSet]; [&&] skips the table when the sum
    is not positive. *)
Definition d_set_all (d : ddisc) (v : seq double) : outcome (bool * ddisc) :=
  guard (size v == size (dd_v d)) ;;
  let! r := d_normalize v in
  if r.1 then let! c := d_cum r.2 in Ok (true, DDisc r.2 c) else Ok (false, DDisc r.2 (dd_c d)).

(** discretepdf.cpp 86-110 [ProbabilitySet] *)
Definition d_set (d : ddisc) (i : nat) (a : double) : outcome (bool * ddisc) :=
  guard (i < size (dd_v d)) ;;
  guard (dle a d1) ;;
  let! old := at_ (dd_v d) i in
  let! v1 := if ~~ deq old d1
             then let f := ddiv (dsub d1 a) (dsub d1 old) in mapO (fun x => d_prob (dmul x f)) (dd_v d)
             else mapO (fun _ => d_prob (ddiv (dsub d1 a) (dnat (size (dd_v d) - 1)))) (dd_v d) in
  let! v2 := put_ v1 i a in
  let! c := d_cum v2 in Ok (true, DDisc v2 c).

(** the scan [while (u > table[index]) { assert(index <= n); index++; }];
    reading behind the table is [UB] *)
Fixpoint d_scan (n : nat) (u : double) (idx : nat) (rest : seq double) : outcome nat :=
  match rest with
  | [::] => UB
  | c :: rest' => if dlt c u then guard (idx <= n) ;; d_scan n u idx.+1 rest' else Ok idx
  end.
(** discretepdf.cpp 181-205 [SampleFrom], DEFAULT, for a draw [u] of [runif()]: the
    state is [index - 1], [None] stands for the value -1. *)
Definition d_sample (d : ddisc) (u : double) : outcome (option nat) :=
  let! i := d_scan (size (dd_v d)) u 0 (dd_c d) in Ok (if i is s.+1 then Some s else None).

(** mcpdf.h 465-525 [SumWeightsUpdate], [NormalizeWeights], [CumPDFUpdate]: the
    weights and the table; weightedsample.h 109-114 [WeightSet] asserts [>= 0].
    No check of the last entry, which is not set to 1. *)
Definition d_weight (x : double) : outcome double := if dle d0 x then Ok x else Abort.
Record dmc := DMC { dm_w : seq double; dm_c : seq double }.
Definition m_cum (w : seq double) (s : double) : seq double := d_prefix d0 [seq ddiv x s | x <- w].
Definition m_normalize (d : dmc) (w : seq double) : outcome (bool * dmc) :=
  let s := d_sum w in
  if dlt d0 s then let! w' := mapO (fun x => d_weight (ddiv x s)) w in Ok (true, DMC w' (m_cum w' d1))
  else Ok (false, DMC w (dm_c d)).
(** mcpdf.h 394-419 [ListOfSamplesSet(vector<Sample>)] *)
Definition m_set (n : nat) : outcome (bool * dmc) :=
  let! w := mapO d_weight (nseq n (ddiv d1 (dnat n))) in Ok (true, DMC w (m_cum w d1)).
(** mcpdf.h 427-437 [ListOfSamplesUpdate(vector<WeightedSample>)] *)
Definition m_update (d : dmc) (w : seq double) : outcome (bool * dmc) :=
  guard (size w == size (dm_w d)) ;;
  if size w != 0 then m_normalize d w else Ok (true, d).
(** mcpdf.h 294-323 [SampleFrom], DEFAULT: index of the sample returned; [it--] from
    the first element is undefined. *)
Definition m_sample (d : dmc) (u : double) : outcome nat :=
  let! i := d_scan (size (dm_w d)) u 0 (dm_c d) in if i is s.+1 then Ok s else UB.

(** Ripley's ordered uniforms (discretepdf.cpp 143-152, mcpdf.h 245-257):
    [u[n-1] = pow(u[n-1],1.0/n); u[i] = pow(u[i],1.0/(i+1)) * u[i+1]], downwards.
    [root u k] stands for [pow(u, 1.0/k)], an external function; [i] is the index of
    the first element of [us]. *)
Fixpoint d_ripley (root : double -> nat -> double) (us : seq double) (i : nat) : seq double :=
  match us with
  | [::] => [::]
  | [:: u] => [:: root u i.+1]
  | u :: us' => let r := d_ripley root us' i.+1 in dmul (root u i.+1) (head d0 r) :: r
  end.
(** the scan continues from where the previous one stopped *)
Fixpoint d_scan_many (n : nat) (us : seq double) (idx : nat) (rest : seq double) : outcome (seq nat) :=
  match us with
  | [::] => Ok [::]
  | u :: us' =>
      let! i := d_scan n u idx rest in
      let! l := d_scan_many n us' i (drop (i - idx) rest) in Ok (i :: l)
  end.
(** discretepdf.cpp 129-177 [SampleFrom(vector<Sample<int> >&,...)], RIPLEY;
    [us[num_samples-1]] is out of range when no sample is asked for. *)
Definition d_samples (root : double -> nat -> double) (d : ddisc) (us : seq double) : outcome (seq (option nat)) :=
  if us is [::] then UB else
  let! l := d_scan_many (size (dd_v d)) (d_ripley root us 0) 0 (dd_c d) in
  Ok [seq (if i is s.+1 then Some s else None) | i <- l].
(** mcpdf.h 227-292 [SampleFrom(vector<Sample<T> >&,...)], RIPLEY: indices of the
    samples returned. *)
Definition m_samples (root : double -> nat -> double) (d : dmc) (us : seq double) : outcome (seq nat) :=
  if us is [::] then UB else
  let! l := d_scan_many (size (dm_w d)) (d_ripley root us 0) 0 (dm_c d) in
  mapO (fun i => if i is s.+1 then Ok s else UB) l.
