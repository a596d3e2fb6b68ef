(** * Model of [Mixture] (src/pdf/mixture.h) *)
From mathcomp Require Import all_ssreflect all_algebra.
From Verif Require Import Outcome ModelTables ModelDiscretePdf.
Set Implicit Arguments. Unset Strict Implicit. Unset Printing Implicit Defensive.
Import Order.TTheory GRing.Theory Num.Theory.
Local Open Scope ring_scope.

Section Mixture.
Variable R : realFieldType.
(** bfl_constants.h 21 [NUMERIC_PRECISION] *)
Variable eps : R.
(** [pow(u,1.0/k)], libm *)
Variable root : R -> nat -> R.
(** component pdfs; [Clone] is the identity on values *)
Variable C : Type.

(** mixture.h: [_numComponents], [_componentPdfs], [_componentWeights],
    [_cumWeights].  Ownership of the component pointers is not modelled. *)
Record mix := Mix { mx_n : nat; mx_comps : seq C; mx_w : seq R; mx_cum : seq R }.

(** [vector::resize(k)] of a vector of doubles *)
Definition vresize (k : nat) (s : seq R) : seq R := take k s ++ nseq (k - size s) 0.

(** [erase(begin()+i)] *)
Definition verase {A} (i : nat) (s : seq A) : seq A := take i s ++ drop i.+1 s.

(** mixture.h 547-555 [TestNotInit] *)
Definition mx_init (m : mix) : outcome unit := guard (mx_n m != 0%N).

(** mixture.h 577-599 [CumWeightsUpdate]; reads [n] weights, writes [n+1]
    entries, asserts the last one and overwrites it with 1. *)
Definition mx_cum_update (m : mix) : outcome mix :=
  let n := mx_n m in
  if (size (mx_w m) < n)%N || (size (mx_cum m) < n.+1)%N then UB else
  let c := cum_loop 0 (take n (mx_w m)) ++ drop n.+1 (mx_cum m) in
  let! lastc := at_ c n in
  guard ((1 - eps <= lastc) && (lastc <= 1 + eps)) ;;
  let! c' := put_ c n 1 in
  Ok (Mix n (mx_comps m) (mx_w m) c').

(** mixture.h 558-574 [NormalizeWeights] *)
Definition mx_normalize (m : mix) : outcome (bool * mix) :=
  let n := mx_n m in
  if (size (mx_w m) < n)%N then UB else
  let s := sum_loop (take n (mx_w m)) in
  if 0 < s then
    let! v := mapO (fun x => mkProb (x / s)) (take n (mx_w m)) in
    Ok (true, Mix n (mx_comps m) (v ++ drop n (mx_w m)) (mx_cum m))
  else Ok (false, m).

(** [NormalizeWeights() && CumWeightsUpdate()] *)
Definition mx_finish (m : mix) : outcome (bool * mix) :=
  let! r := mx_normalize m in
  if r.1 then let! m' := mx_cum_update r.2 in Ok (true, m') else Ok (false, r.2).

(** mixture.h 181-195 constructor *)
Definition mx_new : mix := Mix 0 [::] [::] [:: 0].

(** mixture.h 198-223 constructor from a vector of components;
    [componentVector[0]] is read unconditionally *)
Definition mx_build (cs : seq C) : outcome mix :=
  if cs is [::] then UB else
  let n := size cs in
  let! w := mapO (fun _ => divProb 1 n%:R) cs in
  mx_cum_update (Mix n cs w (nseq n.+1 0)).

(** mixture.h 226-244 copy constructor ([Clone] 260-264) *)
Definition mx_copy (m : mix) : outcome mix :=
  mx_init m ;;
  let! m' := mx_cum_update (Mix (mx_n m) [::] (mx_w m) (nseq (mx_n m).+1 0)) in
  let! cs := mapO (at_ (mx_comps m)) (iota 0 (mx_n m)) in
  Ok (Mix (mx_n m) cs (mx_w m') (mx_cum m')).

(** mixture.h 390-394 [WeightsGet], 397-402 [WeightGet] *)
Definition mx_weights_get (m : mix) : outcome (seq R) := mx_init m ;; Ok (mx_w m).
Definition mx_weight_get (m : mix) (i : nat) : outcome R :=
  mx_init m ;; guard (i < mx_n m)%N ;; at_ (mx_w m) i.

(** mixture.h 540-544 [ComponentGet]: no range check *)
Definition mx_comp_get (m : mix) (i : nat) : outcome C := mx_init m ;; at_ (mx_comps m) i.

(** mixture.h 405-412 [WeightsSet]; the arguments are [Probability]s *)
Definition mx_sets (m : mix) (v : seq R) : outcome (bool * mix) :=
  guard (all (fun x => 0 <= x) v) ;;
  mx_init m ;; guard (size v == mx_n m) ;;
  mx_finish (Mix (mx_n m) (mx_comps m) v (mx_cum m)).

(** mixture.h 415-447 [WeightSet]; the first guard is [Probability]'s *)
Definition mx_set (m : mix) (i : nat) (a : R) : outcome (bool * mix) :=
  guard (0 <= a) ;;
  mx_init m ;; guard (i < mx_n m)%N ;; guard (a <= 1) ;;
  let n := mx_n m in
  let! w' :=
    (if n == 1%N then put_ (mx_w m) 0 a
     else
       let! old := mx_weight_get m i in
       let! w1 :=
         (if old != 1
          then mapO (fun v => mkProb (v * ((1 - a) / (1 - old)))) (mx_w m)
          else mapO (fun _ => divProb (1 - a) n.-1%:R) (mx_w m)) in
       put_ w1 i a) in
  let! m' := mx_cum_update (Mix n (mx_comps m) w' (mx_cum m)) in
  Ok (true, m').

(** the three asserts on the vector lengths, e.g. mixture.h 478-480 *)
Definition mx_lengths (m : mix) : outcome unit :=
  guard [&& mx_n m == size (mx_comps m), mx_n m == size (mx_w m)
          & (mx_n m).+1 == size (mx_cum m)].

(** mixture.h 487-504 [AddComponent(pdf, w)]; the recursive call for an empty
    mixture and a weight other than 1 is the same call with weight 1.  The
    result of [WeightSet] is ignored. *)
Definition mx_add_body (m : mix) (c : C) (a : R) : outcome (bool * mix) :=
  let n := (mx_n m).+1 in
  let m1 := Mix n (rcons (mx_comps m) c) (rcons (mx_w m) 0) (vresize n.+1 (mx_cum m)) in
  mx_lengths m1 ;;
  let! r := mx_set m1 n.-1 a in
  mx_finish r.2.
Definition mx_add (m : mix) (c : C) (a : R) : outcome (bool * mix) :=
  guard (0 <= a) ;;
  if (mx_n m == 0%N) && (a != 1) then mx_add_body m c 1 else mx_add_body m c a.

(** mixture.h 467-484 [AddComponent(pdf)] *)
Definition mx_add0 (m : mix) (c : C) : outcome (bool * mix) :=
  if mx_n m == 0%N then mx_add m c 1 else
  let n := (mx_n m).+1 in
  let m1 := Mix n (rcons (mx_comps m) c) (rcons (mx_w m) 0) (rcons (mx_cum m) 0) in
  mx_lengths m1 ;;
  mx_finish m1.

(** mixture.h 507-530 [DeleteComponent] *)
Definition mx_del (m : mix) (i : nat) : outcome (bool * mix) :=
  mx_lengths m ;; mx_init m ;; guard (i < mx_n m)%N ;;
  let n := (mx_n m).-1 in
  let m1 := Mix n (verase i (mx_comps m)) (verase i (mx_w m)) (vresize n.+1 (mx_cum m)) in
  mx_lengths m1 ;;
  if n == 0%N then Ok (true, m1) else mx_finish m1.

(** mixture.h 450-464 [MostProbableComponentGet] *)
Definition mx_argmax (m : mix) : outcome int :=
  mx_init m ;;
  Ok (foldl (fun (acc : int * R * nat) v =>
            let '(best, p, i) := acc in
            if p < v then (i%:Z, v, i.+1) else (best, p, i.+1))
         (-1, 0, 0%N) (take (mx_n m) (mx_w m))).1.1.

(** the loops [acc = acc + weight[i] * f(component[i])] of [ProbabilityGet]
    (mixture.h 273-283) and [ExpectedValueGet] for double (mixture.cpp 114-123)
    and vectors (mixture.cpp 29-38) *)
Definition mx_dens {T} (dens : C -> T -> R) (m : mix) (x : T) : outcome R :=
  mx_init m ;;
  let! l := mapO (fun i => let! w := at_ (mx_w m) i in let! c := at_ (mx_comps m) i in
                           Ok (w * dens c x)) (iota 0 (mx_n m)) in
  Ok (sum_loop l).
Definition mx_mean (V : lmodType R) (mean : C -> V) (m : mix) : outcome V :=
  mx_init m ;;
  let! l := mapO (fun i => let! w := at_ (mx_w m) i in let! c := at_ (mx_comps m) i in
                           Ok (w *: mean c)) (iota 0 (mx_n m)) in
  Ok (foldl +%R 0 l).

(** mixture.cpp 44-74 and 80-110 [ExpectedValueGet] for [unsigned]/[int]
    ("most probable state"): every component is cast to [DiscretePdf]; the
    numbers of states are asserted equal; the first state whose probability
    exceeds all earlier ones wins, starting from -1. *)
Definition mx_state (states : C -> nat) (dens : C -> nat -> R) (m : mix) : outcome nat :=
  mx_init m ;;
  let! c0 := at_ (mx_comps m) 0 in
  let ns := states c0 in
  let! cs := mapO (at_ (mx_comps m)) (iota 0 (mx_n m)) in
  guard (all (fun c => states c == ns) cs) ;;
  let! ps := mapO (mx_dens dens m) (iota 0 ns) in
  Ok (foldl (fun (acc : nat * R * nat) v =>
            let '(best, p, j) := acc in
            if p < v then (j, v, j.+1) else (best, p, j.+1))
         (0%N, -1, 0%N) ps).1.1.

(** [componentPdfs[index-1]->SampleFrom(sample,method,args)]: [index] is
    unsigned, 0 wraps to an out-of-range position.  The component's sampler
    gets its own randomness [r]; [None] = it returned false and left the sample
    at its previous value [dflt].  The returned flag is ignored. *)
Definition mx_delegate {T Rnd} (csample : C -> sample_mthd -> Rnd -> outcome (option T))
    (m : mix) (meth : sample_mthd) (dflt : T) (idx : nat) (r : Rnd) : outcome T :=
  match idx with
  | 0 => UB
  | k.+1 => let! c := at_ (mx_comps m) k in
            let! x := csample c meth r in
            Ok (if x is Some y then y else dflt)
  end.

(** mixture.h 339-365 [SampleFrom(Sample<T>&)]; [None] = returns false. *)
Definition mx_sample1 {T Rnd} (csample : C -> sample_mthd -> Rnd -> outcome (option T))
    (m : mix) (meth : sample_mthd) (dflt : T) (u : R) (r : Rnd) : outcome (option T) :=
  mx_init m ;;
  match meth with
  | DEFAULT =>
      let! s := scan (mx_n m) u 0 (mx_cum m) in
      let! x := mx_delegate csample m DEFAULT dflt s.1 r in Ok (Some x)
  | _ => Ok None
  end.

(** mixture.h 286-337 [SampleFrom(vector<Sample<T> >&,...)].  [us] is the tape
    of uniform draws and [rs] the randomness of the component calls. *)
Definition mx_samples {T Rnd} (csample : C -> sample_mthd -> Rnd -> outcome (option T))
    (m : mix) (meth : sample_mthd) (dflt : T) (us : seq R) (rs : seq Rnd)
    : outcome (option (seq T)) :=
  mx_init m ;;
  match meth with
  | DEFAULT =>
      let! l := mapO (fun ur : R * Rnd =>
                        let! s := scan (mx_n m) ur.1 0 (mx_cum m) in
                        mx_delegate csample m DEFAULT dflt s.1 ur.2) (zip us rs) in
      Ok (Some l)
  | RIPLEY =>
      if us is [::] then UB else
      let! l := scan_many (mx_n m) (ripley root us 0) 0 (mx_cum m) in
      let! xs := mapO (fun ir => mx_delegate csample m RIPLEY dflt ir.1 ir.2) (zip l rs) in
      Ok (Some xs)
  | _ => Ok None
  end.

(** The mutating calls. *)
Inductive mx_op := MSet of nat & R | MSets of seq R | MAdd0 of C | MAdd of C & R | MDel of nat.
Definition mx_step (m : mix) (o : mx_op) : outcome (bool * mix) :=
  match o with
  | MSet i a => mx_set m i a | MSets v => mx_sets m v
  | MAdd0 c => mx_add0 m c | MAdd c a => mx_add m c a | MDel i => mx_del m i
  end.
End Mixture.
