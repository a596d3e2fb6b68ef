(** * Model of [EKParticleFilter] (src/filter/EKparticlefilter.cpp 26-174) with
    the functions it inherits from [ParticleFilter]
    (src/filter/particlefilter.cpp 28-70, 201-314)

    Simplifications.  The models are analytic models of the state size [n] (a
    model of another class is turned into NULL by [dynamic_cast], which is
    rejected like NULL).  [_x_old] and the iterators are overwritten before use.
    The random generators are tapes in the private state: [ek_us] for the uniform
    draws of [Resample], [ek_zs k] for the normal draws of the [k]-th sampler call.
    Sampling from the proposal and its density are parameters of the first
    sections, so that the algorithm can be studied apart from the defect of the
    sampler (C70); the last section puts in the code's own. *)
From mathcomp Require Import all_ssreflect all_algebra.
From Verif Require Import Outcome ModelTables ModelMatrix ModelDiscretePdf ModelMCPdf ModelMoments ModelFilter ModelKalman
  ModelWrapper ModelGauss ModelProposal.
Set Implicit Arguments. Unset Strict Implicit. Unset Printing Implicit Defensive.
Import Order.TTheory GRing.Theory Num.Theory.
Local Open Scope ring_scope.

Section EKPF.
Variables (R : realFieldType) (n : nat).
Variable root : R -> nat -> R.
Notation vecn := 'cV[R]_n.
Notation part := (vecn * R)%type.
Notation asys := (asys R (meas R) n).
Notation ameas := (ameas R (meas R) n).

(** EKparticlefilter.h 38-57 and particlefilter.h 131-208: members.  The class
    declares its own [_old_samples] ([ek_old]); that of the base class is
    [ek_bold].  Of [_unif_samples] only the size [ek_num] matters. *)
Record ekpriv := EK {
  ek_fp : fpd R n; ek_cov : seq 'M[R]_n; ek_tmp : seq 'M[R]_n; ek_num : nat;
  ek_old : seq part; ek_res : seq part; ek_bold : seq part; ek_new : seq part; ek_smp : vecn;
  ek_dyn : bool; ek_period : int; ek_thr : R; ek_us : nat -> R; ek_zs : nat -> nat -> R }.
Notation estate := (fstate (mcpdf R vecn) ekpriv).

(** particlefilter.cpp 28-70, EKparticlefilter.cpp 26-48: constructor; [junk] =
    default-constructed sample, [g] = uninitialised Gaussian of the proposal *)
Definition ek_copy (junk : part) (d : mcpdf R vecn) : outcome (mcpdf R vecn) :=
  let! r := mc_setW junk (mc_new junk (size (mc_los d))) (mc_los d) in
  guard r.1 ;; Ok r.2.
Definition ek_init (junk : part) (g : gauss R n) (period : int) (thr : R) (us : nat -> R) (zs : nat -> nat -> R)
    (d : mcpdf R vecn) : outcome ekpriv :=
  guard (~~ ((period == 0) && (thr == 0))) ;;
  guard (~~ ((period != 0) && (thr != 0))) ;;
  let! f := fp_new g None None in
  let k := size (mc_los d) in
  Ok (EK f (nseq k (mc_cov d)) (nseq k (mc_cov d)) k (nseq k junk) (nseq k junk) (mc_los d) (mc_los d) junk.1
         (period == 0) period thr us zs).

(** ** Resampling *)
(** EKparticlefilter.cpp 103-108: [it--; x = *it; it++] with [it] at position [i] *)
Definition ek_before A (l : seq A) (i : nat) : outcome A := if i is k.+1 then at_ l k else UB.
(** the loop 95-109 writes the first [size new] places of [old] *)
Definition overwrite A (old new : seq A) : outcome (seq A) :=
  if (size old < size new)%N then UB else Ok (new ++ drop (size new) old).
(** EKparticlefilter.cpp 75-114 [Resample] *)
Definition ek_resample (st : estate) : outcome (bool * estate) :=
  let: (p, t, d) := st in
  let old := mc_los d in
  let k := size old in
  if (ek_num p < k)%N || (k == 0%N) then UB else
  let us := ripley root [seq ek_us p i | i <- iota 0 k] 0 in
  let! pos := scan_many k us 0 (mc_cum d) in
  let! xs := mapO (ek_before old) pos in
  let! cs := mapO (ek_before (ek_cov p)) pos in
  let! res := overwrite (ek_res p) xs in
  let! tmp := overwrite (ek_tmp p) cs in
  let! e := mc_updW d res in
  Ok (e.1, (EK (ek_fp p) tmp tmp (ek_num p) old res (ek_bold p) (ek_new p) (ek_smp p) (ek_dyn p) (ek_period p)
               (ek_thr p) (fun i => ek_us p (k + i)%N) (ek_zs p), t, e.2)).

(** particlefilter.cpp 272-304 [DynamicResampleStep]; 1.0/0.0 is +infinity,
    which is not below any threshold *)
Definition ek_dynamic (st : estate) : outcome (bool * estate) :=
  let: (p, t, d) := st in
  if ~~ ek_dyn p then Ok (true, st) else
  let sq := sum_loop [seq x.2 ^+ 2 | x <- mc_los d] in
  let p' := EK (ek_fp p) (ek_cov p) (ek_tmp p) (ek_num p) (ek_old p) (ek_res p) (ek_bold p) (mc_los d) (ek_smp p)
               (ek_dyn p) (ek_period p) (ek_thr p) (ek_us p) (ek_zs p) in
  if (sq != 0) && (1 / sq < ek_thr p) then ek_resample (p', t, d) else Ok (true, (p', t, d)).
(** particlefilter.cpp 307-314 [StaticResampleStep] *)
Definition ek_static (st : estate) : outcome (bool * estate) :=
  let: (p, t, d) := st in
  if [&& ~~ ek_dyn p, (`|ek_period p|%N %| t)%N & t != 0%N] then ek_resample st else Ok (true, st).

(** ** The update *)
Section Steps.
(** [_proposal->SampleFrom(_sample, DEFAULT, NULL)] ([None]: the sample is left
    alone) and [_proposal->ProbabilityGet(x)] *)
Variable draw : fpd R n -> (nat -> R) -> outcome (option vecn * fpd R n).
Variable pprob : fpd R n -> vecn -> outcome (R * fpd R n).
(** [ProbabilityGet] of the models: new state, old state, input; measurement,
    state, sensor parameter *)
Variable dsys : asys -> vecn -> vecn -> option (meas R) -> outcome R.
Variable dmeas : ameas -> meas R -> vecn -> option (meas R) -> outcome R.

(** EKparticlefilter.cpp 135-155: the conditional arguments of the proposal *)
Definition ek_args (a : asys) (u : option (meas R)) (am : ameas) (z s : option (meas R)) (x : vecn) (f : fpd R n)
    : outcome (fpd R n) :=
  let! f := fp_arg_set f 0%N (existT _ n x) in
  if ~~ am_noextra a then
    let! v := need u in let! f := fp_arg_set f 1%N v in
    let! v := need z in let! f := fp_arg_set f 2%N v in
    if ~~ am_noextra (projT2 am) then let! v := need s in fp_arg_set f 3%N v else Ok f
  else
    let! v := need z in let! f := fp_arg_set f 1%N v in
    if ~~ am_noextra (projT2 am) then let! v := need s in fp_arg_set f 2%N v else Ok f.
(** EKparticlefilter.cpp 128-167: the loop of [ProposalStepInternal]; [news] and
    [covs] are what is left of [_new_samples] and [_sampleCov] *)
Fixpoint ek_move a u am z s (zs : nat -> nat -> R) (olds news : seq part) (covs : seq 'M[R]_n) (k : nat)
    (f : fpd R n) (smp : vecn) : outcome (seq part * seq 'M[R]_n * (fpd R n * vecn)) :=
  match olds, news, covs with
  | [::], _, _ => Ok (news, covs, (f, smp))
  | o :: olds', _ :: news', c :: covs' =>
      let! f1 := fp_cov_set f c in
      let! f2 := ek_args a u am z s o.1 f1 in
      let! r := draw f2 (zs k) in
      let x := odflt smp r.1 in
      guard (0 <= o.2) ;;
      let! q := fp_covar r.2 in
      let! w := ek_move a u am z s zs olds' news' covs' k.+1 q.2 x in
      Ok ((x, o.2) :: w.1.1, q.1 :: w.1.2, w.2)
  | _, _, _ => UB
  end.
(** EKparticlefilter.cpp 116-173 [ProposalStepInternal] *)
Definition ek_proposal a u am z s (st : estate) : outcome (bool * estate) :=
  let: (p, t, d) := st in
  let old := mc_los d in
  let! r := ek_move a u am z s (ek_zs p) old (ek_new p) (ek_cov p) 0 (ek_fp p) (ek_smp p) in
  let! e := mc_updW d r.1.1 in
  Ok (e.1, (EK r.2.1 r.1.2 (ek_tmp p) (ek_num p) old (ek_res p) (ek_bold p) r.1.1 r.2.2 (ek_dyn p) (ek_period p)
               (ek_thr p) (ek_us p) (fun i => ek_zs p (size old + i)%N), t.+1, e.2)).

(** particlefilter.cpp 226-261: the weight factor of one particle *)
Definition ek_factor (a : asys) u (am : ameas) z s (f : fpd R n) (xnew xold : vecn) : outcome (R * fpd R n) :=
  let! v := need z in
  let! f := fp_arg_set f 0%N (existT _ n xold) in
  if am_noextra (projT2 am) then
    let! l := dmeas am v xnew None in let! l := mkProb l in
    let! f := (if ~~ am_noextra a then let! w := need u in fp_arg_set f 1%N w else Ok f) in
    let! r := pprob f xnew in
    if r.1 != 0 then
      let! q := (if ~~ am_noextra a then let! w := need u in dsys a xnew xold (Some w) else dsys a xnew xold None) in
      let! q := mkProb q in
      let! r := pprob r.2 xnew in
      Ok (l * (q / r.1), r.2)
    else Ok (0, r.2)
  else let! w := need s in let! l := dmeas am v xnew (Some w) in let! l := mkProb l in Ok (l, f).
(** particlefilter.cpp 214-265: the loop of [UpdateWeightsInternal] *)
Fixpoint ek_reweigh a u am z s (news olds : seq part) (f : fpd R n) : outcome (seq part * fpd R n) :=
  match news, olds with
  | [::], _ => Ok ([::], f)
  | _ :: _, [::] => UB
  | x :: news', o :: olds' =>
      let! r := ek_factor a u am z s f x.1 o.1 in
      guard (0 <= x.2 * r.1) ;;
      let! w := ek_reweigh a u am z s news' olds' r.2 in
      Ok ((x.1, x.2 * r.1) :: w.1, w.2)
  end.
(** particlefilter.cpp 201-269 [UpdateWeightsInternal] *)
Definition ek_weights a u am z s (st : estate) : outcome (bool * estate) :=
  let: (p, t, d) := st in
  let! r := ek_reweigh a u am z s (mc_los d) (ek_bold p) (ek_fp p) in
  let! e := mc_updW d r.1 in
  Ok (e.1, (EK r.2 (ek_cov p) (ek_tmp p) (ek_num p) (ek_old p) (ek_res p) (ek_bold p) r.1 (ek_smp p) (ek_dyn p)
               (ek_period p) (ek_thr p) (ek_us p) (ek_zs p), t, e.2)).

Definition ek_with (f : fpd R n) (p : ekpriv) : ekpriv :=
  EK f (ek_cov p) (ek_tmp p) (ek_num p) (ek_old p) (ek_res p) (ek_bold p) (ek_new p) (ek_smp p) (ek_dyn p)
     (ek_period p) (ek_thr p) (ek_us p) (ek_zs p).
(** EKparticlefilter.cpp 56-73 [UpdateInternal]; the flags of both resampling
    steps are ignored *)
Definition ek_internal (sm : option asys) (u : option (meas R)) (mm : option ameas) (z s : option (meas R))
    (st : estate) : outcome (bool * estate) :=
  let: (p, t, d) := st in
  let! f1 := fp_sys_set (ek_fp p) sm in
  let! f2 := fp_meas_set f1 mm in
  let! r1 := ek_static (ek_with f2 p, t, d) in
  let! a := need sm in
  let! am := need mm in
  let! r2 := ek_proposal a u am z s r1.2 in
  let! r3 := ek_weights a u am z s r2.2 in
  let! r4 := ek_dynamic r3.2 in
  Ok (r3.1 && r2.1, r4.2).
Definition ek_call_with := f_call ek_internal.
End Steps.
Definition ek_new_filter junk g period thr us zs := f_new (ek_copy junk) (ek_init junk g period thr us zs).
End EKPF.

(** ** With the sampler and the density of the code *)
Section Real.
Variables (R : rcfType) (eps twopi : R) (expo : R -> R) (n : nat).
(** conditionalgaussian.cpp 47-57 [ProbabilityGet] *)
Definition fp_prob (f : fpd R n) (x : 'cV[R]_n) : outcome (R * fpd R n) :=
  let! r := fp_mean f in
  let diff := x - r.1 in
  let! q := fp_covar r.2 in
  let! i := mat_inv q.1 in
  let temp := (diff^T *m (i *m diff)) 0 0 in
  guard (0 <= temp) ;;
  let! q2 := fp_covar q.2 in
  let! det := mat_det q2.1 in
  let! c := (if gs_factor twopi (fp_dim f) det is Some c then Ok c else Abort) in
  let result := expo (- (1 / 2) * temp) * c in
  guard (0 <= result) ;; Ok (result, q2.2).
(** conditionalgaussian.cpp 65-112 [SampleFrom] *)
Definition fp_draw (f : fpd R n) (z : nat -> R) : outcome (option 'cV[R]_n * fpd R n) :=
  let! r := fp_sample eps f DEFAULT z in
  if r.1.2 is Some v then let! x := meas_cast n v in Ok (Some x, r.2) else Ok (None, r.2).
Definition ek_call root dsys dmeas := @ek_call_with R n root fp_draw fp_prob dsys dmeas.
End Real.
