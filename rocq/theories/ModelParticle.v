(** * Models of [ParticleFilter] (src/filter/particlefilter.cpp 28-386) and
    [BootstrapFilter] (src/filter/bootstrapfilter.cpp 26-78)

    Simplifications.  The system and measurement models are passed with the
    arguments they currently store; the arguments they store afterwards are
    dropped (C59: no query depends on them).  The random generators are tapes
    in the private state: [pf_us] for the uniform draws of resampling, [pf_rs]
    for the draws of the proposal; theorems quantify over all tapes.
    [STATE_AND_MEAS_VAR_DIFFERENT] is defined in the source (line 26), so the
    branches on [_proposal_depends_on_meas] are empty. *)
From mathcomp Require Import all_ssreflect all_algebra.
From Verif Require Import Outcome ModelTables ModelDiscretePdf ModelMCPdf ModelModels ModelFilter.
Set Implicit Arguments. Unset Strict Implicit. Unset Printing Implicit Defensive.
Import Order.TTheory GRing.Theory Num.Theory.
Local Open Scope ring_scope.

(** particlefilter.h 41-90: the advertised resampling schemes *)
Inductive rscheme := MULTINOMIAL_RS | SYSTEMATIC_RS | STRATIFIED_RS | RESIDUAL_RS | MINIMUM_VARIANCE_RS.

Section Particle.
(** [T]: states (also inputs and sensor parameters), [Z]: measurements, [Rnd],
    [Rz]: randomness of one sampler call *)
Variables (R : realFieldType) (T Z Rnd Rz : Type).
Variable root : R -> nat -> R.
Definition prop := cpdf R T T Rnd.
Definition psys := mdl R T T Rnd.
Definition pmeas := mdl R Z T Rz.
Notation part := (T * R)%type.

(** particlefilter.h 131-176: members; [pf_nres] is a ghost counter of the
    executions of [Resample] *)
Record pfpriv := PF {
  pf_prop : option prop; pf_sample : T; pf_old : seq part; pf_new : seq part; pf_uns : seq T;
  pf_dyn : bool; pf_period : int; pf_thr : R; pf_scheme : rscheme;
  pf_us : nat -> R; pf_rs : nat -> Rnd; pf_nres : nat }.
Notation pstate := (fstate (mcpdf R T) pfpriv).

(** particlefilter.cpp 28-70: constructor.  The posterior is a new set filled
    by [ListOfSamplesSet]; [junk] = default-constructed sample. *)
Definition pf_copy (junk : part) (d : mcpdf R T) : outcome (mcpdf R T) :=
  let! r := mc_setW junk (mc_new junk (size (mc_los d))) (mc_los d) in
  guard r.1 ;; Ok r.2.
Definition pf_init (junk : part) (q : option prop) (period : int) (thr : R) (sch : rscheme)
    (us : nat -> R) (rs : nat -> Rnd) (d : mcpdf R T) : outcome pfpriv :=
  guard (~~ ((period == 0) && (thr == 0))) ;;
  guard (~~ ((period != 0) && (thr != 0))) ;;
  Ok (PF q junk.1 (mc_los d) (mc_los d) [::] (period == 0) period thr sch us rs 0).

(** [SystemWithoutInputs()]/[SystemWithoutSensorParams()] *)
Definition ml_flag P V X Y (m : mdl P V X Y) : outcome bool :=
  if ml_noextra m is Some b then Ok b else UB.
(** query of a model with the extra argument iff it has one *)
Definition ml_query P V X Y (m : mdl P V X Y) (v : V) (x : X) (s : option X) : outcome P :=
  let! b := ml_flag m in
  if b then let! r := ml_prob1 m v x in Ok r.1
  else if s is Some y then let! r := ml_prob2 m v x y in Ok r.1 else UB.

(** particlefilter.cpp 158-162 (and 228, 234): the arguments of the proposal *)
Definition pf_arg0 (q : option prop) (x : T) : outcome prop :=
  if q is Some c then cp_arg_set c 0 x else UB.
Definition pf_arg1 (c : prop) (sm : psys) (u : option T) : outcome prop :=
  let! b := ml_flag sm in
  if b then Ok c else if u is Some y then cp_arg_set c 1 y else UB.

(** particlefilter.cpp 155-188: the loop of [ProposalStepInternal]; [k] counts
    sampler calls.  The flag of the sampler is ignored. *)
Fixpoint pf_move (sm : psys) (u : option T) (rs : nat -> Rnd) (olds news : seq part) (k : nat)
    (q : option prop) (smp : T) : outcome (seq part * (option prop * T)) :=
  match olds, news with
  | [::], _ => Ok (news, (q, smp))
  | _ :: _, [::] => UB
  | o :: olds', _ :: news' =>
      let! c0 := pf_arg0 q o.1 in
      let! c := pf_arg1 c0 sm u in
      let! y := cp_samp c (cp_args c) DEFAULT (rs k) in
      let x := odflt smp y in
      guard (0 <= o.2) ;;
      let! r := pf_move sm u rs olds' news' k.+1 (Some c) x in
      Ok ((x, o.2) :: r.1, r.2)
  end.

(** particlefilter.cpp 145-197 [ProposalStepInternal] *)
Definition pf_proposal (sm : psys) (u : option T) (st : pstate) : outcome (bool * pstate) :=
  let: (p, t, d) := st in
  let old := mc_los d in
  let! r := pf_move sm u (pf_rs p) old (pf_new p) 0 (pf_prop p) (pf_sample p) in
  let! e := mc_updW d r.1 in
  let n := size old in
  Ok (e.1, (PF r.2.1 r.2.2 old r.1 (pf_uns p) (pf_dyn p) (pf_period p) (pf_thr p) (pf_scheme p)
               (pf_us p) (fun i => pf_rs p (n + i)%N) (pf_nres p), t.+1, e.2)).

(** particlefilter.cpp 219-261: the weight factor of one particle *)
Definition pf_factor (sm : option psys) (u : option T) (mm : pmeas) (z : option Z) (s : option T)
    (q : option prop) (xnew xold : T) : outcome (R * option prop) :=
  let! zz := (if z is Some v then Ok v else UB) in
  match sm with
  | None => let! l := ml_query mm zz xnew s in let! l := mkProb l in Ok (l, q)
  | Some m =>
      let! c0 := pf_arg0 q xold in
      let! b := ml_flag mm in
      let! l := ml_query mm zz xnew s in
      let! l := mkProb l in
      if b then
        let! c := pf_arg1 c0 m u in
        let! p := cp_prob c (cp_args c) xnew in
        let! p := mkProb p in
        if p != 0 then
          let! a := ml_query m xnew xold u in
          let! a := mkProb a in Ok (l * (a / p), Some c)
        else Ok (0, Some c)
      else Ok (l, Some c0)
  end.
(** particlefilter.cpp 214-265: the loop of [UpdateWeightsInternal] *)
Fixpoint pf_reweigh sm u mm z s (news olds : seq part) (q : option prop)
    : outcome (seq part * option prop) :=
  match news, olds with
  | [::], _ => Ok ([::], q)
  | _ :: _, [::] => UB
  | x :: news', o :: olds' =>
      let! f := pf_factor sm u mm z s q x.1 o.1 in
      guard (0 <= x.2 * f.1) ;;
      let! r := pf_reweigh sm u mm z s news' olds' f.2 in
      Ok ((x.1, x.2 * f.1) :: r.1, r.2)
  end.
(** particlefilter.cpp 201-269 [UpdateWeightsInternal] *)
Definition pf_weights sm u mm z s (st : pstate) : outcome (bool * pstate) :=
  let: (p, t, d) := st in
  let! r := pf_reweigh sm u mm z s (mc_los d) (pf_old p) (pf_prop p) in
  let! e := mc_updW d r.1 in
  Ok (e.1, (PF r.2 (pf_sample p) (pf_old p) r.1 (pf_uns p) (pf_dyn p) (pf_period p) (pf_thr p)
               (pf_scheme p) (pf_us p) (pf_rs p) (pf_nres p), t, e.2)).

(** particlefilter.cpp 345-386 [Resample]; the flag of [SampleFrom] is ignored *)
Definition pf_resample (st : pstate) : outcome (bool * pstate) :=
  let: (p, t, d) := st in
  let n := size (mc_los d) in
  let! xs := (if pf_scheme p is MULTINOMIAL_RS then
                let! o := mc_samples root d RIPLEY [seq pf_us p i | i <- iota 0 n] in
                Ok (odflt (pf_uns p) o)
              else Ok (pf_uns p)) in
  let! e := mc_updU d xs in
  let us := if pf_scheme p is MULTINOMIAL_RS then (fun i => pf_us p (n + i)%N) else pf_us p in
  Ok (e.1, (PF (pf_prop p) (pf_sample p) (pf_old p) (pf_new p) xs (pf_dyn p) (pf_period p) (pf_thr p)
               (pf_scheme p) us (pf_rs p) (pf_nres p).+1, t, e.2)).

(** particlefilter.cpp 272-304 [DynamicResampleStep]; 1.0/0.0 is +infinity,
    which is not below any threshold *)
Definition pf_dynamic (st : pstate) : outcome (bool * pstate) :=
  let: (p, t, d) := st in
  if ~~ pf_dyn p then Ok (true, st) else
  let sq := sum_loop [seq x.2 ^+ 2 | x <- mc_los d] in
  let p' := PF (pf_prop p) (pf_sample p) (pf_old p) (mc_los d) (pf_uns p) (pf_dyn p) (pf_period p)
               (pf_thr p) (pf_scheme p) (pf_us p) (pf_rs p) (pf_nres p) in
  if (sq != 0) && (1 / sq < pf_thr p) then pf_resample (p', t, d) else Ok (true, (p', t, d)).

(** particlefilter.cpp 308-314 [StaticResampleStep]; a period of 0 is not
    reached because the filter is dynamic then *)
Definition pf_static (st : pstate) : outcome (bool * pstate) :=
  let: (p, t, d) := st in
  if [&& ~~ pf_dyn p, (`|pf_period p|%N %| t)%N & t != 0%N] then pf_resample st else Ok (true, st).

(** [result = result && this->Step(...)] *)
Definition also (r : bool * pstate) (f : pstate -> outcome (bool * pstate)) : outcome (bool * pstate) :=
  if r.1 then f r.2 else Ok r.

(** particlefilter.cpp 318-342 [UpdateInternal] *)
Definition pf_internal (sm : option psys) (u : option T) (mm : option pmeas) (z : option Z) (s : option T)
    (st : pstate) : outcome (bool * pstate) :=
  let! r1 := (if sm is Some m then
                let! a := also (true, st) pf_static in also a (pf_proposal m u)
              else Ok (true, st)) in
  if mm is Some k then
    let! b := also r1 (pf_weights sm u k z s) in also b pf_dynamic
  else Ok r1.

(** bootstrapfilter.cpp 26-56: constructors (proposal NULL), 62-78
    [UpdateInternal]: both steps always run *)
Definition bf_internal (sm : option psys) (u : option T) (mm : option pmeas) (z : option Z) (s : option T)
    (st : pstate) : outcome (bool * pstate) :=
  let! r1 := (if sm is Some m then
                let: (p, t, d) := st in
                let p' := PF (ml_pdf m) (pf_sample p) (pf_old p) (pf_new p) (pf_uns p) (pf_dyn p)
                             (pf_period p) (pf_thr p) (pf_scheme p) (pf_us p) (pf_rs p) (pf_nres p) in
                pf_internal sm u None z s (p', t, d)
              else Ok (true, st)) in
  let! r2 := (if mm is Some _ then pf_internal None u mm z s r1.2 else Ok (true, r1.2)) in
  Ok (r2.1 && r1.1, r2.2).

(** the objects *)
Definition pf_new_filter junk q period thr sch us rs :=
  f_new (pf_copy junk) (pf_init junk q period thr sch us rs).
Definition bf_new_filter junk period thr sch us rs :=
  f_new (pf_copy junk) (pf_init junk None period thr sch us rs).
Definition pf_call := f_call pf_internal.
Definition bf_call := f_call bf_internal.
End Particle.
