(** * Model of [MixtureParticleFilter] (src/filter/mixtureParticleFilter.cpp) and
    [MixtureBootstrapFilter] (src/filter/mixtureBootstrapFilter.cpp 26-82)

    The posterior is a mixture whose components are particle sets.  The
    per-component functions of the source repeat the text of
    particlefilter.cpp on the [component]-th entries of [_old_samplesVec],
    [_new_samplesVec] and [_new_samples_unweightedVec]; they are modelled by the
    functions of ModelParticle run on a view of these entries.

    Simplifications: as in ModelParticle and ModelMixture.  The three vectors of
    lists have one length (constructor, never resized), so a view that reads all
    three is undefined exactly when reading one is.  The constructor with a
    user-supplied posterior (80-130) is not modelled: instantiating it does not
    compile ([Pdf] has no [ComponentGet]).  [_proposal_depends_on_meas] guards
    only empty branches. *)
From mathcomp Require Import all_ssreflect all_algebra.
From Verif Require Import Outcome ModelTables ModelDiscretePdf ModelMCPdf ModelMixture ModelModels ModelFilter ModelParticle.
Set Implicit Arguments. Unset Strict Implicit. Unset Printing Implicit Defensive.
Import Order.TTheory GRing.Theory Num.Theory.
Local Open Scope ring_scope.

Section MixPF.
Variables (R : realFieldType) (T Z Rnd Rz : Type).
Variables (eps : R) (root : R -> nat -> R).
Notation part := (T * R)%type.
Notation prop := (prop R T Rnd).
Notation psys := (psys R T Rnd).
Notation pmeas := (pmeas R T Z Rz).
Notation pstate := (fstate (mcpdf R T) (pfpriv R T Rnd)).
Notation mixture := (mix R (mcpdf R T)).

(** mixtureParticleFilter.h 132-184: members; [mp_nres] is a ghost counter of
    the executions of [ResampleOne] *)
Record mpriv := MP {
  mp_prop : option prop; mp_sample : T;
  mp_old : seq (seq part); mp_new : seq (seq part); mp_uns : seq (seq T);
  mp_neww : seq R; mp_sumw : seq R;
  mp_dyn : bool; mp_period : int; mp_thr : R; mp_scheme : rscheme;
  mp_us : nat -> R; mp_rs : nat -> Rnd; mp_nres : nat }.
Notation mstate := (fstate mixture mpriv).

(** mixtureParticleFilter.cpp 29-75: constructor; the posterior is
    [prior->Clone()]; [junk] = default-constructed sample *)
Definition mp_init (junk : part) (q : option prop) (period : int) (thr : R) (sch : rscheme)
    (us : nat -> R) (rs : nat -> Rnd) (m : mixture) : outcome mpriv :=
  let n := mx_n m in
  let! cs := mapO (mx_comp_get m) (iota 0 n) in
  let lists := [seq mc_los c | c <- cs] in
  guard (~~ ((period == 0) && (thr == 0))) ;;
  guard (~~ ((period != 0) && (thr != 0))) ;;
  Ok (MP q junk.1 lists lists (nseq n [::]) (nseq n 0) (nseq n 0) (period == 0) period thr sch us rs 0).

(** the entries of one component, as members of a particle filter *)
Definition mp_view (p : mpriv) (i : nat) : outcome (pfpriv R T Rnd) :=
  let! o := at_ (mp_old p) i in let! n := at_ (mp_new p) i in let! v := at_ (mp_uns p) i in
  Ok (PF (mp_prop p) (mp_sample p) o n v (mp_dyn p) (mp_period p) (mp_thr p) (mp_scheme p)
         (mp_us p) (mp_rs p) (mp_nres p)).
Definition mp_back (p : mpriv) (i : nat) (v : pfpriv R T Rnd) : outcome mpriv :=
  let! o := put_ (mp_old p) i (pf_old v) in let! n := put_ (mp_new p) i (pf_new v) in
  let! w := put_ (mp_uns p) i (pf_uns v) in
  Ok (MP (pf_prop v) (pf_sample v) o n w (mp_neww p) (mp_sumw p) (mp_dyn p) (mp_period p) (mp_thr p)
         (mp_scheme p) (pf_us v) (pf_rs v) (pf_nres v)).
(** run a per-component function on component [i], which is changed in place *)
Definition mp_on (f : pstate -> outcome (bool * pstate)) (i : nat) (st : mstate) : outcome (bool * mstate) :=
  let: (p, t, m) := st in
  let! c := mx_comp_get m i in
  let! v := mp_view p i in
  let! r := f (v, t, c) in
  let! p' := mp_back p i r.2.1.1 in
  let! cs := put_ (mx_comps m) i r.2.2 in
  Ok (r.1, (p', r.2.1.2, Mix (mx_n m) cs (mx_w m) (mx_cum m))).
(** [for i: result = result && this->StepOne(i)] *)
Fixpoint mp_each (f : pstate -> outcome (bool * pstate)) (is_ : seq nat) (r : bool * mstate) : outcome (bool * mstate) :=
  if is_ is i :: is' then
    let! r1 := (if r.1 then mp_on f i r.2 else Ok r) in mp_each f is' r1
  else Ok r.
Definition mp_all f (st : mstate) : outcome (bool * mstate) := mp_each f (iota 0 (mx_n st.2)) (true, st).

(** mixtureParticleFilter.cpp 177-189 [ProposalStepInternal], 193-245
    [ProposalStepInternalOne] (increments [_timestep]) *)
Definition mp_proposal (sm : psys) (u : option T) : mstate -> outcome (bool * mstate) := mp_all (pf_proposal sm u).

(** mixtureParticleFilter.cpp 275-353 [UpdateWeightsInternalOne]: as
    [UpdateWeightsInternal] of the particle filter, and the sum of the new
    (not normalised) weights is stored in [_sumWeights] *)
Definition mp_weights_one sm u (mm : pmeas) z s (i : nat) (st : mstate) : outcome (bool * mstate) :=
  let! r := mp_on (pf_weights sm u mm z s) i st in
  let: (p, t, m) := r.2 in
  let! l := at_ (mp_new p) i in
  let! sw := put_ (mp_sumw p) i (sum_loop [seq x.2 | x <- l]) in
  Ok (r.1, (MP (mp_prop p) (mp_sample p) (mp_old p) (mp_new p) (mp_uns p) (mp_neww p) sw (mp_dyn p)
               (mp_period p) (mp_thr p) (mp_scheme p) (mp_us p) (mp_rs p) (mp_nres p), t, m)).
(** mixtureParticleFilter.cpp 248-272 [UpdateWeightsInternal]; the results for
    the components are ignored *)
Definition mp_weights sm u (mm : pmeas) z s (st : mstate) : outcome (bool * mstate) :=
  let is_ := iota 0 (mx_n st.2) in
  let! st1 := foldO (fun st i => let! r := mp_weights_one sm u mm z s i st in Ok r.2) st is_ in
  let: (p, t, m) := st1 in
  let! nw := foldO (fun nw i => let! w := mx_weight_get m i in let! a := at_ (mp_sumw p) i in
                                let! x := mkProb (w * a) in put_ nw i x) (mp_neww p) is_ in
  let! r := mx_sets eps m nw in
  Ok (r.1, (MP (mp_prop p) (mp_sample p) (mp_old p) (mp_new p) (mp_uns p) nw (mp_sumw p) (mp_dyn p)
               (mp_period p) (mp_thr p) (mp_scheme p) (mp_us p) (mp_rs p) (mp_nres p), t, r.2)).

(** mixtureParticleFilter.cpp 356-366 [DynamicResampleStep], 369-400
    [DynamicResampleStepOne] *)
Definition mp_dynamic : mstate -> outcome (bool * mstate) := mp_all (pf_dynamic root).
(** mixtureParticleFilter.cpp 445-455 [Resample], 458-498 [ResampleOne] *)
Definition mp_resample : mstate -> outcome (bool * mstate) := mp_all (pf_resample root).
(** mixtureParticleFilter.cpp 404-410 [StaticResampleStep] *)
Definition mp_static (st : mstate) : outcome (bool * mstate) :=
  let: (p, t, m) := st in
  if [&& ~~ mp_dyn p, (`|mp_period p|%N %| t)%N & t != 0%N] then mp_resample st else Ok (true, st).

Definition malso (r : bool * mstate) (f : mstate -> outcome (bool * mstate)) : outcome (bool * mstate) :=
  if r.1 then f r.2 else Ok r.
(** mixtureParticleFilter.cpp 414-442 [UpdateInternal]; [MaintainMixture]
    (517-521) returns true *)
Definition mp_internal (sm : option psys) (u : option T) (mm : option pmeas) (z : option Z) (s : option T)
    (st : mstate) : outcome (bool * mstate) :=
  let! r1 := (if sm is Some m then
                let! a := malso (true, st) mp_static in malso a (mp_proposal m u)
              else Ok (true, st)) in
  if mm is Some k then
    let! b := malso r1 (mp_weights sm u k z s) in malso b mp_dynamic
  else Ok r1.
(** mixtureBootstrapFilter.cpp 26-62: constructor (proposal NULL), 66-82
    [UpdateInternal] *)
Definition mb_internal (sm : option psys) (u : option T) (mm : option pmeas) (z : option Z) (s : option T)
    (st : mstate) : outcome (bool * mstate) :=
  let! r1 := (if sm is Some m then
                let: (p, t, d) := st in
                let p' := MP (ml_pdf m) (mp_sample p) (mp_old p) (mp_new p) (mp_uns p) (mp_neww p) (mp_sumw p)
                             (mp_dyn p) (mp_period p) (mp_thr p) (mp_scheme p) (mp_us p) (mp_rs p) (mp_nres p) in
                mp_internal sm u None z s (p', t, d)
              else Ok (true, st)) in
  let! r2 := (if mm is Some _ then mp_internal None u mm z s r1.2 else Ok (true, r1.2)) in
  Ok (r2.1 && r1.1, r2.2).

(** the objects *)
Definition mp_new_filter junk q period thr sch us rs :=
  f_new (mx_copy eps (C := mcpdf R T)) (mp_init junk q period thr sch us rs).
Definition mb_new_filter junk period thr sch us rs :=
  f_new (mx_copy eps (C := mcpdf R T)) (mp_init junk None period thr sch us rs).
Definition mp_call := f_call mp_internal.
Definition mb_call := f_call mb_internal.
(** mixtureParticleFilter.cpp 153-161 [Reset]: the posterior is deleted, then
    the new prior is cloned; the lists of samples are not resized and the
    timestep is kept *)
Definition mp_reset (hf : heap mixture * filt mpriv) (a : nat) : outcome (heap mixture * filt mpriv) :=
  let: (h, f) := hf in
  let! h1 := f_destroy h f in
  let! d := h_get h1 a in
  let! d' := mx_copy eps d in
  let p := fl_priv f in
  let n := mx_n d' in
  Ok (rcons h1 (Some d'),
      Filt a (size h1) (fl_time f)
        (MP (mp_prop p) (mp_sample p) (mp_old p) (mp_new p) (mp_uns p) (vresize n (mp_neww p)) (vresize n (mp_sumw p))
            (mp_dyn p) (mp_period p) (mp_thr p) (mp_scheme p) (mp_us p) (mp_rs p) (mp_nres p))).
End MixPF.
