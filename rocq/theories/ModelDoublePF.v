(** * The weights of the particle filter in IEEE-754 doubles

    particlefilter.cpp and bootstrapfilter.cpp with the tables of ModelDouble.  The
    values of the particles are left out: a measurement model is the function from
    the index of a particle to its [ProbabilityGet], a resampling is recorded by the
    indices of the particles that were copied.  Inputs and sensor parameters are left
    out: see ModelParticle for those. *)
From Coq Require Import ZArith.
From Flocq Require Import Core.Core BinarySingleNaN.
From mathcomp Require Import all_ssreflect.
From Verif Require Import Outcome ModelDouble.
Set Implicit Arguments. Unset Strict Implicit. Unset Printing Implicit Defensive.

(** particlefilter.cpp 47-69 constructor: exactly one of the period and the threshold
    is not 0 *)
Inductive scheme := Period of nat | Threshold of double.
(** the MCPdf [_post] and [_timestep] *)
Record dpf := DPF { pf_d : dmc; pf_t : nat }.

Section PF.
(** [sq x] stands for [pow(x,2)], [root u k] for [pow(u,1.0/k)]: external functions *)
Variables (sq : double -> double) (root : double -> nat -> double) (sc : scheme).

(** particlefilter.cpp 344-392 [Resample], MULTINOMIAL_RS: [us] is the stream of the
    draws of [runif()]; mcpdf.h 440-463 [ListOfSamplesUpdate(vector<Sample>)] gives every
    sample the weight 1/n.  Always [true]. *)
Definition p_resample (us : nat -> double) (d : dmc) : outcome (seq nat * dmc) :=
  let! l := m_samples root d [seq us i | i <- iota 0 (size (dm_w d))] in
  if size l == size (dm_w d) then let! r := m_set (size l) in Ok (l, r.2) else Ok (l, d).
(** particlefilter.cpp 281-290: the effective sample size *)
Definition p_neff (w : seq double) : double := ddiv d1 (foldl (fun s x => dadd s (sq x)) d0 w).
(** particlefilter.cpp 272-304 [DynamicResampleStep] *)
Definition p_dynamic (us : nat -> double) (d : dmc) : outcome (option (seq nat) * dmc) :=
  if sc is Threshold T then
    if dlt (p_neff (dm_w d)) T then let! r := p_resample us d in Ok (Some r.1, r.2) else Ok (None, d)
  else Ok (None, d).
(** particlefilter.cpp 307-314 [StaticResampleStep] *)
Definition p_static (us : nat -> double) (t : nat) (d : dmc) : outcome (option (seq nat) * dmc) :=
  if sc is Period k then
    if (t %% k == 0) && (t != 0) then let! r := p_resample us d in Ok (Some r.1, r.2) else Ok (None, d)
  else Ok (None, d).

(** One call of [UpdateInternal] with a system model or with a measurement model, and
    the draws at its disposal (bootstrapfilter.cpp 60-80 makes two calls when both
    models are given). *)
Inductive pupd := PSys of (nat -> double) | PMeas of (nat -> double) & (nat -> double).
(** particlefilter.cpp 317-342 [UpdateInternal].
    PSys: [StaticResampleStep], then 144-197 [ProposalStepInternal], which hands the
    old weights over; PMeas: 200-269 [UpdateWeightsInternal] without a system model,
    and [DynamicResampleStep] if that returned [true]. *)
Definition p_step (s : dpf) (f : pupd) : outcome ((bool * option (seq nat)) * dpf) :=
  match f with
  | PSys us =>
      let! r := p_static us (pf_t s) (pf_d s) in
      let! w := mapO d_weight (dm_w r.2) in
      let! q := m_update r.2 w in
      Ok ((q.1, r.1), DPF q.2 (pf_t s).+1)
  | PMeas l us =>
      let! w := mapO (fun k => let! q := at_ (dm_w (pf_d s)) k in
                               let! p := d_prob (l k) in d_weight (dmul q p)) (iota 0 (size (dm_w (pf_d s)))) in
      let! q := m_update (pf_d s) w in
      if q.1 then let! r := p_dynamic us q.2 in Ok ((true, r.1), DPF r.2 (pf_t s))
      else Ok ((false, None), DPF q.2 (pf_t s))
  end.
Fixpoint p_run (s : dpf) (fs : seq pupd) : outcome (seq (bool * option (seq nat)) * dpf) :=
  match fs with
  | [::] => Ok ([::], s)
  | f :: fs' => let! r := p_step s f in let! q := p_run r.2 fs' in Ok (r.1 :: q.1, q.2)
  end.
End PF.
