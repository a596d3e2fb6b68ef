(** * A combined update of the particle filter in doubles: system model, measurement and proposal

    particlefilter.cpp 200-269 with a system model (weights corrected by the ratio of the
    transition density and the proposal density), on top of ModelDoublePF.  As there, the
    values of the particles are left out: densities are functions of the index of the
    particle.  The measurement model has no sensor parameters (256-260 ignores the ratio). *)
From Coq Require Import ZArith.
From Flocq Require Import Core.Core BinarySingleNaN.
From mathcomp Require Import all_ssreflect.
From Verif Require Import Outcome ModelDouble ModelDoublePF.
Set Implicit Arguments. Unset Strict Implicit. Unset Printing Implicit Defensive.

(** particlefilter.cpp 231-253: [l] is the likelihood, [f] the density of the system model,
    [g] that of the proposal; bfl_constants.h 73-76: product and quotient are a [Probability]
    again *)
Definition c_factor (l f g : double) : outcome double :=
  let! l' := d_prob l in
  let! g' := d_prob g in
  if ~~ deq g' d0 then
    let! f' := d_prob f in
    let! r := d_prob (ddiv f' g') in
    d_prob (dmul l' r)
  else Ok d0.

(** a call with one model, or with both: the draws of the periodic resampling, the three
    densities, the draws of the dynamic resampling *)
Inductive cupd :=
  | One of pupd
  | Both of (nat -> double) & (nat -> double) & (nat -> double) & (nat -> double) & (nat -> double).
(** what the periodic and the dynamic resampling copied *)
Definition copies := (option (seq nat) * option (seq nat))%type.

Section CPF.
Variables (sq : double -> double) (root : double -> nat -> double) (sc : scheme).

(** particlefilter.cpp 317-342 [UpdateInternal]; 263 multiplies the weight by the factor *)
Definition c_step (s : dpf) (u : cupd) : outcome ((bool * copies) * dpf) :=
  match u with
  | One (PSys us) => let! r := p_step sq root sc s (PSys us) in Ok ((r.1.1, (r.1.2, None)), r.2)
  | One (PMeas l us) => let! r := p_step sq root sc s (PMeas l us) in Ok ((r.1.1, (None, r.1.2)), r.2)
  | Both us0 l f g us =>
      let! r := p_step sq root sc s (PSys us0) in
      if r.1.1 then
        let d := pf_d r.2 in
        let! w := mapO (fun k => let! q := at_ (dm_w d) k in
                                 let! p := c_factor (l k) (f k) (g k) in d_weight (dmul q p)) (iota 0 (size (dm_w d))) in
        let! q := m_update d w in
        if q.1 then let! e := p_dynamic sq root sc us q.2 in Ok ((true, (r.1.2, e.1)), DPF e.2 (pf_t r.2))
        else Ok ((false, (r.1.2, None)), DPF q.2 (pf_t r.2))
      else Ok ((false, (r.1.2, None)), r.2)
  end.
Fixpoint c_run (s : dpf) (us : seq cupd) : outcome (seq (bool * copies) * dpf) :=
  match us with
  | [::] => Ok ([::], s)
  | u :: us' => let! r := c_step s u in let! q := c_run r.2 us' in Ok (r.1 :: q.1, q.2)
  end.
End CPF.
