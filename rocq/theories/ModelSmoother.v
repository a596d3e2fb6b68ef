(** * Models of [BackwardFilter] (src/smoother/backwardfilter.cpp),
    [RauchTungStriebel] (rauchtungstriebel.cpp) and [ParticleSmoother]
    (particlesmoother.cpp)

    Simplifications.  As for the filters, pdfs are objects on a heap and are
    passed by address.  The work variables of the smoothers are overwritten
    before every use and not represented, with one exception: [tot_weight] of
    the particle smoother, which is read before it is written, is a parameter
    [t0] of the model.  Strictly that read is undefined behaviour; the model is
    of a compiler that leaves some value there. *)
From mathcomp Require Import all_ssreflect all_algebra.
From Verif Require Import Outcome ModelTables ModelMCPdf ModelModels ModelMatrix ModelFilter ModelParticle ModelKalman.
Set Implicit Arguments. Unset Strict Implicit. Unset Printing Implicit Defensive.
Import Order.TTheory GRing.Theory Num.Theory.
Local Open Scope ring_scope.

Section Backward.
Variables (D SM U : Type).
(** [UpdateInternal(sysmodel, u, filtered_post)] on the values of the posterior
    and of the filtered posterior *)
Variable internal : option SM -> option U -> D -> D -> outcome (bool * D).
Notation state := (heap D * filt unit)%type.

(** backwardfilter.cpp 50-61: the two overloads; without [u] a
    default-constructed one is passed *)
Inductive bcall := Smooth_u of option SM & U & nat | Smooth of option SM & nat.
Definition b_update (hf : state) (sm : option SM) (u : option U) (fp : nat) : outcome (bool * state) :=
  let! d := h_get hf.1 (fl_post hf.2) in
  let! f := h_get hf.1 fp in
  let! r := internal sm u d f in
  let! h' := put_ hf.1 (fl_post hf.2) (Some r.2) in
  Ok (r.1, (h', hf.2)).
Definition b_call (hf : state) (c : bcall) : outcome (bool * state) :=
  match c with
  | Smooth_u sm u fp => b_update hf sm (Some u) fp
  | Smooth sm fp => b_update hf sm None fp
  end.
(** backwardfilter.cpp 37-42 [Reset]; [_timestep] is never changed
    (23-28, 44-48) *)
Definition b_reset (hf : state) (p : nat) : state := (hf.1, f_reset hf.2 p).
End Backward.

(** ** [RauchTungStriebel] *)
Section RTS.
Variables (R : realFieldType) (U : Type) (n : nat).

(** rauchtungstriebel.cpp 50-70 [SysUpdate]: [post] is the smoothed successor,
    [filt] the filtered state *)
Definition rts_sys (a : asys R U n) (u : option U) (post filt : gauss R n) : outcome (gauss R n) :=
  let x := g_mu post in
  let xf := g_mu filt in
  let! F := am_jacobian a u x in
  let! Q := am_noise a u x in
  let Ppred := F *m g_cov filt *m F^T + Q in
  let Pxx := g_cov filt *m F^T in
  let! Pi := minv Ppred in
  let K := Pxx *m Pi in
  let! xpred := am_predict a u xf in
  let xsmooth := xf + K *m (x - xpred) in
  let Psmooth := g_cov filt - K *m (Ppred - g_cov post) *m K^T in
  Ok (Gauss xsmooth (sym_lower Psmooth)).
(** rauchtungstriebel.cpp 72-77 [UpdateInternal] *)
Definition rts_internal (sm : option (asys R U n)) (u : option U) (post filt : gauss R n)
    : outcome (bool * gauss R n) :=
  let! a := need sm in
  let! g := rts_sys a u post filt in Ok (true, g).
(** rauchtungstriebel.cpp 27-43: constructor *)
Definition rts_new := f_new (@k_copy R n) (@k_init R n).
Definition rts_call := b_call rts_internal.
End RTS.

(** ** [ParticleSmoother] *)
Section PS.
Variables (R : realFieldType) (T Rnd : Type).
Notation part := (T * R)%type.
Notation psys := (psys R T Rnd).

(** particlesmoother.cpp 71-86: the inner loop for one smoothed sample: the row
    of [prob] and the buffer [gamma]; [j] counts from 0 *)
Fixpoint ps_row (sm : psys) (u : option T) (x_smo : T) (fs : seq part) (j : nat) (gamma_loc : R)
    (gamma : seq R) : outcome (seq R * seq R) :=
  if fs is f :: fs' then
    let! p := ml_query sm x_smo f.1 u in
    let! p := mkProb p in
    let gamma_loc := gamma_loc + f.2 * p in
    let! gamma := put_ gamma j gamma_loc in
    let! r := ps_row sm u x_smo fs' j.+1 gamma_loc gamma in
    Ok (p :: r.1, r.2)
  else Ok ([::], gamma).
(** particlesmoother.cpp 62-89: the outer loop: [prob] (by rows) and [gamma] *)
Fixpoint ps_table (sm : psys) (u : option T) (os fs : seq part) (gamma : seq R) : outcome (seq (seq R) * seq R) :=
  if os is o :: os' then
    let! r := ps_row sm u o.1 fs 0 0 gamma in
    let! t := ps_table sm u os' fs r.2 in
    Ok (r.1 :: t.1, t.2)
  else Ok ([::], gamma).
(** particlesmoother.cpp 97-106: the loop over the smoothed samples for one new
    sample; [prob(i,j)] is read only if [gamma[j]] is not zero; reading outside
    the matrix is UB *)
Fixpoint ps_delta (prob : seq (seq R)) (gamma : seq R) (i : nat) (os : seq part) (j : nat) (delta : R) : outcome R :=
  if os is o :: os' then
    let! g := at_ gamma j in
    if g != 0 then
      let! row := at_ prob i in
      let! p := at_ row j in
      ps_delta prob gamma i os' j.+1 (delta + o.2 * p / g)
    else ps_delta prob gamma i os' j.+1 delta
  else Ok delta.
(** particlesmoother.cpp 91-112: all new weights *)
Fixpoint ps_weights (prob : seq (seq R)) (gamma : seq R) (os ns : seq part) (i : nat) : outcome (seq R) :=
  if ns is x :: ns' then
    let! d := ps_delta prob gamma i os 0 0 in
    let! r := ps_weights prob gamma os ns' i.+1 in
    Ok (x.2 * d :: r)
  else Ok [::].
(** particlesmoother.cpp 53-124 [SysUpdate].  Dividing by a zero total gives NaN
    or infinite weights, for which the model has no value: [Abort] (NaN fails
    the assert in [WeightSet]). *)
Definition ps_sys (t0 : R) (junk : part) (sm : psys) (u : option T) (post filt : mcpdf R T) : outcome (mcpdf R T) :=
  let fs := mc_los filt in
  let os := mc_los post in
  let! t := ps_table sm u os fs (nseq (size os) 0) in
  let! w := ps_weights t.1 t.2 os fs 0 in
  let tot := foldl (fun acc x => acc + x) t0 w in
  guard (tot != 0) ;;
  let! ns := mapO (fun q : part * R => guard (0 <= q.2 / tot) ;; Ok (q.1.1, q.2 / tot)) (zip fs w) in
  let! r := mc_setW junk post ns in
  Ok r.2.
(** particlesmoother.cpp 44-51 [UpdateInternal] *)
Definition ps_internal t0 junk (sm : option psys) (u : option T) (post filt : mcpdf R T) : outcome (bool * mcpdf R T) :=
  let! m := need sm in
  let! d := ps_sys t0 junk m u post filt in Ok (true, d).
(** particlesmoother.cpp 24-35: constructor *)
Definition ps_copy (junk : part) (d : mcpdf R T) : outcome (mcpdf R T) :=
  let! r := mc_setW junk (mc_copy d) (mc_los d) in Ok r.2.
Definition ps_new junk := f_new (@ps_copy junk) (fun _ => Ok tt).
Definition ps_call t0 junk := b_call (ps_internal t0 junk).
End PS.
