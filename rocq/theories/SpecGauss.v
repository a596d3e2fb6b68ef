(** * Specification of the Gaussian density and of objects without a cache *)
From mathcomp Require Import all_ssreflect all_algebra.
From Verif Require Import Outcome SpecMatrix ModelWrapper ModelKalman ModelGauss ModelDiscretePdf.
Set Implicit Arguments. Unset Strict Implicit. Unset Printing Implicit Defensive.
Import Order.TTheory GRing.Theory Num.Theory.
Local Open Scope ring_scope.

Section Gauss.
Variables (R : rcfType) (eps twopi : R) (expo : R -> R).

(** exp (-1/2 (x-mu)' S^-1 (x-mu)) / sqrt ((2 pi)^n det S) *)
Definition density n (mu : 'cV[R]_n) (S : 'M[R]_n) (x : 'cV[R]_n) : R :=
  expo (- qf (invmx S) (x - mu) / 2) / Num.sqrt (twopi ^+ n * \det S).

(** An object with its dimension, mean and covariance and nothing else; the
    density is computed from them at every call. *)
Record plain := Plain { p_dim : nat; p_mu : pvec R; p_cov : pmat R }.

(** the outcome of a density query: sizes must fit, the covariance must be
    invertible with positive determinant and its inverse must not give a negative
    quadratic form *)
Definition p_prob (p : plain) (x : pvec R) : outcome R :=
  let: existT k C := p_cov p in
  if C \notin unitmx then Abort else
  match eqVneq (projT1 (p_mu p)) k, eqVneq (projT1 x) k with
  | EqNotNeq e1, EqNotNeq e2 =>
      let mu := castmx (e1, erefl) (projT2 (p_mu p)) in
      let y := castmx (e2, erefl) (projT2 x) in
      if (0 <= qf (invmx C) (y - mu)) && (0 < twopi ^+ p_dim p * \det C) &&
         (0 <= expo (- qf (invmx C) (y - mu) / 2))
      then Ok (expo (- qf (invmx C) (y - mu) / 2) / Num.sqrt (twopi ^+ p_dim p * \det C))
      else Abort
  | _, _ => Abort
  end.
Definition p_sample (p : plain) (meth : sample_mthd) (z : nat -> R) : outcome (bool * option (pvec R)) :=
  match meth with
  | DEFAULT | CHOLESKY =>
      let! r := gs_draw eps (p_dim p) (p_dim p) (p_mu p) (p_cov p) z in Ok (r.1, Some r.2)
  | _ => Ok (false, None)
  end.
Definition p_set_mu (p : plain) (m : pvec R) : outcome plain :=
  if (p_dim p == 0%N) || (p_dim p == projT1 m) then Ok (Plain (projT1 m) m (p_cov p)) else Abort.
Definition p_set_cov (p : plain) (s : pmat R) : outcome plain :=
  if (p_dim p == 0%N) || (p_dim p == projT1 s) then Ok (Plain (projT1 s) (p_mu p) s) else Abort.

Definition p_step (st : seq plain) (o : gop R) : outcome (gres R * seq plain) :=
  match o with
  | GNew m s => if projT1 m == projT1 s then Ok (NoRes R, rcons st (Plain (projT1 m) m s)) else Abort
  | GNewDim k m s => Ok (NoRes R, rcons st (Plain k (pv m) (pm s)))
  | GCopy i => let! p := at_ st i in Ok (NoRes R, rcons st p)
  | GAssign i j => let! p := at_ st j in let! st' := put_ st i p in Ok (NoRes R, st')
  | GMean i m => let! p := at_ st i in let! p' := p_set_mu p m in
                 let! st' := put_ st i p' in Ok (NoRes R, st')
  | GCov i s => let! p := at_ st i in let! p' := p_set_cov p s in
                let! st' := put_ st i p' in Ok (NoRes R, st')
  | GProb i x => let! p := at_ st i in let! r := p_prob p x in Ok (Density r, st)
  | GSample i k z => let! p := at_ st i in let! r := p_sample p k z in Ok (Drawn r.1 r.2, st)
  end.
Fixpoint p_run (st : seq plain) (os : seq (gop R)) : outcome (seq (gres R) * seq plain) :=
  if os is o :: os' then
    let! r := p_step st o in let! q := p_run r.2 os' in Ok (r.1 :: q.1, q.2)
  else Ok ([::], st).

(** what a user can see of an object *)
Definition forget (g : gaussian R) : plain := Plain (gs_dim g) (gs_mu g) (gs_cov g).
End Gauss.
