(** * Model of [Gaussian] (src/pdf/gaussian.cpp 29-222)

    Simplifications.  [double] is an element of a real closed field; [expo] and
    [twopi] stand for [exp] and [2*M_PI]; [eps] is the machine epsilon used by the
    Cholesky factorisation.  Vectors and matrices carry their size; an operation on
    vectors of different size is [Abort] (ublas raises [bad_argument] or an assert
    fails).  [rnorm(0,1)] draws are an argument.  The work vectors are overwritten
    before use and only their size is kept, where it matters. *)
From mathcomp Require Import all_ssreflect all_algebra.
From Verif Require Import Outcome ModelMatrix ModelWrapper ModelFilter ModelKalman ModelSR ModelDiscretePdf.
Set Implicit Arguments. Unset Strict Implicit. Unset Printing Implicit Defensive.
Import Order.TTheory GRing.Theory Num.Theory.
Local Open Scope ring_scope.

Section Gauss.
Variables (R : rcfType) (eps twopi : R) (expo : R -> R).

(** a [ColumnVector] and a [SymmetricMatrix] of any size *)
Definition pvec := meas R.
Definition pmat := {k : nat & 'M[R]_k}.
Definition pv n (v : 'cV[R]_n) : pvec := existT _ n v.
Definition pm n (A : 'M[R]_n) : pmat := existT _ n A.
Definition rows_v (v : pvec) : nat := projT1 v.
Definition rows_m (A : pmat) : nat := projT1 A.

(** gaussian.h 29-43: members.  [gs_norm] is [_sqrt_pow]; [None] is a value that
    is not finite. *)
Record gaussian := Gs {
  gs_dim : nat; gs_mu : pvec; gs_cov : pmat;
  gs_changed : bool; gs_inv : pmat; gs_norm : option R; gs_nsamples : nat }.

(** gaussian.cpp 29-44: constructor *)
Definition gs_new (m : pvec) (s : pmat) : outcome gaussian :=
  guard (rows_v m == rows_m s) ;;
  Ok (Gs (rows_v m) m s true (pm (0 : 'M[R]_(rows_v m))) None (rows_v m)).
(** gaussian.cpp 46-58: constructor with a dimension; [m], [s]: the contents of
    the uninitialised mean and covariance *)
Definition gs_new_dim k (m : 'cV[R]_k) (s : 'M[R]_k) : gaussian :=
  Gs k (pv m) (pm s) true (pm (0 : 'M[R]_k)) None k.

(** gaussian.cpp 78-82: the cached inverse and factor *)
Definition gs_factor (dim : nat) (det : R) : option R :=
  if 0 < twopi ^+ dim * det then Some (1 / Num.sqrt (twopi ^+ dim * det)) else None.
Definition gs_refresh (g : gaussian) : outcome gaussian :=
  if ~~ gs_changed g then Ok g else
  let! i := mat_inv (projT2 (gs_cov g)) in
  let! d := mat_det (projT2 (gs_cov g)) in
  Ok (Gs (gs_dim g) (gs_mu g) (gs_cov g) false (pm i) (gs_factor (gs_dim g) d) (gs_nsamples g)).
(** gaussian.cpp 84-92: the rest of [ProbabilityGet] *)
Definition gs_value (mu : pvec) (inv : pmat) (norm : option R) (x : pvec) : outcome R :=
  let! m := meas_cast (rows_v x) mu in
  let diff := projT2 x - m in
  let! d := meas_cast (rows_m inv) (pv diff) in
  let temp := (d^T *m (projT2 inv *m d)) 0 0 in
  guard (0 <= temp) ;;
  let! c := (if norm is Some c then Ok c else Abort) in
  let result := expo (- (1 / 2) * temp) * c in
  guard (0 <= result) ;; Ok result.
(** gaussian.cpp 75-92 [ProbabilityGet] *)
Definition gs_prob (g : gaussian) (x : pvec) : outcome (R * gaussian) :=
  let! g1 := gs_refresh g in
  let! r := gs_value (gs_mu g1) (gs_inv g1) (gs_norm g1) x in Ok (r, g1).

(** gaussian.cpp 214-222 [DimensionSet] *)
Definition gs_dim_set (g : gaussian) (k : nat) : gaussian :=
  Gs k (gs_mu g) (gs_cov g) (gs_changed g) (gs_inv g) (gs_norm g) k.
(** gaussian.cpp 190-199 [ExpectedValueSet] *)
Definition gs_mu_set (g : gaussian) (m : pvec) : outcome gaussian :=
  let g1 := Gs (gs_dim g) m (gs_cov g) (gs_changed g) (gs_inv g) (gs_norm g) (gs_nsamples g) in
  let g2 := if gs_dim g1 == 0%N then gs_dim_set g1 (rows_v m) else g1 in
  guard (gs_dim g2 == rows_v m) ;; Ok g2.
(** gaussian.cpp 201-211 [CovarianceSet] *)
Definition gs_cov_set (g : gaussian) (s : pmat) : outcome gaussian :=
  let g1 := Gs (gs_dim g) (gs_mu g) s true (gs_inv g) (gs_norm g) (gs_nsamples g) in
  let g2 := if gs_dim g1 == 0%N then gs_dim_set g1 (rows_m s) else g1 in
  guard (gs_dim g2 == rows_m s) ;; Ok g2.

(** gaussian.cpp 107-114, 155-166 and conditionalgaussian.cpp 81-86, 94-105: a
    sample for the draws [z] (numbered from 1): [dim] elements of the work vector
    of size [nsamples] are set *)
Definition gs_draw (dim nsamples : nat) (mu : pvec) (cov : pmat) (z : nat -> R)
    : outcome (bool * pvec) :=
  let r := cholesky eps (projT2 cov) in
  guard (dim <= nsamples)%N ;;
  let! w := meas_cast (rows_m cov) (pv (\col_(i < nsamples) z i.+1)) in
  let! m := meas_cast (rows_m cov) mu in
  Ok (r.1, pv (r.2 *m w + m)).
(** gaussian.cpp 128-175 [SampleFrom]; [None]: false, sample left alone *)
Definition gs_sample (g : gaussian) (meth : sample_mthd) (z : nat -> R) : outcome (bool * option pvec) :=
  match meth with
  | DEFAULT | CHOLESKY =>
      let! r := gs_draw (gs_dim g) (gs_nsamples g) (gs_mu g) (gs_cov g) z in Ok (r.1, Some r.2)
  | _ => Ok (false, None)
  end.
(** gaussian.cpp 97-125: list of samples; [zs i] are the draws of sample [i] *)
Definition gs_samples (g : gaussian) (k : nat) (meth : sample_mthd) (zs : nat -> nat -> R)
    : outcome (bool * seq (option pvec)) :=
  match meth with
  | DEFAULT | CHOLESKY =>
      let flag := (cholesky eps (projT2 (gs_cov g))).1 in
      let! l := mapO (fun i => gs_draw (gs_dim g) (gs_nsamples g) (gs_mu g) (gs_cov g) (zs i)) (iota 0 k) in
      Ok (flag, [seq Some r.2 | r <- l])
  | _ => Ok (false, nseq k None)
  end.

(** ** Programs with any number of objects *)
Inductive gop :=
  | GNew of pvec & pmat                     (* constructor *)
  | GNewDim (k : nat) of 'cV[R]_k & 'M[R]_k (* constructor with a dimension *)
  | GCopy of nat                            (* copy constructor, Clone *)
  | GAssign of nat & nat                    (* operator= *)
  | GMean of nat & pvec                     (* ExpectedValueSet *)
  | GCov of nat & pmat                      (* CovarianceSet *)
  | GProb of nat & pvec                     (* ProbabilityGet *)
  | GSample of nat & sample_mthd & (nat -> R).
Inductive gres := NoRes | Density of R | Drawn of bool & option pvec | Moments of pvec & pmat.
Definition gs_step (st : seq gaussian) (o : gop) : outcome (gres * seq gaussian) :=
  match o with
  | GNew m s => let! g := gs_new m s in Ok (NoRes, rcons st g)
  | GNewDim k m s => Ok (NoRes, rcons st (gs_new_dim m s))
  | GCopy i => let! g := at_ st i in Ok (NoRes, rcons st g)
  | GAssign i j => let! g := at_ st j in let! st' := put_ st i g in Ok (NoRes, st')
  | GMean i m => let! g := at_ st i in let! g' := gs_mu_set g m in
                 let! st' := put_ st i g' in Ok (NoRes, st')
  | GCov i s => let! g := at_ st i in let! g' := gs_cov_set g s in
                let! st' := put_ st i g' in Ok (NoRes, st')
  | GProb i x => let! g := at_ st i in let! r := gs_prob g x in
                 let! st' := put_ st i r.2 in Ok (Density r.1, st')
  | GSample i k z => let! g := at_ st i in let! r := gs_sample g k z in Ok (Drawn r.1 r.2, st)
  end.
Fixpoint gs_run (st : seq gaussian) (os : seq gop) : outcome (seq gres * seq gaussian) :=
  if os is o :: os' then
    let! r := gs_step st o in let! q := gs_run r.2 os' in Ok (r.1 :: q.1, q.2)
  else Ok ([::], st).
End Gauss.
Arguments pv {R n}.
Arguments pm {R n}.
