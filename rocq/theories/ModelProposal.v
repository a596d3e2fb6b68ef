(** * Model of [FilterProposalDensity] and [EKFProposalDensity]
    (src/pdf/filterproposaldensity.cpp 28-153, EKF_proposaldensity.cpp 25-37)

    Simplifications.  Models are analytic models of the state size [n]; their
    inputs, sensor parameters and measurements are vectors of any size.  The
    Gaussians live in a heap: cell 0 is [_TmpPrior], cell 1 the posterior that
    the filter allocates.  The extended Kalman filter is that of ModelKalman
    (its work variables adapt their size on assignment). *)
From mathcomp Require Import all_ssreflect all_algebra.
From Verif Require Import Outcome ModelMatrix ModelFilter ModelKalman ModelDiscretePdf ModelGauss.
Set Implicit Arguments. Unset Strict Implicit. Unset Printing Implicit Defensive.
Import Order.TTheory GRing.Theory Num.Theory.
Local Open Scope ring_scope.

Section Proposal.
Variables (R : realFieldType) (n : nat).
Notation asys := (asys R (meas R) n).
Notation ameas := (ameas R (meas R) n).

(** filterproposaldensity.h 80-87 and the members of [ConditionalPdf].
    [fp_cov] is [_sample_cov], [None] before it is set. *)
Record fpd := Fpd {
  fp_dim : nat; fp_sys : option asys; fp_meas : option ameas;
  fp_num : nat; fp_args : seq (meas R); fp_cov : option 'M[R]_n;
  fp_hf : heap (gauss R n) * filt unit }.

Definition nargs_s (a : asys) : nat := if am_noextra a then 1%N else 2%N.
Definition nargs_m (a : ameas) : nat := if am_noextra (projT2 a) then 1%N else 2%N.
(** conditionalpdf.h 140-148 [NumConditionalArgumentsSet]; new arguments are
    empty vectors *)
Definition fp_num_set (args : seq (meas R)) (num k : nat) : seq (meas R) :=
  if k != num then take k args ++ nseq (k - size args) (existT _ 0%N (0 : 'cV[R]_0)) else args.
Definition both (s : option asys) (m : option ameas) : option nat :=
  match s, m with Some a, Some b => Some (nargs_s a + nargs_m b)%N | _, _ => None end.
Definition fp_renum (f : fpd) (s : option asys) (m : option ameas) : fpd :=
  if both s m is Some k
  then Fpd (fp_dim f) s m k (fp_num_set (fp_args f) (fp_num f) k) (fp_cov f) (fp_hf f)
  else Fpd (fp_dim f) s m (fp_num f) (fp_args f) (fp_cov f) (fp_hf f).

(** filterproposaldensity.cpp 28-56 and EKF_proposaldensity.cpp 25-31:
    constructor; [g] is the (uninitialised) content of [_TmpPrior] *)
Definition fp_new (g : gauss R n) (s : option asys) (m : option ameas) : outcome fpd :=
  let! hf := k_new [:: Some g] 0%N in
  Ok (fp_renum (Fpd (if s is Some _ then n else 0%N) None None 0%N [::] None hf) s m).

(** filterproposaldensity.cpp 63-78 [SystemModelSet] *)
Definition fp_sys_set (f : fpd) (s : option asys) : outcome fpd :=
  guard (isSome s) ;;
  guard ((fp_dim f == 0%N) || (fp_dim f == n)) ;;
  Ok (fp_renum (Fpd n (fp_sys f) (fp_meas f) (fp_num f) (fp_args f) (fp_cov f) (fp_hf f)) s (fp_meas f)).
(** filterproposaldensity.cpp 81-89 [MeasurementModelSet] *)
Definition fp_meas_set (f : fpd) (m : option ameas) : outcome fpd :=
  guard (isSome m) ;; Ok (fp_renum f (fp_sys f) m).
(** filterproposaldensity.cpp 91-96 [SampleCovSet] *)
Definition fp_cov_set (f : fpd) (P : 'M[R]_n) : outcome fpd :=
  guard (n == fp_dim f) ;;
  Ok (Fpd (fp_dim f) (fp_sys f) (fp_meas f) (fp_num f) (fp_args f) (Some P) (fp_hf f)).
(** conditionalpdf.h 156-179 *)
Definition fp_arg_get (f : fpd) (i : nat) : outcome (meas R) := guard (i < fp_num f)%N ;; at_ (fp_args f) i.
Definition fp_arg_set (f : fpd) (i : nat) (v : meas R) : outcome fpd :=
  guard (i < fp_num f)%N ;;
  let! a := put_ (fp_args f) i v in
  Ok (Fpd (fp_dim f) (fp_sys f) (fp_meas f) (fp_num f) a (fp_cov f) (fp_hf f)).

(** filterproposaldensity.cpp 119-145: the call of [Update] *)
Definition fp_call (f : fpd) : outcome (call asys ameas (meas R) (meas R)) :=
  match fp_sys f with
  | None =>
      let! am := need (fp_meas f) in
      if ~~ am_noextra (projT2 am) then
        let! z := fp_arg_get f 1%N in let! s := fp_arg_get f 2%N in Ok (Update_mzs _ (Some am) z s)
      else let! z := fp_arg_get f 1%N in Ok (Update_mz _ _ (Some am) z)
  | Some a =>
      match fp_meas f with
      | None =>
          if ~~ am_noextra a then let! u := fp_arg_get f 1%N in Ok (Update_su _ _ (Some a) u)
          else Ok (Update_s _ _ _ (Some a))
      | Some am =>
          if ~~ am_noextra a && ~~ am_noextra (projT2 am) then
            let! u := fp_arg_get f 1%N in let! z := fp_arg_get f 2%N in let! s := fp_arg_get f 3%N in
            Ok (Update_sumzs (Some a) u (Some am) z s)
          else if am_noextra a && ~~ am_noextra (projT2 am) then
            let! z := fp_arg_get f 1%N in let! s := fp_arg_get f 2%N in
            Ok (Update_smzs (Some a) (Some am) z s)
          else if ~~ am_noextra a && am_noextra (projT2 am) then
            let! u := fp_arg_get f 1%N in let! z := fp_arg_get f 2%N in
            Ok (Update_sumz (Some a) u (Some am) z)
          else let! z := fp_arg_get f 1%N in Ok (Update_smz _ (Some a) (Some am) z)
      end
  end.
(** filterproposaldensity.cpp 112-146 [FilterStep] *)
Definition fp_step (f : fpd) : outcome fpd :=
  let! x := fp_arg_get f 0%N in
  let! mu := meas_cast n x in
  let! P := need (fp_cov f) in
  let! h := put_ (fp_hf f).1 0%N (Some (Gauss mu P)) in
  let fl := f_reset (fp_hf f).2 0%N in
  let! c := fp_call f in
  let! r := ekf_call (h, fl) c in
  Ok (Fpd (fp_dim f) (fp_sys f) (fp_meas f) (fp_num f) (fp_args f) (fp_cov f) r.2).
(** filterproposaldensity.cpp 98-110 [ExpectedValueGet], [CovarianceGet] *)
Definition fp_mean (f : fpd) : outcome ('cV[R]_n * fpd) :=
  let! f1 := fp_step f in let! g := f_post (fp_hf f1) in Ok (g_mu g, f1).
Definition fp_covar (f : fpd) : outcome ('M[R]_n * fpd) :=
  let! f1 := fp_step f in let! g := f_post (fp_hf f1) in Ok (g_cov g, f1).
(** EKF_proposaldensity.cpp 33-36: destructor, deletes the filter, which deletes
    its posterior *)
Definition fp_destroy (f : fpd) : outcome (heap (gauss R n)) := f_destroy (fp_hf f).1 (fp_hf f).2.

(** ** Programs *)
Inductive fop :=
  | FSys of option asys | FMeas of option ameas | FCov of 'M[R]_n | FArg of nat & meas R
  | FMeanQ | FCovQ.
Inductive fres := FNone | FMean of 'cV[R]_n | FCovar of 'M[R]_n.
Definition fp_exec (f : fpd) (o : fop) : outcome (fres * fpd) :=
  match o with
  | FSys s => let! g := fp_sys_set f s in Ok (FNone, g)
  | FMeas m => let! g := fp_meas_set f m in Ok (FNone, g)
  | FCov P => let! g := fp_cov_set f P in Ok (FNone, g)
  | FArg i v => let! g := fp_arg_set f i v in Ok (FNone, g)
  | FMeanQ => let! r := fp_mean f in Ok (FMean r.1, r.2)
  | FCovQ => let! r := fp_covar f in Ok (FCovar r.1, r.2)
  end.
Fixpoint fp_run (f : fpd) (os : seq fop) : outcome (seq fres * fpd) :=
  if os is o :: os' then
    let! r := fp_exec f o in let! q := fp_run r.2 os' in Ok (r.1 :: q.1, q.2)
  else Ok ([::], f).
End Proposal.
Arguments FNone {R n}. Arguments FArg {R n}. Arguments FMeanQ {R n}. Arguments FCovQ {R n}.

(** ** Samples *)
Section Sample.
Variables (R : rcfType) (eps : R) (n : nat).
(** conditionalgaussian.cpp 66-112 on a proposal density: [_samples] has the size
    given to the constructor of [ConditionalGaussian], which is the default 0
    (filterproposaldensity.cpp 30); only [_dimension] is changed later *)
Definition fp_sample (f : fpd R n) (meth : sample_mthd) (z : nat -> R) : outcome (bool * option (meas R) * fpd R n) :=
  let! r := fp_mean f in
  match meth with
  | DEFAULT | CHOLESKY =>
      let! q := fp_covar r.2 in
      let! d := gs_draw eps (fp_dim f) 0%N (pv r.1) (pm q.1) z in Ok (d.1, Some d.2, q.2)
  | _ => Ok (false, None, r.2)
  end.
End Sample.
