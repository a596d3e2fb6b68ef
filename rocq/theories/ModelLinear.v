(** * Model of [LinearAnalyticConditionalGaussian] and the models built on it
    (src/pdf/linearanalyticconditionalgaussian.cpp 29-107,
    analyticconditionalgaussian_additivenoise.cpp 34-82, conditionalgaussian.cpp
    28-112, conditionalpdf.h 114-179,
    src/model/analyticsystemmodel_gaussianuncertainty.cpp 45-69,
    analyticmeasurementmodel_gaussianuncertainty.cpp 36-61,
    linearanalyticsystemmodel_gaussianuncertainty.cpp 38-58,
    linearanalyticmeasurementmodel_gaussianuncertainty.cpp 46-101)

    Simplifications.  Vectors and matrices carry their size; an operation on
    sizes that do not fit is [Abort] (ublas raises [bad_argument] or
    [bad_size]).  The dimension [n] is that of the noise given to the
    constructor; the work vectors [_mean_temp] and [_arg] are overwritten before
    use ([_mean_temp] keeps size [n]).  The system and the measurement model
    have the same code up to names. *)
From mathcomp Require Import all_ssreflect all_algebra.
From Verif Require Import Outcome ModelMatrix ModelWrapper ModelFilter ModelKalman ModelSR ModelDiscretePdf ModelGauss.
Set Implicit Arguments. Unset Strict Implicit. Unset Printing Implicit Defensive.
Import Order.TTheory GRing.Theory Num.Theory.
Local Open Scope ring_scope.

Section Linear.
Variable R : realFieldType.
(** a [Matrix] and a [SymmetricMatrix] of any size; default constructed: no rows *)
Definition rmat := {d : nat * nat & 'M[R]_(d.1, d.2)}.
Definition smat := {k : nat & 'M[R]_k}.
Definition rm m k (A : 'M[R]_(m, k)) : rmat := existT (fun d => 'M[R]_(d.1, d.2)) (m, k) A.
Definition sq k (A : 'M[R]_k) : smat := existT _ k A.
Definition vec k (v : 'cV[R]_k) : meas R := existT _ k v.
Definition rmat0 : rmat := rm (0 : 'M[R]_(0, 0)).
Definition vec0 : meas R := vec (0 : 'cV[R]_0).
Definition rcols (A : rmat) : nat := (projT1 A).2.

(** conditionalpdf.h 107-110 [_NumConditionalArguments],
    [_ConditionalArguments]; linearanalyticconditionalgaussian.h 101 [_ratio];
    [_additiveNoise_Mu], [_additiveNoise_Sigma] *)
Record lcg := LCG {
  lc_num : nat; lc_args : seq (meas R); lc_ratio : seq rmat; lc_mu : meas R; lc_sigma : smat }.

(** conditionalpdf.h 165-179 *)
Definition lc_arg_get (c : lcg) (i : nat) : outcome (meas R) :=
  guard (i < lc_num c)%N ;; at_ (lc_args c) i.
Definition lc_arg_set (c : lcg) (i : nat) (v : meas R) : outcome lcg :=
  guard (i < lc_num c)%N ;;
  let! a := put_ (lc_args c) i v in Ok (LCG (lc_num c) a (lc_ratio c) (lc_mu c) (lc_sigma c)).
(** conditionalpdf.h 157-162 *)
Definition lc_args_set (c : lcg) (l : seq (meas R)) : outcome lcg :=
  guard (size l == lc_num c) ;; Ok (LCG (lc_num c) l (lc_ratio c) (lc_mu c) (lc_sigma c)).

(** linearanalyticconditionalgaussian.cpp 29-44: constructor with a list of
    matrices; the loop sets argument [i] to zero *)
Definition lc_new (ratio : seq rmat) n (mu : 'cV[R]_n) (sigma : 'M[R]_n) : outcome lcg :=
  let k := size ratio in
  let c0 := LCG k (nseq k vec0) ratio (vec mu) (sq sigma) in
  foldO (fun c i => let! A := at_ (lc_ratio c) i in lc_arg_set c i (vec (0 : 'cV[R]_(rcols A)))) c0 (iota 0 k).
(** linearanalyticconditionalgaussian.cpp 47-58: constructor with one matrix *)
Definition lc_new1 (A : rmat) n (mu : 'cV[R]_n) (sigma : 'M[R]_n) : outcome lcg :=
  let c0 := LCG 1%N (nseq 1%N vec0) [::] (vec mu) (sq sigma) in
  let ratio := nseq 1%N rmat0 in
  let! ratio' := put_ ratio 0%N A in
  lc_arg_set (LCG 1%N (lc_args c0) ratio' (lc_mu c0) (lc_sigma c0)) 0%N (vec (0 : 'cV[R]_(rcols A))).

(** linearanalyticconditionalgaussian.cpp 81-107 *)
Definition lc_df (c : lcg) (i : nat) : outcome rmat := guard (i < lc_num c)%N ;; at_ (lc_ratio c) i.
Definition lc_mat_get (c : lcg) (i : nat) : outcome rmat := guard (i < lc_num c)%N ;; at_ (lc_ratio c) i.
Definition lc_mat_set (c : lcg) (i : nat) (A : rmat) : outcome lcg :=
  guard (i < lc_num c)%N ;;
  let! r := put_ (lc_ratio c) i A in Ok (LCG (lc_num c) (lc_args c) r (lc_mu c) (lc_sigma c)).
(** [std::vector::resize] *)
Definition resize A (d : A) (l : seq A) (k : nat) : seq A := take k l ++ nseq (k - size l) d.
(** conditionalpdf.h 141-148, linearanalyticconditionalgaussian.cpp 88-93
    [NumConditionalArgumentsSet] *)
Definition lc_num_set (c : lcg) (k : nat) : lcg :=
  let c1 := if k != lc_num c then LCG k (resize vec0 (lc_args c) k) (lc_ratio c) (lc_mu c) (lc_sigma c) else c in
  LCG (lc_num c1) (lc_args c1) (resize rmat0 (lc_ratio c1) k) (lc_mu c1) (lc_sigma c1).

(** [Matrix * ColumnVector] and [ColumnVector += ColumnVector] *)
Definition pmulv (A : rmat) (x : meas R) : outcome (meas R) :=
  let! v := meas_cast (projT1 A).2 x in Ok (vec (projT2 A *m v)).
Definition padd n (acc : 'cV[R]_n) (y : meas R) : outcome 'cV[R]_n :=
  let! v := meas_cast n y in Ok (acc + v).
(** linearanalyticconditionalgaussian.cpp 68-79 [ExpectedValueGet] *)
Definition lc_mean n (c : lcg) : outcome 'cV[R]_n :=
  let! s := foldO (fun acc i =>
      let! arg := lc_arg_get c i in
      let! A := lc_mat_get c i in
      let! y := pmulv A arg in padd acc y) (0 : 'cV[R]_n) (iota 0 (lc_num c)) in
  padd s (lc_mu c).

(** ** The analytic system and measurement models *)
(** [ConditionalArgumentSet(0,x); if (Num == 2) ConditionalArgumentSet(1,u);] *)
Definition lm_args (c : lcg) (u x : meas R) : outcome lcg :=
  let! c1 := lc_arg_set c 0%N x in
  if lc_num c1 == 2%N then lc_arg_set c1 1%N u else Ok c1.
(** [PredictionGet], [df_dxGet], [CovarianceGet] *)
Definition lm_predict n (c : lcg) (u x : meas R) : outcome ('cV[R]_n * lcg) :=
  let! c1 := lm_args c u x in let! v := lc_mean n c1 in Ok (v, c1).
Definition lm_jacobian (c : lcg) (u x : meas R) : outcome (rmat * lcg) :=
  let! c1 := lm_args c u x in let! A := lc_df c1 0%N in Ok (A, c1).
Definition lm_cov (c : lcg) (u x : meas R) : outcome (smat * lcg) :=
  let! c1 := lm_args c u x in Ok (lc_sigma c1, c1).
(** linearanalyticsystemmodel_gaussianuncertainty.cpp 38-58 ([ASet] and so on),
    linearanalyticmeasurementmodel_gaussianuncertainty.cpp 76-101 ([HSet] ...) *)
Definition lm_first_set (c : lcg) := lc_mat_set c 0%N.
Definition lm_second_set (c : lcg) := lc_mat_set c 1%N.
Definition lm_first_get (c : lcg) := lc_mat_get c 0%N.
Definition lm_second_get (c : lcg) := lc_mat_get c 1%N.

(** ** Programs *)
Inductive lop :=
  | LArg of nat & meas R | LArgs of seq (meas R) | LMat of nat & rmat | LMu of meas R | LSigma of smat
  | LNum of nat | LFirst of rmat | LSecond of rmat
  | QMean | QCov | QDf of nat | QMat of nat | QArg of nat | QFirst | QSecond
  | QPredict of meas R & meas R | QJac of meas R & meas R | QNoise of meas R & meas R.
Inductive lres := RNone | RVec of meas R | RMat of rmat | RSym of smat.
Definition lc_step n (c : lcg) (o : lop) : outcome (lres * lcg) :=
  match o with
  | LArg i v => let! d := lc_arg_set c i v in Ok (RNone, d)
  | LArgs l => let! d := lc_args_set c l in Ok (RNone, d)
  | LMat i A => let! d := lc_mat_set c i A in Ok (RNone, d)
  | LMu v => Ok (RNone, LCG (lc_num c) (lc_args c) (lc_ratio c) v (lc_sigma c))
  | LSigma s => Ok (RNone, LCG (lc_num c) (lc_args c) (lc_ratio c) (lc_mu c) s)
  | LNum k => Ok (RNone, lc_num_set c k)
  | LFirst A => let! d := lm_first_set c A in Ok (RNone, d)
  | LSecond A => let! d := lm_second_set c A in Ok (RNone, d)
  | QMean => let! v := lc_mean n c in Ok (RVec (vec v), c)
  | QCov => Ok (RSym (lc_sigma c), c)
  | QDf i => let! A := lc_df c i in Ok (RMat A, c)
  | QMat i => let! A := lc_mat_get c i in Ok (RMat A, c)
  | QArg i => let! v := lc_arg_get c i in Ok (RVec v, c)
  | QFirst => let! A := lm_first_get c in Ok (RMat A, c)
  | QSecond => let! A := lm_second_get c in Ok (RMat A, c)
  | QPredict u x => let! r := lm_predict n c u x in Ok (RVec (vec r.1), r.2)
  | QJac u x => let! r := lm_jacobian c u x in Ok (RMat r.1, r.2)
  | QNoise u x => let! r := lm_cov c u x in Ok (RSym r.1, r.2)
  end.
Fixpoint lc_run n (c : lcg) (os : seq lop) : outcome (seq lres * lcg) :=
  if os is o :: os' then
    let! r := lc_step n c o in let! q := lc_run n r.2 os' in Ok (r.1 :: q.1, q.2)
  else Ok ([::], c).
End Linear.
Arguments rm {R m k}. Arguments vec {R k}. Arguments sq {R k}. Arguments RNone {R}. Arguments RSym {R}. Arguments RVec {R}. Arguments RMat {R}.
Arguments QMean {R}. Arguments QCov {R}. Arguments QDf {R}. Arguments QMat {R}. Arguments QArg {R}. Arguments LNum {R}.
Arguments QFirst {R}. Arguments QSecond {R}.

(** ** Density and samples of a conditional Gaussian *)
Section Density.
Variables (R : rcfType) (eps twopi : R) (expo : R -> R).
Implicit Type c : lcg R.
(** conditionalgaussian.cpp 48-57 [ProbabilityGet]; [n] is [DimensionGet()] *)
Definition lc_prob n c (x : meas R) : outcome R :=
  let! mu := lc_mean n c in
  let! y := meas_cast n x in
  let diff := y - mu in
  let! i := mat_inv (projT2 (lc_sigma c)) in
  let! d := meas_cast (projT1 (lc_sigma c)) (vec diff) in
  let temp := (d^T *m (i *m d)) 0 0 in
  guard (0 <= temp) ;;
  let! det := mat_det (projT2 (lc_sigma c)) in
  let! f := (if gs_factor twopi n det is Some f then Ok f else Abort) in
  let result := expo (- (1 / 2) * temp) * f in
  guard (0 <= result) ;; Ok result.
(** conditionalgaussian.cpp 66-112 [SampleFrom]; [None]: false, sample left alone *)
Definition lc_sample n c (meth : sample_mthd) (z : nat -> R) : outcome (bool * option (meas R)) :=
  let! mu := lc_mean n c in
  match meth with
  | DEFAULT | CHOLESKY => let! r := gs_draw eps n n (vec mu) (lc_sigma c) z in Ok (r.1, Some r.2)
  | _ => Ok (false, None)
  end.
End Density.
