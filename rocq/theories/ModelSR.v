(** * Model of the Cholesky factorisation and of
    [SRIteratedExtendedKalmanFilter]
    (src/wrappers/matrix/matrix_wrapper.cpp 10-44,
    src/filter/SRiteratedextendedkalmanfilter.cpp)

    Simplifications.  [double] is an element of a real closed field (an ordered
    field with square roots); matrices are mathcomp matrices with indices from 0.
    [eps] is [std::numeric_limits<double>::epsilon()]. *)
From mathcomp Require Import all_ssreflect all_algebra.
From Verif Require Import Outcome ModelMatrix ModelFilter ModelKalman.
Set Implicit Arguments. Unset Strict Implicit. Unset Printing Implicit Defensive.
Import Order.TTheory GRing.Theory Num.Theory.
Local Open Scope ring_scope.

Section SR.
Variables (R : rcfType) (eps : R).

Section Cholesky.
Variable n : nat.

(** matrix_wrapper.cpp 20-37: the body of the outer loop.  [None] is the early
    return of line 26.  The two inner loops write a column that depends only on
    [a(k,k)] and entries below it, then columns to the right of [k] that depend
    only on their own entries and on column [k], so each is one assignment to
    all entries. *)
Definition chol_step (k : 'I_n) (a : 'M[R]_n) : option 'M[R]_n :=
  let p := if (a k k < eps) && (- eps < a k k) then 0 else a k k in
  if p < 0 then None else
  let d := Num.sqrt p in
  let a1 := \matrix_(i, j)
    (if j == k then
       if i == k then d else if (k < i)%N then (if d < eps then 0 else a i k / d) else a i k
     else a i j) in
  Some (\matrix_(i, j) (if ((k < j) && (j <= i))%N then a1 i j - a1 i k * a1 j k else a1 i j)).

Fixpoint chol_loop (ks : seq 'I_n) (a : 'M[R]_n) : option 'M[R]_n :=
  if ks is k :: ks' then
    if chol_step k a is Some a' then chol_loop ks' a' else None
  else Some a.

(** matrix_wrapper.cpp 10-44 [cholesky_semidefinite]: result flag and matrix;
    on failure the zero matrix.  Lines 40-42 clear the upper triangle. *)
Definition cholesky (A : 'M[R]_n) : bool * 'M[R]_n :=
  if chol_loop (enum 'I_n) A is Some a then (true, \matrix_(i, j) (if (j <= i)%N then a i j else 0))
  else (false, 0).
End Cholesky.

Variables (U : Type) (n : nat).

(** linearanalyticmeasurementmodel_gaussianuncertainty_implicit.h: the pure
    virtual functions [df_dxGet(s,x)], [ExpectedValueGet()], [CovarianceGet()],
    [SRCovariance()], [Is_Identity()].  The ones without arguments refer to the
    last [s] and [x] the model was asked about; here all are functions of them. *)
Record imodel m := IModel {
  im_H : option U -> 'cV[R]_n -> 'M[R]_(m, n);
  im_Z : option U -> 'cV[R]_n -> 'cV[R]_m;
  im_R : option U -> 'cV[R]_n -> 'M[R]_m;
  im_SR : option U -> 'cV[R]_n -> 'M[R]_m;
  im_identity : option U -> 'cV[R]_n -> bool }.

(** [JP] is the private state *)
(** lines 29-34, constructor *)
Definition sr_init (g : gauss R n) : outcome 'M[R]_n := Ok (cholesky (g_cov g)).2.

(** lines 39-56 [SysUpdate] *)
Definition sr_sys (a : asys R U n) (u : option U) (st : 'M[R]_n * gauss R n)
    : outcome ('M[R]_n * gauss R n) :=
  let x := g_mu st.2 in
  let! J := am_predict a u x in
  let! F := am_jacobian a u x in
  let! Q := am_noise a u x in
  let g := k_sys_calc st.2 J F Q in
  let JP := (cholesky (g_cov g)).2 in
  Ok (JP^T, g).

(** lines 188-210 [CalculateMatrix]: [invS], [K_i] and [Sr] *)
Definition sr_matrix m (JP : 'M[R]_n) (H : 'M[R]_(m, n)) (Rn : 'M[R]_m)
    : outcome ('M[R]_m * 'M[R]_(n, m) * 'M[R]_m) :=
  let S_i1 := H *m JP *m JP^T *m H^T in
  let S_temp := sym_lower (S_i1 + Rn)^T in
  let Sr := ((cholesky S_temp).2)^T in
  let! invS := minv Sr in
  Ok (invS, JP *m JP^T *m H^T *m invS^T *m invS, Sr).

(** lines 220-231 [CalculateCovariance]: new [JP] and covariance *)
Definition sr_covariance m (JP : 'M[R]_n) (R_vf : 'M[R]_m) (H : 'M[R]_(m, n)) (invS Sr : 'M[R]_m)
    : outcome ('M[R]_n * 'M[R]_n) :=
  let temp := R_vf + Sr in
  let! ti := minv temp in
  let JP' := JP - JP *m JP^T *m H^T *m invS^T *m ti *m H *m JP in
  Ok (JP', sym_lower (JP' *m JP'^T)^T).

(** lines 27, 84-128: [Numerical_Limitation] is [100*100]; [V], [U], [W] come
    from the singular value decomposition, an arbitrary function here.  Line 123
    compares with [1/(100*100)], an integer division. *)
Definition sr_limit (svd : 'M[R]_n -> 'cV[R]_n * 'M[R]_n * 'M[R]_n) (JP : 'M[R]_n) : 'M[R]_n :=
  let: (V, U, W) := svd JP in
  let V_matrix := \matrix_(i, j) (if i == j then V i 0 else 0) in
  let change := [exists k, Num.max (V k 0) (1 / (100 * 100)%N%:R) == (1 %/ (100 * 100))%N%:R] in
  if change then U *m V_matrix *m W^T else JP.

(** lines 93-141: [it] iterations are left, [x_k] is the mean before the update *)
Fixpoint sr_loop svd m (a : imodel m) (s : option U) (z : meas R) (x_k : 'cV[R]_n) (it : nat)
    (st : 'M[R]_n * gauss R n) : outcome ('M[R]_n * gauss R n) :=
  if it is it'.+1 then
    let x_i := g_mu st.2 in
    let H := im_H a s x_i in
    let Z_i := im_Z a s x_i + H *m (x_k - x_i) in
    let Rn := sym_lower (im_R a s x_i) in
    let SR_vf := im_SR a s x_i in
    let R_vf := if im_identity a s x_i then SR_vf^T else ((cholesky Rn).2)^T in
    let JP := sr_limit svd st.1 in
    let! mats := sr_matrix JP H Rn in
    let: (invS, K, Sr) := mats in
    let! zz := meas_cast m z in
    let mu := x_k + K *m (zz - Z_i) in
    if it' is 0 then
      let! c := sr_covariance JP R_vf H invS Sr in
      Ok (c.1, Gauss mu c.2)
    else sr_loop svd a s z x_k it' (JP, Gauss mu (g_cov st.2))
  else Ok st.

(** lines 66-142 [MeasUpdate] *)
Definition sr_meas svd nr_iterations (am : {m : nat & imodel m}) (z : option (meas R)) (s : option U)
    (st : 'M[R]_n * gauss R n) : outcome ('M[R]_n * gauss R n) :=
  let: existT m a := am in
  let! z0 := need z in
  sr_loop svd a s z0 (g_mu st.2) nr_iterations st.

Definition sr_new := f_new (@k_copy R n) sr_init.
Definition sr_internal svd nr := two_step sr_sys (sr_meas svd nr).
Definition sr_call svd nr := f_call (sr_internal svd nr).
(** lines 153-156 [SRCovarianceGet] *)
Definition sr_cov_get (hf : heap (gauss R n) * filt 'M[R]_n) : 'M[R]_n := fl_priv hf.2.
(** lines 158-161 [SRCovarianceSet], 163-167 [PriorSet] *)
Definition sr_cov_set (hf : heap (gauss R n) * filt 'M[R]_n) (JP : 'M[R]_n) :=
  (hf.1, Filt (fl_prior hf.2) (fl_post hf.2) (fl_time hf.2) JP).
Definition sr_prior_set (hf : heap (gauss R n) * filt 'M[R]_n) (x : 'cV[R]_n) (P : 'M[R]_n)
    : outcome (heap (gauss R n) * filt 'M[R]_n) :=
  let! d := h_get hf.1 (fl_post hf.2) in
  let! h' := put_ hf.1 (fl_post hf.2) (Some (Gauss x (sym_lower P))) in
  Ok (h', hf.2).
End SR.
