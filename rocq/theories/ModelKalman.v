(** * Models of [KalmanFilter], [ExtendedKalmanFilter] and
    [IteratedExtendedKalmanFilter]
    (src/filter/kalmanfilter.cpp, extendedkalmanfilter.cpp,
    iteratedextendedkalmanfilter.cpp, innovationCheck.cpp)

    Simplifications.  [double] is an element of an ordered field, [Matrix] and
    [ColumnVector] are mathcomp matrices.  The work variables of the filters
    (buffers per measurement dimension) are overwritten before every use and not
    represented, except where a read can precede the first write. *)
From mathcomp Require Import all_ssreflect all_algebra.
From Verif Require Import Outcome ModelMatrix ModelFilter.
Set Implicit Arguments. Unset Strict Implicit. Unset Printing Implicit Defensive.
Import Order.TTheory GRing.Theory Num.Theory.
Local Open Scope ring_scope.

Section Kalman.
(** [U]: inputs and sensor parameters *)
Variables (R : realFieldType) (U : Type).

(** gaussian.h: [_Mu], [_Sigma] (the density cache is modelled in ModelGauss) *)
Record gauss n := Gauss { g_mu : 'cV[R]_n; g_cov : 'M[R]_n }.

(** matrix_BOOST.cpp 261-294 [inverse]: a singular matrix fails the assert on the
    LU factorisation (dimension 3 and up) or divides by zero (dimensions 1 and
    2), for which the model has no value either. *)
Definition minv m (S : 'M[R]_m) : outcome 'M[R]_m :=
  if S \in unitmx then Ok (invmx S) else Abort.

(** The analytic models: [ExpectedValueGet], [dfGet(0)] and [CovarianceGet] of
    the conditional pdf as functions of the state and the optional second
    argument. *)
Record amodel n m := AModel {
  am_noextra : bool;
  am_f : 'cV[R]_n -> option U -> 'cV[R]_m;
  am_df : 'cV[R]_n -> option U -> 'M[R]_(m, n);
  am_cov : 'cV[R]_n -> option U -> 'M[R]_m }.

(** analyticsystemmodel_gaussianuncertainty.cpp 45-69,
    analyticmeasurementmodel_gaussianuncertainty.cpp 35-59: the second argument
    is set only when the pdf has two; [None] from the caller is a
    default-constructed (empty) vector. *)
Definition am_arg n m (a : amodel n m) (u : option U) : outcome (option U) :=
  if am_noextra a then Ok None else if u is Some _ then Ok u else UB.
Definition am_predict n m (a : amodel n m) (u : option U) (x : 'cV[R]_n) : outcome 'cV[R]_m :=
  let! v := am_arg a u in Ok (am_f a x v).
Definition am_jacobian n m (a : amodel n m) (u : option U) (x : 'cV[R]_n) : outcome 'M[R]_(m, n) :=
  let! v := am_arg a u in Ok (am_df a x v).
(** the result type is [SymmetricMatrix] *)
Definition am_noise n m (a : amodel n m) (u : option U) (x : 'cV[R]_n) : outcome 'M[R]_m :=
  let! v := am_arg a u in Ok (sym_lower (am_cov a x v)).

(** kalmanfilter.cpp 76-85 [CalculateSysUpdate] *)
Definition k_sys_calc n (g : gauss n) (J : 'cV[R]_n) (F Q : 'M[R]_n) : gauss n :=
  let Sigma_temp := F *m (g_cov g *m F^T) in
  let Sigma_temp := Sigma_temp + Q in
  Gauss J (sym_lower Sigma_temp).

(** kalmanfilter.cpp 88-127 [CalculateMeasUpdate] *)
Definition k_meas_calc n m (g : gauss n) (z Z : 'cV[R]_m) (H : 'M[R]_(m, n)) (Rn : 'M[R]_m)
    : outcome (gauss n) :=
  let postHT := g_cov g *m H^T in
  let S := H *m postHT + Rn in
  let! Si := minv S in
  let K := postHT *m Si in
  let innov := z - Z in
  let Mu_new := K *m innov + g_mu g in
  let Sigma_temp_par := K *m H in
  let Sigma_temp := g_cov g - Sigma_temp_par *m g_cov g in
  Ok (Gauss Mu_new (sym_lower Sigma_temp)).

(** kalmanfilter.cpp 129-146 [CalculateNis] *)
Definition k_nis_calc n m (g : gauss n) (z Z : 'cV[R]_m) (H : 'M[R]_(m, n)) (Rn : 'M[R]_m)
    : outcome R :=
  let postHT := g_cov g *m H^T in
  let S := H *m postHT + Rn in
  let innov := z - Z in
  let! Si := minv S in
  Ok ((innov^T *m (Si *m innov)) ord0 ord0).

(** a measurement of any dimension; vectors of different size cannot be
    subtracted (ublas raises [bad_argument]) *)
Definition meas := {k : nat & 'cV[R]_k}.
Definition meas_cast m (z : meas) : outcome 'cV[R]_m :=
  match eqVneq (projT1 z) m with
  | EqNotNeq e => Ok (castmx (e, erefl) (projT2 z))
  | NeqNotEq _ => Abort
  end.
Definition asys n := amodel n n.
Definition ameas n := {m : nat & amodel n m}.
Definition need A (o : option A) : outcome A := if o is Some a then Ok a else UB.

(** extendedkalmanfilter.cpp 75-84 [SysUpdate]; the iterated filter has the same
    code (iteratedextendedkalmanfilter.cpp 78-96) *)
Definition ekf_sys n (a : asys n) (u : option U) (st : unit * gauss n) : outcome (unit * gauss n) :=
  let x := g_mu st.2 in
  let! J := am_predict a u x in
  let! F := am_jacobian a u x in
  let! Q := am_noise a u x in
  Ok (tt, k_sys_calc st.2 J F Q).

(** extendedkalmanfilter.cpp 87-100 [MeasUpdate] *)
Definition ekf_meas n (am : ameas n) (z : option meas) (s : option U) (st : unit * gauss n)
    : outcome (unit * gauss n) :=
  let: existT m a := am in
  let! z0 := need z in
  let x := g_mu st.2 in
  let! Z := am_predict a s x in
  let! H := am_jacobian a s x in
  let! Rn := am_noise a s x in
  let! zz := meas_cast m z0 in
  let! g := k_meas_calc st.2 zz Z H Rn in
  Ok (tt, g).

(** extendedkalmanfilter.cpp 102-112 [NisGet]: the sensor parameter is a
    default-constructed vector *)
Definition ekf_nis n (am : ameas n) (z : meas) (g : gauss n) : outcome R :=
  let: existT m a := am in
  let x := g_mu g in
  let! Z := am_predict a None x in
  let! H := am_jacobian a None x in
  let! Rn := am_noise a None x in
  let! zz := meas_cast m z in
  k_nis_calc g zz Z H Rn.

(** innovationCheck.cpp 34-40 [check] *)
Definition innovation_check n (min_innovation : R) (innovation : 'cV[R]_n) : bool :=
  min_innovation <= (innovation^T *m innovation) ord0 ord0.

(** iteratedextendedkalmanfilter.cpp 99-136: the loop; [zhr] holds the buffers
    [_Z_i], [_H_i], [_R_i], uninitialised at first; [it] is the number of
    iterations still allowed, [go] is [test_innovation]. *)
Fixpoint iekf_loop n m (chk : option ('cV[R]_n -> bool)) (a : amodel n m) (s : option U)
    (x : 'cV[R]_n) (P : 'M[R]_n) (z : meas) (it : nat) (go : bool) (xi : 'cV[R]_n)
    (zhr : option ('cV[R]_m * 'M[R]_(m, n) * 'M[R]_m))
    : outcome (option ('cV[R]_m * 'M[R]_(m, n) * 'M[R]_m)) :=
  match it with
  | 0 => Ok zhr
  | it'.+1 =>
      if ~~ go then Ok zhr else
      let xi_prev := xi in
      let! H := am_jacobian a s xi in
      let! Rn := am_noise a s xi in
      let S := H *m P *m H^T + Rn in
      let! Si := minv S in
      let K := P *m H^T *m Si in
      let! h := am_predict a s xi in
      let Z := h + H *m (x - xi) in
      let! zz := meas_cast m z in
      let xi' := x + K *m (zz - Z) in
      let go' := if chk is Some c then c (xi' - xi_prev) else go in
      iekf_loop chk a s x P z it' go' xi' (Some (Z, H, Rn))
  end.

(** iteratedextendedkalmanfilter.cpp 99-136 [MeasUpdate] *)
Definition iekf_meas n (nr_iterations : nat) (chk : option ('cV[R]_n -> bool)) (am : ameas n)
    (z : option meas) (s : option U) (st : unit * gauss n) : outcome (unit * gauss n) :=
  let: existT m a := am in
  let! z0 := need z in
  let x := g_mu st.2 in
  let! o := iekf_loop chk a s x (g_cov st.2) z0 nr_iterations true x None in
  let! zhr := need o in
  let! zz := meas_cast m z0 in
  let! g := k_meas_calc st.2 zz zhr.1.1 zhr.1.2 zhr.2 in
  Ok (tt, g).

(** the objects: construction (kalmanfilter.cpp 28-37) copies the prior;
    [UpdateInternal] is kalmanfilter.cpp 149-163 *)
Definition k_copy n (g : gauss n) : outcome (gauss n) := Ok (Gauss (g_mu g) (g_cov g)).
Definition k_init n (g : gauss n) : outcome unit := Ok tt.
Definition k_new n := f_new (@k_copy n) (@k_init n).
Definition ekf_internal n := two_step (@ekf_sys n) (@ekf_meas n).
Definition ekf_call n := f_call (@ekf_internal n).
Definition iekf_internal n nr chk := two_step (@ekf_sys n) (@iekf_meas n nr chk).
Definition iekf_call n nr chk := f_call (@iekf_internal n nr chk).
End Kalman.
Arguments AModel {R U n m}.
Arguments Gauss {R n}.
