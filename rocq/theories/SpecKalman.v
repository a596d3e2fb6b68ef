(** * Specification vocabulary for the Kalman filters

    Textbook formulas, written with matrix inverses; nothing here refers to the
    order in which the code computes them. *)
From mathcomp Require Import all_ssreflect all_algebra.
From Verif Require Import Outcome SpecMatrix ModelMatrix ModelFilter ModelKalman.
Set Implicit Arguments. Unset Strict Implicit. Unset Printing Implicit Defensive.
Import Order.TTheory GRing.Theory Num.Theory.
Local Open Scope ring_scope.

Section Spec.
Variables (R : realFieldType) (U : Type).
Section Dims.
Variables (n m : nat).
Implicit Types (P : 'M[R]_n) (H : 'M[R]_(m, n)) (Rn : 'M[R]_m) (G : 'M[R]_(n, m)).

(** covariance of the innovation and Kalman gain *)
Definition innov_cov P H Rn : 'M[R]_m := H *m P *m H^T + Rn.
Definition gain P H Rn : 'M[R]_(n, m) := P *m H^T *m invmx (innov_cov P H Rn).
(** error covariance of the estimate [mu + G (z - Z)] for an arbitrary gain [G] *)
Definition joseph G P H Rn : 'M[R]_n :=
  (1%:M - G *m H) *m P *m (1%:M - G *m H)^T + G *m Rn *m G^T.
(** the Gaussian after a measurement [z] predicted as [Z] *)
Definition corrected (g : gauss R n) (z Z : 'cV[R]_m) H Rn : gauss R n :=
  Gauss (g_mu g + gain (g_cov g) H Rn *m (z - Z))
        (g_cov g - gain (g_cov g) H Rn *m H *m g_cov g).
(** minus twice the logarithm of prior times linearised likelihood, up to a
    constant: distance to the prior mean plus measurement residual *)
Definition cost (g : gauss R n) (z Z : 'cV[R]_m) H Rn (x : 'cV[R]_n) : R :=
  qf (invmx (g_cov g)) (x - g_mu g) + qf (invmx Rn) (z - (Z + H *m (x - g_mu g))).
End Dims.

(** the Gaussian after a prediction *)
Definition predicted n (g : gauss R n) (J : 'cV[R]_n) (F Q : 'M[R]_n) : gauss R n :=
  Gauss J (F *m g_cov g *m F^T + Q).

Section Models.
Variables (n m : nat).
Implicit Type a : amodel R U n m.
(** the model gets a second argument exactly when it has one *)
Definition supplied a (s : option U) : Prop := am_noextra a = true \/ isSome s.
Definition given a (s : option U) : option U := if am_noextra a then None else s.
(** value, derivative and noise covariance of a model at a state *)
Definition val a s x : 'cV[R]_m := am_f a x (given a s).
Definition jac a s x : 'M[R]_(m, n) := am_df a x (given a s).
Definition noise a s x : 'M[R]_m := am_cov a x (given a s).
(** noise covariances of the models are symmetric matrices (a C++ type) *)
Definition psd_noise a : Prop := forall x v, psd (am_cov a x v).
Definition pd_noise a : Prop := forall x v, pd (am_cov a x v).
(** prediction of the measurement by linearisation at [xi] of a filter whose
    state is [x] *)
Definition lin_pred a s (x xi : 'cV[R]_n) : 'cV[R]_m := val a s xi + jac a s xi *m (x - xi).
(** affine in the state, with constant noise *)
Definition linear_model a : Prop :=
  exists A b C, forall x v, [/\ am_f a x v = A v *m x + b v, am_df a x v = A v & am_cov a x v = C v].
(** one Gauss-Newton step of the iterated filter *)
Definition gn_step a s (g : gauss R n) (z : 'cV[R]_m) (xi : 'cV[R]_n) : 'cV[R]_n :=
  g_mu g + gain (g_cov g) (jac a s xi) (noise a s xi) *m (z - lin_pred a s (g_mu g) xi).
Definition gn_iter a s g z (k : nat) : 'cV[R]_n := iter k (gn_step a s g z) (g_mu g).
End Models.

(** the checker lets the iteration go on *)
Definition passes n (chk : option ('cV[R]_n -> bool)) (d : 'cV[R]_n) : bool :=
  if chk is Some c then c d else true.
(** among the iterates [x], iteration [j] was the last of at most [nr] *)
Definition stops n chk (x : nat -> 'cV[R]_n) (nr j : nat) : Prop :=
  [/\ (0 < j <= nr)%N, (forall i, (0 < i < j)%N -> passes chk (x i - x i.-1)) &
      j = nr \/ ~~ passes chk (x j - x j.-1)].

(** which filter: [None] = extended, [Some (nr, chk)] = iterated *)
Definition kind n := option (nat * option ('cV[R]_n -> bool)).
Definition kf_call n (k : kind n) :=
  if k is Some (nr, chk) then @iekf_call R U n nr chk else @ekf_call R U n.
Definition runs n (k : kind n) : Prop := if k is Some (nr, _) then (0 < nr)%N else True.

(** where the measurement model is linearised: at the mean, or at the last but
    one Gauss-Newton iterate *)
Definition lin_point n (k : kind n) m (a : amodel R U n m) s (g : gauss R n) (z : 'cV[R]_m) xi : Prop :=
  if k is Some (nr, chk) then exists2 j, stops chk (gn_iter a s g z) nr j & xi = gn_iter a s g z j.-1
  else xi = g_mu g.

(** the two overloads with only a system or only a measurement model *)
Definition sys_call n (a : asys R U n) (u : option U) : call (asys R U n) (ameas R U n) U (meas R) :=
  if u is Some v then Update_su _ _ (Some a) v else Update_s _ _ _ (Some a).
Definition meas_call n m (a : amodel R U n m) (z : 'cV[R]_m) (s : option U)
    : call (asys R U n) (ameas R U n) U (meas R) :=
  if s is Some v then Update_mzs _ (Some (existT _ m a)) (existT _ m z) v
  else Update_mz _ _ (Some (existT _ m a)) (existT _ m z).

(** calls a careful user makes: models with proper noise, second arguments
    where the model needs them, measurements of the model's size *)
Definition good_sys n (sm : option (asys R U n)) (u : option U) : Prop :=
  if sm is Some a then psd_noise a /\ supplied a u else True.
Definition good_meas n (mm : option (ameas R U n)) (z : meas R) (s : option U) : Prop :=
  if mm is Some am then [/\ pd_noise (projT2 am), supplied (projT2 am) s & projT1 z = projT1 am]
  else True.
Definition good_call n (c : call (asys R U n) (ameas R U n) U (meas R)) : Prop :=
  match c with
  | Update_sumzs sm u mm z s => good_sys sm (Some u) /\ good_meas mm z (Some s)
  | Update_smzs sm mm z s => good_sys sm None /\ good_meas mm z (Some s)
  | Update_smz sm mm z => good_sys sm None /\ good_meas mm z None
  | Update_sumz sm u mm z => good_sys sm (Some u) /\ good_meas mm z None
  | Update_su sm u => good_sys sm (Some u)
  | Update_s sm => good_sys sm None
  | Update_mzs mm z s => good_meas mm z (Some s)
  | Update_mz mm z => good_meas mm z None
  end.

(** the measurement model of a call *)
Definition meas_model n (c : call (asys R U n) (ameas R U n) U (meas R)) : option (ameas R U n) :=
  match c with
  | Update_sumzs _ _ mm _ _ | Update_smzs _ mm _ _ | Update_smz _ mm _ | Update_sumz _ _ mm _
  | Update_mzs mm _ _ | Update_mz mm _ => mm
  | Update_su _ _ | Update_s _ => None
  end.

(** two measurement models used as one: outputs stacked, independent noise *)
Definition stacked n m1 m2 (a1 : amodel R U n m1) s1 (a2 : amodel R U n m2) s2 : amodel R U n (m1 + m2) :=
  AModel true (fun x _ => col_mx (val a1 s1 x) (val a2 s2 x))
              (fun x _ => col_mx (jac a1 s1 x) (jac a2 s2 x))
              (fun x _ => block_mx (noise a1 s1 x) 0 0 (noise a2 s2 x)).
End Spec.
