(** * Specification vocabulary for matrix factors and the square-root filter *)
From mathcomp Require Import all_ssreflect all_algebra.
From Verif Require Import Outcome SpecMatrix ModelMatrix ModelFilter ModelKalman SpecKalman ModelSR.
Set Implicit Arguments. Unset Strict Implicit. Unset Printing Implicit Defensive.
Import Order.TTheory GRing.Theory Num.Theory.
Local Open Scope ring_scope.

Section Spec.
Variable R : rcfType.
Definition lower n (L : 'M[R]_n) : Prop := forall i j : 'I_n, (i < j)%N -> L i j = 0.
Definition diagonal n (M : 'M[R]_n) : Prop := forall i j, i != j -> M i j = 0.
(** [L] is the Cholesky factor of [A] *)
Definition chol_factor n (L A : 'M[R]_n) : Prop := [/\ lower L, forall i, 0 < L i i & L *m L^T = A].

Variables (eps : R) (U : Type) (n : nat).
(** the explicit measurement model an implicit one stands for, once the virtual
    measurement is fixed *)
Definition explicit m (a : imodel R U n m) (s : option U) : amodel R U n m :=
  AModel true (fun x _ => im_Z a s x) (fun x _ => im_H a s x) (fun x _ => im_R a s x).
(** noise well above the rounding threshold; the factor supplied by the user is
    a factor *)
Definition good_noise m (a : imodel R U n m) (s : option U) (x : 'cV[R]_n) : Prop :=
  mle eps%:M (im_R a s x) /\ (im_identity a s x -> chol_factor (im_SR a s x) (im_R a s x)).
(** components of the innovation and of the noise are uncorrelated *)
Definition uncorrelated m (a : imodel R U n m) (s : option U) (P : 'M[R]_n) (x : 'cV[R]_n) : Prop :=
  diagonal (im_R a s x) /\ diagonal (innov_cov P (im_H a s x) (im_R a s x)).
Definition sr_meas_call m (a : imodel R U n m) (z : 'cV[R]_m) (s : option U)
    : call (asys R U n) {m : nat & imodel R U n m} U (meas R) :=
  if s is Some v then Update_mzs _ (Some (existT _ m a)) (existT _ m z) v
  else Update_mz _ _ (Some (existT _ m a)) (existT _ m z).
Definition sr_sys_call (a : asys R U n) (u : option U)
    : call (asys R U n) {m : nat & imodel R U n m} U (meas R) :=
  if u is Some v then Update_su _ _ (Some a) v else Update_s _ _ _ (Some a).
End Spec.
