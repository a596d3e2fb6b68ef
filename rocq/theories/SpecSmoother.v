(** * Specification vocabulary for the smoothers *)
From mathcomp Require Import all_ssreflect all_algebra.
From Verif Require Import Outcome SpecProb SpecMatrix ModelMatrix ModelFilter ModelKalman SpecKalman ModelSmoother.
Set Implicit Arguments. Unset Strict Implicit. Unset Printing Implicit Defensive.
Import Order.TTheory GRing.Theory Num.Theory.
Local Open Scope ring_scope.

Section Spec.
Variables (R : realFieldType) (U : Type) (n : nat).
Implicit Types (g : gauss R n).

(** linear information about a state [x]: a value [z] of [H x + c + noise] *)
Record info := Info {
  in_m : nat; in_z : 'cV[R]_in_m; in_H : 'M[R]_(in_m, n); in_c : 'cV[R]_in_m; in_R : 'M[R]_in_m }.
(** the state after learning it (Kalman's formula, optimal by C45) *)
Definition learn g (i : info) : gauss R n :=
  corrected g (in_z i) (in_H i *m g_mu g + in_c i) (in_H i) (in_R i).
(** the state after a linear motion [x' = F x + b + noise] *)
Definition moved g (F : 'M[R]_n) (b : 'cV[R]_n) (Q : 'M[R]_n) := predicted g (F *m g_mu g + b) F Q.
(** information about [x' = F x + b + w] read as information about [x]: the
    noise [w] adds to the noise of the information *)
Definition through (F : 'M[R]_n) (b : 'cV[R]_n) (Q : 'M[R]_n) (i : info) : info :=
  Info (in_z i) (in_H i *m F) (in_H i *m b + in_c i) (in_H i *m Q *m (in_H i)^T + in_R i).
(** two independent pieces of information *)
Definition both (i j : info) : info :=
  Info (col_mx (in_z i) (in_z j)) (col_mx (in_H i) (in_H j)) (col_mx (in_c i) (in_c j))
       (block_mx (in_R i) 0 0 (in_R j)).
Definition nothing : info := Info (0 : 'cV[R]_0) 0 0 0.

(** a time step of a linear problem: a motion and then a measurement *)
Record lstep := LStep { ls_F : 'M[R]_n; ls_b : 'cV[R]_n; ls_Q : 'M[R]_n; ls_meas : info }.
Definition good_step (t : lstep) : Prop := pd (ls_Q t) /\ pd (in_R (ls_meas t)).
(** forward pass: the filtered states after each step *)
Fixpoint forward g (ts : seq lstep) : seq (gauss R n) :=
  if ts is t :: ts' then let g' := learn (moved g (ls_F t) (ls_b t) (ls_Q t)) (ls_meas t) in g' :: forward g' ts'
  else [::].
(** everything the steps [ts] tell about the state before them *)
Fixpoint later (ts : seq lstep) : info :=
  if ts is t :: ts' then through (ls_F t) (ls_b t) (ls_Q t) (both (ls_meas t) (later ts')) else nothing.
(** the system model of a step *)
Definition step_model (t : lstep) : asys R U n :=
  AModel true (fun x _ => ls_F t *m x + ls_b t) (fun _ _ => ls_F t) (fun _ _ => ls_Q t).
End Spec.
Arguments nothing {R n}.

(** an [Update] of a smoother *)
Definition back_call SM U (a : SM) (u : option U) (fp : nat) : bcall SM U :=
  if u is Some v then Smooth_u (Some a) v fp else Smooth U (Some a) fp.

(** ** Particle smoother
    [fs]: filtered particles, [os]: smoothed particles of the next time step,
    [f y x]: density of moving from [x] to [y] *)
Section Particles.
Variables (R : realFieldType) (T : Type) (q0 : T * R) (f : T -> T -> R).
Implicit Types (fs os : seq (T * R)).

(** the weights of Isard and Blake, which particlesmoother.h 33-36 cites:
    [w_i * sum_j s_j f(y_j | x_i) / sum_k w_k f(y_j | x_k)] *)
Definition exact_weight fs os (x : T * R) : R :=
  x.2 * \sum_(y <- os) y.2 * f y.1 x.1 / \sum_(z <- fs) z.2 * f y.1 z.1.
Definition exact_smoothed fs os : seq (T * R) := [seq (x.1, exact_weight fs os x) | x <- fs].
(** what comes out of the code: predecessor and successor exchanged, and the
    normaliser of the last smoothed particle only, summed up to [j] *)
Definition swapped_weight fs os (i : nat) : R :=
  (nth q0 fs i).2 *
  \sum_(0 <= j < minn (size os) (size fs))
     (nth q0 os j).2 * f (nth q0 os i).1 (nth q0 fs j).1 / \sum_(z <- take j.+1 fs) z.2 * f (last q0 os).1 z.1.
Definition swapped_smoothed fs os : seq (T * R) :=
  [seq ((nth q0 fs i).1, swapped_weight fs os i) | i <- iota 0 (size fs)].
End Particles.
