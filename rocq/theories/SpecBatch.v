(** * Specification of a whole run: least squares over all states

    Textbook formulation of linear filtering: the states of all time steps are
    unknown; prior, motions and measurements each contribute a weighted squared
    residual (minus twice the logarithm of the joint Gaussian density, up to a
    constant).  Nothing here is recursive in the estimate. *)
From mathcomp Require Import all_ssreflect all_algebra.
From Verif Require Import Outcome SpecMatrix ModelMatrix ModelFilter ModelKalman SpecKalman
  SpecSmoother.
Set Implicit Arguments. Unset Strict Implicit. Unset Printing Implicit Defensive.
Import Order.TTheory GRing.Theory Num.Theory.
Local Open Scope ring_scope.

Section Spec.
Variables (R : realFieldType) (U : Type) (n : nat).
Implicit Types (g : gauss R n).
(** what happens to a filter: motion or measurement *)
Inductive event :=
  | Move of asys R U n & option U
  | Observe m of amodel R U n m & 'cV[R]_m & option U.
Definition event_call (e : event) : call (asys R U n) (ameas R U n) U (meas R) :=
  match e with Move a u => sys_call a u | Observe m a z s => meas_call a z s end.
Definition good_event (e : event) : Prop :=
  match e with
  | Move a u => [/\ linear_model a, pd_noise a & supplied a u]
  | Observe m a z s => [/\ linear_model a, pd_noise a & supplied a s]
  end.
(** number of motions = number of states after the first *)
Definition moves (es : seq event) : nat := count (fun e => if e is Move _ _ then true else false) es.
(** squared residuals of a sequence of states, [x] first *)
Fixpoint path_cost (es : seq event) (x : 'cV[R]_n) (xs : seq 'cV[R]_n) : R :=
  match es with
  | [::] => 0
  | Move a u :: es' => let y := head 0 xs in
      qf (invmx (noise a u x)) (y - val a u x) + path_cost es' y (behead xs)
  | Observe m a z s :: es' => qf (invmx (noise a s x)) (z - val a s x) + path_cost es' x xs
  end.
Definition batch_cost g es x xs : R := qf (invmx (g_cov g)) (x - g_mu g) + path_cost es x xs.
(** the normalised squared innovation of a measurement for a filter in state [g] *)
Definition squared_innovation g (e : event) : R :=
  match e with
  | Move _ _ => 0
  | Observe m a z s =>
      qf (invmx (innov_cov (g_cov g) (jac a s (g_mu g)) (noise a s (g_mu g)))) (z - val a s (g_mu g))
  end.
(** the run of a filter: [gs] are the posteriors before each event *)
Fixpoint trace (k : kind R n) hf (es : seq event) (gs : seq (gauss R n)) hf' : Prop :=
  match es, gs with
  | [::], [::] => hf = hf'
  | e :: es', g :: gs' =>
      f_post hf = Ok g /\ exists2 hf1, kf_call k hf (event_call e) = Ok (true, hf1) & trace k hf1 es' gs' hf'
  | _, _ => False
  end.
(** a time step of the linear problem of SpecSmoother as events *)
Definition info_model (i : info R n) : amodel R U n (in_m i) :=
  AModel true (fun x _ => in_H i *m x + in_c i) (fun _ _ => in_H i) (fun _ _ => in_R i).
Definition step_events (t : lstep R n) : seq event :=
  [:: Move (step_model U t) None; Observe (info_model (ls_meas t)) (in_z (ls_meas t)) None].
Definition steps_events (ts : seq (lstep R n)) : seq event := flatten [seq step_events t | t <- ts].
End Spec.
