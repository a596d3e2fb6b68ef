(** * Specification of the proposal density: no filter, no stored result *)
From mathcomp Require Import all_ssreflect all_algebra.
From Verif Require Import Outcome ModelFilter ModelKalman ModelProposal.
Set Implicit Arguments. Unset Strict Implicit. Unset Printing Implicit Defensive.
Import GRing.Theory.
Local Open Scope ring_scope.

Section Spec.
Variables (R : realFieldType) (n : nat).
Notation asys := (asys R (meas R) n).
Notation ameas := (ameas R (meas R) n).
(** what the user has set *)
Record prop := Prop_ {
  p_sized : bool; p_sys : option asys; p_meas : option ameas; p_nargs : nat;
  p_args : seq (meas R); p_cov : option 'M[R]_n }.
(** a new extended Kalman filter with the Gaussian [g] as prior, one update, the
    result *)
Definition fresh_update (g : gauss R n) (c : call asys ameas (meas R) (meas R)) : outcome (gauss R n) :=
  let! hf := k_new [:: Some g] 0%N in let! r := ekf_call hf c in f_post r.2.
(** argument 0 is the particle; then input (if the system model takes one),
    measurement, sensor parameter (if the measurement model takes one) *)
Definition arg (p : prop) (i : nat) : outcome (meas R) := if (i < p_nargs p)%N then at_ (p_args p) i else Abort.
Definition proposal_call (p : prop) : outcome (call asys ameas (meas R) (meas R)) :=
  match p_sys p, p_meas p with
  | Some a, Some am =>
      match am_noextra a, am_noextra (projT2 am) with
      | true, true => let! z := arg p 1%N in Ok (Update_smz _ (Some a) (Some am) z)
      | true, false => let! z := arg p 1%N in let! s := arg p 2%N in Ok (Update_smzs (Some a) (Some am) z s)
      | false, true => let! u := arg p 1%N in let! z := arg p 2%N in Ok (Update_sumz (Some a) u (Some am) z)
      | false, false => let! u := arg p 1%N in let! z := arg p 2%N in let! s := arg p 3%N in
                        Ok (Update_sumzs (Some a) u (Some am) z s)
      end
  | _, _ => Abort
  end.
Definition proposal (p : prop) : outcome (gauss R n) :=
  let! x := arg p 0%N in let! mu := meas_cast n x in let! P := need (p_cov p) in
  let! c := proposal_call p in fresh_update (Gauss mu P) c.

(** the number of arguments, once both models are known *)
Definition count_args (p : prop) s m : prop :=
  if both s m is Some k then
    Prop_ (p_sized p) s m k (fp_num_set (p_args p) (p_nargs p) k) (p_cov p)
  else Prop_ (p_sized p) s m (p_nargs p) (p_args p) (p_cov p).
Definition p_exec (p : prop) (o : fop R n) : outcome (fres R n * prop) :=
  match o with
  | FSys s => if s is Some a then Ok (FNone, count_args (Prop_ true (p_sys p) (p_meas p) (p_nargs p) (p_args p) (p_cov p)) s (p_meas p))
              else Abort
  | FMeas m => if m is Some a then Ok (FNone, count_args p (p_sys p) m) else Abort
  | FCov P => if p_sized p then Ok (FNone, Prop_ true (p_sys p) (p_meas p) (p_nargs p) (p_args p) (Some P)) else Abort
  | FArg i v => if (i < p_nargs p)%N then let! a := put_ (p_args p) i v in
                  Ok (FNone, Prop_ (p_sized p) (p_sys p) (p_meas p) (p_nargs p) a (p_cov p)) else Abort
  | FMeanQ => let! g := proposal p in Ok (FMean (g_mu g), p)
  | FCovQ => let! g := proposal p in Ok (FCovar (g_cov g), p)
  end.
Fixpoint p_run (p : prop) (os : seq (fop R n)) : outcome (seq (fres R n) * prop) :=
  if os is o :: os' then
    let! r := p_exec p o in let! q := p_run r.2 os' in Ok (r.1 :: q.1, q.2)
  else Ok ([::], p).
Definition p_new s m : prop := count_args (Prop_ (isSome s) None None 0%N [::] None) s m.
End Spec.
