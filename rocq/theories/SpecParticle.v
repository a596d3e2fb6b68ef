(** * Specification vocabulary for the particle filters *)
From mathcomp Require Import all_ssreflect all_algebra.
From Verif Require Import Outcome SpecProb ModelDiscretePdf ModelMCPdf SpecMCPdf ModelModels ModelFilter
  ModelParticle.
Set Implicit Arguments. Unset Strict Implicit. Unset Printing Implicit Defensive.
Import Order.TTheory GRing.Theory Num.Theory.
Local Open Scope ring_scope.

(** the parts of an [Update] call *)
Section Calls.
Variables (SM MM U Z : Type).
Implicit Type c : call SM MM U Z.
Definition sys_of c : option SM :=
  match c with
  | Update_sumzs sm _ _ _ _ | Update_smzs sm _ _ _ | Update_smz sm _ _ | Update_sumz sm _ _ _
  | Update_su sm _ | Update_s sm => sm
  | _ => None
  end.
Definition input_of c : option U :=
  match c with Update_sumzs _ u _ _ _ | Update_sumz _ u _ _ | Update_su _ u => Some u | _ => None end.
Definition meas_of c : option MM :=
  match c with
  | Update_sumzs _ _ mm _ _ | Update_smzs _ mm _ _ | Update_smz _ mm _ | Update_sumz _ _ mm _
  | Update_mzs mm _ _ | Update_mz mm _ => mm
  | _ => None
  end.
Definition value_of c : option Z :=
  match c with
  | Update_sumzs _ _ _ z _ | Update_smzs _ _ z _ | Update_smz _ _ z | Update_sumz _ _ _ z
  | Update_mzs _ z _ | Update_mz _ z => Some z
  | _ => None
  end.
Definition param_of c : option U :=
  match c with Update_sumzs _ _ _ _ s | Update_smzs _ _ _ s | Update_mzs _ _ s => Some s | _ => None end.
Definition has_sys c : bool := if sys_of c is Some _ then true else false.
Definition has_meas c : bool := if meas_of c is Some _ then true else false.
End Calls.

Section Spec.
Variables (R : realFieldType) (T Z Rnd Rz : Type).
Notation part := (T * R)%type.

(** a conditional pdf whose functions answer every query about the number of
    arguments it was built for, with non-negative densities *)
Definition total_pdf (V X Y : Type) (c : cpdf R V X Y) : Prop :=
  (forall a v, size a = size (cp_args c) -> exists2 p, cp_prob c a v = Ok p & 0 <= p) /\
  (forall a m r, size a = size (cp_args c) -> exists o, cp_samp c a m r = Ok o).
(** a model as its constructor leaves it, over such a pdf *)
Definition proper (V X Y : Type) (m : mdl R V X Y) : Prop :=
  exists c b, [/\ ml_pdf m = Some c, ml_noextra m = Some b, size (cp_args c) = (if b then 1 else 2)%N
                & total_pdf c].
(** the extra variable is given if the model needs it *)
Definition supplied (V X Y : Type) (m : mdl R V X Y) (s : option X) : Prop :=
  ml_noextra m = Some true \/ s <> None.
(** the proposal accepts the arguments of the system model *)
Definition accepts (q : option (prop R T Rnd)) (m : psys R T Rnd) : Prop :=
  exists c, [/\ q = Some c, total_pdf c & (if ml_noextra m is Some true then 1 else 2) <= size (cp_args c)]%N.
Definition fine_call (c : call (psys R T Rnd) (pmeas R T Z Rz) T Z) : Prop :=
  (forall m, sys_of c = Some m -> proper m /\ supplied m (input_of c)) /\
  (forall k, meas_of c = Some k -> proper k /\ supplied k (param_of c)).
Definition unit_tape (us : nat -> R) : Prop := forall i, 0 < us i <= 1.

(** effective sample size *)
Definition ess (l : seq part) : R := (total [seq w ^+ 2 | w <- weights l])^-1.
(** particles with weights multiplied by a factor of the value *)
Definition scaled (f : T -> R) (l : seq part) : seq part := [seq (x.1, x.2 * f x.1) | x <- l].

(** on every conditional argument [x] (and the given extra argument [s]) the
    model has the non-negative density [l x] at [v] *)
Definition dens (V X Y : Type) (m : mdl R V X Y) (v : V) (s : option X) (l : X -> R) : Prop :=
  exists c, ml_pdf m = Some c /\
    ((ml_noextra m = Some true /\ size (cp_args c) = 1%N /\
        forall x, cp_prob c [:: x] v = Ok (l x) /\ 0 <= l x) \/
     (ml_noextra m = Some false /\ size (cp_args c) = 2%N /\
        exists2 y, s = Some y & forall x, cp_prob c [:: x; y] v = Ok (l x) /\ 0 <= l x)).
(** likewise for a proposal [c] driven by the arguments of the system model *)
Definition pdens (c : prop R T Rnd) (m : psys R T Rnd) (u : option T) (g : T -> T -> R) : Prop :=
  (ml_noextra m = Some true /\ size (cp_args c) = 1%N /\
     forall xn xo, cp_prob c [:: xo] xn = Ok (g xn xo) /\ 0 <= g xn xo) \/
  (ml_noextra m = Some false /\ size (cp_args c) = 2%N /\
     exists2 y, u = Some y & forall xn xo, cp_prob c [:: xo; y] xn = Ok (g xn xo) /\ 0 <= g xn xo).
(** the importance weight of the textbook *)
Definition importance (l : T -> R) (a g : T -> T -> R) (xn xo : T) : R :=
  if g xn xo == 0 then 0 else l xn * a xn xo / g xn xo.
(** new particles at [xs] whose weights are the old ones times [f new old] *)
Definition carried (f : T -> T -> R) (xs : seq T) (old : seq part) : seq part :=
  [seq (x.1, x.2.2 * f x.1 x.2.1) | x <- zip xs old].

(** the parts of a call as densities: [l] of the measurement given the state,
    [a xn xo] of the new state given the old one *)
Notation pcall := (call (psys R T Rnd) (pmeas R T Z Rz) T Z).
Definition likelihood (c : pcall) (l : T -> R) : Prop :=
  exists k z, [/\ meas_of c = Some k, value_of c = Some z & dens k z (param_of c) l].
Definition transition (c : pcall) (a : T -> T -> R) : Prop :=
  exists2 m, sys_of c = Some m & forall y, dens m y (input_of c) (a y).
(** does the measurement model work without sensor parameters? *)
Definition plain_sensor (c : pcall) : bool :=
  if meas_of c is Some k then odflt false (ml_noextra k) else false.
(** the conditional arguments the filter gives to the system model *)
Definition sys_args (m : psys R T Rnd) (u : option T) (x : T) : seq T :=
  if ml_noextra m is Some false then x :: (if u is Some y then [:: y] else [::]) else [:: x].

(** likelihood factor of a call: 1 without measurement model *)
Definition gain (c : pcall) (f : T -> R) : Prop :=
  if has_meas c then likelihood c f else forall x, f x = 1.
(** [path] lists the particle positions after each call; they change only
    in calls with a system model *)
Fixpoint stays (xs : seq T) (cs : seq pcall) (path : seq (seq T)) : Prop :=
  match cs, path with
  | [::], [::] => True
  | c :: cs', ys :: path' => [/\ size ys = size xs, ~~ has_sys c -> ys = xs & stays ys cs' path']
  | _, _ => False
  end.
(** particle [k] ends at the end of its trajectory, with its initial weight
    times the product of the likelihoods met along the trajectory *)
Definition product_weights (x0 : T) (l : seq part) (fs : seq (T -> R)) (path : seq (seq T)) : seq part :=
  [seq (nth x0 (last (values l) path) k,
        nth 0 (weights l) k * \prod_(j <- zip fs path) j.1 (nth x0 j.2 k)) | k <- iota 0 (size l)].
End Spec.
