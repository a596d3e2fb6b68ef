(** * Models of [SystemModel] and [MeasurementModel]
    (src/model/systemmodel.cpp 21-165, src/model/measurementmodel.cpp 25-167)

    The two classes have the same code up to names: the first conditional
    argument is the state, the optional second one the input (system) or the
    sensor parameter (measurement).  One model serves both. *)
From mathcomp Require Import all_ssreflect all_algebra.
From Verif Require Import Outcome ModelDiscretePdf.
Set Implicit Arguments. Unset Strict Implicit. Unset Printing Implicit Defensive.

Section Models.
(** [P]: probabilities, [V]: the variable, [X]: conditional arguments, [Rnd]:
    randomness of one sampler call *)
Variables (P V X Rnd : Type).

(** conditionalpdf.h 105-179: the stored arguments ([_NumConditionalArguments]
    is their number) and the virtual [ProbabilityGet] and [SampleFrom] of the
    derived class, as functions of the stored arguments.  [None] of the sampler
    = it returned false and left the sample alone. *)
Record cpdf := CPdf {
  cp_args : seq X;
  cp_prob : seq X -> V -> outcome P;
  cp_samp : seq X -> sample_mthd -> Rnd -> outcome (option V) }.

(** conditionalpdf.h 171-178 [ConditionalArgumentSet] *)
Definition cp_arg_set (c : cpdf) (n : nat) (x : X) : outcome cpdf :=
  guard (n < size (cp_args c))%N ;;
  let! a := put_ (cp_args c) n x in Ok (CPdf a (cp_prob c) (cp_samp c)).
(** conditionalpdf.h 156-161 [ConditionalArgumentsSet] *)
Definition cp_args_set (c : cpdf) (xs : seq X) : outcome cpdf :=
  guard (size xs == size (cp_args c)) ;; Ok (CPdf xs (cp_prob c) (cp_samp c)).

(** [_systemWithoutInputs]/[_systemWithoutSensorParams] and the pdf pointer;
    [None] = never initialised (constructed with NULL). *)
Record mdl := Mdl { ml_noextra : option bool; ml_pdf : option cpdf }.

(** systemmodel.cpp 21-50, measurementmodel.cpp 25-53: constructor *)
Definition ml_switch (c : cpdf) : outcome mdl :=
  match size (cp_args c) with
  | 1 => Ok (Mdl (Some true) (Some c))
  | 2 => Ok (Mdl (Some false) (Some c))
  | _ => Abort
  end.
Definition ml_new (c : option cpdf) : outcome mdl :=
  match c with Some c => ml_switch c | None => Ok (Mdl None None) end.
(** systemmodel.cpp 95-120, measurementmodel.cpp 94-118 [...PdfSet] *)
Definition ml_pdf_set (c : option cpdf) : outcome mdl :=
  match c with Some c => ml_switch c | None => Abort end.

(** [assert(flag == b)]; reading the uninitialised flag is UB *)
Definition ml_assert (m : mdl) (b : bool) : outcome cpdf :=
  match ml_noextra m, ml_pdf m with
  | Some f, Some c => guard (f == b) ;; Ok c
  | _, _ => UB
  end.
Definition ml_upd (m : mdl) (c : cpdf) : mdl := Mdl (ml_noextra m) (Some c).

(** systemmodel.cpp 148-156 and 158-164, measurementmodel.cpp 150-158 and
    160-167 [ProbabilityGet] with and without the extra argument *)
Definition ml_prob1 (m : mdl) (v : V) (x : X) : outcome (P * mdl) :=
  let! c := ml_assert m true in
  let! c1 := cp_arg_set c 0 x in
  let! p := cp_prob c1 (cp_args c1) v in Ok (p, ml_upd m c1).
Definition ml_prob2 (m : mdl) (v : V) (x s : X) : outcome (P * mdl) :=
  let! c := ml_assert m false in
  let! c1 := cp_arg_set c 0 x in
  let! c2 := cp_arg_set c1 1 s in
  let! p := cp_prob c2 (cp_args c2) v in Ok (p, ml_upd m c2).

(** systemmodel.cpp 122-146, measurementmodel.cpp 120-148 [Simulate]; the flag
    of the sampler is ignored, [dflt] is the default-constructed sample *)
Definition ml_sim1 (m : mdl) (dflt : V) (x : X) (meth : sample_mthd) (r : Rnd) : outcome (V * mdl) :=
  let! c := ml_assert m true in
  let! c1 := cp_arg_set c 0 x in
  let! o := cp_samp c1 (cp_args c1) meth r in Ok (odflt dflt o, ml_upd m c1).
Definition ml_sim2 (m : mdl) (dflt : V) (x s : X) (meth : sample_mthd) (r : Rnd) : outcome (V * mdl) :=
  let! c := ml_assert m false in
  let! c1 := cp_arg_set c 0 x in
  let! c2 := cp_arg_set c1 1 s in
  let! o := cp_samp c2 (cp_args c2) meth r in Ok (odflt dflt o, ml_upd m c2).

(** calls a user can make on a model (and on the pdf it points to) *)
Inductive ml_op :=
  | QProb1 of V & X | QProb2 of V & X & X
  | QSim1 of V & X & sample_mthd & Rnd | QSim2 of V & X & X & sample_mthd & Rnd
  | QArg of nat & X | QArgs of seq X.
Definition ml_step (m : mdl) (o : ml_op) : outcome mdl :=
  match o with
  | QProb1 v x => let! r := ml_prob1 m v x in Ok r.2
  | QProb2 v x s => let! r := ml_prob2 m v x s in Ok r.2
  | QSim1 d x k r => let! q := ml_sim1 m d x k r in Ok q.2
  | QSim2 d x s k r => let! q := ml_sim2 m d x s k r in Ok q.2
  | QArg n x => match ml_pdf m with Some c => let! c' := cp_arg_set c n x in Ok (ml_upd m c')
                | None => UB end
  | QArgs xs => match ml_pdf m with Some c => let! c' := cp_args_set c xs in Ok (ml_upd m c')
                | None => UB end
  end.

(** ** Stateless view used by the filters

    Every query of a model first overwrites all conditional arguments (theorems
    C59), so the filter models evaluate a model through this record: the flag
    and the derived class' functions. *)
Record smodel := SModel {
  sm_noextra : bool;
  sm_prob : seq X -> V -> outcome P;
  sm_samp : seq X -> sample_mthd -> Rnd -> outcome (option V) }.
(** the arguments handed to the pdf: [s] is [None] when the caller passes an
    uninitialised variable *)
Definition sm_args (m : smodel) (x : X) (s : option X) : outcome (seq X) :=
  if sm_noextra m then Ok [:: x] else if s is Some y then Ok [:: x; y] else UB.
Definition sm_eval (m : smodel) (v : V) (x : X) (s : option X) : outcome P :=
  let! a := sm_args m x s in sm_prob m a v.
End Models.
