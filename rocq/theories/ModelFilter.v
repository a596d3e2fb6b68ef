(** * Model of the filter base class (src/filter/filter.cpp 24-128)

    The pdfs live in a heap, because [Reset] stores the user's pointer.
    A freed object is [None]. *)
From mathcomp Require Import all_ssreflect.
From Verif Require Import Outcome.
Set Implicit Arguments. Unset Strict Implicit. Unset Printing Implicit Defensive.

Section Filter.
(** [D]: pdf objects; [Priv]: private buffers (and random generator state) of
    the derived filter; [SM], [MM]: system and measurement models; [U], [Z]:
    state/input/sensor-parameter variables and measurements. *)
Variables (D Priv SM MM U Z : Type).
(** the copy constructor of the pdf and the initialisation of the buffers *)
Variables (copyD : D -> outcome D) (initP : D -> outcome Priv).

(** private buffers, [_timestep], the object behind [_post] *)
Definition fstate := (Priv * nat * D)%type.
(** the virtual [UpdateInternal(sysmodel,u,measmodel,z,s)] of the derived class;
    [None] = NULL model, or a default-constructed (uninitialised) variable *)
Variable internal : option SM -> option U -> option MM -> option Z -> option U ->
                    fstate -> outcome (bool * fstate).

Definition heap := seq (option D).
(** [_prior], [_post], [_timestep] and the derived class' buffers *)
Record filt := Filt { fl_prior : nat; fl_post : nat; fl_time : nat; fl_priv : Priv }.

Definition h_get (h : heap) (l : nat) : outcome D :=
  let! o := at_ h l in if o is Some d then Ok d else UB.

(** Construction of a derived filter: filter.cpp 26-29, then
    [_post = new D(prior)] (histogramfilter.cpp 24-32, kalmanfilter.cpp 28-37,
    particlefilter.cpp 28-61). *)
Definition f_new (h : heap) (p : nat) : outcome (heap * filt) :=
  let! d := h_get h p in
  let! d' := copyD d in
  let! b := initP d in
  Ok (rcons h (Some d'), Filt p (size h) 0 b).

(** filter.cpp 40-46 [Reset] *)
Definition f_reset (f : filt) (p : nat) : filt := Filt p p (fl_time f) (fl_priv f).

(** [delete _post] in the destructors (histogramfilter.cpp 34-38,
    kalmanfilter.cpp 39-42, particlefilter.cpp 112-117) *)
Definition f_destroy (h : heap) (f : filt) : outcome heap :=
  let! d := h_get h (fl_post f) in put_ h (fl_post f) None.

(** a call of [UpdateInternal] *)
Definition f_update (hf : heap * filt) (sm : option SM) (u : option U) (mm : option MM)
    (z : option Z) (s : option U) : outcome (bool * (heap * filt)) :=
  let! d := h_get hf.1 (fl_post hf.2) in
  let! r := internal sm u mm z s (fl_priv hf.2, fl_time hf.2, d) in
  let! h' := put_ hf.1 (fl_post hf.2) (Some r.2.2) in
  Ok (r.1, (h', Filt (fl_prior hf.2) (fl_post hf.2) r.2.1.2 r.2.1.1)).

(** filter.cpp 54-123: the eight [Update] overloads; the models are pointers
    and may be NULL *)
Inductive call :=
  | Update_sumzs of option SM & U & option MM & Z & U      (* 54-62 *)
  | Update_smzs of option SM & option MM & Z & U           (* 64-72 *)
  | Update_smz of option SM & option MM & Z                (* 74-81 *)
  | Update_sumz of option SM & U & option MM & Z           (* 83-91 *)
  | Update_su of option SM & U                             (* 93-99 *)
  | Update_s of option SM                                  (* 101-106 *)
  | Update_mzs of option MM & Z & U                        (* 108-115 *)
  | Update_mz of option MM & Z.                            (* 117-123 *)
Definition f_call (hf : heap * filt) (c : call) : outcome (bool * (heap * filt)) :=
  match c with
  | Update_sumzs sm u mm z s => f_update hf sm (Some u) mm (Some z) (Some s)
  | Update_smzs sm mm z s => f_update hf sm None mm (Some z) (Some s)
  | Update_smz sm mm z => f_update hf sm None mm (Some z) None
  | Update_sumz sm u mm z => f_update hf sm (Some u) mm (Some z) None
  | Update_su sm u => f_update hf sm (Some u) None None None
  | Update_s sm => f_update hf sm None None None None
  | Update_mzs mm z s => f_update hf None None mm (Some z) (Some s)
  | Update_mz mm z => f_update hf None None mm (Some z) None
  end.

(** filter.cpp 125-128 [PostGet], 48-52 [TimeStepGet] *)
Definition f_post (hf : heap * filt) : outcome D := h_get hf.1 (fl_post hf.2).
Definition f_time (hf : heap * filt) : nat := fl_time hf.2.
End Filter.

(** [UpdateInternal] of the histogram filter (histogramfilter.cpp 87-95) and of
    the Kalman filters (kalmanfilter.cpp 149-163): system update, then
    measurement update, always true. *)
Section TwoStep.
Variables (D Priv SM MM U Z : Type).
Variables (sysU : SM -> option U -> Priv * D -> outcome (Priv * D))
          (measU : MM -> option Z -> option U -> Priv * D -> outcome (Priv * D)).
Definition two_step (sm : option SM) (u : option U) (mm : option MM) (z : option Z) (s : option U)
    (st : Priv * nat * D) : outcome (bool * (Priv * nat * D)) :=
  let! a := (if sm is Some m then sysU m u (st.1.1, st.2) else Ok (st.1.1, st.2)) in
  let! b := (if mm is Some m then measU m z s a else Ok a) in
  Ok (true, (b.1, st.1.2, b.2)).
End TwoStep.
