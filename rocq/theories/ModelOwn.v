(** * Model of classes that own storage through a pointer

    [DiscretePdf] (src/pdf/discretepdf.cpp 31-67), [Mixture] (src/pdf/mixture.h
    179-265), [DiscreteConditionalPdf] (src/pdf/discreteconditionalpdf.cpp 28-81).
    All three define a constructor, a copy constructor (also [Clone]) and a
    destructor, none of them defines [operator=].

    An object consists of members held by value [B] and of storage [S] behind a
    pointer.  For [Mixture] the storage is the vector of weights, the vector of
    pointers and the component pdfs together: they are allocated and released
    together. *)
From mathcomp Require Import all_ssreflect all_algebra.
From Verif Require Import Outcome ModelDiscretePdf ModelCondPdf ModelMixture.
Set Implicit Arguments. Unset Strict Implicit. Unset Printing Implicit Defensive.

Section Own.
Variables (B S Arg Op Res : Type).
(** constructor, copy constructor, any other member function *)
Variables (make : Arg -> outcome (B * S)) (copy : B * S -> outcome (B * S)).
Variable act : B * S -> Op -> outcome (Res * (B * S)).
(** whether the destructor releases the storage *)
Variable frees : bool.

(** [None] in the heap: released storage; [None] in the list of objects: the
    object has been destroyed *)
Record own := Own { ow_heap : seq (option S); ow_objs : seq (option (B * nat)) }.
Inductive oop :=
  | ONew of Arg                 (* constructor *)
  | OCopy of nat                (* copy constructor, Clone *)
  | OAssign of nat & nat        (* a = b with the assignment of the compiler *)
  | OAct of nat & Op            (* member function *)
  | ODestroy of nat.            (* destructor *)

Definition ow_obj (st : own) (i : nat) : outcome (B * nat) :=
  let! o := at_ (ow_objs st) i in if o is Some x then Ok x else UB.
Definition ow_cell (st : own) (p : nat) : outcome S :=
  let! o := at_ (ow_heap st) p in if o is Some s then Ok s else UB.
Definition ow_load (st : own) (i : nat) : outcome (B * S) :=
  let! x := ow_obj st i in let! s := ow_cell st x.2 in Ok (x.1, s).
Definition ow_alloc (st : own) (v : B * S) : own :=
  Own (rcons (ow_heap st) (Some v.2)) (rcons (ow_objs st) (Some (v.1, size (ow_heap st)))).

Definition ow_step (st : own) (o : oop) : outcome (option Res * own) :=
  match o with
  | ONew a => let! v := make a in Ok (None, ow_alloc st v)
  | OCopy i => let! v := ow_load st i in let! v' := copy v in Ok (None, ow_alloc st v')
  | OAssign i j =>
      (* member by member: the pointer is copied as well *)
      let! x := ow_obj st i in let! y := ow_obj st j in
      let! os := put_ (ow_objs st) i (Some y) in Ok (None, Own (ow_heap st) os)
  | OAct i o =>
      let! x := ow_obj st i in
      let! v := ow_load st i in
      let! r := act v o in
      let! h := put_ (ow_heap st) x.2 (Some r.2.2) in
      let! os := put_ (ow_objs st) i (Some (r.2.1, x.2)) in
      Ok (Some r.1, Own h os)
  | ODestroy i =>
      let! x := ow_obj st i in
      let! h := (if frees then let! s := ow_cell st x.2 in put_ (ow_heap st) x.2 None
                 else Ok (ow_heap st)) in
      let! os := put_ (ow_objs st) i None in Ok (None, Own h os)
  end.
Fixpoint ow_run (st : own) (os : seq oop) : outcome (seq (option Res) * own) :=
  if os is o :: os' then
    let! r := ow_step st o in let! q := ow_run r.2 os' in Ok (r.1 :: q.1, q.2)
  else Ok ([::], st).
End Own.
Arguments OCopy {Arg Op}. Arguments OAssign {Arg Op}. Arguments ODestroy {Arg Op}.
Arguments ONew {Arg Op}. Arguments OAct {Arg Op}.

Import GRing.Theory.
Local Open Scope ring_scope.
Section Classes.
Variables (R : realFieldType) (eps : R).
(** [DiscretePdf]: [_num_states] and [_CumPDF] are members, [_Values_p] a pointer *)
Definition dp_split (d : dpdf R) : nat * seq R * seq R := (dp_n d, dp_cum d, dp_vals d).
Definition dp_join (v : nat * seq R * seq R) : dpdf R := DPdf v.1.1 v.2 v.1.2.
Inductive dpo_op := DSet of dp_op R | DGet of int | DSample of R | DBest.
Inductive dpo_res := DFlag of bool | DVal of R | DInt of option int.
Definition dpo_make (n : nat) := let! d := dp_new eps n in Ok (dp_split d).
Definition dpo_copy v := let! d := dp_copy eps (dp_join v) in Ok (dp_split d).
Definition dpo_act v (o : dpo_op) : outcome (dpo_res * (nat * seq R * seq R)) :=
  match o with
  | DSet o' => let! r := dp_step eps (dp_join v) o' in Ok (DFlag r.1, dp_split r.2)
  | DGet k => let! x := dp_get (dp_join v) k in Ok (DVal x, v)
  | DSample u => let! x := dp_sample1 (dp_join v) DEFAULT u in Ok (DInt x, v)
  | DBest => Ok (DInt (Some (dp_argmax (dp_join v))), v)
  end.
Definition dpo_run := ow_run dpo_make dpo_copy dpo_act true.

(** [Mixture]: [_numComponents] and [_cumWeights] are members, the weights and
    the components are behind pointers *)
Variable C : Type.
Definition mx_split (m : mix R C) : nat * seq R * (seq C * seq R) := (mx_n m, mx_cum m, (mx_comps m, mx_w m)).
Definition mx_join (v : nat * seq R * (seq C * seq R)) : mix R C := Mix v.1.1 v.2.1 v.2.2 v.1.2.
(** [None]: the constructor without components *)
Definition mxo_make (cs : option (seq C)) :=
  if cs is Some l then let! m := mx_build eps l in Ok (mx_split m) else Ok (mx_split (mx_new R C)).
Definition mxo_copy v := let! m := mx_copy eps (mx_join v) in Ok (mx_split m).
Inductive mxo_op := MSetter of mx_op R C | MWeights | MComp of nat.
Inductive mxo_res := MFlag of bool | MVec of seq R | MCmp of C.
Definition mxo_act v (o : mxo_op) : outcome (mxo_res * (nat * seq R * (seq C * seq R))) :=
  match o with
  | MSetter o' => let! r := mx_step eps (mx_join v) o' in Ok (MFlag r.1, mx_split r.2)
  | MWeights => let! w := mx_weights_get (mx_join v) in Ok (MVec w, v)
  | MComp i => let! c := mx_comp_get (mx_join v) i in Ok (MCmp c, v)
  end.
Definition mxo_run := ow_run mxo_make mxo_copy mxo_act true.

(** [DiscreteConditionalPdf]: the dimensions and the table are behind pointers;
    the destructor releases nothing (discreteconditionalpdf.cpp 53-60) *)
Definition dco_make (a : nat * seq nat) := let d := dc_new R a.1 a.2 in Ok (dc_n d, (dc_dims d, dc_tab d)).
Definition dco_join (v : nat * (seq nat * seq (option R))) : dcpdf R := DCPdf v.1 v.2.1 v.2.2.
Definition dco_copy (v : nat * (seq nat * seq (option R))) :=
  let d := dc_copy (dco_join v) in Ok (dc_n d, (dc_dims d, dc_tab d)).
Inductive dco_op := CSet of R & int & seq int | CGet of int & seq int.
Definition dco_act (v : nat * (seq nat * seq (option R))) (o : dco_op) :=
  match o with
  | CSet x i args => let! d := dc_set (dco_join v) x i args in Ok (None, (dc_n d, (dc_dims d, dc_tab d)))
  | CGet i args => let! x := dc_get (dco_join v) i args in Ok (Some x, v)
  end.
Definition dco_run := ow_run dco_make dco_copy dco_act false.
End Classes.
Arguments DGet {R}. Arguments DBest {R}. Arguments DInt {R}. Arguments DFlag {R}.
