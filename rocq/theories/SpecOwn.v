(** * Specification: objects are values *)
From mathcomp Require Import all_ssreflect.
From Verif Require Import Outcome ModelOwn.
Set Implicit Arguments. Unset Strict Implicit. Unset Printing Implicit Defensive.

Section Values.
Variables (V Arg Op Res : Type).
Variables (make : Arg -> outcome V) (copy : V -> outcome V) (act : V -> Op -> outcome (Res * V)).

(** a destroyed object is [None]; any use of it is undefined *)
Definition v_obj (vs : seq (option V)) (i : nat) : outcome V :=
  let! o := at_ vs i in if o is Some v then Ok v else UB.
Definition v_step (vs : seq (option V)) (o : oop Arg Op) : outcome (option Res * seq (option V)) :=
  match o with
  | ONew a => let! v := make a in Ok (None, rcons vs (Some v))
  | OCopy i => let! v := v_obj vs i in let! v' := copy v in Ok (None, rcons vs (Some v'))
  | OAssign i j => let! v := v_obj vs i in let! w := v_obj vs j in
                   let! vs' := put_ vs i (Some w) in Ok (None, vs')
  | OAct i o => let! v := v_obj vs i in let! r := act v o in
                let! vs' := put_ vs i (Some r.2) in Ok (Some r.1, vs')
  | ODestroy i => let! v := v_obj vs i in let! vs' := put_ vs i None in Ok (None, vs')
  end.
Fixpoint v_run (vs : seq (option V)) (os : seq (oop Arg Op)) : outcome (seq (option Res) * seq (option V)) :=
  if os is o :: os' then
    let! r := v_step vs o in let! q := v_run r.2 os' in Ok (r.1 :: q.1, q.2)
  else Ok ([::], vs).
End Values.
Definition no_assign Arg Op (os : seq (oop Arg Op)) : bool :=
  all (fun o => if o is OAssign _ _ then false else true) os.
(** the objects of a program and what they contain *)
Definition contents B S (st : own B S) : seq (option (B * S)) :=
  map (fun o => if o is Some x then omap (pair x.1) (nth None (ow_heap st) x.2) else None) (ow_objs st).
(** the storage at [p] belongs to an object *)
Definition owned B S (st : own B S) (p : nat) : Prop := exists i b, nth None (ow_objs st) i = Some (b, p).
Definition live A (l : seq (option A)) : nat := count (fun o => if o is Some _ then true else false) l.
