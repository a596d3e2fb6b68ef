(** * Outcomes of C++ calls

    [Ok x]  : the call returns normally with [x];
    [Abort] : an [assert] fails or [exit] is called (the default CMake build is
              a Debug build, so asserts are active);
    [UB]    : the call reads or writes outside a container, or reads an
              uninitialised object. *)
From mathcomp Require Import all_ssreflect.
Set Implicit Arguments. Unset Strict Implicit. Unset Printing Implicit Defensive.

Inductive outcome (A : Type) := Ok of A | Abort | UB.
Arguments Ok {A}. Arguments Abort {A}. Arguments UB {A}.

Definition obind {A B} (m : outcome A) (f : A -> outcome B) : outcome B :=
  match m with Ok x => f x | Abort => Abort | UB => UB end.

Declare Scope outcome_scope.
Delimit Scope outcome_scope with out.
Notation "'let!' x := m 'in' f" := (obind m (fun x => f))
  (at level 200, x pattern, m at level 100, f at level 200, right associativity) : outcome_scope.
Notation "m ;; f" := (obind m (fun _ => f))
  (at level 199, f at level 200, right associativity) : outcome_scope.
Open Scope outcome_scope.

(** [assert(b)] *)
Definition guard (b : bool) : outcome unit := if b then Ok tt else Abort.

(** Access [v[i]] of a container without bounds check. *)
Fixpoint at_ {A} (l : seq A) (i : nat) : outcome A :=
  match l, i with
  | [::], _ => UB
  | x :: _, 0 => Ok x
  | _ :: l', i'.+1 => at_ l' i'
  end.

(** Assignment [v[i] = x] without bounds check. *)
Fixpoint put_ {A} (l : seq A) (i : nat) (x : A) : outcome (seq A) :=
  match l, i with
  | [::], _ => UB
  | _ :: l', 0 => Ok (x :: l')
  | y :: l', i'.+1 => let! r := put_ l' i' x in Ok (y :: r)
  end.

(** A loop that computes one element at a time and stops at the first
    abort/UB. *)
Fixpoint mapO {A B} (f : A -> outcome B) (l : seq A) : outcome (seq B) :=
  match l with
  | [::] => Ok [::]
  | x :: l' => let! y := f x in let! r := mapO f l' in Ok (y :: r)
  end.

(** Fold with outcome. *)
Fixpoint foldO {A S} (f : S -> A -> outcome S) (s : S) (l : seq A) : outcome S :=
  match l with
  | [::] => Ok s
  | x :: l' => let! s' := f s x in foldO f s' l'
  end.

(** Execution of a list of operations on a state, keeping the returned flag:
    stops at the first abort/UB; records every [bool] result. *)
Fixpoint runO {Op S} (step : S -> Op -> outcome (bool * S)) (s : S) (ops : seq Op)
  : outcome (seq bool * S) :=
  match ops with
  | [::] => Ok ([::], s)
  | o :: ops' =>
      let! r := step s o in
      let! q := runO step r.2 ops' in
      Ok (r.1 :: q.1, q.2)
  end.

(** Case analysis helpers (not models). *)
Lemma at_nth A (d : A) l i : i < size l -> at_ l i = Ok (nth d l i).
Proof. by elim: l i => [|x l IH] [|i] //= h; apply: IH. Qed.
Lemma at_UB A (l : seq A) i : size l <= i -> at_ l i = UB.
Proof. by elim: l i => [|x l IH] [|i] //= h; apply: IH. Qed.
Lemma at_lt A (l : seq A) i : i < size l -> exists x, at_ l i = Ok x.
Proof. by elim: l i => [|x l IH] [|i] //= h; [exists x | apply: IH]. Qed.
Lemma at_Ok A (d : A) l i x : at_ l i = Ok x -> i < size l /\ x = nth d l i.
Proof.
case: (ltnP i (size l)) => h; last by rewrite at_UB.
by rewrite (at_nth d h) => -[<-].
Qed.
Lemma at_drop A (l : seq A) k i : at_ (drop k l) i = at_ l (k + i).
Proof. by elim: l k => [|x l IH] [|k] //=; case: i {IH}. Qed.
Lemma put_set_nth A (d : A) l i x : i < size l -> put_ l i x = Ok (set_nth d l i x).
Proof. by elim: l i => [|y l IH] [|i] //= h; rewrite IH. Qed.
Lemma put_UB A (l : seq A) i x : size l <= i -> put_ l i x = UB.
Proof. by elim: l i => [|y l IH] [|i] //= h; rewrite IH. Qed.
Lemma obind_Ok A B (m : outcome A) (f : A -> outcome B) y :
  obind m f = Ok y -> exists2 x, m = Ok x & f x = Ok y.
Proof. by case: m => //= x h; exists x. Qed.
Lemma guard_Ok b u : guard b = Ok u -> b.
Proof. by case: b. Qed.
Lemma mapO_ok A B (f : A -> outcome B) (g : A -> B) l :
  (forall x, List.In x l -> f x = Ok (g x)) -> mapO f l = Ok (map g l).
Proof.
elim: l => //= x l IH h; rewrite h /=; last by left.
by rewrite IH //= => y hy; apply: h; right.
Qed.
Lemma mapO_eq_ok (A : eqType) B (f : A -> outcome B) (g : A -> B) (l : seq A) :
  {in l, forall x, f x = Ok (g x)} -> mapO f l = Ok (map g l).
Proof.
elim: l => //= x l IH h; rewrite h /= ?mem_head //.
by rewrite IH //= => y hy; apply: h; rewrite inE hy orbT.
Qed.
Lemma mapO_size A B (f : A -> outcome B) l r : mapO f l = Ok r -> size r = size l.
Proof.
elim: l r => [|x l IH] r //=; first by case=> <-.
case: (f x) => //= y; case: (mapO f l) IH => //= r' IH [<-] /=; by rewrite (IH r').
Qed.

(** Invariant rule: a predicate preserved by every step that returns [true] is
    preserved by every run whose flags are all [true]. *)
Lemma runO_inv Op S (step : S -> Op -> outcome (bool * S)) (I : S -> Prop) :
  (forall s o s', I s -> step s o = Ok (true, s') -> I s') ->
  forall ops s fl s', I s -> runO step s ops = Ok (fl, s') -> all id fl -> I s'.
Proof.
move=> hstep; elim=> [|o ops IH] s fl s' hI /=; first by case=> <- <-.
case hs: (step s o) => [[b s1]||] //=.
case hr: (runO step s1 ops) => [[fl1 s2]||] //= -[<- <-] /=.
case/andP; case: b hs => // hs _ hall; apply: IH hr hall; exact: hstep hs.
Qed.

(** The same for an invariant preserved whatever the flag is. *)
Lemma runO_inv_any Op S (step : S -> Op -> outcome (bool * S)) (I : S -> Prop) :
  (forall s o b s', I s -> step s o = Ok (b, s') -> I s') ->
  forall ops s fl s', I s -> runO step s ops = Ok (fl, s') -> I s'.
Proof.
move=> hstep; elim=> [|o ops IH] s fl s' hI /=; first by case=> _ <-.
case hs: (step s o) => [[b s1]||] //=.
case hr: (runO step s1 ops) => [[fl1 s2]||] //= -[_ <-].
apply: IH hr; exact: hstep hs.
Qed.
