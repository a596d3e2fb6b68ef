(** * C59: argument-count dispatch of system and measurement models *)
From mathcomp Require Import all_ssreflect all_algebra.
From Verif Require Import Outcome ModelDiscretePdf ModelModels.
Set Implicit Arguments. Unset Strict Implicit. Unset Printing Implicit Defensive.

Section Properties.
Variables (P V X Rnd : Type).
Implicit Types (c : cpdf P V X Rnd) (m : mdl P V X Rnd).

Theorem C59_construction c :
  match ml_new (Some c) with
  | Ok m => (size (cp_args c) = 1 \/ size (cp_args c) = 2) /\ ml_pdf m = Some c /\
            ml_noextra m = Some (size (cp_args c) == 1)
  | Abort => size (cp_args c) <> 1 /\ size (cp_args c) <> 2
  | UB => False
  end.
Proof. by rewrite /ml_new /ml_switch; case: (size (cp_args c)) => [|[|[|n]]] //=; auto. Qed.
Theorem C59_pdf_set_null : ml_pdf_set (@None (cpdf P V X Rnd)) = Abort.
Proof. by []. Qed.
Theorem C59_null_model_refuted m v x : ml_new None = Ok m -> ml_prob1 m v x = UB.
Proof. by move=> [<-]. Qed.

(** the pdf of a model built on a pdf [c] always has [c]'s functions and number
    of arguments, whatever calls were made before *)
Definition same_pdf c m : Prop :=
  exists c', [/\ ml_pdf m = Some c', size (cp_args c') = size (cp_args c),
    cp_prob c' = cp_prob c, cp_samp c' = cp_samp c &
    ml_noextra m = Some (size (cp_args c) == 1)].
Lemma same_new c m : ml_new (Some c) = Ok m -> same_pdf c m.
Proof.
by move=> h; have := C59_construction c; rewrite h => -[_ [e1 e2]]; exists c.
Qed.
Lemma put_size A (l : seq A) i x r : put_ l i x = Ok r -> size r = size l.
Proof.
elim: l i r => [|y l IH] [|i] r //=; first by case=> <-.
by case h: (put_ l i x) => [r'||] //= -[<-] /=; rewrite (IH _ _ h).
Qed.
Lemma arg_set_same c c' n x : cp_arg_set c n x = Ok c' ->
  [/\ size (cp_args c') = size (cp_args c), cp_prob c' = cp_prob c & cp_samp c' = cp_samp c].
Proof.
rewrite /cp_arg_set /guard; case: ifP => // _ /=.
by case h: (put_ _ _ _) => [r||] //= -[<-] /=; rewrite (put_size h).
Qed.
Lemma same_upd c m c' : same_pdf c m -> ml_pdf m <> None ->
  size (cp_args c') = size (cp_args c) -> cp_prob c' = cp_prob c -> cp_samp c' = cp_samp c ->
  same_pdf c (ml_upd m c').
Proof. by move=> [c1 [_ _ _ _ hf]] _ h1 h2 h3; exists c'; split. Qed.
Lemma same_step c m o m' : same_pdf c m -> ml_step m o = Ok m' -> same_pdf c m'.
Proof.
move=> hs; case: (hs) => c1 [e h1 h2 h3 hf].
have key n x c2 : cp_arg_set c1 n x = Ok c2 -> 
  [/\ size (cp_args c2) = size (cp_args c), cp_prob c2 = cp_prob c & cp_samp c2 = cp_samp c].
  by move=> /arg_set_same [-> -> ->].
have upd c2 : [/\ size (cp_args c2) = size (cp_args c), cp_prob c2 = cp_prob c & cp_samp c2 = cp_samp c] ->
  same_pdf c (ml_upd m c2).
  by case=> *; apply: same_upd => //; rewrite e.
have key2 n x c2 n' x' c3 : cp_arg_set c1 n x = Ok c2 -> cp_arg_set c2 n' x' = Ok c3 ->
  [/\ size (cp_args c3) = size (cp_args c), cp_prob c3 = cp_prob c & cp_samp c3 = cp_samp c].
  by move=> /key [k1 k2 k3] /arg_set_same [-> -> ->].
case: o => [v x|v x s|d x k r|d x s k r|n x|xs] /=; rewrite /ml_prob1 /ml_prob2 /ml_sim1 /ml_sim2 /ml_assert ?hf e /=.
- case: (guard _) => //= _; case h: (cp_arg_set _ _ _) => [c2||] //=.
  by case: (cp_prob _ _ _) => //= p [<-]; apply: upd; apply: key h.
- case: (guard _) => //= _; case h: (cp_arg_set _ _ _) => [c2||] //=.
  case h': (cp_arg_set _ _ _) => [c3||] //=.
  by case: (cp_prob _ _ _) => //= p [<-]; apply: upd; apply: key2 h h'.
- case: (guard _) => //= _; case h: (cp_arg_set _ _ _) => [c2||] //=.
  by case: (cp_samp _ _ _ _) => //= p [<-]; apply: upd; apply: key h.
- case: (guard _) => //= _; case h: (cp_arg_set _ _ _) => [c2||] //=.
  case h': (cp_arg_set _ _ _) => [c3||] //=.
  by case: (cp_samp _ _ _ _) => //= p [<-]; apply: upd; apply: key2 h h'.
- by case h: (cp_arg_set _ _ _) => [c2||] //= -[<-]; apply: upd; apply: key h.
rewrite /cp_args_set /guard; case: eqP => //= he [<-]; apply: upd; split=> //=; by rewrite he.
Qed.
Lemma same_run c m ops m' : same_pdf c m -> foldO (@ml_step P V X Rnd) m ops = Ok m' -> same_pdf c m'.
Proof.
elim: ops m => [|o ops IH] m hs /=; first by move=> [<-].
case h: (ml_step m o) => [m1||] //=; apply: IH; exact: same_step hs h.
Qed.

(** value returned by a call *)
Definition value {A B} (o : outcome (A * B)) : outcome A := let! r := o in Ok r.1.

(** one conditional argument: only calls without the extra argument, evaluated
    at exactly the given state, after any history of calls *)
Theorem C59_one_argument c m0 ops m : size (cp_args c) = 1 -> ml_new (Some c) = Ok m0 ->
  foldO (@ml_step P V X Rnd) m0 ops = Ok m ->
  [/\ forall v x, value (ml_prob1 m v x) = cp_prob c [:: x] v,
      forall v x s, ml_prob2 m v x s = Abort,
      forall d x k r, value (ml_sim1 m d x k r) = (let! o := cp_samp c [:: x] k r in Ok (odflt d o)) &
      forall d x s k r, ml_sim2 m d x s k r = Abort].
Proof.
move=> h1 /same_new hs /(same_run hs) [c1 [e h2 h3 h4 hf]]; rewrite h1 /= in hf.
rewrite h1 in h2.
have e1 x : cp_arg_set c1 0 x = Ok (CPdf [:: x] (cp_prob c) (cp_samp c)).
  by rewrite /cp_arg_set h2 -h3 -h4 /=; case: (cp_args c1) h2 => [|y []].
split; move=> *; rewrite /ml_prob1 /ml_prob2 /ml_sim1 /ml_sim2 /ml_assert hf e //= e1 /value /=.
  by case: (cp_prob _ _ _).
by case: (cp_samp _ _ _ _).
Qed.
(** two: only calls with it; argument 0 is the state, argument 1 the extra one *)
Theorem C59_two_arguments c m0 ops m : size (cp_args c) = 2 -> ml_new (Some c) = Ok m0 ->
  foldO (@ml_step P V X Rnd) m0 ops = Ok m ->
  [/\ forall v x s, value (ml_prob2 m v x s) = cp_prob c [:: x; s] v,
      forall v x, ml_prob1 m v x = Abort,
      forall d x s k r, value (ml_sim2 m d x s k r) = (let! o := cp_samp c [:: x; s] k r in Ok (odflt d o)) &
      forall d x k r, ml_sim1 m d x k r = Abort].
Proof.
move=> h1 /same_new hs /(same_run hs) [c1 [e h2 h3 h4 hf]]; rewrite h1 /= in hf.
rewrite h1 in h2.
have e1 x : exists y, cp_arg_set c1 0 x = Ok (CPdf [:: x; y] (cp_prob c) (cp_samp c)).
  rewrite /cp_arg_set h2 -h3 -h4 /=; case: (cp_args c1) h2 => [|y [|y' []]] //= _.
  by exists y'.
split; [move=> v x s|by move=> *; rewrite /ml_prob1 /ml_assert hf e|move=> d x s k r|
  by move=> *; rewrite /ml_sim1 /ml_assert hf e]; case: (e1 x) => y ey;
  rewrite /ml_prob2 /ml_sim2 /ml_assert hf e /= ey /= /value /=.
  by case: (cp_prob _ _ _).
by case: (cp_samp _ _ _ _).
Qed.
End Properties.

Print Assumptions C59_construction.
Print Assumptions C59_pdf_set_null.
Print Assumptions C59_null_model_refuted.
Print Assumptions C59_one_argument.
Print Assumptions C59_two_arguments.

(** ** Concrete case: a two-argument pdf on [nat] *)
Section Example.
Let c : cpdf nat nat nat nat := CPdf [:: 0; 0] (fun a v => if a is [:: x; s] then Ok (10 * x + s + v) else UB)
  (fun a k r => if a is [:: x; s] then Ok (Some (x + s + r)) else UB).
Example C59_example :
  match ml_new (Some c) with
  | Ok m0 => match foldO (@ml_step _ _ _ _) m0 [:: QProb2 _ 1 2 3; QSim2 0 4 5 DEFAULT 6; QArg _ _ 1 9] with
             | Ok m => match ml_prob2 m 1 2 3, ml_prob1 m 1 2 with Ok r, Abort => r.1 == 24 | _, _ => false end
             | _ => false end
  | _ => false end.
Proof. by vm_compute. Qed.
End Example.
