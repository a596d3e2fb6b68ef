(** * Generic facts about the filter base class *)
From mathcomp Require Import all_ssreflect.
From Verif Require Import Outcome ModelFilter.
Set Implicit Arguments. Unset Strict Implicit. Unset Printing Implicit Defensive.

Section Filter.
Variables (D Priv SM MM U Z : Type).
Variable internal : option SM -> option U -> option MM -> option Z -> option U ->
                    fstate D Priv -> outcome (bool * fstate D Priv).
Implicit Types (h : heap D) (f : filt Priv) (hf : heap D * filt Priv).

Lemma put_at A (l : seq A) i x : (i < size l)%N -> exists l', put_ l i x = Ok l'.
Proof. by move=> h; eexists; exact: (put_set_nth x x h). Qed.
Lemma put_read A (l l' : seq A) i x : put_ l i x = Ok l' ->
  at_ l' i = Ok x /\ forall j, j <> i -> at_ l' j = at_ l j.
Proof.
elim: l i l' => [|y l IH] [|i] l' //=; first by case=> <-; split=> // -[].
case h: (put_ l i x) => [r||] //= -[<-] /=; have [h1 h2] := IH _ _ h.
by split=> // -[|j] //= hj; apply: h2 => e; apply: hj; rewrite e.
Qed.
Lemma put_len A (l l' : seq A) i x : put_ l i x = Ok l' -> size l' = size l.
Proof.
elim: l i l' => [|y l IH] [|i] l' //=; first by case=> <-.
by case h: (put_ l i x) => [r||] //= -[<-] /=; rewrite (IH _ _ h).
Qed.
Lemma put_put A (l : seq A) i x y l' : put_ l i x = Ok l' -> put_ l' i y = put_ l i y.
Proof.
elim: l i l' => [|z l IH] [|i] l' //=; first by case=> <-.
by case h: (put_ l i x) => [r||] //= -[<-] /=; rewrite (IH _ _ h).
Qed.
Lemma put_same A (l : seq A) i x : at_ l i = Ok x -> put_ l i x = Ok l.
Proof. by elim: l i => [|z l IH] [|i] //=; [case=> -> | move=> /IH ->]. Qed.
Lemma h_get_put h i d h' : put_ h i (Some d) = Ok h' ->
  h_get h' i = Ok d /\ forall j, j <> i -> h_get h' j = h_get h j.
Proof. by move=> hh; have [h1 h2] := put_read hh; rewrite /h_get h1; split=> // j hj; rewrite h2. Qed.
Lemma h_get_lt h i d : h_get h i = Ok d -> (i < size h)%N.
Proof. by rewrite /h_get; case: (ltnP i (size h)) => // hi; rewrite at_UB. Qed.

Lemma f_updateE hf sm u mm z s d b p t d' : f_post hf = Ok d ->
  internal sm u mm z s (fl_priv hf.2, fl_time hf.2, d) = Ok (b, (p, t, d')) ->
  exists h', f_update internal hf sm u mm z s =
             Ok (b, (h', Filt (fl_prior hf.2) (fl_post hf.2) t p)) /\
             h_get h' (fl_post hf.2) = Ok d' /\
             (forall j, j <> fl_post hf.2 -> h_get h' j = h_get hf.1 j).
Proof.
move=> hp hi; have hl := h_get_lt hp; have [h' hh] := put_at (Some d') hl.
exists h'; rewrite /f_update -/(f_post hf) hp /= hi /= hh /=; split=> //; exact: h_get_put hh.
Qed.
Lemma f_update_inv hf sm u mm z s b hf' : f_update internal hf sm u mm z s = Ok (b, hf') ->
  exists d p t d', [/\ f_post hf = Ok d,
    internal sm u mm z s (fl_priv hf.2, fl_time hf.2, d) = Ok (b, (p, t, d')),
    f_post hf' = Ok d', hf'.2 = Filt (fl_prior hf.2) (fl_post hf.2) t p &
    forall j, j <> fl_post hf.2 -> h_get hf'.1 j = h_get hf.1 j].
Proof.
rewrite /f_update /f_post; case hd: (h_get _ _) => [d||] //=.
case hi: (internal _ _ _ _ _ _) => [[b' [[p t] d']]||] //=.
case hp: (put_ _ _ _) => [h'||] //= -[<- <-]; exists d, p, t, d'.
have [h1 h2] := h_get_put hp; by split.
Qed.
(** the [UpdateInternal] call behind an overload *)
Definition routed (c : call SM MM U Z) : option SM * option U * option MM * option Z * option U :=
  match c with
  | Update_sumzs sm u mm z s => (sm, Some u, mm, Some z, Some s)
  | Update_smzs sm mm z s => (sm, None, mm, Some z, Some s)
  | Update_smz sm mm z => (sm, None, mm, Some z, None)
  | Update_sumz sm u mm z => (sm, Some u, mm, Some z, None)
  | Update_su sm u => (sm, Some u, None, None, None)
  | Update_s sm => (sm, None, None, None, None)
  | Update_mzs mm z s => (None, None, mm, Some z, Some s)
  | Update_mz mm z => (None, None, mm, Some z, None)
  end.
Lemma f_callE hf c : f_call internal hf c =
  let r := routed c in f_update internal hf r.1.1.1.1 r.1.1.1.2 r.1.1.2 r.1.2 r.2.
Proof. by case: c. Qed.
End Filter.
