(** * Proofs for the RTT typekit (C109) *)
From Coq Require Import String.
From mathcomp Require Import all_ssreflect all_algebra.
From Verif Require Import Outcome ModelWrapper ModelTypekit SpecTypekit.
Set Implicit Arguments. Unset Strict Implicit. Unset Printing Implicit Defensive.
Import Order.TTheory GRing.Theory Num.Theory.
Local Open Scope ring_scope.

Section Rows.
Variable R : realFieldType.

Lemma raw_row_ord m n (A : 'M[R]_(m, n)) (k : 'I_m) : raw_row A k = Ok (row k A).
Proof. by rewrite /raw_row valK. Qed.

Lemma item_in n (f : nat -> outcome 'rV[R]_n) rows (i : nat) : (i < rows)%N ->
  tk_item f rows i%:Z = obind (f i) (fun r => Ok (Some r)).
Proof. by move=> h; rewrite /tk_item lez_nat leqNgt h. Qed.

Lemma item_out n (f : nat -> outcome 'rV[R]_n) rows (i : int) : (i < 0) || (rows%:Z <= i) ->
  tk_item f rows i = Ok None.
Proof. by move=> h; rewrite /tk_item orbC h. Qed.

Lemma indexP n (i : int) :
  if row_number n i then exists2 k : 'I_n, i = (k.+1)%:Z & index n i = Some k else index n i = None.
Proof.
case: i => [[|k]|k] //=; rewrite /row_number lez_nat /=.
case h: (k < n)%N; last exact: insubF.
by exists (Ordinal h) => //; rewrite insubT.
Qed.

Lemma index_ord n (k : 'I_n) : index n (k.+1)%:Z = Some k.
Proof. by rewrite /= valK. Qed.
End Rows.

Definition names : seq string :=
  [:: "+"%string; "-"%string; "*"%string; "=="%string; "="%string; "/"%string].
Lemma names_all : List.Forall (fun e : entry => List.In e.1.1.1 names) operators.
Proof. by repeat (constructor; first by [cbn; tauto]). Qed.

Lemma fits_names op a b l e r : List.Forall (fun e : entry => List.In e.1.1.1 names) l ->
  [seq e <- l | fits op a b e] = e :: r -> List.In op names.
Proof.
elim: l => [|x l ih] // h; inversion h as [|y l' hx hl]; subst.
rewrite [filter _ _]/=; case hf: (fits op a b x); last exact: ih.
move=> _; case: x hf hx {h} => [[[o l1] r1] f] /= /andP[/String.eqb_eq <- _]; exact.
Qed.

Lemma lookup op a b f : apply_binary op a b = Some f -> meaning op f.
Proof.
rewrite /apply_binary; case E: [seq e <- operators | fits op a b e] => [|e r]; first discriminate.
have h := fits_names names_all E; move: E.
repeat (case: h => [<-|h]; first by case: a; case: b; vm_compute => E; inversion E; subst => -[<-]).
by case: h.
Qed.
