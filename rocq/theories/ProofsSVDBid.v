(** * The bidiagonal form (lemmas for C86) *)
From mathcomp Require Import all_ssreflect all_algebra.
From mathcomp Require Import ring zify.
From Verif Require Import OrdLra Outcome ModelSVD SpecSVD ProofsSVD.
Set Implicit Arguments. Unset Strict Implicit. Unset Printing Implicit Defensive.
Import Order.TTheory GRing.Theory Num.Theory.
Local Open Scope ring_scope.

Section Bid.
Variables (R : rcfType) (m n : nat).
Implicit Types (F G U V : arr2 R) (w rv : arr1 R) (st : bstate R).

(** bidiagonal array *)
Definition bid w rv : arr2 R := fun k j => if k == j then w j else if k.+1 == j then rv j else 0.
(** superdiagonal with the element that the next step stores *)
Definition rvx st i : arr1 R := set1 (b_rv st) i.+1 (b_scale st * b_g st).
Definition act i U w rv : arr2 R := fun k j => if (k <= i)%N || (j <= i)%N then bid w rv k j else U k j.
Definition cl U w q := (U q q * w q)^-1.
Definition cr U rv q := (U q q.+1 * rv q.+1)^-1.
Definition HL U w q : 'M[R]_m := hmx (cl U w q) (hv m q (fun k => U k q)).
Definition HR U rv q : 'M[R]_n := hmx (cr U rv q) (hv n q.+1 (U q)).
Fixpoint PL U w i : 'M[R]_m := if i is q.+1 then HL U w q.+1 *m PL U w q else 1%:M.
Fixpoint PR U rv i : 'M[R]_n := if i is q.+1 then PR U rv q *m HR U rv q.+1 else 1%:M.
Definition okL U w q := cl U w q * (2%:R + cl U w q * \sum_(q <= k < m.+1) U k q ^+ 2) = 0.
Definition okR U rv q := cr U rv q * (2%:R + cr U rv q * \sum_(q.+1 <= k < n.+1) U q k ^+ 2) = 0.

Lemma HL_ext U U' w w' q : (0 < q)%N -> (forall k, (k <= m)%N -> U k q = U' k q) -> w q = w' q -> (q <= m)%N -> HL U w q = HL U' w' q.
Proof.
move=> q0 h e hq; rewrite /HL /cl h // e; congr hmx; apply/matrixP => i j; rewrite !mxE; case: ifP => // _.
by rewrite h.
Qed.
Lemma reflect_empty lo hi p jlo jhi U : (hi < lo)%N -> reflect lo hi p jlo jhi U = (0, 0, U).
Proof. by move=> h; rewrite /reflect big_geq ?eqxx. Qed.

Lemma step_split st i : (i < n)%N -> exists s1 g1 U1 s2 g2 U2,
  [/\ reflect i.+1 m i.+1 i.+2 n (b_U st) = (s1, g1, U1),
    (if (i.+1 <= m)%N then reflect i.+2 n i.+1 i.+2 m (flip U1) = (s2, g2, flip U2) else [/\ s2 = 0, g2 = 0 & U2 = U1]) &
    bid_step m n st i.+1 = let w := set1 (b_w st) i.+1 (s1 * g1) in let rv := rvx st i in let a := `|w i.+1| + `|rv i.+1| in
      BState U2 w rv s2 g2 (if a < b_anorm st then b_anorm st else a)].
Proof.
move=> hi; rewrite /bid_step -/(rvx st i).
case e1: (reflect i.+1 m i.+1 i.+2 n (b_U st)) => [[s1 g1] U1].
have -> : (if (i.+1 <= m)%N then (s1, g1, U1) else (0, 0, b_U st)) = (s1, g1, U1).
  by case: leqP => // h; rewrite reflect_empty // in e1.
case: (leqP i.+1 m) => him /=; last by exists s1, g1, U1, 0, 0, U1; split.
case e2: (reflect i.+2 n i.+1 i.+2 m (flip U1)) => [[s2 g2] U2].
exists s1, g1, U1, s2, g2, (flip U2); split=> //.
case: eqP => [e|_] //=; rewrite reflect_empty ?e // in e2; case: e2 => <- <- <-.
by [].
Qed.

Lemma reflect_nz lo hi p jlo jhi U : ~~ within jlo jhi p ->
  let: (scale, g, U') := reflect lo hi p jlo jhi U in scale * g != 0 -> U' lo p != 0.
Proof.
move=> hp; rewrite /reflect; case: ifP => [sc0|_] /=; last by rewrite mul0r eqxx.
case: (leqP lo hi) => hlh; last by move: sc0; rewrite big_geq ?eqxx.
rewrite /within leqnn hlh !eqxx /= -/(within jlo jhi p) (negbTE hp) /= !mulf_eq0 !(negbTE sc0) /= orbF.
set f := U lo p / _; set g := - sign _ _; move=> g0; apply/negP => /eqP e.
have eg : f = g by apply/eqP; rewrite -subr_eq0 e.
have : f * g <= 0 by rewrite /g mulrN sign_mul oppr_le0 mulr_ge0.
by rewrite eg -expr2 le_eqVlt ltNge sqr_ge0 orbF sqrf_eq0 (negbTE g0).
Qed.

Section Step.
Variables (st : bstate R) (i : nat).
Hypothesis hi : (i < n)%N.
Variables (s1 g1 : R) (U1 : arr2 R) (s2 g2 : R) (U2 : arr2 R).
Let U := b_U st.
Let w := b_w st.
Let rv := rvx st i.
Let w' := set1 w i.+1 (s1 * g1).
Let rv' := set1 rv i.+2 (s2 * g2).
Hypothesis e1 : reflect i.+1 m i.+1 i.+2 n U = (s1, g1, U1).
Hypothesis e2 : if (i.+1 <= m)%N then reflect i.+2 n i.+1 i.+2 m (flip U1) = (s2, g2, flip U2) else [/\ s2 = 0, g2 = 0 & U2 = U1].
Let F1 : arr2 R := fun k j => if (k <= i)%N || (j <= i)%N then bid w rv k j
  else if j == i.+1 then (if k == i.+1 then s1 * g1 else 0) else U1 k j.
Lemma wi : w' i.+1 = s1 * g1.
Proof. by rewrite /w' /set1 eqxx. Qed.
Lemma rvi : rv' i.+2 = s2 * g2.
Proof. by rewrite /rv' /set1 eqxx. Qed.
Lemma U1_old k j : (k <= i)%N || (j <= i)%N || (m < k)%N -> U1 k j = U k j.
Proof.
move=> h; have := @reflectP R i.+1 m i.+1 i.+2 n U isT; rewrite e1 => /(_ _) [|_ _ _]; first by rewrite /within; lia.
by apply; rewrite /within; lia.
Qed.
Lemma U2_U1 k j : (k <= i)%N || (j <= i.+1)%N -> U2 k j = U1 k j.
Proof.
move: e2; case: ifP => him; last by case=> _ _ ->.
move=> e h; have := @reflectP R i.+2 n i.+1 i.+2 m (flip U1) isT; rewrite e => /(_ _) [|_ _ _]; first by rewrite /within; lia.
by move=> /(_ j k); rewrite /flip => -> //; rewrite /within; lia.
Qed.
Lemma U2_old k j : (k <= i)%N || (j <= i)%N -> U2 k j = U k j.
Proof. by move=> h; rewrite U2_U1 ?U1_old; [|lia|lia]. Qed.
Lemma clE : cl U2 w' i.+1 = (U1 i.+1 i.+1 * (s1 * g1))^-1.
Proof. by rewrite /cl wi U2_U1 ?leqnn ?orbT. Qed.
Lemma stepL : okL U2 w' i.+1 /\ HL U2 w' i.+1 *m mx m n (act i U w rv) = mx m n F1.
Proof.
have := @reflectP R i.+1 m i.+1 i.+2 n U isT; rewrite e1 => /(_ _) [|h1 h2 h3 h4]; first by rewrite /within; lia.
have ec k : U2 k i.+1 = U1 k i.+1 by rewrite U2_U1 ?leqnn ?orbT.
split; first by rewrite /okL clE (eq_bigr (fun k => U1 k i.+1 ^+ 2)) // => k _; rewrite ec.
rewrite /HL clE hl_mx //; set c := _^-1 in h1 h2 h3 *; apply: mx_eq => k j hk hj.
rewrite (eq_bigr (fun l => U1 l i.+1 * act i U w rv l j)); last by move=> l _; rewrite ec.
rewrite ec; case: (leqP k i) => ki.
  by rewrite /= mulr0 mul0r addr0 /act /F1 ki.
case: (leqP j i) => ji.
  rewrite big_nat big1 ?mulr0 ?addr0; first by rewrite /act /F1 ji orbT.
  move=> l hl; rewrite /act ji orbT /bid ifN_eq; last by lia.
  by rewrite ifN_eq ?mulr0 //; lia.
have eU l : (i < l)%N -> act i U w rv l j = U l j by move=> hl; rewrite /act ifN //; lia.
rewrite (eq_big_nat _ _ (F2 := fun l => U1 l i.+1 * U l j)); last by move=> l hl; rewrite eU //; lia.
rewrite eU // /F1 ifN; last by lia.
case: eqP => [->|nj].
  by rewrite h3 //; rewrite /within; lia.
by rewrite -h2 //; rewrite /within; lia.
Qed.
Lemma stepR : okR U2 rv' i.+1 /\ mx m n F1 *m HR U2 rv' i.+1 = mx m n (act i.+1 U2 w' rv').
Proof.
have bE k j : (k <= i)%N || (j <= i)%N -> bid w rv k j = bid w' rv' k j.
  move=> h; rewrite /bid /w' /rv' /set1; case: eqP => [e|_]; first by rewrite ifN_eq //; lia.
  by case: eqP => // e; rewrite ifN_eq //; lia.
have aE k j : (k <= i)%N || (j <= i.+1)%N -> F1 k j = act i.+1 U2 w' rv' k j.
  rewrite /F1 /act; case: ifP => h1 h2; first by rewrite bE //; case: ifP => // h3; exfalso; lia.
  have -> : j = i.+1 by lia.
  rewrite eqxx leqnn orbT /bid; case: eqP => [_|nk]; first by rewrite wi.
  by case: eqP => // e; exfalso; lia.
move: e2; case: ifP => him; last first.
  case=> z1 z2 z3; have z : cr U2 rv' i.+1 = 0 by rewrite /cr rvi z1 mul0r mulr0 invr0.
  split; first by rewrite /okR z mul0r.
  by rewrite /HR z hmx0 mulmx1; apply: mx_eq => k j hk hj; apply: aE; lia.
move=> e; have := @reflectP R i.+2 n i.+1 i.+2 m (flip U1) isT; rewrite e => /(_ _) [|h1 h2 h3 h4]; first by rewrite /within; lia.
have cE : cr U2 rv' i.+1 = (flip U2 i.+2 i.+1 * (s2 * g2))^-1 by rewrite /cr rvi.
rewrite /okR cE; split; first exact: h1.
rewrite /HR cE hr_mx //; set c := _^-1 in h1 h2 h3 *; apply: mx_eq => k j hk hj.
case: (leqP j i.+1) => ji.
  by rewrite /= mulr0 mul0r addr0 aE // ji orbT.
case: (leqP k i) => ki.
  rewrite big_nat big1 ?mulr0 ?addr0; first by rewrite aE // ki.
  move=> l hl; rewrite /F1 ki /= /bid ifN_eq; last by lia.
  by rewrite ifN_eq ?mulr0 //; lia.
have F1E l : (i.+1 < l)%N -> F1 k l = flip U1 l k.
  by move=> hl; rewrite /F1 ifN ?ifN_eq //; lia.
rewrite (eq_big_nat _ _ (F2 := fun l => flip U2 l i.+1 * flip U1 l k)); last by move=> l hl; rewrite F1E //; lia.
rewrite F1E // -[U2 i.+1 j]/(flip U2 j i.+1); case: (k =P i.+1) => [e0|nk].
  rewrite e0 h3; last by rewrite /within; lia.
  rewrite /act leqnn /= /bid; case: eqP => [ej|nj]; first by rewrite ifN_eq ?ej ?eqxx ?rvi //; lia.
  by rewrite ifN_eq ?ifN_eq //; [apply/negP => /eqP; lia|lia].
rewrite -h2; [|by rewrite /within; lia|by rewrite /within; lia].
by rewrite /act ifN //; lia.
Qed.
Lemma stepNZ : w' i.+1 != 0 -> U2 i.+1 i.+1 != 0.
Proof.
rewrite wi U2_U1 ?leqnn ?orbT //.
by have := @reflect_nz i.+1 m i.+1 i.+2 n U; rewrite e1; apply; rewrite /within; lia.
Qed.
Lemma stepW0 : (m <= i)%N -> w' i.+1 = 0.
Proof. by move=> h; rewrite wi; move: e1; rewrite reflect_empty // => -[<- _ _]; rewrite mul0r. Qed.
Lemma stepR0 : (m <= i)%N -> rv' i.+2 = 0.
Proof. by move=> h; rewrite rvi; move: e2; rewrite ltnNge h => -[-> _ _]; rewrite mul0r. Qed.
End Step.

Lemma PL_ext U U' w w' i : (forall k q, (q <= i)%N -> U k q = U' k q) -> (forall q, (q <= i)%N -> w q = w' q) -> PL U w i = PL U' w' i.
Proof.
elim: i => // i ih hu hw /=; rewrite ih => [|k q hq|q hq]; [|by apply: hu; lia|by apply: hw; lia].
congr (_ *m _); rewrite /HL /cl hu // hw //; congr hmx; apply/matrixP => k j; rewrite !mxE; case: ifP => // _.
by rewrite hu.
Qed.
Lemma PR_ext U U' rv rv' i : (forall k q, (k <= i)%N -> U k q = U' k q) -> (forall q, (q <= i.+1)%N -> rv q = rv' q) -> PR U rv i = PR U' rv' i.
Proof.
elim: i => // i ih hu hw /=; rewrite ih => [|k q hq|q hq]; [|by apply: hu; lia|by apply: hw; lia].
congr (_ *m _); rewrite /HR /cr hu // hw //; congr hmx; apply/matrixP => k j; rewrite !mxE; case: ifP => // _.
by rewrite hu.
Qed.

Variable A : arr2 R.
(** after [i] steps of the reduction *)
Record binv i st : Prop := BInv {
  bi_eq : PL (b_U st) (b_w st) i *m mx m n A *m PR (b_U st) (rvx st i) i = mx m n (act i (b_U st) (b_w st) (rvx st i));
  bi_okL : forall q, (0 < q <= i)%N -> okL (b_U st) (b_w st) q;
  bi_okR : forall q, (0 < q <= i)%N -> okR (b_U st) (rvx st i) q;
  bi_nz : forall q, (0 < q <= i)%N -> b_w st q != 0 -> b_U st q q != 0;
  bi_w0 : forall q, (m < q <= i)%N -> b_w st q = 0;
  bi_r0 : forall q, (m < q <= i)%N -> rvx st i q.+1 = 0;
  bi_r1 : rvx st i 1%N = 0;
  bi_an : forall q, (0 < q <= i)%N -> `|b_w st q| + `|rvx st i q| <= b_anorm st;
  bi_an0 : 0 <= b_anorm st;
  bi_anU : forall c, 0 <= c -> (forall q, (0 < q <= i)%N -> `|b_w st q| + `|rvx st i q| <= c) -> b_anorm st <= c }.

Lemma binv_step i st : (i < n)%N -> binv i st -> binv i.+1 (bid_step m n st i.+1).
Proof.
move=> hi [heq hokL hokR hnz hw0 hr0 hr1 han han0 hanU].
have [s1 [g1 [U1 [s2 [g2 [U2 [e1 e2 ->]]]]]]] := step_split st hi.
have [oL eL] := stepL hi e1 e2; have [oR eR] := stepR st hi s1 g1 e2.
have U2o := U2_old hi e1 e2.
set w' := set1 (b_w st) i.+1 _ in oL eL eR *; set rv' := set1 (rvx st i) i.+2 _ in oR eR.
have rx a : rvx (BState U2 w' (rvx st i) s2 g2 a) i.+1 = rv' by [].
have ew q : (q <= i)%N -> w' q = b_w st q by move=> h; rewrite /w' /set1 ifN_eq //; lia.
have er q : (q <= i.+1)%N -> rv' q = rvx st i q by move=> h; rewrite /rv' /set1 ifN_eq //; lia.
cbv zeta; set a := if _ < _ then _ else _.
have [a1 a2] : b_anorm st <= a /\ `|w' i.+1| + `|rvx st i i.+1| <= a.
  by rewrite /a; case: ltP => h; split=> //; exact: ltW.
split=> /=; rewrite ?rx.
- rewrite -eR -eL -heq (@PL_ext U2 (b_U st) w' (b_w st)); [|by move=> k q hq; rewrite U2o // hq orbT|exact: ew].
  rewrite (@PR_ext U2 (b_U st) rv' (rvx st i)); [|by move=> k q hq; rewrite U2o // hq|exact: er].
  by rewrite !mulmxA.
- move=> q /andP [q0]; rewrite leq_eqVlt ltnS => /orP [/eqP -> //|hq].
  have := hokL q; rewrite q0 hq => /(_ isT); rewrite /okL /cl ew // U2o ?hq ?orbT // => h; rewrite -[RHS]h.
  by congr (_ * (_ + _ * _)); apply: eq_bigr => k _; rewrite U2o ?hq ?orbT.
- move=> q /andP [q0]; rewrite leq_eqVlt ltnS => /orP [/eqP -> //|hq].
  have := hokR q; rewrite q0 hq => /(_ isT); rewrite /okR /cr er // U2o ?hq // => h; rewrite -[RHS]h.
  by congr (_ * (_ + _ * _)); apply: eq_bigr => k _; rewrite U2o ?hq.
- move=> q /andP [q0]; rewrite leq_eqVlt ltnS => /orP [/eqP -> |hq]; first exact: (stepNZ hi e1 e2).
  by rewrite ew // U2o ?hq // => h; apply: hnz => //; rewrite q0.
- move=> q /andP [q0]; rewrite leq_eqVlt ltnS => /orP [/eqP e|hq]; last by rewrite ew // hw0 // q0.
  by rewrite e; apply: (stepW0 e1); rewrite e in q0.
- move=> q /andP [q0]; rewrite leq_eqVlt ltnS => /orP [/eqP e|hq]; last by rewrite er // hr0 // q0.
  by rewrite e; apply: (stepR0 st e2); rewrite e in q0.
- by rewrite er.
- move=> q /andP [q0]; rewrite leq_eqVlt ltnS => /orP [/eqP e|hq]; first by rewrite e er.
  by rewrite ew // er ?(leqW hq) //; apply: le_trans a1; apply: han; rewrite q0.
- exact: le_trans a1.
- move=> c c0 h; rewrite /a; case: ifP => _.
    by apply: hanU => // q /andP [q0 hq]; rewrite -ew // -er ?(leqW hq) //; apply: h; rewrite q0 leqW.
  by rewrite -er //; apply: h; rewrite leqnn.
Qed.
Lemma bidiagonal_inv w0 : binv n (bidiagonal m n A w0).
Proof.
rewrite /bidiagonal; set st := BState _ _ _ _ _ _.
have h0 : binv 0 st.
  split=> //=; try by [move=> q; lia].
  - rewrite mul1mx mulmx1; apply: mx_eq => k j hk hj; rewrite /act ifN //; lia.
  - by rewrite /rvx /set1 /= mul0r.
have h l i s : (i + l <= n)%N -> binv i s -> binv (i + l) (foldl (bid_step m n) s (iota i.+1 l)).
  elim: l i s => [|l ih] i s hl hs /=; first by rewrite addn0.
  by rewrite addnS -addSn; apply: ih; [lia|apply: binv_step => //; lia].
by have := h n 0%N st (leqnn _) h0; rewrite add0n.
Qed.
End Bid.
