(** * Accumulation of the Householder transformations (lemmas for C86) *)
From mathcomp Require Import all_ssreflect all_algebra.
From mathcomp Require Import ring zify.
From Verif Require Import OrdLra Outcome ModelSVD SpecSVD ProofsSVD ProofsSVDBid.
Set Implicit Arguments. Unset Strict Implicit. Unset Printing Implicit Defensive.
Import Order.TTheory GRing.Theory Num.Theory.
Local Open Scope ring_scope.

Section Acc.
Variables (R : rcfType) (m n : nat).
Implicit Types (F G U V : arr2 R) (w rv : arr1 R) (st : bstate R).
Definition dlt : arr2 R := fun k l => (k == l)%:R.
Definition corner i V : arr2 R := fun k l => if (k <= i)%N || (l <= i)%N then dlt k l else V k l.

Lemma rev_iotaS i : rev (iota 1 i.+1) = i.+1 :: rev (iota 1 i).
Proof. by rewrite -[in LHS](addn1 i) iotaD rev_cat /= add1n. Qed.
Lemma dlt0 k l : k != l -> dlt k l = 0.
Proof. by rewrite /dlt => /negbTE ->. Qed.
Lemma dltE k : dlt k k = 1.
Proof. by rewrite /dlt eqxx. Qed.
Lemma mx_dlt : mx n n dlt = 1%:M.
Proof. by apply/matrixP => i j; rewrite !mxE /dlt eqSS. Qed.

Lemma HR_big U rv q : (n <= q)%N -> HR n U rv q = 1%:M.
Proof.
move=> h; rewrite /HR /hmx (_ : hv _ _ _ = 0) ?mul0mx ?scaler0 ?addr0 //.
by apply/matrixP => i j; rewrite !mxE ifN //; have := ltn_ord i; lia.
Qed.
Lemma HL_big U w q : (m < q)%N -> HL m U w q = 1%:M.
Proof.
move=> h; rewrite /HL /hmx (_ : hv _ _ _ = 0) ?mul0mx ?scaler0 ?addr0 //.
by apply/matrixP => i j; rewrite !mxE ifN //; have := ltn_ord i; lia.
Qed.

Section Right.
Variables (U : arr2 R) (rv : arr1 R).
Hypothesis rv0 : forall q, (m < q < n)%N -> rv q.+1 = 0.
Lemma right_step_ok i V : (i < n)%N -> exists V',
  right_step m n U rv V i.+1 = Ok V' /\ mx n n (corner i V') = HR n U rv i.+1 *m mx n n (corner i.+1 V).
Proof.
move=> hi; rewrite /right_step; case: (ltnP i.+1 n) => hin; last first.
  eexists; split; first by [].
  rewrite HR_big // mul1mx; apply: mx_eq => k l hk hl; rewrite /corner.
  case: ifP => h1; case: ifP => h2 //; try lia.
  have -> : k = i.+1 by lia.
  have -> : l = i.+1 by lia.
  by rewrite leqnn dltE.
rewrite /=; set g := rv i.+2; pose c := (U i.+1 i.+2 * g)^-1.
pose V1 : arr2 R := fun k l => if within i.+2 n k && within i.+2 n l then V k l + c * U i.+1 k * \sum_(i.+2 <= q < n.+1) U i.+1 q * V q l else V k l.
pose V2 : arr2 R := fun k l => if ((k == i.+1) && within i.+2 n l) || ((l == i.+1) && within i.+2 n k) then 0
  else if within i.+2 n k && within i.+2 n l then V k l + c * U i.+1 k * \sum_(i.+2 <= q < n.+1) U i.+1 q * V q l else V k l.
have main V' : (forall k l, (i < k <= n)%N -> (i < l <= n)%N -> V' k l = if (k == i.+1) && (l == i.+1) then 1 else V2 k l) ->
    mx n n (corner i V') = HR n U rv i.+1 *m mx n n (corner i.+1 V).
  move=> hV; rewrite /HR hl_mx //; apply: mx_eq => k l hk hl; rewrite -/c.
  have cE : cr U rv i.+1 = c by [].
  rewrite cE; rewrite {1}/corner; case: ifP => hkl.
    have z : (i.+1 < k)%N -> \sum_(i.+2 <= q < n.+1) U i.+1 q * corner i.+1 V q l = 0.
      move=> h; rewrite big_nat big1 // => q hq; rewrite /corner ifT; last by lia.
      by rewrite dlt0 ?mulr0 //; lia.
    rewrite {1}/corner ifT; last by lia.
    by case: ifP => [h|_]; [rewrite z // mulr0 addr0|rewrite mulr0 mul0r addr0].
  rewrite hV; [|lia|lia]; rewrite /V2.
  case: (k =P i.+1) => [->|nk] /=.
    rewrite ltnn mulr0 mul0r addr0 /corner leqnn /=.
    case: (l =P i.+1) => [->|nl]; first by rewrite dltE.
    by rewrite ifT ?dlt0 //; [apply/eqP => e; apply: nl|rewrite /within; lia].
  have hk2 : (i.+1 < k)%N by lia.
  rewrite hk2; case: (l =P i.+1) => [->|nl] /=.
    rewrite ifT; last by rewrite /within; lia.
    rewrite /corner leqnn orbT dlt0; last by lia.
    rewrite big_nat big1 ?mulr0 ?add0r // => q hq.
    by rewrite orbT dlt0 ?mulr0 //; lia.
  rewrite ifT; last by rewrite /within; lia.
  rewrite /corner ifN; last by lia.
  congr (_ + _ * _); apply: eq_big_nat => q hq; rewrite ifN //; lia.
case: (g =P 0) => [g0|/eqP g0] /=.
  eexists; split; first by [].
  apply: main => k l hk hl; case: ifP => // _; rewrite /V2; case: ifP => // _; case: ifP => // _.
  by rewrite /c g0 mulr0 invr0 !mul0r addr0.
case: (leqP i.+1 m) => him; last by move: g0; rewrite /g rv0 ?eqxx //; lia.
eexists; split; first by [].
apply: main => k l hk hl; case: ifP => // _; rewrite /V2; case: ifP => // h1; case: ifP => h2.
  rewrite ifN; last by apply/negP => /andP [/eqP e _]; move: h2; rewrite e /within; lia.
  rewrite [X in _ = _ + X]mulrC; congr (_ + _ * _).
    apply: eq_big_nat => q hq; rewrite ifN //; apply/negP => /andP [/eqP e _].
    by move: h2; rewrite e /within; lia.
  rewrite ifT; last by move: h2; rewrite /within; lia.
  by rewrite /c invfM [RHS]mulrC mulrA.
rewrite ifN //; apply/negP => h3; move: h1 h2 h3; rewrite /within; lia.
Qed.
Lemma right_accP V : exists V', right_acc m n U rv V = Ok V' /\ mx n n V' = PR n U rv n.
Proof.
rewrite /right_acc.
have h i V0 : (i <= n)%N -> PR n U rv i *m mx n n (corner i V0) = PR n U rv n ->
    exists V', foldO (right_step m n U rv) V0 (rev (iota 1 i)) = Ok V' /\ mx n n V' = PR n U rv n.
  elim: i V0 => [|i ih] V0 hi e.
    exists V0; split=> //; rewrite -e /= mul1mx; apply: mx_eq => k j hk hj; rewrite /corner ifN //; lia.
  rewrite rev_iotaS /=; have [V1 [-> e1]] := @right_step_ok i V0 hi.
  by apply: (ih V1); [lia|rewrite e1 mulmxA].
apply: h => //; rewrite (@mx_eq _ _ _ _ dlt) ?mx_dlt ?mulmx1 // => k j hk hj.
by rewrite /corner ifT //; lia.
Qed.
End Right.

Section Left.
Variables (U0 : arr2 R) (w : arr1 R).
Hypothesis nz : forall q, (0 < q <= minn n m)%N -> w q != 0 -> U0 q q != 0.
Lemma left_stepP i U : (i < minn n m)%N -> (forall k, U k i.+1 = U0 k i.+1) ->
  mx m n (corner i (left_step m n w U i.+1)) = HL m U0 w i.+1 *m mx m n (corner i.+1 U).
Proof.
move=> hi hU; rewrite /HL hl_mx //; apply: mx_eq => k l hk hl.
have hU' : w i.+1 != 0 -> U0 i.+1 i.+1 != 0 by apply: nz; lia.
pose c := cl U0 w i.+1; rewrite -/c.
rewrite {1}/corner; case: ifP => hkl.
  have z : (i < k)%N -> \sum_(i.+1 <= q < m.+1) U0 q i.+1 * corner i.+1 U q l = 0.
    move=> h; rewrite big_nat big1 // => q hq; rewrite /corner ifT; last by lia.
    by rewrite dlt0 ?mulr0 //; lia.
  rewrite {1}/corner ifT; last by lia.
  by case: ifP => [h|_]; [rewrite z // mulr0 addr0|rewrite mulr0 mul0r addr0].
have ki : (i < k)%N by lia.
have li : (i < l)%N by lia.
rewrite ki; case: (l =P i.+1) => [el|nl].
  subst l; have -> : \sum_(i.+1 <= q < m.+1) U0 q i.+1 * corner i.+1 U q i.+1 = U0 i.+1 i.+1.
    rewrite big_ltn; last by lia.
    rewrite big_nat big1; first by rewrite addr0 /corner leqnn /= dltE mulr1.
    by move=> q hq; rewrite /corner leqnn orbT dlt0 ?mulr0 //; lia.
  rewrite /corner leqnn orbT /dlt /left_step.
  have r1 : within i.+1 m k by rewrite /within; lia.
  have r2 : within i.+2 n i.+1 = false by rewrite /within; lia.
  case: (w i.+1 =P 0) => [w0|/eqP w0] /=; rewrite ?eqxx ?r1 ?r2 /= ?andbF ?andbT.
    by rewrite /c /cl w0 mulr0 invr0 !mul0r addr0; case: eqP => _; rewrite ?add0r.
  have e : U k i.+1 * (1 / w i.+1) = c * U0 k i.+1 * U0 i.+1 i.+1.
    by rewrite hU /c /cl; have hu := hU' w0; field; rewrite w0 hu.
  by rewrite e; case: eqP => _ /=; [rewrite addrC|rewrite add0r].
have l1 : (i.+1 < l)%N by lia.
have -> : \sum_(i.+1 <= q < m.+1) U0 q i.+1 * corner i.+1 U q l = \sum_(i.+2 <= q < m.+1) U0 q i.+1 * U q l.
  rewrite big_ltn; last by lia.
  rewrite {1}/corner leqnn /= dlt0; last by lia.
  rewrite mulr0 add0r; apply: eq_big_nat => q hq; rewrite /corner ifN //; lia.
have -> : corner i.+1 U k l = if k == i.+1 then 0 else U k l.
  rewrite /corner; case: eqP => e; first by rewrite e leqnn /= dlt0 //; lia.
  by rewrite ifN //; lia.
have r1 : within i.+1 m k by rewrite /within; lia.
have r2 : within i.+2 n l by rewrite /within; lia.
have r3 : within i.+2 n i.+1 = false by rewrite /within; lia.
have nl' : (l == i.+1) = false by apply/eqP.
rewrite /left_step nl'; case: (w i.+1 =P 0) => [w0|/eqP w0] /=; rewrite ?nl' ?r1 ?r2 ?r3 /= ?andbF ?andbT.
  by rewrite /c /cl w0 mulr0 invr0 !mul0r addr0.
congr (_ + _); rewrite !hU; set S := (X in _ = _ * X).
have -> : \sum_(i.+2 <= q < m.+1) (if (q == i.+1) && false then 0 else U q i.+1) * (if (q == i.+1) && true then 0 else U q l) = S.
  by apply: eq_big_nat => q hq; rewrite andbF hU ifN //; lia.
by rewrite /c /cl; have hu := hU' w0; clearbody S; field; rewrite w0 hu.
Qed.
Lemma left_step_old i U k l : (k <= i)%N || (l <= i)%N -> left_step m n w U i.+1 k l = U k l.
Proof.
move=> h; have r1 : (l == i.+1) && within i.+1 m k = false by rewrite /within; lia.
have r2 : (k == i.+1) && within i.+2 n l = false by rewrite /within; lia.
have r3 : within i.+2 n l && within i.+1 m k = false by rewrite /within; lia.
have r4 : (k == i.+1) && (l == i.+1) = false by lia.
by rewrite /left_step r4; case: ifP => _; rewrite r1 ?r2 ?r3 ?r2.
Qed.
Lemma left_accP : mx m n (left_acc m n w U0) = (PL m U0 w (minn n m))^T *m mx m n dlt.
Proof.
rewrite /left_acc.
have h i U : (i <= minn n m)%N -> (forall k l, (l <= i)%N -> U k l = U0 k l) ->
    mx m n (foldl (left_step m n w) U (rev (iota 1 i))) = (PL m U0 w i)^T *m mx m n (corner i U).
  elim: i U => [|i ih] U hi hU.
    by rewrite /= trmx1 mul1mx; apply: mx_eq => k j hk hj; rewrite /corner ifN //; lia.
  rewrite rev_iotaS /= ih; [|lia|].
    by rewrite left_stepP // => [|k]; [rewrite trmx_mul -mulmxA /HL hmx_tr|rewrite hU].
  by move=> k l hl; rewrite left_step_old ?hl ?orbT // hU //; lia.
rewrite h //; congr (_ *m _); apply: mx_eq => k j hk hj; rewrite /corner ifT //; lia.
Qed.
End Left.
End Acc.
