(** * The QR iterations (lemmas for C86) *)
From mathcomp Require Import all_ssreflect all_algebra.
From mathcomp Require Import ring zify.
From Verif Require Import OrdLra Outcome ModelSVD SpecSVD ProofsSVD ProofsSVDBid ProofsSVDAcc ProofsSVDRot.
Set Implicit Arguments. Unset Strict Implicit. Unset Printing Implicit Defensive.
Import Order.TTheory GRing.Theory Num.Theory.
Local Open Scope ring_scope.

Lemma can1 (R : rcfType) (f g h : R) : f * (g * (1 / h)) + g * (- f * (1 / h)) = 0.
Proof. by rewrite mulNr mulrN mulrCA subrr. Qed.
Lemma can2 (R : rcfType) (f g h : R) : h != 0 -> h ^+ 2 = f ^+ 2 + g ^+ 2 -> g * (g * (1 / h)) - f * (- f * (1 / h)) = h.
Proof.
move=> h0 e; apply: (mulIf h0); rewrite -[RHS]expr2 e !mul1r.
by rewrite mulNr mulrN opprK mulrDl -!mulrA mulVf // !mulr1 addrC !expr2.
Qed.
Lemma can3 (R : rcfType) (f g h : R) : h != 0 -> h ^+ 2 = f ^+ 2 + g ^+ 2 -> (g * (1 / h)) ^+ 2 + (- f * (1 / h)) ^+ 2 = 1.
Proof.
by move=> h0 e; rewrite !mul1r !exprMn sqrrN -mulrDl addrC -e -exprMn divff ?expr1n.
Qed.

Section Iter.
Variables (R : rcfType) (m n : nat) (eqv : R -> R -> bool) (tol anorm : R).
Variables (U0 : 'M[R]_(m, n)) (V0 B0 : 'M[R]_n).
Implicit Types (F G U V : arr2 R) (w rv : arr1 R) (st : sstate R).
Hypothesis tol0 : 0 <= tol.
Hypothesis an0 : 0 <= anorm.
Hypothesis hB0 : bb anorm (2%:R * anorm) B0.
Hypothesis eqv_refl : eqv anorm anorm.
Hypothesis eqv_close : close_le eqv tol.
Let t := tol * anorm.
Let t0 : 0 <= t. Proof. exact: mulr_ge0. Qed.

(** up to [N] dropped elements, the bidiagonal form is [F] in the bases of [U] and [V] *)
Definition rep N U V F : Prop := exists (L Q E : 'M[R]_n),
  [/\ orthonormal L, orthonormal Q, mx m n U = U0 *m L, mx n n V = V0 *m Q &
   B0 = L *m mx n n F *m Q^T + E /\ bb (N%:R * t) (N%:R * t) E].
Lemma rep_ext N U V F F' : (forall k l, (0 < k <= n)%N -> (0 < l <= n)%N -> F k l = F' k l) -> rep N U V F -> rep N U V F'.
Proof. by move=> /mx_eq e; rewrite /rep e. Qed.
Lemma rep_mono N N' U V F : (N <= N')%N -> rep N U V F -> rep N' U V F.
Proof.
move=> h [L [Q [E [h1 h2 h3 h4 [h5 h6]]]]]; exists L, Q, E; split=> //; split=> // x y.
by apply: le_trans (h6 x y) _; apply: ler_add; apply: ler_wpmul2r; rewrite ?sqlen_ge0 ?ler_wpmul2r ?ler_nat.
Qed.
Lemma rep_drop N U V F F' p q : (0 < p <= n)%N -> (0 < q <= n)%N ->
  (forall k l, (0 < k <= n)%N -> (0 < l <= n)%N -> ~~ ((k == p) && (l == q)) -> F' k l = F k l) -> `|F p q - F' p q| <= t ->
  rep N U V F -> rep N.+1 U V F'.
Proof.
move=> hp hq hF hd [L [Q [E [h1 h2 h3 h4 [h5 h6]]]]].
have lp : (p.-1 < n)%N by lia.
have lq : (q.-1 < n)%N by lia.
set D : 'M[R]_n := (F p q - F' p q) *: delta_mx (Ordinal lp) (Ordinal lq).
have e : mx n n F = mx n n F' + D.
  apply/matrixP => i j; rewrite !mxE -!val_eqE /=.
  case: (boolP ((i.+1 == p) && (j.+1 == q))) => [/andP [/eqP e1 /eqP e2]|ne].
    by rewrite -e1 -e2 /= !eqxx mulr1 addrCA subrr addr0.
  have -> : (nat_of_ord i == p.-1) && (nat_of_ord j == q.-1) = false by apply: contraNF ne => /andP [/eqP -> /eqP ->]; rewrite !prednK ?eqxx; lia.
  by rewrite mulr0 addr0 hF //; have := ltn_ord i; have := ltn_ord j; lia.
exists L, Q, (E + L *m D *m Q^T); split=> //; split.
  by rewrite h5 e mulmxDr mulmxDl -addrA [E + _]addrC.
rewrite mulrSr mulrDl mul1r; apply: bbD => //; apply: bb_orth => //; last exact: bb_entry.
- by move=> y; rewrite sqlen_orth //; exact: orth_tr.
- by move=> y; rewrite sqlen_orth //; exact: orth_tr.
Qed.
Lemma rep_rotU N U V F p q c s : (0 < p <= n)%N -> (0 < q <= n)%N -> p != q -> c ^+ 2 + s ^+ 2 = 1 ->
  rep N U V F -> rep N (rotate p q c s U) V (rotL p q c s F).
Proof.
move=> hp hq pq cs [L [Q [E [h1 h2 h3 h4 [h5 h6]]]]].
have go := grot_orth hp hq pq cs.
exists (L *m grot n p q c s), Q, E; split=> //.
- exact: orth_mul.
- by rewrite -rot_mx // h3 mulmxA.
- split=> //; rewrite -rotL_mx // h5; congr (_ *m _ + _); rewrite -!mulmxA; congr (_ *m _); rewrite mulmxA.
  by have := orth_tr go; rewrite /orthonormal trmxK => ->; rewrite mul1mx.
Qed.
Lemma rep_rotV N U V F p q c s : (0 < p <= n)%N -> (0 < q <= n)%N -> p != q -> c ^+ 2 + s ^+ 2 = 1 ->
  rep N U V F -> rep N U (rotate p q c s V) (rotate p q c s F).
Proof.
move=> hp hq pq cs [L [Q [E [h1 h2 h3 h4 [h5 h6]]]]].
have go := grot_orth hp hq pq cs.
exists L, (Q *m grot n p q c s), E; split=> //.
- exact: orth_mul.
- by rewrite -rot_mx // h4 mulmxA.
- split=> //; rewrite -rot_mx // h5 trmx_mul; congr (_ + _); rewrite -!mulmxA; congr (_ *m (_ *m _)).
  by rewrite mulmxA; have := orth_tr go; rewrite /orthonormal trmxK => ->; rewrite mul1mx.
Qed.
Definition negc k V : arr2 R := fun i l => if l == k then - V i l else V i l.
Lemma rep_neg N U V F k : rep N U V F -> rep N U (negc k V) (negc k F).
Proof.
move=> [L [Q [E [h1 h2 h3 h4 [h5 h6]]]]].
set D := mx n n (negc k (@dlt R)).
have mD p G : mx p n G *m D = mx p n (negc k G).
  rewrite /D mul_mx; apply: mx_eq => i l _ hl; rewrite /negc; case: (l == k); last exact: (sum_dlt (G i)).
  rewrite (eq_bigr (fun q => - G i q * dlt R q l)); last by move=> q _; rewrite mulrN mulNr.
  exact: (sum_dlt (fun q => - G i q)).
have DT : D^T = D.
  by rewrite /D mx_tr; apply: mx_eq => i l _ _; rewrite /negc /flip /dlt [l == i]eq_sym; case: (i =P l) => [->//|_]; rewrite oppr0 !if_same.
have DD : D *m D = 1%:M.
  rewrite {1}/D mD -mx_dlt; apply: mx_eq => i l _ _; rewrite /negc.
  by case: ifP => h; rewrite ?h ?opprK.
exists L, (Q *m D), E; split=> //.
- by apply: orth_mul => //; rewrite /orthonormal DT.
- by rewrite -mD h4 mulmxA.
- by split=> //; rewrite -mD h5 trmx_mul DT; congr (_ + _); rewrite -!mulmxA; congr (_ *m (_ *m _)); rewrite mulmxA DD mul1mx.
Qed.
Lemma rep_entry N U V F p q : (0 < p <= n)%N -> (0 < q <= n)%N -> rep N U V F -> 2%:R * `|F p q| <= 3%:R * anorm + (2%:R * N%:R) * t.
Proof.
move=> hp hq [L [Q [E [h1 h2 h3 h4 [h5 h6]]]]].
have e : mx n n F = L^T *m (B0 - E) *m Q.
  by rewrite h5 addrK !mulmxA h1 mul1mx -mulmxA h2 mulmx1.
have b : bb (anorm + N%:R * t) (2%:R * anorm + N%:R * t) (mx n n F).
  rewrite e -[Q]trmxK; apply: bb_orth.
  - by rewrite addr_ge0 ?mulr_ge0 ?ler0n.
  - by rewrite addr_ge0 ?mulr_ge0 ?ler0n.
  - by move=> y; rewrite trmxK sqlen_orth.
  - by move=> y; rewrite trmxK sqlen_orth.
  - by apply: bbD => //; apply: bbN.
have lp : (p.-1 < n)%N by lia.
have lq : (q.-1 < n)%N by lia.
have := bb_mx (Ordinal lp) (Ordinal lq) b; rewrite mxE /= !prednK; [|lia|lia].
by move=> h; apply: le_trans h _; rewrite le_eqVlt; apply/orP; left; apply/eqP; ring.
Qed.

(** only the superdiagonal elements up to [k] count *)
Definition cut k rv : arr1 R := fun j => if (j <= k)%N then rv j else 0.

Lemma split_spec w rv k : (0 < k)%N -> rv 1%N = 0 -> exists flag p,
  [/\ find_split eqv anorm w rv k = Ok (flag, p), (0 < p <= k)%N,
   (forall l, (p < l <= k)%N -> rv l != 0 /\ w l.-1 != 0) &
   if flag then (1 < p)%N /\ eqv (`|w p.-1 + anorm|) anorm else eqv (`|rv p| + anorm) anorm].
Proof.
elim: k => // k ih _ r1 /=; case: ifP => [h|h].
  by exists false, k.+1; split=> //; [rewrite ltnSn|move=> l; lia].
case: k ih h => [|k] ih h; first by move: h; rewrite r1 normr0 add0r eqv_refl.
rewrite /=; case: ifP => [h2|h2].
  by exists true, k.+2; split=> //; [rewrite ltnSn|move=> l; lia].
have [flag [p [e1 e2 e3 e4]]] := ih isT r1; exists flag, p; split=> //; first by lia.
move=> l /andP [l1]; rewrite leq_eqVlt => /orP [/eqP ->|l2]; last by apply: e3; rewrite l1.
split; apply/eqP => z; [move: h|move: h2]; rewrite /= z ?normr0 ?add0r ?(ger0_norm an0) ?eqv_refl //.
Qed.
Lemma neg_rv (a : R) : eqv (`|a| + anorm) anorm -> `|a| <= t.
Proof. by move/(eqv_close an0); rewrite addrK normr_id. Qed.
Lemma neg_w N (a : R) : N.+1%:R * tol < 2%:R^-1 -> 2%:R * `|a| <= 3%:R * anorm + (2%:R * N%:R) * t ->
  eqv (`|a + anorm|) anorm -> `|a| <= t.
Proof.
move=> hN hb /(eqv_close an0); case: (ger0P (a + anorm)) => ha; first by rewrite addrK.
rewrite ler_norml => /andP [h _]; exfalso.
have a1 : a < - anorm by rewrite -subr_lt0 opprK.
have a0 : a < 0 by apply: (lt_le_trans a1); rewrite oppr_le0.
clear a1.
move: hb; rewrite (ltr0_norm a0) => hb.
rewrite (mulrSr 1 N) in hN; move: h hb hN ha a0 an0 tol0; rewrite /t; move: (N%:R) (ler0n R N) => x x0; move: anorm tol; clear.
move=> b u h1 h2 h3 h4 h5 h6 h7.
have h8 : 0 <= b * (2%:R^-1 - (x + 1) * u) by apply: mulr_ge0 => //; rewrite subr_ge0 ltW.
have h9 : b * (2%:R^-1 - (x + 1) * u) = 0 by apply/eqP; rewrite eq_le h8 andbT; nra.
move/eqP: h9; rewrite mulf_eq0 subr_eq0 => /orP [/eqP b0|/eqP e]; first by move: h2; rewrite b0 !mulr0 addr0 pmulr_rle0 ?ltr0n // oppr_le0 leNgt h5.
by move: h3; rewrite e ltxx.
Qed.

(** cancellation *)
Definition Fc nm k i f w rv : arr2 R := fun a l => if a == nm then (if (l == i) && (i <= k)%N then f else 0) else bid w (cut k rv) a l.
Lemma cancelP nm k (kn : (k <= n)%N) (n0 : (0 < nm)%N) len : forall N i c s w rv U V, (i + len = k.+1)%N -> (nm < i)%N ->
  rep N U V (Fc nm k i (s * rv i) w (set1 rv i (c * rv i))) ->
  (forall l, (i <= l < k)%N -> w l != 0) -> (forall l, (i < l <= k)%N -> rv l != 0) ->
  let: (w', rv', U') := cancel eqv anorm nm (iota i len) c s w rv U in
  [/\ rep N.+1 U' V (Fc nm k k.+1 0 w' rv'),
     forall l, (l < i)%N || (k < l)%N -> w' l = w l /\ rv' l = rv l,
     (i <= k)%N -> rv' i = c * rv i,
     forall l, (i <= l < k)%N -> w' l != 0 & forall l, (i < l <= k)%N -> rv' l != 0].
Proof.
elim: len => [|len ih] N i c s w rv U V hi hnm hr hw hrv /=.
  split=> //; [|by lia].
  apply: (rep_mono (leqnSn N)); apply: rep_ext hr => a l ha hl; rewrite /Fc; case: ifP => h; first by rewrite !ifN //; lia.
  rewrite /bid /cut /set1; bdec; case: ifP => //; case: ifP => // h1 h2; case: ifP => // h3.
  by rewrite ifN_eq //; lia.
set f := s * rv i in hr *; set rv1 := set1 rv i (c * rv i) in hr *.
have ii : (i <= k)%N by lia.
have rvi : rv1 i = c * rv i by rewrite /rv1 /set1 eqxx.
have rvo l : l != i -> rv1 l = rv l by move=> h; rewrite /rv1 /set1 (negbTE h).
case: ifP => hf.
  split=> //; [|by move=> l hl; rewrite rvo //; lia|by move=> l hl; rewrite rvo; [apply: hrv|lia]].
  apply: (rep_drop (p := nm) (q := i)) hr; [lia|lia| |].
    move=> a l ha hl; rewrite /Fc; case: ifP => // h1 /= h2; by bdec.
  by rewrite /Fc !eqxx ii ltnn andbF subr0; exact: neg_rv.
have f0 : f != 0 by apply/eqP => z; move: hf; rewrite z normr0 add0r eqv_refl.
set g := w i; set h := pythag f g; set c' := g * (1 / h); set s' := - f * (1 / h).
have h0 : h != 0 by rewrite /h pythag_eq0 (negbTE f0).
have hh : h ^+ 2 = f ^+ 2 + g ^+ 2 := pythag_sq f g.
have cs : c' ^+ 2 + s' ^+ 2 = 1.
  exact: can3.
have := ih N i.+1 c' s' (set1 w i h) rv1 (rotate nm i c' s' U) V.
case: (cancel _ _ _ _ _ _ _ _ _) => [[w' rv'] U'] /=.
have pn : (0 < nm <= n)%N by lia.
have pi : (0 < i <= n)%N by lia.
have ni : nm != i by lia.
move=> /(_ _ _ _ _ _) [| | | | |r1 r2 r3 r4 r5]; try by lia.
- have := rep_rotU pn pi ni cs hr; apply: rep_ext => a l ha hl.
  rewrite /rotL /flip /rotate /Fc.
  have bi : bid w (cut k rv1) i l = if l == i then g else if (l == i.+1) && (i < k)%N then rv i.+1 else 0.
    rewrite /bid [i == l]eq_sym [i.+1 == l]eq_sym; case: eqP => [->//|_]; case: eqP => [->|_] //=.
    by rewrite /cut; case: ifP => // _; rewrite rvo //; lia.
  case: (a =P nm) => [an|an].
    rewrite eqxx (eq_sym i) (negbTE ni) bi rvo; last by lia.
    case: (l =P i) => [->|li]; rewrite ?ii.
      rewrite ifN; last by lia.
      exact: can1.
    by rewrite mul0r add0r; case: ifP => _; rewrite ?mul0r // mulrC.
  case: (a =P i) => [ai|ai].
    rewrite (eq_sym i) (negbTE ni) eqxx bi ai; rewrite /bid [i == l]eq_sym [i.+1 == l]eq_sym /cut.
    case: (l =P i) => [->|li]; rewrite ?ii.
      by rewrite {1}/set1 eqxx; exact: can2.
    rewrite mul0r subr0; case: (l =P i.+1) => [->|li1] /=; rewrite ?mul0r //.
    case: ifP => hk; rewrite ?mul0r //.
    by rewrite {1}/set1 eqxx rvo; [rewrite [RHS]mulrC|lia].
  rewrite /bid; case: (a =P l) => [<-|al]; first by rewrite /set1 (introF eqP ai).
  case: eqP => // al1; rewrite /cut; case: ifP => // _; rewrite [in RHS]/set1 ifN_eq //.
  by apply/eqP => e; apply: ai; lia.
- by move=> l hl; rewrite /set1 ifN_eq; [apply: hw; lia|lia].
- by move=> l hl; rewrite rvo; [apply: hrv; lia|lia].
have c0 : (i < k)%N -> c' != 0.
  by move=> ik; rewrite /c' mulf_eq0 negb_or /g hw ?ik ?leqnn //= mul1r invr_eq0.
split=> //.
- by move=> l hl; have [|-> ->] := r2 l; [lia|]; rewrite rvo ?{1}/set1 ?ifN_eq //; lia.
- by move=> _; have [|_ ->] := r2 i; [rewrite ltnSn|].
- move=> l /andP []; rewrite leq_eqVlt => /orP [/eqP <- ik|l1 l2]; last by apply: r4; rewrite l1.
  by have [|-> _] := r2 i; rewrite ?ltnSn // /set1 eqxx.
- move=> l /andP []; rewrite leq_eqVlt => /orP [/eqP <- ik|l1 l2]; last by apply: r5; rewrite l1.
  by rewrite r3 // mulf_neq0 ?c0 // rvo ?hrv ?ltnSn //; lia.
Qed.
End Iter.
