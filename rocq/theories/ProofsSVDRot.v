(** * Rotations and perturbations of the bidiagonal form (lemmas for C86) *)
From mathcomp Require Import all_ssreflect all_algebra.
From mathcomp Require Import ring zify.
From Verif Require Import OrdLra Outcome ModelSVD SpecSVD ProofsSVD ProofsSVDBid ProofsSVDAcc.
Set Implicit Arguments. Unset Strict Implicit. Unset Printing Implicit Defensive.
Import Order.TTheory GRing.Theory Num.Theory.
Local Open Scope ring_scope.

Section Norm.
Variable R : rcfType.
Implicit Types (F G U V : arr2 R) (w rv : arr1 R).

Lemma sqlenE n (x : 'cV[R]_n) : sqlen x = (x^T *m x) 0 0.
Proof. by rewrite mxE; apply: eq_bigr => i _; rewrite !mxE expr2. Qed.
Lemma sqlen_ge0 n (x : 'cV[R]_n) : 0 <= sqlen x.
Proof. by apply: sumr_ge0 => i _; exact: sqr_ge0. Qed.
Lemma sqlenZ n a (x : 'cV[R]_n) : sqlen (a *: x) = a ^+ 2 * sqlen x.
Proof. by rewrite /sqlen mulr_sumr; apply: eq_bigr => i _; rewrite !mxE exprMn. Qed.
Lemma sqlen_orth m n (Q : 'M[R]_(m, n)) x : orthonormal Q -> sqlen (Q *m x) = sqlen x.
Proof. by move=> h; rewrite !sqlenE trmx_mul mulmxA -[_ *m _ *m Q]mulmxA h mulmx1. Qed.
Lemma orth_mul m n p (P : 'M[R]_(m, n)) (Q : 'M[R]_(n, p)) : orthonormal P -> orthonormal Q -> orthonormal (P *m Q).
Proof. by rewrite /orthonormal => hp hq; rewrite trmx_mul mulmxA -[_ *m _ *m P]mulmxA hp mulmx1. Qed.
Lemma orth1 n : orthonormal (1%:M : 'M[R]_n).
Proof. by rewrite /orthonormal trmx1 mulmx1. Qed.
Lemma orth_tr n (Q : 'M[R]_n) : orthonormal Q -> orthonormal Q^T.
Proof. by rewrite /orthonormal trmxK; exact: mulmx1C. Qed.

(** bound for a bilinear form: [a] for the right argument, [b] for the left *)
Definition bb m n (a b : R) (M : 'M[R]_(m, n)) : Prop :=
  forall x y, 2%:R * (y^T *m M *m x) 0 0 <= a * sqlen x + b * sqlen y.
Lemma bbD m n a b a' b' (M N : 'M[R]_(m, n)) : bb a b M -> bb a' b' N -> bb (a + a') (b + b') (M + N).
Proof.
move=> h1 h2 x y; rewrite mulmxDr mulmxDl mxE mulrDr.
by apply: le_trans (ler_add (h1 x y) (h2 x y)) _; rewrite le_eqVlt; apply/orP; left; apply/eqP; ring.
Qed.
Lemma bbN m n a b (M : 'M[R]_(m, n)) : bb a b M -> bb a b (- M).
Proof.
move=> h x y; have := h x (- y); rewrite linearN /= !mulNmx mulmxN mulNmx.
by rewrite -[- y]scaleN1r sqlenZ sqrrN expr1n mul1r.
Qed.
Lemma bb_orth m n p q a b (M : 'M[R]_(m, n)) (P : 'M[R]_(p, m)) (Q : 'M[R]_(q, n)) : 0 <= a -> 0 <= b ->
  (forall y, sqlen (P^T *m y) <= sqlen y) -> (forall x, sqlen (Q^T *m x) <= sqlen x) -> bb a b M -> bb a b (P *m M *m Q^T).
Proof.
move=> a0 b0 hP hQ h x y; have := h (Q^T *m x) (P^T *m y).
rewrite trmx_mul trmxK !mulmxA => h'; apply: le_trans h' _.
by apply: ler_add; apply: ler_wpmul2l.
Qed.
Lemma bb_norm m n e (M : 'M[R]_(m, n)) : 0 <= e -> bb e e M -> norm_le e M.
Proof.
move=> e0 h x; set y := M *m x.
have form t : (y^T *m M *m x) 0 0 * t = ((t *: y)^T *m M *m x) 0 0.
  by rewrite linearZ /= -!scalemxAl !mxE mulrC.
have yy : (y^T *m M *m x) 0 0 = sqlen y by rewrite -mulmxA -/y sqlenE.
have hh t : 2%:R * (sqlen y * t) <= e * sqlen x + e * (t ^+ 2 * sqlen y).
  by have := h x (t *: y); rewrite -form yy sqlenZ.
move: e0; rewrite le_eqVlt => /orP [/eqP e0|e0].
  have := hh 1; rewrite -e0 !mul0r addr0 mulr1 expr0n mul0r => h1.
  by rewrite -(pmulr_rle0 (x := 2%:R)) ?ltr0n.
have := hh (e^-1); have -> : e * (e^-1 ^+ 2 * sqlen y) = sqlen y * e^-1 by field; rewrite gt_eqF.
move=> h1; have : sqlen y * e^-1 <= e * sqlen x by lra.
by rewrite ler_pdivr_mulr // mulrC mulrA expr2.
Qed.
(** a matrix with one nonzero element *)
Lemma bb_entry n (p q : 'I_n) (d t : R) : `|d| <= t -> bb t t (d *: delta_mx p q : 'M[R]_n).
Proof.
move=> hd x y.
have -> : (y^T *m (d *: delta_mx p q) *m x) 0 0 = d * (y p 0 * x q 0).
  rewrite -scalemxAr -scalemxAl mxE; congr (_ * _); rewrite mxE (bigD1 q) //= big1 ?addr0.
    rewrite mxE (bigD1 p) //= big1 ?addr0; first by rewrite !mxE !eqxx mulr1.
    by move=> k /negbTE nk; rewrite !mxE nk mulr0.
  by move=> k /negbTE nk; rewrite mxE big1 ?mul0r // => l _; rewrite !mxE nk andbF mulr0.
have hs (z : 'cV[R]_n) k : z k 0 ^+ 2 <= sqlen z.
  by rewrite /sqlen (bigD1 k) //= ler_addl; apply: sumr_ge0 => l _; exact: sqr_ge0.
have t0 : 0 <= t by apply: le_trans (normr_ge0 d) hd.
have := ler_wpmul2l t0 (hs x q); have := ler_wpmul2l t0 (hs y p).
have : 2%:R * (d * (y p 0 * x q 0)) <= t * (x q 0 ^+ 2 + y p 0 ^+ 2).
  apply: le_trans (ler_norm _) _; rewrite !normrM normr_nat.
  have : 2%:R * (`|y p 0| * `|x q 0|) <= x q 0 ^+ 2 + y p 0 ^+ 2.
    have := sqr_ge0 (`|x q 0| - `|y p 0|); rewrite sqrrB !real_normK ?num_real // => h.
    by move: h; move: (x q 0 ^+ 2) (y p 0 ^+ 2) => X Y; move: `|x q 0| `|y p 0| => u v; rewrite -mulr_natl => h; nra.
  move=> h; rewrite mulrCA; apply: le_trans (ler_wpmul2l (normr_ge0 d) h) _.
  by apply: ler_wpmul2r => //; rewrite addr_ge0 ?sqr_ge0.
by rewrite mulrDr => h1 h2 h3; apply: le_trans h1 (ler_add h3 h2).
Qed.
Lemma bb_mx n a b (M : 'M[R]_n) i j : bb a b M -> 2%:R * `|M i j| <= a + b.
Proof.
move=> h; have sl (k : 'I_n) (s : R) : sqlen (s *: delta_mx k 0 : 'cV[R]_n) = s ^+ 2.
  rewrite sqlenZ /sqlen (bigD1 k) //= big1 ?addr0 ?mxE ?eqxx ?expr1n ?mulr1 //.
  by move=> l /negbTE nl; rewrite mxE nl expr0n.
have e (s : R) : ((s *: delta_mx i 0 : 'cV[R]_n)^T *m M *m (1 *: delta_mx j 0)) 0 0 = s * M i j.
  rewrite scale1r linearZ /= -!scalemxAl mxE; congr (_ * _).
  rewrite trmx_delta.
  rewrite mxE (bigD1 j) //= big1 ?addr0.
    rewrite !mxE !eqxx mulr1 (bigD1 i) //= big1 ?addr0; first by rewrite !mxE !eqxx mul1r.
    by move=> l /negbTE nl; rewrite !mxE nl andbF mul0r.
  by move=> l /negbTE nl; rewrite !mxE nl mulr0.
case: (ger0P (M i j)) => hm.
  by have := h (1 *: delta_mx j 0) (1 *: delta_mx i 0); rewrite e !sl expr1n mul1r !mulr1.
by have := h (1 *: delta_mx j 0) (- 1 *: delta_mx i 0); rewrite e !sl sqrrN expr1n mulN1r !mulr1.
Qed.
End Norm.

(** decide comparisons of indices *)
Ltac bdec := repeat match goal with
  | |- context [if ?b then _ else _] => first [rewrite (_ : b = true); [|by lia] | rewrite (_ : b = false); [|by lia]]
  | |- context [nat_of_bool ?b] => first [rewrite (_ : b = true); [|by lia] | rewrite (_ : b = false); [|by lia]]
  end; cbv iota; rewrite ?mulr1n ?mulr0n.

Section Rot.
Variables (R : rcfType) (n : nat).
Implicit Types (F G U V : arr2 R) (w rv : arr1 R).
Definition rotL p q c s F : arr2 R := flip (rotate p q c s (flip F)).
Definition grot p q c s : 'M[R]_n := mx n n (rotate p q c s (@dlt R)).

Lemma mul_mx m p F G : mx m n F *m mx n p G = mx m p (fun k j => \sum_(1 <= l < n.+1) F k l * G l j).
Proof. by apply/matrixP => i j; rewrite !mxE -sum_ord1; apply: eq_bigr => k _; rewrite !mxE. Qed.
Lemma sum_dlt (f : nat -> R) p : (0 < p <= n)%N -> \sum_(1 <= l < n.+1) f l * dlt R l p = f p.
Proof.
move=> hp; rewrite (bigD1_seq p) ?iota_uniq ?mem_index_iota //= big1 ?addr0 ?dltE ?mulr1 //.
by move=> l nl; rewrite dlt0 ?mulr0.
Qed.
Lemma rot_mx m p q c s F : (0 < p <= n)%N -> (0 < q <= n)%N -> mx m n F *m grot p q c s = mx m n (rotate p q c s F).
Proof.
move=> hp hq; rewrite /grot mul_mx; apply: mx_eq => k j _ hj; rewrite /rotate.
case: (j =P p) => _.
  rewrite (eq_bigr (fun l => F k l * c * dlt R l p + F k l * s * dlt R l q)); last by move=> l _; ring.
  by rewrite big_split /= (sum_dlt (fun l => F k l * c)) // (sum_dlt (fun l => F k l * s)).
case: (j =P q) => _; last exact: (sum_dlt (F k)).
rewrite (eq_bigr (fun l => F k l * c * dlt R l q + - (F k l * s) * dlt R l p)); last by move=> l _; ring.
by rewrite big_split /= (sum_dlt (fun l => F k l * c)) // (sum_dlt (fun l => - (F k l * s))).
Qed.
Lemma rotL_mx m p q c s F : (0 < p <= n)%N -> (0 < q <= n)%N -> (grot p q c s)^T *m mx n m F = mx n m (rotL p q c s F).
Proof. by move=> hp hq; apply: trmx_inj; rewrite trmx_mul trmxK !mx_tr rot_mx. Qed.
Lemma grot_orth p q c s : (0 < p <= n)%N -> (0 < q <= n)%N -> p != q -> c ^+ 2 + s ^+ 2 = 1 -> orthonormal (grot p q c s).
Proof.
move=> hp hq pq cs; rewrite /orthonormal {2}/grot rotL_mx // -mx_dlt; apply: mx_eq => k l hk hl.
rewrite /rotL /flip /rotate /dlt.
have cs' : c * c + s * s = 1 by rewrite -!expr2.
case: (k =P p) => kp; [subst k|case: (k =P q) => kq; [subst k|]];
  (case: (l =P p) => lp; [subst l|case: (l =P q) => lq; [subst l|]]); bdec; rewrite ?mulr0 ?mul0r ?mulr1 ?mul1r ?addr0 ?add0r ?subr0 ?sub0r ?oppr0 ?mulrN ?mulNr ?opprK ?mul0r ?oppr0 //.
- by rewrite [c * s]mulrC addNr.
- by rewrite mulrC subrr.
Qed.
End Rot.
