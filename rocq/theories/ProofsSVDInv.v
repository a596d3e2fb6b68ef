(** * Lemmas for [pseudoinverse] *)
From mathcomp Require Import all_ssreflect all_algebra.
From mathcomp Require Import ring zify.
From Verif Require Import OrdLra Outcome ModelSVD SpecSVD ProofsSVD ProofsSVDBid ProofsSVDAcc ProofsSVDRot ProofsSVDIter ProofsSVDSweep ProofsSVDMain ProofsSVDFinal.
Set Implicit Arguments. Unset Strict Implicit. Unset Printing Implicit Defensive.
Import Order.TTheory GRing.Theory Num.Theory.
Local Open Scope ring_scope.

Section Inv.
Variable R : rcfType.

Lemma mp_unique m n (B : 'M[R]_(m, n)) X Y : moore_penrose B X -> moore_penrose B Y -> X = Y.
Proof.
move=> [a1 a2 a3 a4] [b1 b2 b3 b4].
have e1 : B *m X = B *m Y.
  have h : B *m X = B *m Y *m (B *m X) by rewrite mulmxA b1.
  by rewrite -a3 {1}h trmx_mul a3 b3 mulmxA a1.
have e2 : X *m B = Y *m B.
  have h : X *m B = X *m B *m (Y *m B) by rewrite -mulmxA [B *m (Y *m B)]mulmxA b1.
  by rewrite -a4 {1}h trmx_mul a4 b4 -mulmxA [B *m (X *m B)]mulmxA a1.
by rewrite -a2 -mulmxA e1 mulmxA e2.
Qed.

Lemma dmx_mul n (w w' : arr1 R) : dmx n w *m dmx n w' = dmx n (fun i => w i * w' i).
Proof.
apply/matrixP => i j; rewrite !mxE (bigD1 i) //= big1 ?addr0.
  by rewrite !mxE eqxx; case: eqP => // _; rewrite mulr0.
by move=> k nk; rewrite !mxE eq_sym (negbTE nk) mul0r.
Qed.
Lemma dmx_eq n (w w' : arr1 R) : (forall i, (0 < i <= n)%N -> w i = w' i) -> dmx n w = dmx n w'.
Proof. by move=> h; apply/matrixP => i j; rewrite !mxE h //= ltn_ord. Qed.
Lemma dmx_tr n (w : arr1 R) : (dmx n w)^T = dmx n w.
Proof. by apply/matrixP => i j; rewrite !mxE eq_sym; case: eqP => // ->. Qed.
Lemma dmxB n (w w' : arr1 R) : dmx n w - dmx n w' = dmx n (fun i => w i - w' i).
Proof. by apply/matrixP => i j; rewrite !mxE; case: eqP => // _; rewrite subrr. Qed.
Lemma sqlen_dmx n w (x : 'cV[R]_n) : sqlen (dmx n w *m x) = \sum_(i < n) (w i.+1 * x i 0) ^+ 2.
Proof.
rewrite /sqlen; apply: eq_bigr => i _; congr (_ ^+ 2); rewrite mxE (bigD1 i) //= big1 ?addr0.
  by rewrite mxE eqxx.
by move=> k nk; rewrite mxE eq_sym (negbTE nk) mul0r.
Qed.
Lemma dmx_norm n (w : arr1 R) a : 0 <= a -> (forall i, (0 < i <= n)%N -> `|w i| <= a) -> norm_le a (dmx n w).
Proof.
move=> a0 h x; rewrite sqlen_dmx /sqlen mulr_sumr; apply: ler_sum => i _.
rewrite exprMn; apply: ler_wpmul2r; first exact: sqr_ge0.
rewrite -[w _ ^+ 2]real_normK ?num_real // ler_sqr ?nnegrE //; apply: h; exact: ltn_ord.
Qed.
Lemma norm_tr m n a (M : 'M[R]_(m, n)) : 0 <= a -> norm_le a M -> norm_le a M^T.
Proof.
move=> a0 h; have b := norm_bb a0 h; apply: bb_norm => // x y; have := b y x.
have -> : (x^T *m M *m y) 0 0 = (y^T *m M^T *m x) 0 0.
  by rewrite -[x^T *m M *m y]trmxK mxE !trmx_mul trmxK -mulmxA.
by rewrite addrC.
Qed.
Lemma norm_mul m n p a b (M : 'M[R]_(m, n)) (N : 'M[R]_(n, p)) : norm_le a M -> norm_le b N -> norm_le (a * b) (M *m N).
Proof.
move=> h k x; rewrite -mulmxA; apply: le_trans (h _) _; rewrite exprMn -[X in _ <= X]mulrA.
by apply: ler_wpmul2l; [exact: sqr_ge0|exact: k].
Qed.
Lemma norm_orthonormal m n (V : 'M[R]_(m, n)) : orthonormal V -> norm_le 1 V.
Proof. by move=> h x; rewrite sqlen_orth // expr1n mul1r. Qed.

(** the truncated decomposition and its inverse *)
Lemma mp_svd m n (U : 'M[R]_(m, n)) (V : 'M[R]_n) (d di : arr1 R) : orthonormal V ->
  (U^T *m U *m dmx n d = dmx n d) ->
  (forall i, (0 < i <= n)%N -> d i = 0 /\ di i = 0 \/ d i != 0 /\ di i = 1 / d i) ->
  moore_penrose (U *m dmx n d *m V^T) (V *m dmx n di *m U^T).
Proof.
move=> vo uo hd.
have ddd : dmx n d *m dmx n di *m dmx n d = dmx n d.
  rewrite !dmx_mul; apply: dmx_eq => i /hd [[-> ->]|[h ->]]; first by rewrite !mulr0.
  by rewrite mul1r mulfV ?mul1r.
have idi : dmx n di *m dmx n d *m dmx n di = dmx n di.
  rewrite !dmx_mul; apply: dmx_eq => i /hd [[-> ->]|[h ->]]; first by rewrite !mulr0.
  by rewrite mul1r mulVf ?mul1r.
have cm : dmx n di *m dmx n d = dmx n d *m dmx n di by rewrite !dmx_mul; apply: dmx_eq => i _; rewrite mulrC.
have bx : U *m dmx n d *m V^T *m (V *m dmx n di *m U^T) = U *m (dmx n d *m dmx n di) *m U^T.
  by rewrite !mulmxA -(mulmxA _ V^T V) vo mulmx1.
have xb : V *m dmx n di *m U^T *m (U *m dmx n d *m V^T) = V *m (dmx n di *m dmx n d) *m V^T.
  by rewrite !mulmxA -(mulmxA _ U^T U) -(mulmxA _ (U^T *m U)) uo.
split.
- by rewrite -mulmxA xb !mulmxA -(mulmxA _ V^T V) vo mulmx1 -(mulmxA U) -(mulmxA U) ddd.
- by rewrite xb !mulmxA -(mulmxA _ V^T V) vo mulmx1 -(mulmxA V) -(mulmxA V) idi.
- by rewrite bx !trmx_mul trmxK !dmx_tr cm !mulmxA.
- by rewrite xb !trmx_mul trmxK !dmx_tr cm !mulmxA.
Qed.

Lemma pinvE m n (V U : arr2 R) (di : arr1 R) :
  mx n m (fun k l => \sum_(1 <= i < n.+1) V k i * di i * U l i) = mx n n V *m dmx n di *m (mx m n U)^T.
Proof.
apply/matrixP => i j; rewrite !mxE big_add1 /= big_mkord; apply: eq_bigr => k _; rewrite !mxE; congr (_ * _).
rewrite (bigD1 k) //= big1 ?addr0; first by rewrite !mxE eqxx.
by move=> l nl; rewrite !mxE (negbTE nl) mulr0.
Qed.

(** triangle inequality *)
Lemma sqlen_sub m (c e : R) (y z : 'cV[R]_m) : 0 <= e -> e <= c -> c ^+ 2 <= sqlen y -> sqlen (y - z) <= e ^+ 2 ->
  (c - e) ^+ 2 <= sqlen z.
Proof.
move=> e0 ec hc he.
have s1 (M : 'cV[R]_m) (x : 'cV[R]_1) : sqlen (M *m x) = sqlen M * sqlen x.
  rewrite /sqlen mulr_suml; apply: eq_bigr => i _; rewrite mxE !big_ord1 exprMn //.
have z0 := sqrtr_ge0 (sqlen z).
have h1 : norm_le e (y - z) by move=> x; rewrite s1; apply: ler_wpmul2r => //; exact: sqlen_ge0.
have h2 : norm_le (Num.sqrt (sqlen z)) z.
  by move=> x; rewrite s1 sqr_sqrtr //; exact: sqlen_ge0.
have := norm_leD e0 z0 h1 h2; rewrite subrK => /(_ 1%:M).
have -> : sqlen (1%:M : 'cV[R]_1) = 1 by rewrite /sqlen big_ord1 !mxE expr1n.
rewrite mulmx1 mulr1 => h.
have : c <= e + Num.sqrt (sqlen z).
  rewrite -(ler_sqr (x := c)) ?nnegrE ?addr_ge0 //; [exact: le_trans hc h|exact: le_trans e0 ec].
rewrite addrC -ler_subl_addr => k.
rewrite -[sqlen z]sqr_sqrtr ?sqlen_ge0 // ler_sqr ?nnegrE // subr_ge0 //.
Qed.
End Inv.
