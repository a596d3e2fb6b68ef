(** * Lemmas about quadratic forms and (semi)definite matrices *)
From mathcomp Require Import all_ssreflect all_algebra.
From mathcomp Require Import ring.
From Verif Require Import OrdLra SpecMatrix ModelMatrix.
Set Implicit Arguments. Unset Strict Implicit. Unset Printing Implicit Defensive.
Import Order.TTheory GRing.Theory Num.Theory.
Local Open Scope ring_scope.

Section Matrix.
Variable R : realFieldType.

Lemma mx11P (A B : 'M[R]_1) : A 0 0 = B 0 0 -> A = B.
Proof. by move=> h; apply/matrixP=> i j; rewrite !ord1. Qed.
Lemma tr11 (A : 'M[R]_1) : A^T = A. Proof. by apply: mx11P; rewrite mxE. Qed.

Lemma sym_lowerE n (M : 'M[R]_n) : symmetric M -> sym_lower M = M.
Proof.
move=> h; apply/matrixP=> i j; rewrite mxE; case: ifP => // _.
by move/matrixP: h => /(_ i j); rewrite mxE.
Qed.
Lemma sym_upperE n (M : 'M[R]_n) : symmetric M -> sym_upper M = M.
Proof.
move=> h; apply/matrixP=> i j; rewrite mxE; case: ifP => // _.
by move/matrixP: h => /(_ i j); rewrite mxE.
Qed.
Lemma sym_lower_sym n (M : 'M[R]_n) : symmetric (sym_lower M).
Proof.
apply/matrixP=> i j; rewrite !mxE; case: (ltngtP i j) => // h.
by rewrite (ord_inj h).
Qed.
Lemma sym_upper_sym n (M : 'M[R]_n) : symmetric (sym_upper M).
Proof.
apply/matrixP=> i j; rewrite !mxE; case: (ltngtP i j) => // h.
by rewrite (ord_inj h).
Qed.

Lemma qfD n (A B : 'M[R]_n) v : qf (A + B) v = qf A v + qf B v.
Proof. by rewrite /qf mulmxDr mulmxDl mxE. Qed.
Lemma qfN n (A : 'M[R]_n) v : qf (- A) v = - qf A v.
Proof. by rewrite /qf mulmxN mulNmx mxE. Qed.
Lemma qfB n (A B : 'M[R]_n) v : qf (A - B) v = qf A v - qf B v.
Proof. by rewrite qfD qfN. Qed.
Lemma qf0 n (v : 'cV[R]_n) : qf 0 v = 0.
Proof. by rewrite /qf mulmx0 mul0mx mxE. Qed.
Lemma qfZ n a (A : 'M[R]_n) v : qf (a *: A) v = a * qf A v.
Proof. by rewrite /qf -scalemxAr -scalemxAl mxE. Qed.
(** congruence: v'(B A B')v = (B'v)' A (B'v) *)
Lemma qf_cong n m (A : 'M[R]_n) (B : 'M[R]_(m, n)) v : qf (B *m A *m B^T) v = qf A (B^T *m v).
Proof. by rewrite /qf trmx_mul trmxK !mulmxA. Qed.
Lemma qfv0 n (A : 'M[R]_n) : qf A 0 = 0.
Proof. by rewrite /qf mulmx0 mxE. Qed.
Lemma qf1 n (v : 'cV[R]_n) : qf 1%:M v = \sum_i v i 0 ^+ 2.
Proof. by rewrite /qf mulmx1 mxE; apply: eq_bigr => i _; rewrite mxE expr2. Qed.
Lemma qf1_ge0 n (v : 'cV[R]_n) : 0 <= qf 1%:M v.
Proof. by rewrite qf1; apply: sumr_ge0 => i _; exact: sqr_ge0. Qed.
Lemma qf1_eq0 n (v : 'cV[R]_n) : qf 1%:M v = 0 -> v = 0.
Proof.
rewrite qf1 => /eqP; rewrite psumr_eq0; last by move=> i _; exact: sqr_ge0.
move/allP=> h; apply/matrixP=> i j; rewrite ord1 mxE.
by have := h i (mem_index_enum _); rewrite sqrf_eq0 => /eqP.
Qed.
(** outer products *)
Lemma qf_outer n (d v : 'cV[R]_n) : qf (d *m d^T) v = ((d^T *m v) 0 0) ^+ 2.
Proof.
have -> : d *m d^T = d *m 1%:M *m d^T by rewrite mulmx1.
by rewrite qf_cong /qf mulmx1 mxE big_ord1 mxE expr2.
Qed.

Lemma symD n (A B : 'M[R]_n) : symmetric A -> symmetric B -> symmetric (A + B).
Proof. by rewrite /symmetric linearD /= => -> ->. Qed.
Lemma symB n (A B : 'M[R]_n) : symmetric A -> symmetric B -> symmetric (A - B).
Proof. by rewrite /symmetric linearB /= => -> ->. Qed.
Lemma symZ n a (A : 'M[R]_n) : symmetric A -> symmetric (a *: A).
Proof. by rewrite /symmetric linearZ /= => ->. Qed.
Lemma sym0 n : symmetric (0 : 'M[R]_n). Proof. exact: trmx0. Qed.
Lemma sym1 n : symmetric (1%:M : 'M[R]_n). Proof. exact: trmx1. Qed.
Lemma sym_cong n m (A : 'M[R]_n) (B : 'M[R]_(m, n)) : symmetric A -> symmetric (B *m A *m B^T).
Proof. by rewrite /symmetric !trmx_mul trmxK mulmxA => ->. Qed.
Lemma sym_inv n (A : 'M[R]_n) : symmetric A -> symmetric (invmx A).
Proof. by rewrite /symmetric trmx_inv => ->. Qed.

Lemma psdD n (A B : 'M[R]_n) : psd A -> psd B -> psd (A + B).
Proof. by move=> [a1 a2] [b1 b2]; split; [exact: symD|move=> v; rewrite qfD addr_ge0]. Qed.
Lemma psd0 n : psd (0 : 'M[R]_n). Proof. by split; [exact: sym0|move=> v; rewrite qf0]. Qed.
Lemma psdZ n a (A : 'M[R]_n) : 0 <= a -> psd A -> psd (a *: A).
Proof. by move=> ha [a1 a2]; split; [exact: symZ|move=> v; rewrite qfZ mulr_ge0]. Qed.
Lemma psd_cong n m (A : 'M[R]_n) (B : 'M[R]_(m, n)) : psd A -> psd (B *m A *m B^T).
Proof. by move=> [a1 a2]; split; [exact: sym_cong|move=> v; rewrite qf_cong]. Qed.
Lemma psd_outer n (d : 'cV[R]_n) : psd (d *m d^T).
Proof.
split; last by move=> v; rewrite qf_outer sqr_ge0.
by rewrite /symmetric trmx_mul trmxK.
Qed.
Lemma psd_gram n m (B : 'M[R]_(m, n)) : psd (B *m B^T).
Proof.
have -> : B *m B^T = B *m 1%:M *m B^T by rewrite mulmx1.
by apply: psd_cong; split; [exact: sym1|exact: qf1_ge0].
Qed.
Lemma pd_psd n (A : 'M[R]_n) : pd A -> psd A.
Proof.
move=> [h1 h2]; split=> // v; case: (v =P 0) => [->|/eqP hv]; first by rewrite qfv0.
by apply: ltW; apply: h2.
Qed.
Lemma pdD_psd n (A B : 'M[R]_n) : psd A -> pd B -> pd (A + B).
Proof.
move=> [a1 a2] [b1 b2]; split; first exact: symD.
by move=> v hv; rewrite qfD; apply: ltr_paddl; [exact: a2|exact: b2].
Qed.
Lemma pd1 n : pd (1%:M : 'M[R]_n).
Proof.
split; first exact: sym1; move=> v hv; rewrite lt_neqAle qf1_ge0 andbT eq_sym.
by apply/eqP=> /qf1_eq0 h; rewrite h eqxx in hv.
Qed.
(** a positive definite matrix is invertible *)
Lemma pd_unit n (A : 'M[R]_n) : pd A -> A \in unitmx.
Proof.
case: n A => [|n] A; first by move=> _; rewrite unitmxE (flatmx0 A) det_mx00 unitr1.
move=> [hs hA]; rewrite -row_free_unit -kermx_eq0; apply: contraT => hk.
have [u /submxP [D hD] hu0] : exists2 u : 'rV[R]_n.+1, (u <= kermx A)%MS & u != 0.
  case/rowV0Pn: hk => u hu hu0; by exists u.
have hu : u *m A = 0 by rewrite hD -mulmxA mulmx_ker mulmx0.
have hv : u^T != 0 by apply: contra hu0 => /eqP h; rewrite -[u]trmxK h trmx0.
by have := hA _ hv; rewrite /qf trmxK hu mul0mx mxE ltxx.
Qed.
Lemma pd_inv n (A : 'M[R]_n) : pd A -> pd (invmx A).
Proof.
move=> hA; have hu := pd_unit hA; case: (hA) => hs hp; split; first exact: sym_inv.
move=> v hv; pose w := invmx A *m v.
have hw : w != 0.
  apply: contra hv => /eqP h; apply/eqP.
  by rewrite -[v](mulKVmx hu) -/w h mulmx0.
have := hp w hw; suff -> : qf A w = qf (invmx A) v by [].
rewrite /qf /w trmx_mul trmx_inv hs -!mulmxA (mulmxA A) mulmxV // mul1mx.
by rewrite !mulmxA.
Qed.
Lemma mle_refl n (A : 'M[R]_n) : mle A A.
Proof. by rewrite /mle subrr; exact: psd0. Qed.
Lemma mle_trans n (A B C : 'M[R]_n) : mle A B -> mle B C -> mle A C.
Proof. by move=> h1 h2; rewrite /mle -(subrK B C) -addrA; exact: psdD. Qed.
Lemma mle_qf n (A B : 'M[R]_n) v : mle A B -> qf A v <= qf B v.
Proof. by case=> _ /(_ v); rewrite qfB subr_ge0. Qed.
(** diagonal entries of a psd matrix *)
Lemma qf_delta n (A : 'M[R]_n) i : qf A (delta_mx i 0) = A i i.
Proof.
rewrite /qf trmx_delta -rowE mxE (bigD1 i) //= !mxE !eqxx mulr1 big1 ?addr0 // => j hj.
by rewrite !mxE (negbTE hj) mulr0.
Qed.
Lemma psd_diag n (A : 'M[R]_n) i : psd A -> 0 <= A i i.
Proof. by case=> _ h; rewrite -qf_delta. Qed.
End Matrix.
