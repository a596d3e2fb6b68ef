(** * The theorem on [SVD] (lemmas for C86) *)
From mathcomp Require Import all_ssreflect all_algebra.
From mathcomp Require Import ring zify.
From Verif Require Import OrdLra Outcome ModelSVD SpecSVD ProofsSVD ProofsSVDBid ProofsSVDAcc ProofsSVDRot ProofsSVDIter ProofsSVDSweep ProofsSVDMain.
Set Implicit Arguments. Unset Strict Implicit. Unset Printing Implicit Defensive.
Import Order.TTheory GRing.Theory Num.Theory.
Local Open Scope ring_scope.

Section Norms.
Variable R : rcfType.
Lemma bb_sums m n a b (M : 'M[R]_(m, n)) : (forall j, \sum_i `|M i j| <= a) -> (forall i, \sum_j `|M i j| <= b) -> bb a b M.
Proof.
move=> ha hb x y.
have -> : (y^T *m M *m x) 0 0 = \sum_j \sum_i y i 0 * M i j * x j 0.
  by rewrite mxE; apply: eq_bigr => j _; rewrite mxE mulr_suml; apply: eq_bigr => i _; rewrite mxE.
have h (u v c : R) : 2%:R * (u * c * v) <= `|c| * v ^+ 2 + `|c| * u ^+ 2.
  have e1 : 0 <= `|c| * (`|u| - `|v|) ^+ 2 by rewrite mulr_ge0 ?sqr_ge0.
  have e2 : u * c * v <= `|c| * (`|u| * `|v|) by apply: le_trans (ler_norm _) _; rewrite !normrM mulrAC mulrC.
  have -> : v ^+ 2 = `|v| ^+ 2 by rewrite real_normK ?num_real.
  have -> : u ^+ 2 = `|u| ^+ 2 by rewrite real_normK ?num_real.
  move: e1 e2; move: `|c| `|u| `|v| (u * c * v) => C u' v' p e1 e2.
  have : 2%:R * p <= 2%:R * (C * (u' * v')) by rewrite ler_pmul2l ?ltr0n.
  by move=> h; apply: le_trans h _; rewrite -subr_ge0; apply: le_trans e1 _; rewrite le_eqVlt; apply/orP; left; apply/eqP; ring.
apply: (@le_trans _ _ (\sum_j \sum_i (`|M i j| * x j 0 ^+ 2 + `|M i j| * y i 0 ^+ 2))).
  by rewrite mulr_sumr; apply: ler_sum => j _; rewrite mulr_sumr; apply: ler_sum => i _; exact: h.
rewrite (eq_bigr (fun j => (\sum_i `|M i j|) * x j 0 ^+ 2 + \sum_i `|M i j| * y i 0 ^+ 2)); last first.
  by move=> j _; rewrite big_split /= mulr_suml.
rewrite big_split /=; apply: ler_add.
  by rewrite /sqlen mulr_sumr; apply: ler_sum => j _; apply: ler_wpmul2r; rewrite ?sqr_ge0.
rewrite exchange_big /= /sqlen mulr_sumr; apply: ler_sum => i _; rewrite -mulr_suml.
by apply: ler_wpmul2r; rewrite ?sqr_ge0.
Qed.
Lemma norm_entry m n a (M : 'M[R]_(m, n)) i j : 0 <= a -> norm_le a M -> `|M i j| <= a.
Proof.
move=> a0 h; have := h (delta_mx j 0); rewrite -colE.
have -> : sqlen (delta_mx j 0 : 'cV[R]_n) = 1.
  rewrite /sqlen (bigD1 j) //= big1 ?addr0; first by rewrite mxE !eqxx expr1n.
  by move=> k /negbTE nk; rewrite mxE nk expr0n.
rewrite mulr1 => h1; have : M i j ^+ 2 <= a ^+ 2.
  apply: le_trans h1; rewrite /sqlen (bigD1 i) //= mxE ler_addl; apply: sumr_ge0 => k _; exact: sqr_ge0.
by rewrite -real_normK ?num_real // ler_sqr ?nnegrE.
Qed.
Lemma norm_le_orth m n p q a (M : 'M[R]_(m, n)) (P : 'M[R]_(p, m)) (Q : 'M[R]_(n, q)) :
  (forall x, sqlen (P *m x) <= sqlen x) -> (forall x, sqlen (Q *m x) <= sqlen x) -> norm_le a M -> norm_le a (P *m M *m Q).
Proof.
move=> hP hQ h x; rewrite -!mulmxA; apply: le_trans (hP _) _; apply: le_trans (h _) _.
by apply: ler_wpmul2l; rewrite ?sqr_ge0.
Qed.
Lemma bb0 m n (M : 'M[R]_(m, n)) : norm_le 0 M -> M = 0.
Proof.
move=> h; apply/matrixP => i j; rewrite [RHS]mxE; apply/eqP; rewrite -normr_le0.
exact: norm_entry h.
Qed.
Lemma sqlenB m (e : R) (y z : 'cV[R]_m) : sqlen (e *: y - z) = e ^+ 2 * sqlen y + sqlen z - e * (2%:R * (y^T *m z) 0 0).
Proof.
rewrite mxE /sqlen mulr_sumr mulr_sumr mulr_sumr -big_split -sumrB /=.
have h (u v : R) : (e * u - v) ^+ 2 = e ^+ 2 * u ^+ 2 + v ^+ 2 - e * (2%:R * (u * v)) by ring.
by apply: eq_bigr => i _; rewrite !mxE; exact: h.
Qed.
Lemma norm_bb m n e (M : 'M[R]_(m, n)) : 0 <= e -> norm_le e M -> bb e e M.
Proof.
rewrite le_eqVlt => /orP [/eqP <-|e0] h x y.
  by rewrite (bb0 h) mulmx0 mul0mx mxE mulr0 !mul0r addr0.
set z := M *m x; have := sqlen_ge0 (e *: y - z).
have -> : sqlen (e *: y - z) = e ^+ 2 * sqlen y + sqlen z - e * (2%:R * (y^T *m M *m x) 0 0).
  by rewrite -mulmxA -/z sqlenB.
rewrite subr_ge0 => h1; rewrite -(ler_pmul2l e0); apply: le_trans h1 _.
rewrite mulrDr addrC !mulrA -expr2; apply: ler_add => //; exact: h.
Qed.
Lemma norm_leD m n a b (M N : 'M[R]_(m, n)) : 0 <= a -> 0 <= b -> norm_le a M -> norm_le b N -> norm_le (a + b) (M + N).
Proof.
move=> a0 b0 hM hN; apply: bb_norm; first by rewrite addr_ge0.
by apply: bbD; exact: norm_bb.
Qed.
Lemma norm_leN m n a (M : 'M[R]_(m, n)) : norm_le a M -> norm_le a (- M).
Proof. by move=> h x; rewrite mulNmx -scaleN1r sqlenZ sqrrN expr1n mul1r. Qed.
Lemma norm_mono m n a b (M : 'M[R]_(m, n)) : 0 <= a -> a <= b -> norm_le a M -> norm_le b M.
Proof.
move=> a0 ab h x; apply: le_trans (h x) _; apply: ler_wpmul2r; first exact: sqlen_ge0.
by rewrite ler_sqr ?nnegrE // (le_trans a0).
Qed.
Lemma sum1_le n (f : nat -> R) p : (forall k, k != p -> f k = 0) -> 0 <= f p -> \sum_(1 <= k < n.+1) f k <= f p.
Proof.
move=> h fp; case: (boolP (p \in index_iota 1 n.+1)) => hp.
  by rewrite (bigD1_seq p) ?iota_uniq //= big1 ?addr0 // => k /h.
rewrite big_seq big1 // => k hk; apply: h; apply: contraNneq hp => <-; exact: hk.
Qed.
End Norms.

Section Final.
Variables (R : rcfType) (m n : nat) (A : arr2 R) (w0 : arr1 R) (V0 : arr2 R).
Let b := bidiagonal m n A w0.
Let U := b_U b.
Let w := b_w b.
Let rv := b_rv b.
Let anorm := b_anorm b.
Let hb : binv m n A n b := bidiagonal_inv m n A w0.
Let rvE q : (q <= n)%N -> rvx b n q = rv q.
Proof. by move=> hq; rewrite /rvx /set1 ifN_eq //; lia. Qed.
Lemma rv1 : rv 1%N = 0.
Proof.
case: (posnP n) => h; last by rewrite -rvE // (bi_r1 hb).
by rewrite /rv /b /bidiagonal h.
Qed.
Lemma rv_small q : (m < q < n)%N -> rv q.+1 = 0.
Proof. by move=> hq; rewrite -rvE; [rewrite (bi_r0 hb) //; lia|lia]. Qed.
Lemma PL_big i : (m <= i)%N -> PL m U w i = PL m U w m.
Proof.
move=> h; rewrite -(subnK h); elim: (i - m)%N => // d ih.
by rewrite addSn /= HL_big ?mul1mx ?ih //; lia.
Qed.
Lemma PL_min : PL m U w (minn n m) = PL m U w n.
Proof. by case: (leqP n m) => h; [|rewrite [RHS]PL_big // ltnW]. Qed.
Lemma PL_orth i : (i <= n)%N -> orthonormal (PL m U w i).
Proof.
elim: i => [_|i ih hi]; first exact: orth1.
apply: orth_mul; last by apply: ih; lia.
have := bi_okL hb (_ : 0 < i.+1 <= n)%N; rewrite hi => /(_ isT) h.
by rewrite /orthonormal /HL hmx_tr; apply: hmx_orth; rewrite sqlen_hv.
Qed.
Lemma PR_orth i : (i <= n)%N -> orthonormal (PR n U (rvx b n) i).
Proof.
elim: i => [_|i ih hi]; first exact: orth1.
apply: orth_mul; first by apply: ih; lia.
have := bi_okR hb (_ : 0 < i.+1 <= n)%N; rewrite hi => /(_ isT) h.
by rewrite /orthonormal /HR hmx_tr; apply: hmx_orth; rewrite sqlen_hv.
Qed.
Lemma PR_rv : PR n U rv n = PR n U (rvx b n) n.
Proof.
have h i : (i <= n)%N -> PR n U rv i = PR n U (rvx b n) i.
  elim: i => // i ih hi /=; rewrite ih; last by lia.
  move: (hi); rewrite leq_eqVlt => /orP [/eqP e|hi2]; first by rewrite !HR_big ?e.
  by congr (_ *m _); rewrite /HR /cr rvE.
exact: h.
Qed.

(** rows that [U] has are kept *)
Definition Im : 'M[R]_(m, n) := mx m n (@dlt R).
Lemma ImT x : (Im^T *m x) = \col_(i < n) (if insub (val i) is Some k then x k 0 else 0) :> 'cV[R]_n.
Proof.
apply/matrixP => i j; rewrite !ord1 !mxE; case: insubP => [k _ e|h].
  rewrite (bigD1 k) //= big1 ?addr0; first by rewrite !mxE /dlt -e eqxx mul1r.
  by move=> l nl; rewrite !mxE dlt0 ?mul0r // eqSS -e; apply: contraNneq nl => /ord_inj ->.
rewrite big1 // => l _; rewrite !mxE dlt0 ?mul0r //; have := ltn_ord l; move: h; rewrite eqSS /=; lia.
Qed.
Lemma Im_contr x : sqlen (Im^T *m x) <= sqlen x.
Proof.
rewrite ImT /sqlen.
have e k (f : nat -> R) : \sum_(i < k) f i = \sum_(0 <= i < k) f i by rewrite big_mkord.
pose f i : R := if insub i is Some k then x k 0 ^+ 2 else 0.
have f0 i : 0 <= f i by rewrite /f; case: insubP => // *; exact: sqr_ge0.
rewrite (eq_bigr (fun i : 'I_n => f i)); last by move=> i _; rewrite mxE /f; case: insubP => // _; rewrite expr0n.
rewrite [X in _ <= X](eq_bigr (fun i : 'I_m => f i)); last by move=> i _; rewrite /f valK.
rewrite !e; case: (leqP n m) => h.
  by rewrite (big_cat_nat _ _ _ (leq0n n) h) /= ler_addl sumr_ge0.
rewrite (big_cat_nat _ _ _ (leq0n m) (ltnW h)) /= [X in _ + X]big_nat [X in _ + X]big1 ?addr0 //.
by move=> i hi; rewrite /f insubF //; lia.
Qed.
Lemma Im_contr2 (x : 'cV[R]_n) : sqlen (Im *m x) <= sqlen x.
Proof.
have h := sqr_ge0 (1 : R).
have e : Im *m x = \col_(i < m) (if insub (val i) is Some k then x k 0 else 0).
  apply/matrixP => i j; rewrite !ord1 !mxE; case: insubP => [k _ e|h'].
    rewrite (bigD1 k) //= big1 ?addr0; first by rewrite !mxE /dlt -e eqxx mul1r.
    by move=> l nl; rewrite !mxE dlt0 ?mul0r // eqSS -e; apply: contraNneq nl => /ord_inj ->.
  rewrite big1 // => l _; rewrite !mxE dlt0 ?mul0r //; have := ltn_ord l; move: h'; rewrite eqSS /=; lia.
rewrite e /sqlen.
have e' k (f : nat -> R) : \sum_(i < k) f i = \sum_(0 <= i < k) f i by rewrite big_mkord.
pose f i : R := if insub i is Some k then x k 0 ^+ 2 else 0.
have f0 i : 0 <= f i by rewrite /f; case: insubP => // *; exact: sqr_ge0.
rewrite (eq_bigr (fun i : 'I_m => f i)); last by move=> i _; rewrite mxE /f; case: insubP => // _; rewrite expr0n.
rewrite [X in _ <= X](eq_bigr (fun i : 'I_n => f i)); last by move=> i _; rewrite /f valK.
rewrite !e'; case: (leqP m n) => hmn.
  by rewrite (big_cat_nat _ _ _ (leq0n m) hmn) /= ler_addl sumr_ge0.
rewrite (big_cat_nat _ _ _ (leq0n n) (ltnW hmn)) /= [X in _ + X]big_nat [X in _ + X]big1 ?addr0 //.
by move=> i hi; rewrite /f insubF //; lia.
Qed.
Lemma Im_orth : (n <= m)%N -> orthonormal Im.
Proof.
move=> h; rewrite /orthonormal; apply/matrixP => i j.
have im : (i < m)%N by have := ltn_ord i; lia.
rewrite !mxE (bigD1 (Ordinal im)) //= big1 ?addr0.
  by rewrite !mxE /= dltE mul1r /dlt eqSS.
by move=> k nk; rewrite !mxE dlt0 ?mul0r // eqSS; apply: contraNneq nk => e; apply/eqP/val_inj.
Qed.
Lemma Im_proj : Im^T *m Im = \matrix_(i, j) (if (i < m)%N then (i == j)%:R else 0).
Proof.
apply/matrixP => i j; rewrite !mxE; case: ltnP => im.
  rewrite (bigD1 (Ordinal im)) //= big1 ?addr0; first by rewrite !mxE /= dltE mul1r /dlt eqSS.
  by move=> k nk; rewrite !mxE dlt0 ?mul0r // eqSS; apply: contraNneq nk => e; apply/eqP/val_inj.
by rewrite big1 // => k _; rewrite !mxE dlt0 ?mul0r // eqSS; have := ltn_ord k; lia.
Qed.
Lemma Im_contr3 (x : 'cV[R]_n) : sqlen ((1%:M - Im^T *m Im) *m x) <= sqlen x.
Proof.
rewrite /sqlen; apply: ler_sum => i _; rewrite mulmxBl mul1mx Im_proj !mxE.
have -> : \sum_j (\matrix_(i, j) (if (i < m)%N then (i == j)%:R else 0) : 'M[R]_n) i j * x j 0 = if (i < m)%N then x i 0 else 0.
  rewrite (bigD1 i) //= big1 ?addr0; first by rewrite mxE eqxx; case: ifP => _; rewrite ?mul1r ?mul0r.
  by move=> k nk; rewrite mxE eq_sym (negbTE nk) if_same mul0r.
by case: ifP => _; rewrite ?subrr ?subr0 // expr0n sqr_ge0.
Qed.
Definition Bm : 'M[R]_n := mx n n (bid w rv).
Lemma Im_B : Im *m Bm = mx m n (bid w (rvx b n)).
Proof.
rewrite /Im /Bm mul_mx; apply: mx_eq => k j hk hj.
have -> : bid w (rvx b n) k j = bid w rv k j by rewrite /bid; case: ifP => // _; rewrite rvE //; lia.
rewrite (eq_bigr (fun l => bid w rv l j * dlt R l k)); last by move=> l _; rewrite mulrC /dlt eq_sym.
case: (leqP k n) => kn; first by rewrite (sum_dlt (fun l => bid w rv l j)) //; lia.
rewrite big_nat big1; first by rewrite /bid; bdec.
by move=> l hl; rewrite dlt0 ?mulr0 //; lia.
Qed.
(** the bidiagonal form has no rows below those of [A] *)
Lemma ImI_B : Im^T *m (Im *m Bm) = Bm.
Proof.
rewrite Im_B; apply/matrixP => i j; rewrite mxE.
case: (ltnP i m) => im.
  rewrite (bigD1 (Ordinal im)) //= big1 ?addr0.
    by rewrite !mxE /= dltE mul1r /bid; case: ifP => // _; rewrite rvE //; have := ltn_ord j; lia.
  by move=> k nk; rewrite !mxE dlt0 ?mul0r // eqSS; apply: contraNneq nk => e; apply/eqP/val_inj.
rewrite big1; last by move=> k _; rewrite !mxE dlt0 ?mul0r // eqSS; have := ltn_ord k; lia.
rewrite mxE /bid; case: eqP => [e|_].
  by rewrite /w (bi_w0 hb) //; have := ltn_ord j; lia.
case: eqP => // e; have hj : (m < i.+1 < n)%N by have := ltn_ord j; lia.
by rewrite -e rv_small.
Qed.
Lemma bid_factor : mx m n A = (PL m U w n)^T *m Im *m Bm *m (PR n U rv n)^T.
Proof.
have e := bi_eq hb; rewrite -/U -/w in e.
have -> : (PL m U w n)^T *m Im *m Bm = (PL m U w n)^T *m mx m n (bid w (rvx b n)) by rewrite -mulmxA Im_B.
have -> : mx m n (bid w (rvx b n)) = mx m n (act n U w (rvx b n)).
  by apply: mx_eq => k j hk hj; rewrite /act ifT //; lia.
rewrite -e PR_rv !mulmxA (PL_orth (leqnn n)) mul1mx -mulmxA.
by have := orth_tr (PR_orth (leqnn n)); rewrite /orthonormal trmxK => ->; rewrite mulmx1.
Qed.
Lemma B_bound : bb anorm (2%:R * anorm) Bm.
Proof.
have an q : (0 < q <= n)%N -> `|w q| + `|rv q| <= anorm by move=> hq; rewrite -rvE; [apply: (bi_an hb)|lia].
have le_bid k j : `|bid w rv k j| <= (if k == j then `|w j| else 0) + (if k.+1 == j then `|rv j| else 0).
  by rewrite /bid; case: eqP => _; [|case: eqP => _]; rewrite ?normr0 ?add0r ?ler_addl //; case: ifP.
apply: bb_sums.
- move=> j; apply: le_trans (_ : _ <= \sum_(i < n) ((if i.+1 == j.+1 then `|w j.+1| else 0) + (if i.+2 == j.+1 then `|rv j.+1| else 0))) _.
    by apply: ler_sum => i _; rewrite mxE; exact: le_bid.
  rewrite big_split /= -/(\sum_(i < n) (fun k => if k.+1 == j.+1 then `|w j.+1| else 0) i).
  apply: le_trans (an j.+1 _); last by rewrite /= ltn_ord.
  apply: ler_add.
    rewrite (sum_ord1 (fun k => if k == j.+1 then `|w j.+1| else 0)).
    apply: le_trans (@sum1_le _ _ _ j.+1 _ _) _; rewrite ?eqxx // => k hk; by rewrite (negbTE hk).
  rewrite (sum_ord1 (fun k => if k.+1 == j.+1 then `|rv j.+1| else 0)).
  by apply: le_trans (@sum1_le _ _ _ j _ _) _; rewrite ?eqxx // => k hk; rewrite eqSS (negbTE hk).
- move=> i; apply: le_trans (_ : _ <= \sum_(j < n) ((if i.+1 == j.+1 then `|w j.+1| else 0) + (if i.+2 == j.+1 then `|rv j.+1| else 0))) _.
    by apply: ler_sum => j _; rewrite mxE; exact: le_bid.
  rewrite big_split /= mulr2n mulrDl !mul1r; apply: ler_add.
    rewrite (sum_ord1 (fun j => if i.+1 == j then `|w j| else 0)).
    apply: le_trans (@sum1_le _ _ _ i.+1 _ _) _; [by move=> k hk; rewrite eq_sym (negbTE hk)|by rewrite eqxx|rewrite eqxx].
    by apply: le_trans (an i.+1 _); rewrite ?ler_addl //= ltn_ord.
  rewrite (sum_ord1 (fun j => if i.+2 == j then `|rv j| else 0)).
  case: (leqP i.+2 n) => hi.
    apply: le_trans (@sum1_le _ _ _ i.+2 _ _) _; [by move=> k hk; rewrite eq_sym (negbTE hk)|by rewrite eqxx|rewrite eqxx].
    by apply: le_trans (an i.+2 _); rewrite ?ler_addr //=.
  rewrite big_nat big1 ?(bi_an0 hb) // => k hk; rewrite ifN_eq //; lia.
Qed.
(** [anorm] and the size of the matrix *)
Lemma bid_norm a : 0 <= a -> norm_le a (mx m n A) -> norm_le a (mx m n (bid w (rvx b n))).
Proof.
  move=> a0 ha; have e := bi_eq hb; rewrite -/U -/w in e.
  have -> : mx m n (bid w (rvx b n)) = mx m n (act n U w (rvx b n)).
    by apply: mx_eq => k j hk hj; rewrite /act ifT //; lia.
  by rewrite -e; apply: norm_le_orth => // x; rewrite sqlen_orth //; (exact: PL_orth || exact: PR_orth).
Qed.
Lemma B_norm a : 0 <= a -> norm_le a (mx m n A) -> norm_le a Bm.
Proof.
move=> a0 ha; rewrite -ImI_B Im_B => x; rewrite -mulmxA; apply: le_trans (Im_contr _) _.
exact: (bid_norm a0 ha).
Qed.
Lemma anorm_le a : 0 <= a -> norm_le a (mx m n A) -> anorm <= 2%:R * a.
Proof.
move=> a0 ha; apply: (bi_anU hb); first by rewrite mulr_ge0 ?ler0n.
have hB := bid_norm a0 ha.
have ent k j : (0 < k <= m)%N -> (0 < j <= n)%N -> `|bid w (rvx b n) k j| <= a.
  move=> hk hj; have k1 : (k.-1 < m)%N by lia.
  have j1 : (j.-1 < n)%N by lia.
  have := norm_entry (Ordinal k1) (Ordinal j1) a0 hB; rewrite mxE /= !prednK //; lia.
move=> q hq; rewrite mulr2n mulrDl mul1r; apply: ler_add.
  case: (leqP q m) => qm; last by rewrite (bi_w0 hb) ?normr0 //; lia.
  by have := ent q q; rewrite /bid eqxx; apply; lia.
case: (leqP q 1) => q1; first by have -> : q = 1%N by [lia]; rewrite (bi_r1 hb) normr0.
case: (leqP q m.+1) => qm.
  have := ent q.-1 q; rewrite /bid ifN_eq; last by lia.
  by have -> : q.-1.+1 == q by [lia]; apply; lia.
have -> : q = q.-1.+1 by lia.
by rewrite (bi_r0 hb) ?normr0 //; lia.
Qed.

Variables (eqv : R -> R -> bool) (tol : R).
Hypothesis tol0 : 0 <= tol.
Hypothesis eqv_refl : forall x, eqv x x.
Hypothesis eqv_close : close_le eqv tol.
Hypothesis small : (450 * n)%:R * tol < 2%:R^-1.
Let e := (450 * n)%:R * (tol * anorm).

Lemma svdP : exists ok w' U' V',
  [/\ svd eqv m n A w0 V0 = Ok (ok, w', U', V'),
   orthonormal (mx n n V'), (n <= m)%N -> orthonormal (mx m n U'), norm_le 1 (mx m n U') &
   if ok then [/\ forall i, (0 < i <= n)%N -> 0 <= w' i,
      forall a, 0 <= a -> norm_le a (mx m n A) -> norm_le (a + e) (dmx n w'),
      norm_le e (mx m n A - mx m n U' *m dmx n w' *m (mx n n V')^T) &
      norm_le e ((mx m n U')^T *m mx m n U' *m dmx n w' - dmx n w')]
   else forall i, w' i = 0].
Proof.
have an0 : 0 <= anorm by apply: (bi_an0 hb).
have e0 : 0 <= e by rewrite /e !mulr_ge0 ?ler0n.
rewrite /svd -/b -/U -/w -/rv -/anorm.
have [V1 [-> eV]] := @right_accP R m n U rv rv_small V0; cbn [obind].
have eU : mx m n (left_acc m n w U) = (PL m U w n)^T *m Im.
  rewrite left_accP ?PL_min // => q hq; apply: (bi_nz hb); lia.
set Ul := left_acc m n w U in eU *.
have qo := orth_tr (PL_orth (leqnn n)).
have qo2 := PL_orth (leqnn n).
have vo : orthonormal (mx n n V1) by rewrite eV PR_rv; exact: PR_orth.
have st0 : sinv tol anorm (mx m n Ul) (mx n n V1) Bm n 0 (SState w rv Ul V1).
  split=> /=; [|exact: rv1|by move=> l; lia].
  exists 1%:M, 1%:M, 0; split; [exact: orth1|exact: orth1|by rewrite mulmx1|by rewrite mulmx1|].
  split; last by move=> x y; rewrite !mul0r addr0 mulmx0 mul0mx mxE mulr0.
  rewrite trmx1 mulmx1 mul1mx addr0; apply: mx_eq => k j hk hj; rewrite /bid /cut; case: ifP => // _; case: ifP => // _.
  by rewrite ifT //; lia.
have [|ok [st [-> hF hok]]] := @diagonaliseP R m n eqv tol anorm (mx m n Ul) (mx n n V1) Bm tol0 an0 B_bound (eqv_refl _) eqv_close n (leqnn n) 0%N _ st0.
  by rewrite add0n mulnA.
have uo : (n <= m)%N -> orthonormal (mx m n Ul) by move=> h; rewrite eU; apply: orth_mul => //; exact: Im_orth.
rewrite /=; exists ok, (if ok then s_w st else fun=> 0), (s_U st), (s_V st); split=> //.
- by case: hF => F [L [Q [E [h1 h2 h3 h4 _]]]]; rewrite h4; apply: orth_mul.
- by move=> h; case: hF => F [L [Q [E [h1 h2 h3 h4 _]]]]; rewrite h3; apply: orth_mul => //; exact: uo.
- case: hF => F [L [Q [E [h1 h2 h3 h4 _]]]] x; rewrite h3 expr1n mul1r eU -!mulmxA sqlen_orth //.
  by apply: le_trans (Im_contr2 _) _; rewrite sqlen_orth.
case: ok hok => hok //.
have [[L [Q [E [h1 h2 h3 h4 [h5 h6]]]]] _ h8] := hok isT.
have eD : mx n n (bid (s_w st) (cut 0 (s_rv st))) = dmx n (s_w st).
  apply/matrixP => i j; rewrite !mxE /bid eqSS; case: (i =P j) => [->|ne]; first by rewrite eqxx.
  by rewrite ifN_eq ?if_same //; apply/eqP => /ord_inj.
rewrite eD add0n mulnA -/e in h5 h6.
have L2 := orth_tr h1; rewrite /orthonormal trmxK in L2.
have hQ : L *m dmx n (s_w st) = (Bm - E) *m Q by rewrite h5 addrK -mulmxA h2 mulmx1.
have nE : norm_le e E by apply: bb_norm.
split=> //.
- move=> a a0 ha; have -> : dmx n (s_w st) = L^T *m (Bm - E) *m Q by rewrite -mulmxA -hQ mulmxA h1 mul1mx.
  apply: norm_le_orth; [by move=> x; rewrite sqlen_orth //; exact: orth_tr|by move=> x; rewrite sqlen_orth|].
  by apply: norm_leD => //; [exact: B_norm|exact: norm_leN].
- have -> : mx m n A - mx m n (s_U st) *m dmx n (s_w st) *m (mx n n (s_V st))^T = mx m n Ul *m E *m (mx n n V1)^T.
    have Q2 := orth_tr h2; rewrite /orthonormal trmxK in Q2.
    have eA : mx m n A = mx m n Ul *m Bm *m (mx n n V1)^T by rewrite bid_factor -eU -eV.
    rewrite eA h3 h4 trmx_mul -[_ *m L *m _]mulmxA hQ !mulmxA -[_ *m Q *m Q^T]mulmxA Q2 mulmx1.
    by rewrite -mulmxBl -mulmxBr opprB addrCA subrr addr0.
  apply: norm_le_orth => //.
  + by move=> x; rewrite eU -mulmxA sqlen_orth //; exact: Im_contr2.
  + by move=> x; rewrite sqlen_orth //; exact: orth_tr.
- have -> : (mx m n (s_U st))^T *m mx m n (s_U st) *m dmx n (s_w st) - dmx n (s_w st) = L^T *m ((1%:M - Im^T *m Im) *m E) *m Q.
    have d2 : dmx n (s_w st) = L^T *m ((Bm - E) *m Q) by rewrite -hQ mulmxA h1 mul1mx.
    rewrite {2}d2 h3 trmx_mul -!mulmxA hQ -mulmxBr; congr (_ *m _).
    have qq : PL m U w n *m (PL m U w n)^T = 1%:M by move: qo; rewrite /orthonormal trmxK.
    have e1 : (mx m n Ul)^T *m mx m n Ul = Im^T *m Im.
      by rewrite eU trmx_mul trmxK mulmxA -[_ *m _ *m (_)^T]mulmxA qq mulmx1.
    rewrite [X in X - _ = _]mulmxA e1 !mulmxA -mulmxBl; congr (_ *m _).
    rewrite mulmxBr -[_ *m _ *m Bm]mulmxA ImI_B mulmxBl mul1mx opprB.
    by rewrite addrC addrA subrK.
  apply: norm_le_orth.
  + by move=> x; rewrite sqlen_orth //; exact: orth_tr.
  + by move=> x; rewrite sqlen_orth.
  + by move=> x; rewrite -mulmxA; apply: le_trans (Im_contr3 _) _; exact: nE.
Qed.
End Final.
