(** * Properties of the singular value decomposition and of the pseudoinverse (C86-C88)

    [eqv] is the comparison [(x + anorm) == anorm] of the program.  It may take numbers
    for equal that differ by a relative [tol] ([close_le]); [tol] is 0 for exact
    comparisons and of the order of 2^-52 for comparisons after rounding. *)
From mathcomp Require Import all_ssreflect all_algebra.
From mathcomp Require Import ring zify.
From Verif Require Import OrdLra Outcome ModelSVD SpecSVD ProofsSVD ProofsSVDBid ProofsSVDAcc ProofsSVDRot ProofsSVDIter
  ProofsSVDSweep ProofsSVDMain ProofsSVDFinal ProofsSVDSafe ProofsSVDInv.
Set Implicit Arguments. Unset Strict Implicit. Unset Printing Implicit Defensive.
Import Order.TTheory GRing.Theory Num.Theory.
Local Open Scope ring_scope.

Section SVD.
Variable R : rcfType.
Implicit Types (A U V X : arr2 R) (w : arr1 R) (a tol epsilon : R).
Local Notation exactly := (fun x y : R => x == y).

Lemma exactly_refl x : exactly x x. Proof. exact: eqxx. Qed.
Lemma exactly_close : close_le exactly (0 : R).
Proof. by move=> a b _ /eqP ->; rewrite subrr normr0 mul0r. Qed.
Lemma exactly_small n : (450 * n)%:R * 0 < (2%:R^-1 : R).
Proof. by rewrite mulr0 invr_gt0 ltr0n. Qed.

(** ** C86: the decomposition
    [a] bounds the spectral norm of the matrix. *)
Theorem C86_decomposition (eqv : R -> R -> bool) tol m n A w0 V0 a : 0 <= tol -> (forall x, eqv x x) -> close_le eqv tol ->
  (450 * n)%:R * tol < 2%:R^-1 -> 0 <= a -> norm_le a (mx m n A) ->
  let e := (900 * n)%:R * tol * a in
  exists ok w U V, [/\ svd eqv m n A w0 V0 = Ok (ok, w, U, V),
    orthonormal (mx n n V), (n <= m)%N -> orthonormal (mx m n U), norm_le 1 (mx m n U) &
    if ok then [/\ forall i, (0 < i <= n)%N -> 0 <= w i, norm_le (a + e) (dmx n w),
      norm_le e (mx m n A - mx m n U *m dmx n w *m (mx n n V)^T) &
      norm_le e ((mx m n U)^T *m mx m n U *m dmx n w - dmx n w)]
    else forall i, w i = 0].
Proof.
move=> t0 er ec sm a0 ha e; have [ok [w [U [V [h1 h2 h3 h4 h5]]]]] := svdP m A w0 V0 t0 er ec sm.
have an := anorm_le w0 a0 ha; have an0 : 0 <= b_anorm (bidiagonal m n A w0) := bi_an0 (bidiagonal_inv m n A w0).
exists ok, w, U, V; split=> //; case: ok h1 h5 => // _ [k1 k2 k3 k4].
set e0 := (_ * (_ * _)) in k2 k3 k4.
have e00 : 0 <= e0 by rewrite !mulr_ge0 ?ler0n.
have le : e0 <= e.
  rewrite /e /e0; have -> : (900 * n)%:R * tol * a = (450 * n)%:R * (tol * (2%:R * a)).
    by rewrite (_ : 900 * n = 450 * n * 2)%N ?natrM; [ring|lia].
  by apply: ler_wpmul2l; rewrite ?ler0n // ler_wpmul2l.
split=> //; [|exact: norm_mono le k3|exact: norm_mono le k4].
apply: norm_mono (k2 _ a0 ha); [exact: addr_ge0|by rewrite ler_add2l].
Qed.

(** exact comparisons: whatever the program reports as a success is a singular value
    decomposition *)
Theorem C86_exact m n A w0 V0 w U V : svd exactly m n A w0 V0 = Ok (true, w, U, V) ->
  [/\ forall i, (0 < i <= n)%N -> 0 <= w i, mx m n A = mx m n U *m dmx n w *m (mx n n V)^T, orthonormal (mx n n V),
      (n <= m)%N -> orthonormal (mx m n U) & (mx m n U)^T *m mx m n U *m dmx n w = dmx n w].
Proof.
have [ok [w' [U' [V' [-> h2 h3 h4 h5]]]]] := svdP m A w0 V0 (lexx 0) exactly_refl exactly_close (exactly_small n).
case=> eo ew eU eV; subst ok w' U' V'; case: h5 => k1 _ k3 k4; rewrite mul0r mulr0 in k3 k4.
by split=> //; apply/eqP; rewrite -subr_eq0; apply/eqP; exact: bb0.
Qed.

(** the squares of the singular values are the eigenvalues of [A^T A], the columns of [V]
    its eigenvectors *)
Theorem C86_spectrum m n A w0 V0 w U V : svd exactly m n A w0 V0 = Ok (true, w, U, V) ->
  (mx m n A)^T *m mx m n A = mx n n V *m dmx n (fun i => w i ^+ 2) *m (mx n n V)^T.
Proof.
move=> /C86_exact [_ -> _ _ h]; rewrite !trmx_mul trmxK dmx_tr !mulmxA.
rewrite -(mulmxA _ (mx m n U)^T) -(mulmxA _ ((mx m n U)^T *m _)) h -(mulmxA _ (dmx n w) (dmx n w)) dmx_mul.
by congr (_ *m _ *m _); apply: dmx_eq => i _; rewrite expr2.
Qed.

(** one column: success, and the singular value is the length of the column *)
Theorem C86_column m A w0 V0 : exists w U V, svd exactly m 1 A w0 V0 = Ok (true, w, U, V) /\
  w 1%N = Num.sqrt (\sum_(1 <= k < m.+1) A k 1%N ^+ 2).
Proof.
have [w [U [V e]]] := svd_column m A w0 V0 exactly_refl; exists w, U, V; split=> //.
have [h0 _ vo _ _] := C86_exact e; have /matrixP /(_ 0 0) := C86_spectrum e.
rewrite [LHS]mxE (eq_bigr (fun k : 'I_m => A k.+1 1%N ^+ 2)); last by move=> k _; rewrite !mxE expr2.
rewrite big_add1 big_mkord => ->.
have /matrixP /(_ 0 0) := vo; rewrite !mxE !big_ord1 !mxE big_ord1 !mxE /= => v1.
have -> : V 1%N 1%N * w 1%N ^+ 2 * V 1%N 1%N = w 1%N ^+ 2 by rewrite mulrC mulrA v1 mul1r.
by rewrite sqrtr_sqr ger0_norm // h0.
Qed.

(** the column (3,4) has the singular value 5 *)
Definition C34 : arr2 R := fun i _ => if i == 1%N then 3%:R else 4%:R.
Example C86_column_ex w0 V0 : exists w U V,
  svd exactly 2 1 C34 w0 V0 = Ok (true, w, U, V) /\ w 1%N = 5%:R.
Proof.
have [w [U [V [e ew]]]] := C86_column 2 C34 w0 V0.
exists w, U, V; split=> //; rewrite ew big_ltn // big_nat1 /C34 /= -!natrX -natrD.
by rewrite (_ : 3 ^ 2 + 4 ^ 2 = 5 ^ 2)%N // natrX sqrtr_sqr ger0_norm ?ler0n.
Qed.

(** a comparison after rounding meets the hypotheses: for the precision 2^-52, take [k] = 41 *)
Example C86_rounding k n : (n <= 2 ^ k)%N -> let tol : R := 2%:R ^- (k + 11) in let eqv := fun x y : R => `|x - y| <= tol * `|y| in
  [/\ 0 <= tol, forall x, eqv x x, close_le eqv tol & (450 * n)%:R * tol < 2%:R^-1].
Proof.
move=> hn tol eqv; have p0 : (0 : R) < 2%:R ^+ (k + 11) by rewrite exprn_gt0 ?ltr0n.
have t0 : 0 < tol by rewrite invr_gt0.
split; first exact: ltW.
- by move=> x; rewrite /eqv subrr normr0 mulr_ge0 // ltW.
- by move=> x y y0; rewrite /eqv (ger0_norm y0).
rewrite /tol ltr_pdivr_mulr // mulrC ltr_pdivl_mulr ?ltr0n // -natrX -natrM ltr_nat expnD.
by apply: leq_ltn_trans (_ : 2 ^ k * 900 < _)%N; [rewrite (mulnC 450%N) -mulnA leq_mul2r hn orbT|rewrite ltn_pmul2l ?expn_gt0].
Qed.

(** a matrix with zero diagonal: the first rotation cancels the off-diagonal element *)
Definition A2 : arr2 R := fun k j => if (k == 1%N) && (j == 2%N) then 1 else 0.
Lemma A2_bid w0 : let b := bidiagonal 2 2 A2 w0 in [/\ b_w b 1%N = 0, b_w b 2%N = 0, b_rv b 2%N = -1 & b_anorm b = 1].
Proof.
rewrite /bidiagonal /=; set st := BState _ _ _ _ _ _.
have e1 : reflect 1 2 1 2 2 A2 = (0, 0, A2).
  by rewrite /reflect big_ltn // big_nat1 /A2 /= normr0 addr0 eqxx.
have [U2 [e2 u22]] : exists U2 : arr2 R, reflect 2 2 1 2 2 (flip A2) = (1, -1, U2) /\ U2 2%N 2%N = 0.
  rewrite /reflect !big_nat1 /= /flip /A2 /= normr1 oner_eq0 /=.
  have s1 : sign (Num.sqrt (1 / 1 * (1 / 1) : R)) (1 / 1) = 1 by rewrite /sign divr1 mulr1 sqrtr1 ler01 normr1.
  rewrite s1; eexists; split; first by [].
  by rewrite /= big_nat1 mulr0 mul0r mul0r addr0.
have b1 : bid_step 2 2 st 1 = BState (flip U2) (set1 w0 1 (0 * 0)) (set1 (fun=> 0) 1 (0 * 0)) 1 (-1) 0.
  rewrite /bid_step /= e1 e2 /=; congr BState; rewrite /set1 /= mul0r normr0 addr0 ltxx //.
rewrite b1.
have e3 : reflect 2 2 2 3 2 (flip U2) = (0, 0, flip U2).
  by rewrite /reflect big_nat1 /flip u22 normr0 eqxx.
by rewrite /bid_step /= e3 /= /set1 /= !mul0r mul1r normrN normr1 normr0 add0r ltNge ler01.
Qed.
Example C86_cancellation w0 V0 : exists w U V, svd exactly 2 2 A2 w0 V0 = Ok (true, w, U, V) /\ (w 1%N = 0 /\ w 2%N = 1).
Proof.
have [w1 w2 r2 an] := A2_bid w0.
rewrite /svd; set b := bidiagonal _ _ _ _ in w1 w2 r2 an *.
have [V1 [-> _]] := @right_accP R 2 2 (b_U b) (b_rv b) (@rv_small R 2 2 A2 w0) V0; cbn [obind].
have r1 : b_rv b 1%N = 0 := rv1 2 2 A2 w0.
rewrite -[rev _]/([:: 2; 1]%N) an diag_cons.
have n11 : (1 + 1 == 1 :> R) = false by rewrite -subr_eq0 addrK oner_eq0.
set st := SState _ _ _ _.
have p1 : pythag (1 * -1) 0 = 1 :> R.
  by rewrite /pythag mul1r normrN normr1 normr0 ltr01 mul0r mul0r addr0 sqrtr1 mulr1.
have [st' [-> [q1 q2 q3]]] : exists st', iterate (fun a b : R => a == b) 1 2 max_iter.-1 st = Ok (true, st') /\
    [/\ s_w st' 1%N = 0, s_w st' 2%N = 1 & s_rv st' 1%N = 0].
  case: (max_iter.-1) => [|l]; rewrite /= r2 normrN normr1 n11 w1 add0r normr1 eqxx /= r2 mul1r normrN normr1 n11 /= w2 -[X in pythag X 0]mul1r p1 /set1 /= ltNge ler01 /=;
    by eexists; split; first reflexivity; split.
cbn [obind]; rewrite [fst _]/= [snd _]/= diag_cons.
have [st2 [-> [q4 q5]]] : exists st2, iterate (fun a b : R => a == b) 1 1 max_iter.-1 st' = Ok (true, st2) /\
    s_w st2 1%N = 0 /\ s_w st2 2%N = 1.
  case: (max_iter.-1) => [|l]; rewrite /= q3 normr0 add0r eqxx /= q1 ltxx; by eexists; split; first reflexivity.
by exists (s_w st2), (s_U st2), (s_V st2); split.
Qed.

(** ** C87: no access outside the arrays, as long as a number equals itself *)
Theorem C87_safe (eqv : R -> R -> bool) m n A w0 V0 : (forall x, eqv x x) -> exists r, svd eqv m n A w0 V0 = Ok r.
Proof. exact: svd_ok. Qed.

(** not so when all comparisons fail, as they do for a NaN: [w(0)] is read *)
Theorem C87_nan_refuted m n A w0 V0 : (0 < n)%N ->
  ~ (forall eqv : R -> R -> bool, exists r, svd eqv m n A w0 V0 = Ok r).
Proof. by move=> n0 /(_ (fun _ _ => false)) [r]; rewrite svd_nan. Qed.

(** ** C88: the pseudoinverse *)
Definition cutoff epsilon w : arr1 R := fun i => if w i < epsilon then 0 else w i.
Definition cutinv epsilon w : arr1 R := fun i => if w i < epsilon then 0 else 1 / w i.

Lemma pinv_svd (eqv : R -> R -> bool) m n A epsilon w0 V0 X : pseudoinverse eqv m n A epsilon w0 V0 = Ok X ->
  exists w U V, svd eqv m n A w0 V0 = Ok (true, w, U, V) /\
    mx n m X = mx n n V *m dmx n (cutinv epsilon w) *m (mx m n U)^T.
Proof.
rewrite /pseudoinverse; case: svd => //= -[[[[] w] U] V] //= [<-].
by exists w, U, V; split=> //; rewrite -pinvE.
Qed.

(** the result is a Moore-Penrose inverse of a matrix [B] that is close to [A] *)
Theorem C88_moore_penrose (eqv : R -> R -> bool) tol m n A w0 V0 a epsilon X : 0 <= tol -> (forall x, eqv x x) ->
  close_le eqv tol -> (450 * n)%:R * tol < 2%:R^-1 -> 0 <= a -> norm_le a (mx m n A) -> (n <= m)%N \/ tol = 0 ->
  0 < epsilon -> pseudoinverse eqv m n A epsilon w0 V0 = Ok X ->
  exists2 B, moore_penrose B (mx n m X) & norm_le (epsilon + (900 * n)%:R * tol * a) (mx m n A - B).
Proof.
move=> t0 er ec sm a0 ha hmn ep /pinv_svd [w [U [V [e ->]]]].
have [ok [w' [U' [V' [h1 h2 h3 h4 h5]]]]] := C86_decomposition w0 V0 t0 er ec sm a0 ha.
move: h1; rewrite e => -[eo ew eU eV]; subst ok w' U' V'; case: h5 => k1 k2 k3 k4.
set U1 := mx m n U in h3 h4 k3 k4 *; set V1 := mx n n V in h2 k3 *; set er' := (900 * n)%:R * tol * a in k3 k4 *.
have e0 : 0 <= er' by rewrite !mulr_ge0 ?ler0n.
have ud : U1^T *m U1 *m dmx n (cutoff epsilon w) = dmx n (cutoff epsilon w).
  case: hmn => hmn; first by rewrite (h3 hmn) mul1mx.
  have -> : dmx n (cutoff epsilon w) = dmx n w *m dmx n (fun i => if w i < epsilon then 0 else 1).
    by rewrite dmx_mul; apply: dmx_eq => i _; rewrite /cutoff; case: ifP; rewrite ?mulr0 ?mulr1.
  rewrite mulmxA; congr (_ *m _); apply/eqP; rewrite -subr_eq0; apply/eqP; apply: bb0.
  by move: k4; rewrite /er' hmn mulr0 mul0r.
exists (U1 *m dmx n (cutoff epsilon w) *m V1^T).
  apply: mp_svd => // i _; rewrite /cutoff /cutinv; case: ltP => hw; [by left|right; split=> //].
  by rewrite gt_eqF // (lt_le_trans ep).
have -> : mx m n A - U1 *m dmx n (cutoff epsilon w) *m V1^T =
    U1 *m dmx n (fun i => w i - cutoff epsilon w i) *m V1^T + (mx m n A - U1 *m dmx n w *m V1^T).
  by rewrite -dmxB mulmxBr mulmxBl [RHS]addrC addrA subrK.
have ep0 := ltW ep; apply: norm_leD => //.
rewrite -[X in norm_le X _]mulr1 -[X in norm_le (X * _) _]mul1r; apply: norm_mul; first apply: norm_mul => //.
  apply: dmx_norm => // i hi; rewrite /cutoff; case: ltP => hw; last by rewrite subrr normr0.
  by rewrite subr0 ger0_norm ?k1 // ltW.
by apply: norm_tr; rewrite ?ler01 //; exact: norm_orthonormal.
Qed.

(** the result never has a norm above [1/epsilon] *)
Theorem C88_bound (eqv : R -> R -> bool) tol m n A w0 V0 epsilon X : 0 <= tol -> (forall x, eqv x x) ->
  close_le eqv tol -> (450 * n)%:R * tol < 2%:R^-1 -> 0 < epsilon ->
  pseudoinverse eqv m n A epsilon w0 V0 = Ok X -> norm_le (1 / epsilon) (mx n m X).
Proof.
move=> t0 er ec sm ep /pinv_svd [w [U [V [e ->]]]].
have [ok [w' [U' [V' [h1 h2 h3 h4 h5]]]]] := svdP m A w0 V0 t0 er ec sm.
move: h1; rewrite e => -[eo ew eU eV]; subst ok w' U' V'.
have i0 : 0 <= 1 / epsilon by rewrite divr_ge0 ?ler01 // ltW.
rewrite -[X in norm_le X _]mulr1 -[X in norm_le (X * _) _]mul1r; apply: norm_mul; last by apply: norm_tr; rewrite ?ler01.
apply: norm_mul; first exact: norm_orthonormal.
apply: dmx_norm => // i _; rewrite /cutinv; case: ltP => hw; first by rewrite normr0.
have w_gt0 := lt_le_trans ep hw; rewrite ger0_norm ?divr_ge0 ?ler01 ?(ltW w_gt0) // !div1r.
by rewrite lef_pinv ?posrE.
Qed.

(** a matrix that shrinks no vector below [epsilon] (and the errors) is inverted without the cut-off *)
Theorem C88_inverse (eqv : R -> R -> bool) tol m n A w0 V0 a epsilon X : 0 <= tol -> (forall x, eqv x x) ->
  close_le eqv tol -> (450 * n)%:R * tol < 2%:R^-1 -> 0 <= a -> norm_le a (mx m n A) -> (n <= m)%N ->
  let e := (900 * n)%:R * tol * a in
  0 < epsilon -> (forall x, (epsilon + e) ^+ 2 * sqlen x <= sqlen (mx m n A *m x)) ->
  pseudoinverse eqv m n A epsilon w0 V0 = Ok X ->
  exists2 B, moore_penrose B (mx n m X) & norm_le e (mx m n A - B).
Proof.
move=> t0 er ec sm a0 ha hmn e' ep hlow /pinv_svd [w [U [V [e ->]]]].
have [ok [w' [U' [V' [h1 h2 h3 h4 h5]]]]] := C86_decomposition w0 V0 t0 er ec sm a0 ha.
move: h1; rewrite e => -[eo ew eU eV]; subst ok w' U' V'; case: h5 => k1 k2 k3 k4.
have e0 : 0 <= e' by rewrite !mulr_ge0 ?ler0n.
exists (mx m n U *m dmx n w *m (mx n n V)^T) => //.
have uo := h3 hmn; have ep0 := ltW ep.
apply: mp_svd => // [|i hi]; first by rewrite uo mul1mx.
suff hw : epsilon <= w i.
  by rewrite /cutinv ltNge hw; right; split=> //; rewrite gt_eqF // (lt_le_trans ep).
have hi2 : (i.-1 < n)%N by clear -hi; case: i hi.
pose d : 'cV[R]_n := delta_mx (Ordinal hi2) 0; pose x := mx n n V *m d.
have sd : sqlen d = 1.
  rewrite /sqlen (bigD1 (Ordinal hi2)) //= big1 ?addr0; first by rewrite mxE !eqxx expr1n.
  by move=> k nk; rewrite mxE (negbTE nk) expr0n.
have sx : sqlen x = 1 by rewrite sqlen_orth.
have := @sqlen_sub R m (epsilon + e') e' (mx m n A *m x) (mx m n U *m dmx n w *m (mx n n V)^T *m x) e0.
rewrite ler_addr => /(_ ep0); have := hlow x; rewrite sx mulr1 => hl /(_ hl).
have := k3 x; rewrite sx mulr1 mulmxBl => hk /(_ hk).
rewrite addrK -!mulmxA sqlen_orth // [(mx n n V)^T *m _]mulmxA h2 mul1mx sqlen_dmx (bigD1 (Ordinal hi2)) //= big1 ?addr0.
  rewrite mxE !eqxx mulr1 prednK; last by clear -hi; case: i hi.
  by rewrite ler_sqr ?nnegrE // k1.
by move=> k nk; rewrite mxE (negbTE nk) mulr0 expr0n.
Qed.

(** exact comparisons: it is the Moore-Penrose inverse of [A] and a left inverse *)
Theorem C88_left_inverse m n A w0 V0 epsilon X : (n <= m)%N -> 0 < epsilon ->
  (forall x, epsilon ^+ 2 * sqlen x <= sqlen (mx m n A *m x)) -> pseudoinverse exactly m n A epsilon w0 V0 = Ok X ->
  moore_penrose (mx m n A) (mx n m X) /\ mx n m X *m mx m n A = 1%:M.
Proof.
move=> hmn ep hl hX; have [w [U [V [e eX]]]] := pinv_svd hX.
have [k1 eA vo uo _] := C86_exact e.
pose a := \sum_(i < n) w i.+1.
have a0 : 0 <= a by apply: sumr_ge0 => i _; apply: k1; rewrite /= ltn_ord.
have ha : norm_le a (mx m n A).
  rewrite eA -[X in norm_le X _]mulr1 -[X in norm_le (X * _) _]mul1r; apply: norm_mul; first apply: norm_mul.
  - exact: norm_orthonormal (uo hmn).
  - apply: dmx_norm => // i hi; rewrite ger0_norm ?k1 //.
    have hi2 : (i.-1 < n)%N by clear -hi; case: i hi.
    rewrite /a (bigD1 (Ordinal hi2)) //= prednK; last by clear -hi; case: i hi.
    by rewrite ler_addl; apply: sumr_ge0 => j _; apply: k1; rewrite /= ltn_ord.
  - by apply: norm_tr; rewrite ?ler01 //; exact: norm_orthonormal.
have [|B mB hB] := C88_inverse (lexx 0) exactly_refl exactly_close (exactly_small n) a0 ha hmn ep _ hX.
  by rewrite mulr0 mul0r addr0.
rewrite mulr0 mul0r in hB; have eB := bb0 hB; move/eqP: eB; rewrite subr_eq0 => /eqP eB; rewrite -eB in mB.
split=> //; apply/eqP; rewrite -subr_eq0; apply/eqP/matrixP => i j.
set Y := _ - _; have hy : mx m n A *m Y = 0 by rewrite mulmxBr mulmx1 mulmxA (mp_inner mB) subrr.
have := hl (col j Y); rewrite colE mulmxA hy mul0mx.
have -> : sqlen (0 : 'cV[R]_m) = 0 by rewrite /sqlen big1 // => k _; rewrite mxE expr0n.
rewrite -colE pmulr_rle0 ?exprn_gt0 // => h0.
have : Y i j ^+ 2 <= 0.
  have ec : col j Y i 0 = Y i j by rewrite [LHS]mxE.
  apply: le_trans h0; rewrite -ec /sqlen (bigD1 i) //= ler_addl; apply: sumr_ge0 => k _; exact: sqr_ge0.
by rewrite [RHS]mxE => h; apply/eqP; rewrite -sqrf_eq0; apply/eqP/le_anti; rewrite h sqr_ge0.
Qed.

(** the Moore-Penrose inverse is unique *)
Theorem C88_unique m n (B : 'M[R]_(m, n)) (C D : 'M[R]_(n, m)) : moore_penrose B C -> moore_penrose B D -> C = D.
Proof. exact: mp_unique. Qed.

(** a matrix whose norm is below [epsilon] is taken for zero *)
Theorem C88_small_refuted (eqv : R -> R -> bool) tol m n A w0 V0 a epsilon X : 0 <= tol -> (forall x, eqv x x) ->
  close_le eqv tol -> (450 * n)%:R * tol < 2%:R^-1 -> 0 <= a -> norm_le a (mx m n A) ->
  a + (900 * n)%:R * tol * a < epsilon -> pseudoinverse eqv m n A epsilon w0 V0 = Ok X -> mx n m X = 0.
Proof.
move=> t0 er ec sm a0 ha hs /pinv_svd [w [U [V [e ->]]]].
have [ok [w' [U' [V' [h1 h2 h3 h4 h5]]]]] := C86_decomposition w0 V0 t0 er ec sm a0 ha.
move: h1; rewrite e => -[eo ew eU eV]; subst ok w' U' V'; case: h5 => k1 k2 k3 k4.
have e0 : 0 <= a + (900 * n)%:R * tol * a by rewrite addr_ge0 // !mulr_ge0 ?ler0n.
have -> : dmx n (cutinv epsilon w) = 0.
  apply/matrixP => i j; rewrite !mxE; case: eqP => // _; rewrite /cutinv ifT //; apply: le_lt_trans hs.
  by apply: le_trans (norm_entry i i e0 k2); rewrite mxE eqxx ler_norm.
by rewrite mulmx0 mul0mx.
Qed.

(** in particular with the default [epsilon], 0.01: the 1x1 matrix 0.001, whose inverse is
    1000, has the "pseudoinverse" 0 *)
Theorem C88_default_refuted w0 V0 : exists A X, [/\ pseudoinverse exactly 1 1 A (100%:R^-1) w0 V0 = Ok X,
  mx 1 1 A \in unitmx, invmx (mx 1 1 A) = 1000%:R%:M & mx 1 1 X = 0].
Proof.
pose A : arr2 R := fun _ _ => 1000%:R^-1.
have [w [U [V [e _]]]] := C86_column 1 A w0 V0.
have [X eX] : exists X, pseudoinverse exactly 1 1 A (100%:R^-1) w0 V0 = Ok X by rewrite /pseudoinverse e /=; eexists.
have p : (0 : R) < 1000%:R by rewrite ltr0n.
have eA : mx 1 1 A = (1000%:R^-1)%:M by apply/matrixP => i j; rewrite !mxE !ord1 eqxx.
have uA : mx 1 1 A \in unitmx by rewrite eA unitmxE det_scalar1 unitfE invr_eq0 gt_eqF.
exists A, X; split=> //; first by rewrite eA invmx_scalar invrK.
have := @C88_small_refuted exactly 0 1 1 A w0 V0 1000%:R^-1 100%:R^-1 X (lexx 0) exactly_refl exactly_close (exactly_small 1).
apply=> //; first by rewrite invr_ge0 ltW.
  by move=> x; rewrite eA mul_scalar_mx sqlenZ.
by rewrite mulr0 mul0r addr0 ltf_pinv ?posrE ?ltr0n // ltr_nat.
Qed.

(** the hypotheses of [C88_left_inverse] are met by the column (3,4) *)
Example C88_column_ex w0 V0 : exists X,
  pseudoinverse exactly 2 1 C34 (100%:R^-1) w0 V0 = Ok X /\
  mx 1 2 X *m mx 2 1 C34 = 1%:M.
Proof.
have [w [U [V [e _]]]] := C86_column 2 C34 w0 V0.
have [X eX] : exists X, pseudoinverse exactly 2 1 C34 (100%:R^-1) w0 V0 = Ok X by rewrite /pseudoinverse e /=; eexists.
exists X; split=> //; apply: (C88_left_inverse _ _ _ eX).2 => //; first by rewrite invr_gt0 ltr0n.
move=> x; rewrite /sqlen big_ord1 big_ord_recl big_ord1 !mxE !big_ord1 !mxE /C34 /= !exprMn -mulrDl.
apply: ler_wpmul2r; first exact: sqr_ge0.
apply: (@le_trans _ _ 1); last by rewrite -!natrX -natrD ler1n.
by rewrite expr_le1 // ?invr_ge0 ?ler0n // invf_le1 ?ltr0n // ler1n.
Qed.
End SVD.

Print Assumptions C86_decomposition.
Print Assumptions C86_exact.
Print Assumptions C86_spectrum.
Print Assumptions C86_column.
Print Assumptions C87_safe.
Print Assumptions C87_nan_refuted.
Print Assumptions C88_moore_penrose.
Print Assumptions C88_bound.
Print Assumptions C88_inverse.
Print Assumptions C88_left_inverse.
Print Assumptions C88_unique.
Print Assumptions C88_small_refuted.
Print Assumptions C88_default_refuted.
