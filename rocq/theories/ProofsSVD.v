(** * Householder reduction and accumulation (lemmas for C86) *)
From mathcomp Require Import all_ssreflect all_algebra.
From mathcomp Require Import ring zify.
From Verif Require Import OrdLra Outcome ModelSVD SpecSVD.
Set Implicit Arguments. Unset Strict Implicit. Unset Printing Implicit Defensive.
Import Order.TTheory GRing.Theory Num.Theory.
Local Open Scope ring_scope.

Section Proofs.
Variable R : rcfType.
Implicit Types (F G U V : arr2 R) (w rv : arr1 R).

Lemma mx_eq m n F G : (forall k j, (0 < k <= m)%N -> (0 < j <= n)%N -> F k j = G k j) -> mx m n F = mx m n G.
Proof. by move=> h; apply/matrixP => i j; rewrite !mxE; apply: h; rewrite /= ltn_ord. Qed.
Lemma mx_tr m n F : (mx m n F)^T = mx n m (flip F).
Proof. by apply/matrixP => i j; rewrite !mxE. Qed.
Lemma sum_ord1 (f : nat -> R) n : \sum_(i < n) f i.+1 = \sum_(1 <= i < n.+1) f i.
Proof. by rewrite big_add1 /= big_mkord. Qed.

(** sign and pythag *)
Lemma sign_sq (a b : R) : sign a b ^+ 2 = a ^+ 2.
Proof. by rewrite /sign; case: ifP => _; rewrite ?sqrrN ?real_normK ?num_real. Qed.
Lemma sign_mul (a b : R) : b * sign a b = `|b| * `|a|.
Proof.
rewrite /sign; case: ifP => [h|/negbT h]; first by rewrite (ger0_norm h).
by rewrite (@ltr0_norm _ b) ?ltNge // mulrN mulNr.
Qed.
Lemma pythag_sq (a b : R) : pythag a b ^+ 2 = a ^+ 2 + b ^+ 2.
Proof.
have h (x y : R) : x != 0 -> (`|x| * Num.sqrt (1 + `|y| / `|x| * (`|y| / `|x|))) ^+ 2 = x ^+ 2 + y ^+ 2.
  move=> x0; have hx : `|x| != 0 by rewrite normr_eq0.
  have hp : 0 <= 1 + `|y| / `|x| * (`|y| / `|x|) by rewrite addr_ge0 // -expr2 sqr_ge0.
  have -> : x ^+ 2 = `|x| ^+ 2 by rewrite real_normK ?num_real.
  have -> : y ^+ 2 = `|y| ^+ 2 by rewrite real_normK ?num_real.
  by rewrite exprMn sqr_sqrtr //; move: hx; move: `|x| `|y| => X Y hx; field.
rewrite /pythag; case: ifP => [hab|/negbT].
  by apply: h; rewrite -normr_gt0; apply: le_lt_trans hab.
rewrite -leNgt; case: ifP => [/eqP hb|hb _].
  rewrite hb normr_le0 => /eqP ->; move/eqP: hb; rewrite normr_eq0 => /eqP ->.
  by rewrite expr0n /= addr0.
by rewrite [RHS]addrC; apply: h; rewrite -normr_eq0 hb.
Qed.
Lemma pythag_ge0 (a b : R) : 0 <= pythag a b.
Proof. by rewrite /pythag; case: ifP => _; [|case: ifP => _ //]; rewrite mulr_ge0 ?sqrtr_ge0. Qed.
Lemma pythag_eq0 (a b : R) : (pythag a b == 0) = (a == 0) && (b == 0).
Proof. by rewrite -sqrf_eq0 pythag_sq paddr_eq0 ?sqr_ge0 // !sqrf_eq0. Qed.

(** Householder matrices *)
Definition hv m (lo : nat) (a : arr1 R) : 'cV[R]_m := \col_k (if (lo <= k.+1)%N then a k.+1 else 0).
Definition hmx m (c : R) (v : 'cV[R]_m) : 'M[R]_m := 1%:M + c *: (v *m v^T).
Lemma hmx_tr m c (v : 'cV[R]_m) : (hmx c v)^T = hmx c v.
Proof. by rewrite /hmx linearD /= trmx1 linearZ /= trmx_mul trmxK. Qed.
Lemma hmx0 m (v : 'cV[R]_m) : hmx 0 v = 1%:M.
Proof. by rewrite /hmx scale0r addr0. Qed.
Lemma hmx_orth m c (v : 'cV[R]_m) : c * (2%:R + c * sqlen v) = 0 -> hmx c v *m hmx c v = 1%:M.
Proof.
move=> h; have e : v^T *m v = (sqlen v)%:M.
  by apply/matrixP => i j; rewrite !ord1 !mxE; apply: eq_bigr => k _; rewrite mxE expr2.
rewrite {1}/hmx mulmxDl mul1mx /hmx mulmxDr mulmx1 -!addrA -[RHS]addr0; congr (_ + _).
rewrite -scalemxAl -scalemxAr -mulmxA [v^T *m (_ *m _)]mulmxA e mul_scalar_mx -scalemxAr !scalerA -!scalerDl.
by rewrite (_ : c + _ = 0) ?scale0r //; rewrite -h; ring.
Qed.
Lemma sum_lo m lo (f : nat -> R) : (0 < lo)%N -> \sum_(i < m) (if (lo <= i.+1)%N then f i.+1 else 0) = \sum_(lo <= i < m.+1) f i.
Proof.
move=> l0; rewrite (sum_ord1 (fun i => if (lo <= i)%N then f i else 0)) -big_mkcond /=.
case: (leqP lo m) => h; last first.
  rewrite [RHS]big_geq // big_nat_cond big_pred0 // => i; apply/negP; lia.
rewrite (@big_cat_nat _ _ _ lo) //=; last exact: leqW.
rewrite big_nat_cond big_pred0 ?add0r; last by move=> i; apply/negP; lia.
by rewrite big_nat_cond [RHS]big_nat_cond; apply: eq_bigl => i; case: (lo <= i)%N; rewrite /= ?andbT ?andbF.
Qed.
Lemma hl_mx m n c lo (a : arr1 R) F : (0 < lo)%N ->
  hmx c (hv m lo a) *m mx m n F =
  mx m n (fun k j => F k j + c * (if (lo <= k)%N then a k else 0) * \sum_(lo <= l < m.+1) a l * F l j).
Proof.
move=> l0; rewrite /hmx mulmxDl mul1mx -scalemxAl -mulmxA; apply/matrixP => i j; rewrite !mxE big_ord1 !mxE.
congr (_ + _); rewrite -mulrA; congr (_ * (_ * _)); rewrite -(sum_lo _ _ l0).
by apply: eq_bigr => k _; rewrite !mxE; case: ifP => _ //; rewrite mul0r.
Qed.
Lemma hr_mx m n c lo (a : arr1 R) F : (0 < lo)%N ->
  mx m n F *m hmx c (hv n lo a) =
  mx m n (fun k j => F k j + c * (if (lo <= j)%N then a j else 0) * \sum_(lo <= l < n.+1) a l * F k l).
Proof.
move=> l0; apply: trmx_inj; rewrite trmx_mul hmx_tr !mx_tr hl_mx //.
Qed.
Lemma sqlen_hv m lo (a : arr1 R) : (0 < lo)%N -> sqlen (hv m lo a) = \sum_(lo <= k < m.+1) a k ^+ 2.
Proof.
by move=> l0; rewrite -(sum_lo _ _ l0); apply: eq_bigr => i _; rewrite mxE; case: ifP => // _; rewrite expr0n.
Qed.

(** one reflection *)
Lemma reflectP lo hi p jlo jhi U : (0 < lo)%N -> ~~ within jlo jhi p ->
  let: (scale, g, U') := reflect lo hi p jlo jhi U in
  let c := (U' lo p * (scale * g))^-1 in
  [/\ c * (2%:R + c * \sum_(lo <= k < hi.+1) U' k p ^+ 2) = 0,
   forall k j, within lo hi k -> within jlo jhi j ->
     U' k j = U k j + c * U' k p * \sum_(lo <= l < hi.+1) U' l p * U l j,
   forall k, within lo hi k ->
     U k p + c * U' k p * (\sum_(lo <= l < hi.+1) U' l p * U l p) = (if k == lo then scale * g else 0) &
   forall k j, ~~ within lo hi k || (j != p) && ~~ within jlo jhi j -> U' k j = U k j].
Proof.
move=> l0 hp; pose scale := \sum_(lo <= k < hi.+1) `|U k p|.
case sc0: (scale != 0); last first.
  have -> : reflect lo hi p jlo jhi U = (0, 0, U) by rewrite /reflect -/scale sc0.
  move/negbFE/eqP: sc0 => sc0.
  have z k : within lo hi k -> U k p = 0.
    move=> hk; apply/eqP; rewrite -normr_eq0; apply/eqP.
    have := sc0; rewrite /scale big_nat_cond => /eqP; rewrite psumr_eq0 => [|i _]; last exact: normr_ge0.
    move/allP/(_ k); rewrite mem_index_iota ltnS => /(_ hk) /implyP h; apply/eqP; apply: h.
    by move: hk; rewrite /within /=; lia.
  rewrite !mulr0 invr0; split=> //; first by rewrite mul0r.
  - by move=> k j _ _; rewrite !mul0r addr0.
  - by move=> k hk; rewrite !mul0r addr0 z //; case: ifP.
case: (leqP lo hi) => hlh; last by move: sc0; rewrite /scale big_geq ?eqxx.
pose x k := U k p / scale.
pose U1 : arr2 R := fun k j => if (j == p) && within lo hi k then U k p / scale else U k j.
pose s := \sum_(lo <= k < hi.+1) U1 k p * U1 k p; pose f := U1 lo p.
pose g := - sign (Num.sqrt s) f; pose h := f * g - s.
pose U2 : arr2 R := fun k j => if (j == p) && (k == lo) then f - g else U1 k j.
pose U3 : arr2 R := fun k j =>
  if within jlo jhi j && within lo hi k
  then U2 k j + (\sum_(lo <= l < hi.+1) U2 l p * U2 l j) / h * U2 k p else U2 k j.
pose U4 : arr2 R := fun k j => if (j == p) && within lo hi k then U3 k p * scale else U3 k j.
have -> : reflect lo hi p jlo jhi U = (scale, g, U4) by rewrite /reflect -/scale sc0.
have wl : within lo hi lo by rewrite /within leqnn.
have fE : f = x lo by rewrite /f /U1 eqxx wl.
have sE : s = \sum_(lo <= k < hi.+1) x k ^+ 2.
  by apply: eq_big_nat => k hk; rewrite /U1 eqxx /within -ltnS hk -expr2.
set T := \sum_(lo.+1 <= k < hi.+1) x k ^+ 2.
have sT : s = f ^+ 2 + T by rewrite sE big_ltn // fE.
have T0 : 0 <= T by apply: sumr_ge0 => k _; exact: sqr_ge0.
have s0 : 0 <= s by rewrite sT addr_ge0 ?sqr_ge0.
have gg : g ^+ 2 = s by rewrite /g sqrrN sign_sq sqr_sqrtr.
have fg : f * g <= 0 by rewrite /g mulrN sign_mul oppr_le0 mulr_ge0.
have sn : s != 0.
  apply/negP => /eqP e; move/negP: (sc0); apply; apply/eqP; rewrite /scale big_nat_cond big1 // => k /andP [hk _].
  have hk2 : x k ^+ 2 = 0.
    move: e; rewrite sE big_nat_cond => /eqP; rewrite psumr_eq0 => [|i _]; last exact: sqr_ge0.
    move/allP/(_ k); rewrite mem_index_iota => /(_ hk) /implyP hh; apply/eqP; apply: hh.
    by rewrite hk.
  move/eqP: hk2; rewrite sqrf_eq0 /x mulf_eq0 invr_eq0 => /orP [/eqP -> |/eqP]; first by rewrite normr0.
  by move/eqP; rewrite -/scale => /eqP hs; move: sc0; rewrite hs eqxx.
have h0 : h != 0.
  have : h <= - s by rewrite /h -[X in _ <= X]add0r ler_add2r.
  by move=> h1; apply/negP => /eqP e; move: h1; rewrite e oppr_ge0 => h1; move/negP: sn; apply; rewrite eq_le h1.
pose v k := if k == lo then f - g else x k.
have e1 k : within lo hi k -> U4 k p = v k * scale.
  by move=> hk; rewrite /U4 eqxx hk /U3 (negbTE hp) /= /U2 eqxx /= /v /U1 eqxx hk.
have e2 k j : within lo hi k -> within jlo jhi j -> U4 k j = U k j + (\sum_(lo <= l < hi.+1) v l * U l j) / h * v k.
  move=> hk hj; have jp : (j == p) = false by apply/negP => /eqP e; move/negP: hp; apply; rewrite -e.
  rewrite /U4 jp /= /U3 hj hk /= /U2 jp eqxx /= /U1 jp eqxx /= hk; congr (_ + _ / _ * _).
  by apply: eq_big_nat => l hl; rewrite /within -ltnS hl /v.
have e3 k j : ~~ within lo hi k || (j != p) && ~~ within jlo jhi j -> U4 k j = U k j.
  case/orP => [hk|/andP [/negbTE hj hj2]].
    have nl : (k == lo) = false by apply/negP => /eqP e; move: hk; rewrite e wl.
    by rewrite /U4 (negbTE hk) andbF /U3 (negbTE hk) andbF /U2 nl andbF /U1 (negbTE hk) andbF.
  by rewrite /U4 hj /= /U3 (negbTE hj2) /= /U2 hj /= /U1 hj.
have rest (a : arr1 R) : \sum_(lo.+1 <= k < hi.+1) v k * a k = \sum_(lo.+1 <= k < hi.+1) x k * a k.
  by apply: eq_big_nat => k hk; rewrite /v ifN_eq //; lia.
have sv (a : arr1 R) : \sum_(lo <= l < hi.+1) U4 l p * a l = scale * ((f - g) * a lo + \sum_(lo.+1 <= k < hi.+1) x k * a k).
  rewrite -rest (_ : _ + _ = \sum_(lo <= k < hi.+1) v k * a k); last by rewrite [RHS]big_ltn // {2}/v eqxx.
  by rewrite mulr_sumr; apply: eq_big_nat => k hk; rewrite e1 ?mulrA 1?[scale * _]mulrC //; rewrite /within; lia.
have vv : \sum_(lo <= k < hi.+1) U4 k p ^+ 2 = - (2%:R * scale ^+ 2 * h).
  rewrite (_ : \sum_(_ <= _ < _) _ = \sum_(lo <= l < hi.+1) U4 l p * U4 l p); last by apply: eq_bigr => k _; rewrite expr2.
  rewrite sv e1 // (_ : \sum_(_ <= _ < _) _ = T * scale); last first.
    by rewrite mulr_suml; apply: eq_big_nat => k hk; rewrite e1 ?/v ?ifN_eq ?expr2 ?mulrA //; [lia|rewrite /within; lia].
  have -> : v lo = f - g by rewrite /v eqxx.
  have -> : T = s - f ^+ 2 by rewrite sT; ring.
  by rewrite /h -gg; ring.
have vx : \sum_(lo <= l < hi.+1) U4 l p * U l p = - (scale ^+ 2 * h).
  have ux k : U k p = x k * scale by rewrite /x mulfVK.
  rewrite (sv (fun l => U l p)) (_ : \sum_(_ <= _ < _) _ = T * scale); last first.
    by rewrite mulr_suml; apply: eq_big_nat => k hk; rewrite ux expr2 mulrA.
  have -> : T = s - f ^+ 2 by rewrite sT; ring.
  by rewrite ux -fE /h; ring.
have gn : g != 0 by rewrite -sqrf_eq0 gg.
have hE : h = (f - g) * g by rewrite /h -gg; ring.
have c0 : U4 lo p * (scale * g) = scale ^+ 2 * h by rewrite e1 // /v eqxx hE; ring.
cbv zeta; rewrite c0; split=> //.
- rewrite vv; have -> : 2%:R + (scale ^+ 2 * h)^-1 * - (2%:R * scale ^+ 2 * h) = 0 by field; rewrite h0 sc0.
  by rewrite mulr0.
- move=> k j hk hj; rewrite e2 // e1 // (sv (fun l => U l j)) -rest (_ : (f - g) * _ + _ = \sum_(lo <= k < hi.+1) v k * U k j).
    by field; rewrite h0 sc0.
  by rewrite [RHS]big_ltn // {2}/v eqxx.
- move=> k hk; rewrite vx e1 // /v; have ux : U k p = x k * scale by rewrite /x mulfVK.
  by rewrite ux; case: eqP => [->|_]; rewrite -?fE; field; rewrite h0 sc0.
Qed.
End Proofs.
