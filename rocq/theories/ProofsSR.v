(** * Lemmas about the Cholesky factorisation and the square-root filter *)
From mathcomp Require Import all_ssreflect all_algebra.
From mathcomp Require Import ring zify.
From Verif Require Import Outcome OrdLra SpecMatrix ModelMatrix ProofsMatrix ModelFilter ProofsFilter ModelKalman
  SpecKalman ProofsKalman ModelSR SpecSR.
Set Implicit Arguments. Unset Strict Implicit. Unset Printing Implicit Defensive.
Import Order.TTheory GRing.Theory Num.Theory.
Local Open Scope ring_scope.

Section Cholesky.
Variables (R : rcfType) (eps : R) (n : nat).
Hypotheses (e0 : 0 < eps) (e1 : eps <= 1).
Implicit Types (A a : 'M[R]_n) (v w : 'cV[R]_n).

(** the columns finished before step [k] and what they do not yet explain *)
Definition low (k : nat) a : 'M[R]_n := \matrix_(i, j) (if ((j <= i) && (j < k))%N then a i j else 0).
Definition resid A k a : 'M[R]_n := A - low k a *m (low k a)^T.

(** state of column [j] once finished *)
Definition col_done A k a (i j : 'I_n) : Prop :=
  (low k a j j != 0 /\ resid A k a i j = 0) \/
  [/\ low k a i j = 0, low k a j j = 0, `|resid A k a j j| < eps &
      (psd A -> resid A k a i j ^+ 2 <= eps * A i i)].

Definition inv A k a : Prop :=
  [/\ forall i j : 'I_n, (k <= j <= i)%N -> a i j = resid A k a i j,
      forall i, 0 <= low k a i i,
      forall v, (forall i : 'I_n, (i < k)%N -> v i 0 = 0) ->
        exists2 w : 'cV[R]_n, (forall i : 'I_n, (k <= i)%N -> w i 0 = v i 0) & qf (resid A k a) v = qf A w &
      forall i j : 'I_n, (j < k)%N -> (j <= i)%N -> col_done A k a i j].

Lemma low0 a : low 0 a = 0. Proof. by apply/matrixP => i j; rewrite !mxE andbF. Qed.
Lemma inv0 A : inv A 0 A.
Proof.
have e : resid A 0 A = A by rewrite /resid low0 mul0mx subr0.
by split=> [i j _|i|v _|i j //]; rewrite ?e ?low0 ?mxE //; exists v.
Qed.
Lemma residE A k a i j : resid A k a i j = A i j - \sum_m low k a i m * low k a j m.
Proof. by rewrite /resid 2!mxE; congr (_ - _); rewrite mxE; apply: eq_bigr => m _; rewrite [_^T m j]mxE. Qed.
Lemma resid_sym A k a : symmetric A -> symmetric (resid A k a).
Proof. by move=> sA; apply: symB => //; rewrite /symmetric trmx_mul trmxK. Qed.

Lemma qf_entry A v : qf A v = \sum_i \sum_j v i 0 * A i j * v j 0.
Proof.
rewrite /qf mxE exchange_big /=; apply: eq_bigr => j _; rewrite mxE mulr_suml.
by apply: eq_bigr => i _; rewrite mxE.
Qed.

Lemma qf_scale A t v : qf A (t *: v) = t ^+ 2 * qf A v.
Proof. by rewrite /qf [(t *: v)^T]linearZ /= -!scalemxAl -scalemxAr scalerA mxE -expr2. Qed.

Section Step.
Variables (A a : 'M[R]_n) (k : 'I_n).
Hypotheses (sA : symmetric A) (hi : inv A k a).
Let E := resid A k a.
Let sE : symmetric E. Proof. exact: resid_sym. Qed.
Let symE i j : E i j = E j i. Proof. by rewrite -[in LHS]sE mxE. Qed.

(** one more column [l] *)
Lemma step_resid (a' : 'M[R]_n) (l : 'cV[R]_n) :
  (forall i j : 'I_n, (j <= i)%N -> (j < k)%N -> a' i j = a i j) ->
  (forall i : 'I_n, (k <= i)%N -> a' i k = l i 0) -> (forall i : 'I_n, (i < k)%N -> l i 0 = 0) ->
  (forall i j, low k.+1 a' i j = if j == k then l i 0 else low k a i j) /\
  (forall i j, resid A k.+1 a' i j = E i j - l i 0 * l j 0).
Proof.
move=> h1 h2 h3.
have hl i j : low k.+1 a' i j = if j == k then l i 0 else low k a i j.
  rewrite !mxE ltnS; case: (j =P k) => [->|/eqP hj].
    by rewrite leqnn andbT; case: leqP => [/h2|/h3] ->.
  rewrite [(j <= k)%N]leq_eqVlt (_ : (j == k :> nat) = false) /=; last exact/negbTE.
  by case: andP => // -[p q]; rewrite h1.
split=> // i j; rewrite /E !residE -addrA -opprD; congr (_ - _).
rewrite (bigD1 k) //= [in RHS](bigD1 k) //= !hl !eqxx (_ : low k a i k = 0); last by rewrite mxE ltnn andbF.
rewrite mul0r add0r addrC; congr (_ + _).
by apply: eq_bigr => m hm; rewrite !hl (negbTE hm).
Qed.

Lemma pivot_pos : (exists2 w : 'cV[R]_n, w k 0 = 1 & a k k = qf A w) /\ a k k = E k k.
Proof.
have [h1 _ h3 _] := hi; have e : a k k = E k k by rewrite h1 ?leqnn.
split=> //; have [|w hw he] := h3 (delta_mx k 0).
  by move=> i hik; rewrite mxE andbC /= (_ : (i == k) = false) //; apply/negbTE; rewrite -val_eqE ltn_eqF.
by exists w; [rewrite hw // mxE !eqxx|rewrite e -qf_delta].
Qed.

Lemma step_inv a' : chol_step eps k a = Some a' -> inv A k.+1 a' /\
  (low k.+1 a' k k = 0 \/ eps <= a k k /\ low k.+1 a' k k = Num.sqrt (a k k)).
Proof.
rewrite /chol_step; lazy zeta; have [_ ek] := pivot_pos; have [h1 h2 h3 h4] := hi.
have nk (i : 'I_n) : (k < i)%N -> (i == k) = false by move=> h; apply/negbTE; rewrite -val_eqE gtn_eqF.
have nk' (i : 'I_n) : (i < k)%N -> (i == k) = false by move=> h; apply/negbTE; rewrite -val_eqE ltn_eqF.
case hr: ((a k k < eps) && (- eps < a k k)).
- (* rounded pivot *)
  rewrite ltxx sqrtr0 e0 => -[<-]; set a'' := (\matrix_(i, j) _ : 'M[R]_n).
  have [||i hik|hl hres] := step_resid (a' := a'') (l := 0) _ _ _.
  + move=> i j hji hjk; rewrite mxE ltnNge (ltnW hjk) /= mxE.
    by rewrite (_ : (j == k) = false) //; apply/negbTE; rewrite -val_eqE ltn_eqF.
  + move=> i; rewrite leq_eqVlt mxE ltnn /= mxE eqxx [RHS]mxE => /orP[/eqP/val_inj <-|h]; first by rewrite eqxx.
    by rewrite h (_ : (i == k) = false) //; apply/negbTE; rewrite -val_eqE gtn_eqF.
  + by rewrite mxE.
  have {}hres i j : resid A k.+1 a'' i j = E i j by rewrite hres [(0 : 'cV[R]_n) i 0]mxE mul0r subr0.
  have eR : resid A k.+1 a'' = E by apply/matrixP.
  have lk i : low k.+1 a'' i k = 0 by rewrite hl eqxx mxE.
  have lo (i j : 'I_n) : (j < k)%N -> low k.+1 a'' i j = low k a i j.
    by move=> h; rewrite hl (_ : (j == k) = false) //; apply/negbTE; rewrite -val_eqE ltn_eqF.
  split; last by left; rewrite lk.
  split.
  + move=> i j /andP[hkj hji]; have hki := leq_trans hkj hji.
    rewrite hres /E -h1 ?hji ?(ltnW hkj) // mxE hkj hji /= !mxE eqxx !nk //.
    by rewrite hkj hki mulr0 subr0.
  + by move=> i; rewrite hl; case: eqP => [_|_ //]; rewrite mxE.
  + move=> v hv; have [|w hw he] := h3 v; first by move=> i hik; apply: hv; rewrite ltnW // ltnS ltnW.
    by exists w; [move=> i hik; apply: hw; rewrite ltnW|rewrite eR].
  + move=> i j; rewrite ltnS leq_eqVlt => /orP[/eqP/val_inj ->|hjk] hji.
      right; rewrite !lk !hres; split=> //; first by rewrite -ek ltr_norml andbC.
      move=> pA; have pos v : (forall i : 'I_n, (i < k)%N -> v i 0 = 0) -> 0 <= qf E v.
        by move=> /h3[w _ ->]; case: pA.
      set t := E i k / eps.
      have := pos (delta_mx i 0 - t *: delta_mx k 0); rewrite qf_sub // qf_delta => hq.
      have hb : bf E (delta_mx i 0) (t *: delta_mx k 0) = t * E i k.
        by rewrite /bf -scalemxAr mxE trmx_delta -rowE -colE !mxE.
      have hc : qf E (t *: delta_mx k 0) = t ^+ 2 * E k k.
        by rewrite qf_scale qf_delta.
      have hii : E i i <= A i i.
        rewrite /E residE ler_subl_addr ler_addl; apply: sumr_ge0 => m _.
        by rewrite -expr2 sqr_ge0.
      have hkk : E k k <= eps by rewrite ltW //; case/andP: hr; rewrite ek.
      have h0 : 0 <= E i i - 2%:R * (t * E i k) + t ^+ 2 * E k k.
        rewrite -hb -hc; apply: hq => m hm; rewrite !mxE !andbT.
        rewrite (_ : (m == k) = false); last by apply/negbTE; rewrite -val_eqE ltn_eqF.
        rewrite (_ : (m == i) = false) ?mulr0 ?subr0 //; apply/negbTE; rewrite -val_eqE ltn_eqF //.
        exact: leq_trans hm hji.
      have ht : E i k = t * eps by rewrite /t divfK // gt_eqF.
      rewrite ht in h0 *; have h5 : t ^+ 2 * E k k <= t ^+ 2 * eps by rewrite ler_wpmul2l // sqr_ge0.
      have -> : (t * eps) ^+ 2 = eps * (t ^+ 2 * eps) by ring.
      rewrite ler_pmul2l //.
      apply: le_trans hii; move: h0 h5; have -> : t * (t * eps) = t ^+ 2 * eps by ring.
      move: (t ^+ 2) (E i i) (E k k) => p q r; lra.
    have := h4 i j hjk hji; rewrite /col_done !lo // !hres.
    by [].
- (* regular pivot *)
  case: ltP => // hp [<-]; set a'' := (\matrix_(i, j) _ : 'M[R]_n).
  have hpe : eps <= a k k.
    by rewrite leNgt; apply/negP => h; move: hr; rewrite h /= (lt_le_trans _ hp) // oppr_lt0.
  have p0 : 0 < a k k := lt_le_trans e0 hpe.
  set d := Num.sqrt (a k k) in a'' *.
  have hd2 : d ^+ 2 = a k k by rewrite sqr_sqrtr.
  have d0 : 0 < d by rewrite sqrtr_gt0.
  have hde : eps <= d.
    rewrite -(@ler_pexpn2r _ 2) ?nnegrE ?(ltW e0) ?(ltW d0) // hd2; apply: (le_trans _ hpe).
    by rewrite expr2 ler_pimulr // ltW.
  have hln : (d < eps) = false by rewrite ltNge hde.
  pose l : 'cV[R]_n := \col_i (if (k <= i)%N then E i k / d else 0).
  have lE (i : 'I_n) : (k <= i)%N -> l i 0 = E i k / d by move=> h; rewrite mxE h.
  have lkd : l k 0 = d by rewrite lE // -ek -hd2 expr2 mulfK // gt_eqF.
  have a1k (i : 'I_n) : (k <= i)%N -> (if i == k then d else if (k < i)%N then a i k / d else a i k) = l i 0.
    rewrite leq_eqVlt => /orP[/eqP/val_inj <-|h]; first by rewrite eqxx.
    by rewrite nk // h lE ?(ltnW h) // h1 // leqnn ltnW.
  have [||i hik|hl hres] := step_resid (a' := a'') (l := l) _ _ _.
  + by move=> i j hji hjk; rewrite mxE ltnNge (ltnW hjk) /= mxE nk'.
  + by move=> i h; rewrite mxE ltnn /= mxE eqxx hln a1k.
  + by rewrite mxE leqNgt hik.
  split; last by right; split=> //; rewrite hl eqxx lkd.
  split.
  + move=> i j /andP[hkj hji]; have hki := leq_trans hkj hji.
    rewrite hres !lE ?(ltnW hkj) ?(ltnW hki) // /E -!h1 ?leqnn ?hji ?(ltnW hkj) ?(ltnW hki) //.
    by rewrite mxE hkj hji /= !mxE eqxx hln !nk // hkj hki.
  + by move=> i; rewrite hl; case: eqP => [->|_ //]; rewrite lkd ltW.
  + move=> v hv; set c := \sum_i v i 0 * E i k; set t := c / a k k.
    have hvl : \sum_i v i 0 * l i 0 = c / d.
      rewrite /c mulr_suml; apply: eq_bigr => i _.
      case: (leqP k i) => h; first by rewrite lE // mulrA.
      by rewrite hv ?mul0r // ltnW.
    have [|w hw he] := h3 (v - t *: delta_mx k 0).
      by move=> i hik; rewrite !mxE nk' // mulr0 subr0 hv // ltnW.
    exists w; first by move=> i hik; rewrite (hw _ (ltnW hik)) !mxE nk // mulr0 subr0.
    rewrite -he qf_sub; last exact: sE.
    have -> : bf E v (t *: delta_mx k 0) = t * c.
      rewrite /bf -scalemxAr mxE -colE mxE mxE; congr (_ * _); apply: eq_bigr => i _; by rewrite mxE.
    have -> : qf E (t *: delta_mx k 0) = t ^+ 2 * E k k.
      by rewrite qf_scale qf_delta.
    have -> : qf (resid A k.+1 a'') v = qf E v - (c / d) ^+ 2.
      rewrite -hvl !qf_entry expr2 mulr_suml -sumrB; apply: eq_bigr => i _.
      rewrite mulr_sumr -sumrB; apply: eq_bigr => j _; rewrite hres; ring.
    have -> : (c / d) ^+ 2 = c ^+ 2 / a k k by rewrite expr_div_n hd2.
    rewrite -ek /t; move: (qf E v) (lt0r_neq0 p0) => q hq; field; exact: hq.
  + move=> i j; rewrite ltnS leq_eqVlt => /orP[/eqP/val_inj ->|hjk] hji.
      left; rewrite hl eqxx lkd hres lkd lE // divfK ?subrr; last by rewrite gt_eqF.
      by rewrite gt_eqF.
    have := h4 i j hjk hji; rewrite /col_done !hl nk' // !hres.
    have l0 : l j 0 = 0 by rewrite mxE leqNgt hjk.
    by rewrite l0 !mulr0 !subr0.
Qed.
Lemma step_None : chol_step eps k a = None -> a k k <= - eps.
Proof.
rewrite /chol_step; lazy zeta; case hr: (_ && _); first by rewrite ltxx.
case: ltP => // hp _; rewrite leNgt; apply/negP => h.
by move: hr; rewrite h andbT (lt_trans hp).
Qed.
End Step.

Lemma loopP A k a : symmetric A -> (k <= n)%N -> inv A k a ->
  match chol_loop eps (drop k (enum 'I_n)) a with
  | Some a' => inv A n a' /\
      ((forall w (i : 'I_n), w i 0 = 1 -> eps <= qf A w) -> (forall i : 'I_n, (i < k)%N -> low k a i i != 0) ->
        forall i, low n a' i i != 0)
  | None => ~ psd A
  end.
Proof.
move=> sA; move e: (n - k)%N => m; elim: m k a e => [|m IH] k a e hk hi.
  have ekn : k = n by apply/eqP; rewrite eqn_leq hk -subn_eq0 e.
  subst k; rewrite drop_oversize ?size_enum_ord //=; split=> // _ hl i; exact: hl.
have hkn : (k < n)%N by rewrite -subn_gt0 e.
rewrite (drop_nth (Ordinal hkn)) ?size_enum_ord // (_ : nth _ _ _ = Ordinal hkn); last first.
  by apply: val_inj; rewrite /= nth_enum_ord.
set K := Ordinal hkn; rewrite /=; have hK : inv A K a by [].
case hs: (chol_step eps K a) => [a'|]; last first.
  move=> pA; have [[w _ hw] _] := pivot_pos sA hK; move: (step_None hs); rewrite hw leNgt => /negP; apply.
  by case: pA => _ /(_ w); apply: lt_le_trans; rewrite oppr_lt0.
have [hi' hp] := step_inv sA hK hs.
have := IH k.+1 a' _ hkn hi'; rewrite subnS e => /(_ erefl).
case: (chol_loop _ _ _) => // a'' [i1 i2]; split=> // hm hlow; apply: i2 => // i.
rewrite ltnS leq_eqVlt => /orP[/eqP hik|hik].
  have -> : i = K by apply: val_inj.
  have [[w w1 hw] _] := pivot_pos sA hK.
  case: hp => [h0|[hp ->]]; last by rewrite gt_eqF // sqrtr_gt0 (lt_le_trans e0).
  have hpe : eps <= a K K by rewrite hw; exact: hm w1.
  move: hs h0; rewrite /chol_step; lazy zeta.
  have -> : (a K K < eps) = false by rewrite ltNge hpe.
  have -> /= : (a K K < 0) = false by rewrite ltNge (le_trans (ltW e0) hpe).
  move=> -[<-].
  rewrite !mxE /= !eqxx !leqnn ?ltnSn ?ltnn /= => h0.
  by move: (lt_le_trans e0 hpe); rewrite -sqrtr_gt0 => hs0; rewrite h0 ltxx in hs0.
suff -> : low k.+1 a' i i = low k a i i by exact: hlow.
have nk : (i == K) = false by apply/negbTE; rewrite -val_eqE /= ltn_eqF.
have ni : (k < i)%N = false by rewrite ltnNge ltnW.
rewrite !mxE leqnn hik (leqW hik) /=; move: hs; rewrite /chol_step; lazy zeta; case: ((a K K < eps) && _).
  by rewrite ltxx => -[<-]; rewrite !mxE nk /= ni.
by case: ifP => // _ [<-]; rewrite !mxE nk /= ni.
Qed.

(** what the factorisation computes *)
Lemma choleskyP A : symmetric A ->
  match cholesky eps A with
  | (true, L) =>
      [/\ forall i j : 'I_n, (i < j)%N -> L i j = 0, forall i, 0 <= L i i,
          forall i j : 'I_n, (j <= i)%N -> L j j != 0 /\ (L *m L^T) i j = A i j \/
             [/\ L i j = 0, L j j = 0, `|A j j - (L *m L^T) j j| < eps &
                 (psd A -> (A i j - (L *m L^T) i j) ^+ 2 <= eps * A i i)] &
          mle eps%:M A -> forall i, L i i != 0]
  | (false, L) => L = 0 /\ ~ psd A
  end.
Proof.
move=> sA; have := loopP sA (leq0n n) (inv0 A); rewrite drop0 /cholesky.
case: (chol_loop _ _ _) => [a [[_ h2 _ h4] h5]|//].
have -> : \matrix_(i, j) (if (j <= i)%N then a i j else 0) = low n a.
  by apply/matrixP => i j; rewrite !mxE ltn_ord andbT.
split=> //.
- by move=> i j h; rewrite mxE leqNgt h.
- have rE i j : resid A n a i j = A i j - (low n a *m (low n a)^T) i j.
    by rewrite /resid [LHS]mxE; congr (_ + _); rewrite [LHS]mxE.
  move=> i j hji; case: (h4 i j (ltn_ord j) hji) => [[p q]|[p q r s]]; [left|right].
    by split=> //; move/eqP: q; rewrite rE subr_eq0 => /eqP ->.
  by rewrite rE in r; split=> // pA; move: (s pA); rewrite rE.
- move=> hm; apply: h5 => // w i hw; have := mle_qf w hm; apply: le_trans.
  have -> : eps%:M = eps *: 1%:M :> 'M[R]_n by rewrite scale_scalar_mx mulr1.
  rewrite qfZ qf1 -[leLHS]mulr1 ler_pmul2l // (bigD1 i) //= hw expr1n ler_addl.
  by apply: sumr_ge0 => m _; exact: sqr_ge0.
Qed.
End Cholesky.

Section Factors.
Variable R : rcfType.
Implicit Types n m : nat.

Lemma diag11 (M : 'M[R]_1) : diagonal M.
Proof. by move=> i j; rewrite !ord1 eqxx. Qed.
Lemma lower_unit n (L : 'M[R]_n) : lower L -> (forall i, L i i != 0) -> L \in unitmx.
Proof.
move=> hl hd; rewrite unitmxE det_trig ?unitfE; last by apply/is_trig_mxP => i j; exact: hl.
by apply/prodf_neq0 => i _.
Qed.
Lemma diag_sym n (M : 'M[R]_n) : diagonal M -> M^T = M.
Proof.
move=> h; apply/matrixP => i j; rewrite mxE; case: (i =P j) => [-> //|/eqP hij].
by rewrite !h // eq_sym.
Qed.
Lemma mulmx_trE n (L : 'M[R]_n) i j : (L *m L^T) i j = \sum_m L i m * L j m.
Proof. by rewrite mxE; apply: eq_bigr => m _; rewrite [_^T m j]mxE. Qed.
Lemma mulmx_trE' n (L : 'M[R]_n) i j : (L^T *m L) i j = \sum_m L m i * L m j.
Proof. by rewrite mxE; apply: eq_bigr => m _; rewrite [_^T i m]mxE. Qed.

(** a lower triangular factor of a diagonal matrix is diagonal *)
Lemma lower_diag n (L : 'M[R]_n) : lower L -> (forall i, L i i != 0) -> diagonal (L *m L^T) -> diagonal L.
Proof.
move=> hl hd hD; have main (k : nat) (i j : 'I_n) : (j < k)%N -> (j < i)%N -> L i j = 0.
  elim: k i j => [//|k IH] i j hjk hji.
  have nij : i != j by rewrite -val_eqE gtn_eqF.
  have := hD i j nij; rewrite mulmx_trE (bigD1 j) //= big1 ?addr0 => [/eqP|m hm].
    by rewrite mulf_eq0 (negbTE (hd j)) orbF => /eqP.
  case: (ltngtP m j) => [h|h|/val_inj h]; last by rewrite h eqxx in hm.
    by rewrite (IH j m) ?mulr0 //; apply: leq_trans h _; rewrite -ltnS.
  by rewrite (hl j m) ?mulr0.
move=> i j hij; case: (ltngtP i j) => [|h|/val_inj h]; first exact: hl.
  exact: (main j.+1).
by rewrite h eqxx in hij.
Qed.
(** a normal lower triangular matrix is diagonal *)
Lemma normal_diag n (L : 'M[R]_n) : lower L -> L^T *m L = L *m L^T -> diagonal L.
Proof.
move=> hl hN; have main (k : nat) (i j : 'I_n) : (j < k)%N -> (j < i)%N -> L i j = 0.
  elim: k i j => [//|k IH] i j hjk hji.
  have := congr1 (fun M : 'M[R]_n => M j j) hN.
  rewrite mulmx_trE mulmx_trE' (bigD1 j) //= [in RHS](bigD1 j) //= => /addrI.
  rewrite [RHS]big1 => [|m hm]; last first.
    case: (ltngtP m j) => [h|h|/val_inj h]; last by rewrite h eqxx in hm.
      by rewrite (IH j m) ?mulr0 //; apply: leq_trans h _; rewrite -ltnS.
    by rewrite (hl j m) ?mulr0.
  move/eqP; rewrite psumr_eq0 => [/allP/(_ i)|m _]; last by rewrite -expr2 sqr_ge0.
  rewrite mem_index_enum => /(_ isT); rewrite -val_eqE gtn_eqF //= mulf_eq0 orbb => /eqP //.
move=> i j hij; case: (ltngtP i j) => [|h|/val_inj h]; first exact: hl.
  exact: (main j.+1).
by rewrite h eqxx in hij.
Qed.
Lemma diag_mul n (A B : 'M[R]_n) : diagonal A -> diagonal B -> diagonal (A *m B).
Proof.
move=> hA hB i j hij; rewrite mxE big1 // => m _.
case: (i =P m) => [<-|/eqP h]; first by rewrite hB ?mulr0.
by rewrite hA ?mul0r.
Qed.
Lemma chol_diag n (L A : 'M[R]_n) : chol_factor L A -> diagonal A -> diagonal L.
Proof. by move=> [h1 h2 h3] hA; apply: lower_diag => //; [move=> i; rewrite gt_eqF|rewrite h3]. Qed.
Lemma chol_unit n (L A : 'M[R]_n) : chol_factor L A -> L \in unitmx.
Proof. by move=> [h1 h2 h3]; apply: lower_unit => // i; rewrite gt_eqF. Qed.

Section Eps.
Variables (eps : R).
Hypotheses (e0 : 0 < eps) (e1 : eps <= 1).
Lemma chol_exact n (A : 'M[R]_n) : symmetric A -> mle eps%:M A ->
  exists2 L, cholesky eps A = (true, L) & chol_factor L A.
Proof.
move=> sA hm; have := choleskyP e0 e1 sA; case: (cholesky _ _) => -[] L; last first.
  case=> _ hn; exfalso; apply: hn; split=> // v; apply: le_trans (mle_qf v hm).
  have -> : eps%:M = eps *: 1%:M :> 'M[R]_n by rewrite scale_scalar_mx mulr1.
  by rewrite qfZ mulr_ge0 ?(ltW e0) ?qf1_ge0.
case=> h1 h2 h3 h4; exists L => //; have hd := h4 hm; split=> //.
  by move=> i; rewrite lt_neqAle eq_sym hd h2.
have lo (i j : 'I_n) : (j <= i)%N -> (L *m L^T) i j = A i j.
  by move=> hji; case: (h3 i j hji) => [[]|[_ h _ _]] //; move: (hd j); rewrite h eqxx.
apply/matrixP => i j; case: (leqP j i) => [|/ltnW]; first exact: lo.
by move=> h; rewrite -[in RHS]sA [RHS]mxE -(lo j i h) !mulmx_trE; apply: eq_bigr => m _; rewrite mulrC.
Qed.
Lemma mle_add n (A B : 'M[R]_n) : psd A -> mle eps%:M B -> mle eps%:M (A + B).
Proof. by move=> hA hB; rewrite /mle -addrA; exact: psdD. Qed.
Lemma mle_sym n (A : 'M[R]_n) : mle eps%:M A -> symmetric A.
Proof.
case=> h _; have : symmetric (eps%:M : 'M[R]_n) by rewrite /symmetric tr_scalar_mx.
by move=> he; rewrite -[A](subrK eps%:M); exact: symD.
Qed.
Lemma mle_pd n (A : 'M[R]_n) : mle eps%:M A -> pd A.
Proof.
move=> h; rewrite -[A](subrK eps%:M); apply: pdD_psd => //; split=> [|v hv].
  by rewrite /symmetric tr_scalar_mx.
have -> : eps%:M = eps *: 1%:M :> 'M[R]_n by rewrite scale_scalar_mx mulr1.
by rewrite qfZ mulr_gt0 //; case: (@pd1 R n) => _; apply.
Qed.
End Eps.

(** the square-root update of the covariance *)
Lemma potter n m (J : 'M[R]_n) (B : 'M[R]_(m, n)) (L Lr : 'M[R]_m) : L \in unitmx -> L + Lr \in unitmx ->
  B *m B^T + Lr *m Lr^T = L *m L^T ->
  let J' := J - J *m B^T *m (invmx L)^T *m invmx (L + Lr) *m B in
  J' *m J'^T = J *m J^T - J *m B^T *m invmx (L *m L^T) *m B *m J^T.
Proof.
move=> uL uM hB J'; set W := invmx (L + Lr); set Li := invmx L.
have iS : invmx (L *m L^T) = Li^T *m Li.
  have uT : L^T \in unitmx by rewrite unitmx_tr.
  have : (L *m L^T) *m (Li^T *m Li) = 1%:M.
    by rewrite mulmxA -(mulmxA L) -trmx_mul mulVmx // trmx1 mulmx1 mulmxV.
  move=> h; rewrite -[RHS]mul1mx -(mulVmx (_ : L *m L^T \in unitmx)); last by rewrite unitmx_mul uL uT.
  by rewrite -mulmxA h mulmx1.
pose X := Li^T *m W.
have hBB : B *m B^T = L *m L^T - Lr *m Lr^T by rewrite -hB addrK.
have key : X + X^T - X *m (B *m B^T) *m X^T = Li^T *m Li.
  have x1 : X = Li^T *m (W *m L) *m Li by rewrite /X -!mulmxA mulmxV // mulmx1.
  have x2 : X^T = Li^T *m (L^T *m W^T) *m Li.
    by rewrite /X trmx_mul trmxK !mulmxA -trmx_mul mulmxV // trmx1 mul1mx.
  have w1 : W *m (L + Lr) = 1%:M by rewrite mulVmx.
  have w2 : (L + Lr)^T *m W^T = 1%:M by rewrite -trmx_mul w1 trmx1.
  have eq : W *m L + L^T *m W^T - W *m (B *m B^T) *m W^T = 1%:M.
    have a1 : W *m L = W *m (L *m (L + Lr)^T) *m W^T by rewrite -!mulmxA w2 mulmx1.
    have a2 : L^T *m W^T = W *m ((L + Lr) *m L^T) *m W^T by rewrite !mulmxA w1 mul1mx.
    rewrite [in LHS]a1 a2 -mulmxDl -mulmxDr -mulmxBl -mulmxBr hBB.
    have -> : L *m (L + Lr)^T + (L + Lr) *m L^T - (L *m L^T - Lr *m Lr^T) = (L + Lr) *m (L + Lr)^T.
      rewrite linearD /= !mulmxDr !mulmxDl.
      move: (L *m L^T) (L *m Lr^T) (Lr *m L^T) (Lr *m Lr^T) => a b c d; mxring.
    by rewrite mulmxA w1 mul1mx w2.
  have x3 : X *m (B *m B^T) *m X^T = Li^T *m (W *m (B *m B^T) *m W^T) *m Li.
    by rewrite /X trmx_mul trmxK !mulmxA.
  by rewrite x3 {1}x1 x2 -mulmxDl -mulmxDr -mulmxBl -mulmxBr eq mulmx1.
pose Y := B^T *m X *m B.
have -> : J' = J *m (1%:M - Y) by rewrite mulmxBr mulmx1 /J' /Y /X !mulmxA.
have YT : Y^T = B^T *m X^T *m B by rewrite /Y 2!trmx_mul trmxK mulmxA.
have hY : Y + Y^T - Y *m Y^T = B^T *m invmx (L *m L^T) *m B.
  rewrite iS -key mulmxBr mulmxDr mulmxBl mulmxDl YT; congr (_ + _ - _).
  by rewrite /Y !mulmxA.
have -> : J *m B^T *m invmx (L *m L^T) *m B *m J^T = J *m (Y + Y^T - Y *m Y^T) *m J^T by rewrite hY !mulmxA.
rewrite trmx_mul [(1%:M - Y)^T]linearB /= trmx1 mulmxA -(mulmxA J (1%:M - Y)).
have -> : (1%:M - Y) *m (1%:M - Y^T) = 1%:M - (Y + Y^T - Y *m Y^T).
  rewrite mulmxBr mulmx1 mulmxBl mul1mx; move: (Y *m Y^T) (1%:M : 'M[R]_n) => c o.
  by clear; move: (Y) => a; move: a^T => b; mxring.
by rewrite mulmxBr mulmx1 mulmxBl.
Qed.
End Factors.

Section Filter.
Variables (R : rcfType) (eps : R) (U : Type) (n : nat).
Hypotheses (e0 : 0 < eps) (e1 : eps <= 1).
Implicit Types (J P : 'M[R]_n) (s : option U).

Lemma sr_limitE svd J : sr_limit svd J = J.
Proof.
rewrite /sr_limit; case: (svd J) => [[V W] X]; rewrite divn_small //.
case: existsP => // -[k]; rewrite gt_eqF // lt_maxr divr_gt0 ?ltr01 ?orbT //.
by rewrite ltr0n.
Qed.
Lemma innovE m J (H : 'M[R]_(m, n)) Rn : H *m J *m J^T *m H^T + Rn = innov_cov (J *m J^T) H Rn.
Proof. by rewrite /innov_cov !mulmxA. Qed.

Lemma sr_matrixE m J (H : 'M[R]_(m, n)) Rn : mle eps%:M Rn ->
  exists2 L, chol_factor L (innov_cov (J *m J^T) H Rn) &
    sr_matrix eps J H Rn = Ok (invmx L^T, J *m J^T *m H^T *m invmx (L^T *m L), L^T).
Proof.
move=> hR; have sR := mle_sym hR; have hP : psd (J *m J^T) := psd_gram J.
have hS : mle eps%:M (innov_cov (J *m J^T) H Rn) by apply: mle_add => //; exact: psd_cong.
have sS := mle_sym hS; have [L hL cL] := chol_exact e0 e1 sS hS; exists L => //.
have uL := chol_unit cL; have uT : L^T \in unitmx by rewrite unitmx_tr.
rewrite /sr_matrix innovE sS sym_lowerE // hL /= /minv uT /=.
congr (Ok (_, _, _)); rewrite trmx_inv trmxK -[LHS]mulmxA; congr (_ *m _).
apply: (can_inj (mulmxK (_ : L^T *m L \in unitmx))); first by rewrite unitmx_mul uL uT.
by rewrite mulVmx ?unitmx_mul ?uL ?uT // mulmxA -(mulmxA (invmx L)) mulVmx // mulmx1 mulVmx.
Qed.

Section Diagonal.
Variables (m : nat) (J : 'M[R]_n) (a : imodel R U n m) (s : option U).
Let P := J *m J^T.
Variable x : 'cV[R]_n.
Hypotheses (hn : good_noise eps a s x) (hu : uncorrelated a s P x).
Let H := im_H a s x.
Let Rn := im_R a s x.

Lemma sr_root : exists2 Lr, (if im_identity a s x then (im_SR a s x)^T else ((cholesky eps (sym_lower Rn)).2)^T) = Lr^T
   & chol_factor Lr Rn.
Proof.
have [hR hi] := hn; have sR := mle_sym hR; case: im_identity hi => [/(_ isT) h|_]; first by exists (im_SR a s x).
by rewrite sym_lowerE //; have [L -> h] := chol_exact e0 e1 sR hR; exists L.
Qed.
Lemma sr_diag : exists L, let Lr := (if im_identity a s x then (im_SR a s x)^T else ((cholesky eps (sym_lower Rn)).2)^T) in
  let J' := J - J *m J^T *m H^T *m invmx L *m invmx (Lr + L) *m H *m J in
  [/\ sr_matrix eps J H (sym_lower Rn) = Ok (invmx L, gain P H Rn, L),
      sr_covariance J Lr H (invmx L) L = Ok (J', P - gain P H Rn *m H *m P) &
      J' *m J'^T = P - gain P H Rn *m H *m P].
Proof.
have [hR _] := hn; have sR := mle_sym hR; have [dR dS] := hu.
have [L cL eL] := sr_matrixE J H hR; have [Lr eLr cLr] := sr_root.
have dL := chol_diag cL dS; have dLr := chol_diag cLr dR; have tL := diag_sym dL; have tLr := diag_sym dLr.
exists L; rewrite eLr tLr; lazy zeta; rewrite tL in eL.
have uL := chol_unit cL; have [_ pL hL] := cL; have [_ pLr hLr] := cLr.
have uM : Lr + L \in unitmx.
  apply: lower_unit => [i j hij|i]; rewrite mxE; last by rewrite gt_eqF // addr_gt0.
  by rewrite dL ?dLr ?addr0 // -val_eqE ltn_eqF.
have hG : gain P H Rn = J *m J^T *m H^T *m invmx (L *m L) by rewrite /gain -hL tL.
set J' := J - _.
have hp : J' *m J'^T = P - gain P H Rn *m H *m P.
  have uM' : L + Lr \in unitmx by rewrite addrC.
  have hB : H *m J *m (H *m J)^T + Lr *m Lr^T = L *m L^T.
    by rewrite hL hLr trmx_mul -innovE !mulmxA.
  have := potter J uL uM' hB; lazy zeta; rewrite hL trmx_inv tL (addrC L) trmx_mul.
  have -> : J - J *m (J^T *m H^T) *m invmx L *m invmx (Lr + L) *m (H *m J) = J' by rewrite /J' !mulmxA.
  by move=> ->; rewrite /gain /P !mulmxA.
split=> //; first by rewrite sym_lowerE // eL hG.
rewrite /sr_covariance /minv uM /= trmx_inv tL -/J' hp.
have hs : symmetric (P - gain P H Rn *m H *m P).
  have hPs : psd P := psd_gram J.
  by apply: cov_sym => //; [apply: meas_unit => //; exact: mle_pd hR|case: hPs].
by rewrite hs sym_lowerE.
Qed.
End Diagonal.

(** the loop for uncorrelated components *)
Lemma sr_loopE svd m (a : imodel R U n m) s (z : 'cV[R]_m) J xk it xi C :
  let g := Gauss xk (J *m J^T) in let x i := iter i (gn_step (explicit a s) None g z) xi in
  (forall i, (i <= it)%N -> good_noise eps a s (x i) /\ uncorrelated a s (J *m J^T) (x i)) ->
  exists J', let H := im_H a s (x it) in let K := gain (J *m J^T) H (im_R a s (x it)) in
    let P' := J *m J^T - K *m H *m (J *m J^T) in
    sr_loop eps svd a s (existT _ m z) xk it.+1 (J, Gauss xi C) = Ok (J', Gauss (x it.+1) P') /\ J' *m J'^T = P'.
Proof.
move=> g; elim: it xi C => [|it IH] xi C x hx.
  have [hn hu] := hx 0%N isT; have [L [h1 h2 h3]] := sr_diag hn hu.
  eexists; split; last exact: h3.
  by rewrite /= sr_limitE h1 /= meas_castE /= h2 /=.
have [hn hu] := hx 0%N isT; have [L [h1 h2 h3]] := sr_diag hn hu.
have [|J' [hJ hP]] := IH (x 1%N) C.
  by move=> i hi; rewrite -iterSr; exact: (hx i.+1).
exists J'; move: hJ hP; lazy zeta; rewrite -!iterSr => hJ hP; split; last exact: hP.
rewrite -[RHS]hJ [LHS]/= sr_limitE h1 /= meas_castE /=.
by [].
Qed.
End Filter.
