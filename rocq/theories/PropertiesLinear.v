(** * Linear conditional Gaussian: C58, C69 *)
From mathcomp Require Import all_ssreflect all_algebra zify.
From Verif Require Import Outcome SpecMatrix ModelMatrix ModelWrapper ModelFilter ModelKalman SpecKalman ModelSR ModelDiscretePdf ModelGauss SpecGauss.
From Verif Require Import ProofsMatrix ProofsKalman ModelLinear SpecLinear.
Set Implicit Arguments. Unset Strict Implicit. Unset Printing Implicit Defensive.
Import Order.TTheory GRing.Theory Num.Theory.
Local Open Scope ring_scope.

Section Linear.
Variable R : realFieldType.
Implicit Types (c : lin R) (v : meas R) (A : rmat R).

(** ** Lists and functions *)
Lemma at_mkseq T (f : nat -> T) k i : (i < k)%N -> at_ (mkseq f k) i = Ok (f i).
Proof. by move=> h; rewrite (at_nth (f 0%N)) ?size_mkseq // nth_mkseq. Qed.
Lemma put_mkseq T (f : nat -> T) k i x : (i < k)%N -> put_ (mkseq f k) i x = Ok (mkseq (upd f i x) k).
Proof.
move=> h; rewrite (put_set_nth (f 0%N)) ?size_mkseq //; congr Ok.
have hz : size (set_nth (f 0%N) (mkseq f k) i x) = k by rewrite size_set_nth size_mkseq; apply/maxn_idPr.
apply: (@eq_from_nth _ (f 0%N)); rewrite hz ?size_mkseq // => j hj.
by rewrite nth_set_nth /= nth_mkseq // /upd nth_mkseq.
Qed.
Lemma resize_mkseq T (d : T) (f : nat -> T) n k :
  resize d (mkseq f n) k = mkseq (fun i => if (i < n)%N then f i else d) k.
Proof.
have hz : size (resize d (mkseq f n) k) = k by rewrite size_cat size_take size_nseq size_mkseq; case: ifP; lia.
apply: (@eq_from_nth _ d); rewrite hz ?size_mkseq // => i hi.
rewrite nth_mkseq // nth_cat size_take size_mkseq nth_nseq.
case: (ltnP k n) => hk; first by rewrite hi (ltn_trans hi hk) nth_take // nth_mkseq // (ltn_trans hi hk).
by case: ltnP => hn; [rewrite nth_take // nth_mkseq|case: ifP].
Qed.

(** ** The mean *)
Lemma cast_neq n v : projT1 v != n -> meas_cast n v = Abort.
Proof. by rewrite /meas_cast; case: eqVneq. Qed.
Lemma foldO_sum n (ok : nat -> bool) (t : nat -> 'cV[R]_n) f (l : seq nat) (s : 'cV[R]_n) :
  (forall a i, i \in l -> f a i = if ok i then Ok (a + t i) else Abort) ->
  foldO f s l = if all ok l then Ok (s + \sum_(i <- l) t i) else Abort.
Proof.
elim: l s => [|i l IH] s hf; first by rewrite big_nil addr0.
rewrite /= hf ?mem_head //; case: (ok i) => //=; rewrite IH => [|a j hj].
  by case: ifP => // _; rewrite big_cons addrA.
by apply: hf; rewrite inE hj orbT.
Qed.
Definition term n A v : 'cV[R]_n := \col_j \sum_(k < projT1 v) entm A j k * ent v k.
Lemma entE k (v : 'cV[R]_k) (i : 'I_k) : ent (vec v) i = v i 0.
Proof. by rewrite /ent /= valK. Qed.
Lemma entmE m k (A : 'M[R]_(m, k)) i j : entm (rm A) (i : 'I_m) (j : 'I_k) = A i j.
Proof. by rewrite /entm /= !valK. Qed.
Lemma termE n k (A : 'M[R]_(n, k)) (v : 'cV[R]_k) : term n (rm A) (vec v) = A *m v.
Proof. by apply/colP => j; rewrite !mxE; apply: eq_bigr => i _; rewrite entE entmE. Qed.
Lemma rmP A n k : projT1 A = (n, k) -> exists A' : 'M[R]_(n, k), A = rm A'.
Proof. by case: A => d A /= e; subst d; exists A. Qed.
Lemma vecP v k : projT1 v = k -> exists v' : 'cV[R]_k, v = vec v'.
Proof. by case: v => d v /= e; subst d; exists v. Qed.
Lemma addE n (a : 'cV[R]_n) A v :
  (let! y := pmulv A v in padd a y) = if projT1 A == (n, projT1 v) then Ok (a + term n A v) else Abort.
Proof.
case: eqP => [e|ne]; last first.
  rewrite /pmulv; case: (eqVneq (projT1 v) (projT1 A).2) => h; last by rewrite cast_neq.
  have [v' ->] := vecP h; rewrite meas_castE /= /padd cast_neq //=.
  by apply/eqP => e; apply: ne; rewrite h -e; case: (projT1 A).
have [v' ev] := @vecP v _ erefl; move: e; rewrite ev /= => e.
have [A' ->] := rmP e; by rewrite /pmulv /= meas_castE /= /padd meas_castE /= termE.
Qed.
Lemma lin_meanE n c : lin_mean n c = \sum_(i <- iota 0 (l_num c)) term n (l_mat c i) (l_arg c i) + \col_j ent (l_mu c) j.
Proof.
rewrite -[l_num c]subn0 -/(index_iota 0 (l_num c)) big_mkord; apply/colP => j; rewrite !mxE summxE.
by congr (_ + _); apply: eq_bigr => i _; rewrite mxE.
Qed.
Lemma meanE n c : lc_mean n (stored c) = if fits n c then Ok (lin_mean n c) else Abort.
Proof.
rewrite /lc_mean /= (@foldO_sum _ (fun i => projT1 (l_mat c i) == (n, projT1 (l_arg c i)))
   (fun i => term n (l_mat c i) (l_arg c i))) => [|a i]; last first.
  rewrite mem_iota /= add0n => hi; rewrite /lc_arg_get /lc_mat_get /= hi /= !at_mkseq //=; exact: addE.
rewrite add0r /fits; case: ifP => //= _; rewrite /padd.
case: eqP => e; last by rewrite cast_neq //; apply/eqP.
have [m' em] := vecP e; rewrite em meas_castE /= lin_meanE em; congr (Ok (_ + _)).
by apply/colP => j; rewrite mxE entE.
Qed.

(** ** C58 *)
Lemma arg_setE c i v : lc_arg_set (stored c) i v = need_index c i (Ok (stored (l_set_arg c i v))).
Proof. by rewrite /lc_arg_set /need_index /=; case: ifP => //= h; rewrite put_mkseq. Qed.
Lemma mat_setE c i A : lc_mat_set (stored c) i A = need_index c i (Ok (stored (l_set_mat c i A))).
Proof. by rewrite /lc_mat_set /need_index /=; case: ifP => //= h; rewrite put_mkseq. Qed.
Lemma mat_getE c i : lc_mat_get (stored c) i = need_index c i (Ok (l_mat c i)).
Proof. by rewrite /lc_mat_get /need_index /=; case: ifP => //= h; rewrite at_mkseq. Qed.
Lemma lm_argsE c u x : lm_args (stored c) u x = need_index c 0 (Ok (stored (l_at c u x))).
Proof.
rewrite /lm_args arg_setE /need_index; case: ifP => //= h.
by rewrite /l_at; case: eqP => //= e; rewrite arg_setE /need_index /= e.
Qed.
Lemma num_at c u x : l_num (l_at c u x) = l_num c.
Proof. by rewrite /l_at; case: ifP. Qed.
Lemma mat_at c u x : l_mat (l_at c u x) = l_mat c.
Proof. by rewrite /l_at; case: ifP. Qed.
Lemma sigma_at c u x : l_sigma (l_at c u x) = l_sigma c.
Proof. by rewrite /l_at; case: ifP. Qed.

Lemma num_setE c k : lc_num_set (stored c) k =
  stored (Lin k (fun i => if (i < l_num c)%N then l_mat c i else rmat0 R)
                (fun i => if (i < l_num c)%N then l_arg c i else vec0 R) (l_mu c) (l_sigma c)).
Proof.
rewrite /lc_num_set /stored /=; case: eqP => [->|_] /=; rewrite ?resize_mkseq //.
by congr LCG; apply/eq_in_map => i; rewrite mem_iota add0n => /andP[_ ->].
Qed.
Lemma l_stepE n c o : lc_step n (stored c) o = let! r := l_step n c o in Ok (r.1, stored r.2).
Proof.
case: o => [i v|l|i A|v|s|k|A|A|||i|i|i|||u x|u x|u x] //=.
- by rewrite arg_setE /need_index; case: ifP.
- rewrite /lc_args_set /=; case: eqP => //= <-; rewrite /stored /=.
  by rewrite (mkseq_nth (vec0 R) l).
- by rewrite mat_setE /need_index; case: ifP.
- by rewrite num_setE.
- by rewrite /lm_first_set mat_setE /need_index; case: ifP.
- by rewrite /lm_second_set mat_setE /need_index; case: ifP.
- by rewrite meanE /q_mean; case: ifP.
- by rewrite -[lc_df _ _]/(lc_mat_get _ _) mat_getE /need_index; case: ifP.
- by rewrite mat_getE /need_index; case: ifP.
- by rewrite /lc_arg_get /need_index /=; case: ifP => //= h; rewrite at_mkseq.
- by rewrite /lm_first_get mat_getE /need_index; case: ifP.
- by rewrite /lm_second_get mat_getE /need_index; case: ifP.
- by rewrite /lm_predict lm_argsE /need_index; case: ifP => //= _; rewrite meanE /q_mean; case: ifP.
- rewrite /lm_jacobian lm_argsE /need_index; case: ifP => //= h.
  by rewrite -[lc_df _ _]/(lc_mat_get _ _) mat_getE /need_index num_at h mat_at.
- by rewrite /lm_cov lm_argsE /need_index; case: ifP => //= _; rewrite sigma_at.
Qed.
(** Every program of setters and queries behaves as the specification: a
    matrix, an argument, the noise and the number of arguments change only when
    set, the mean is the sum at that moment. *)
Theorem C58_program n c os : lc_run n (stored c) os = let! r := l_run n c os in Ok (r.1, stored r.2).
Proof.
elim: os c => [|o os IH] c //=; rewrite l_stepE; case: (l_step n c o) => [[r d]||] //=.
by rewrite IH; case: (l_run n d os).
Qed.

(** The constructors: all arguments zero, of the size of the columns. *)
Theorem C58_construction (ratio : seq (rmat R)) n (mu : 'cV[R]_n) (S : 'M[R]_n) :
  lc_new ratio mu S = Ok (stored (Lin (size ratio) (nth (rmat0 R) ratio)
    (fun i => vec (0 : 'cV[R]_(rcols (nth (rmat0 R) ratio i)))) (vec mu) (sq S))) /\
  (forall A, lc_new1 A mu S = Ok (stored (Lin 1 (fun=> A) (fun=> vec (0 : 'cV[R]_(rcols A))) (vec mu) (sq S)))).
Proof.
split=> //; rewrite /lc_new; set z := fun i => vec _; set sg := sq S.
pose st k := stored (Lin (size ratio) (nth (rmat0 R) ratio)
    (fun i => if (i < k)%N then z i else vec0 R) (vec mu) sg).
have -> : LCG (size ratio) (nseq (size ratio) (vec0 R)) ratio (vec mu) sg = st 0%N.
  rewrite /st /stored /= (mkseq_nth _ ratio); congr LCG.
  by apply: (@eq_from_nth _ (vec0 R)); rewrite ?size_nseq ?size_mkseq // => i hi; rewrite nth_nseq nth_mkseq // hi.
suff h k : (k <= size ratio)%N -> foldO (fun (c : lcg R) i => let! A := at_ (lc_ratio c) i in
    lc_arg_set c i (vec (0 : 'cV[R]_(rcols A)))) (st 0%N) (iota 0 k) = Ok (st k).
  rewrite h //; congr Ok; rewrite /st /stored /=; congr LCG.
  by apply/eq_in_map => i; rewrite mem_iota add0n => /andP[_ ->].
elim: k => [|k IH] hk //.
have foldOr T U (f : U -> T -> outcome U) s l x : foldO f s (rcons l x) = let! t := foldO f s l in f t x.
  by elim: l s => [|y l IHl] s /=; [case: (f s x)|case: (f s y)].
have -> : iota 0 k.+1 = rcons (iota 0 k) k by rewrite -addn1 iotaD add0n cats1.
rewrite foldOr IH ?(ltnW hk) //= at_mkseq //= arg_setE /need_index /= hk.
congr (Ok _); rewrite /stored /=; congr LCG; apply/eq_map => i; rewrite /upd /= ltnS.
by case: ltngtP => // ->.
Qed.

(** ** Matrices and arguments of known sizes *)
Section Typed.
Variables (n K : nat) (k : 'I_K -> nat) (A : forall i, 'M[R]_(n, k i)) (mu : 'cV[R]_n) (S : smat R).
(** the object with these matrices and arguments *)
Definition object (x : forall i, 'cV[R]_(k i)) : lcg R :=
  LCG K [seq vec (x i) | i <- enum 'I_K] [seq rm (A i) | i <- enum 'I_K] (vec mu) S.
Lemma at_enum T (f : 'I_K -> T) (i : 'I_K) : at_ [seq f j | j <- enum 'I_K] i = Ok (f i).
Proof.
rewrite (at_nth (f i)); last by rewrite size_map size_enum_ord.
by rewrite (nth_map i) ?nth_ord_enum ?size_enum_ord.
Qed.
(** The mean is the sum of matrix times argument plus the mean of the noise. *)
Theorem C58_mean x : lc_mean n (object x) = Ok (\sum_i A i *m x i + mu).
Proof.
rewrite /lc_mean; pose t (i : nat) : 'cV[R]_n := if insub i is Some j then A j *m x j else 0.
rewrite (@foldO_sum _ xpredT t) => [|a i]; last first.
  rewrite mem_iota /= add0n => hi; have [j ->] : exists j : 'I_K, i = j by exists (Ordinal hi).
  by rewrite /lc_arg_get /lc_mat_get /= ltn_ord /= !at_enum /= addE eqxx termE /t valK.
rewrite all_predT add0r /= /padd meas_castE /= -{1}[K]subn0 -/(index_iota 0 K) big_mkord.
by congr (Ok (_ + _)); apply: eq_bigr => i _; rewrite /t valK.
Qed.
(** [dfGet(i)] is matrix [i], and it is the exact derivative: a change of
    argument [i] by [h] changes the mean by this matrix times [h]. *)
Theorem C58_derivative (x y : forall i, 'cV[R]_(k i)) i :
  (forall j, j != i -> y j = x j) ->
  exists v w : 'cV[R]_n, [/\ lc_mean n (object x) = Ok v, lc_mean n (object y) = Ok w,
    lc_df (object x) i = Ok (rm (A i)) & w - v = A i *m (y i - x i)].
Proof.
move=> h; exists (\sum_i A i *m x i + mu), (\sum_i A i *m y i + mu).
rewrite !C58_mean; split=> //; first by rewrite /lc_df /= ltn_ord /= at_enum.
rewrite opprD addrACA subrr addr0 -sumrB (bigD1 i) //= big1 ?addr0 ?mulmxBr // => j hj.
by rewrite h // subrr.
Qed.
(** The mean is affine in all arguments together. *)
Theorem C58_affine (x y : forall i, 'cV[R]_(k i)) (t : R) :
  exists v w : 'cV[R]_n, [/\ lc_mean n (object x) = Ok v, lc_mean n (object y) = Ok w &
    lc_mean n (object (fun i => (1 - t) *: x i + t *: y i)) = Ok ((1 - t) *: v + t *: w)].
Proof.
exists (\sum_i A i *m x i + mu), (\sum_i A i *m y i + mu); rewrite !C58_mean; split=> //; congr Ok.
rewrite !scalerDr addrACA -scalerDl subrK scale1r !scaler_sumr -big_split /=.
by congr (_ + _); apply: eq_bigr => i _; rewrite mulmxDr -!scalemxAr.
Qed.
End Typed.

(** ** System and measurement models *)
(** One conditional argument: whatever the stored argument was before, the
    prediction is [A x + mu], the derivative [A], the covariance that of the
    noise.  Two: [A x + B u + mu]. *)
Theorem C58_model1 n m (A : 'M[R]_(m, n)) (mu : 'cV[R]_m) (S : smat R) (old u : meas R) (x : 'cV[R]_n) :
  let c := LCG 1 [:: old] [:: rm A] (vec mu) S in let c' := LCG 1 [:: vec x] [:: rm A] (vec mu) S in
  [/\ lm_predict m c u (vec x) = Ok (A *m x + mu, c'),
      lm_jacobian c u (vec x) = Ok (rm A, c') & lm_cov c u (vec x) = Ok (S, c')].
Proof.
split=> //; rewrite /lm_predict /= /lc_mean /= addE /= eqxx termE /= /padd meas_castE /= add0r //.
Qed.
Theorem C58_model2 n p m (A : 'M[R]_(m, n)) (B : 'M[R]_(m, p)) (mu : 'cV[R]_m) (S : smat R)
    (old old' : meas R) (u : 'cV[R]_p) (x : 'cV[R]_n) :
  let c := LCG 2 [:: old; old'] [:: rm A; rm B] (vec mu) S in
  let c' := LCG 2 [:: vec x; vec u] [:: rm A; rm B] (vec mu) S in
  [/\ lm_predict m c (vec u) (vec x) = Ok (A *m x + B *m u + mu, c'),
      lm_jacobian c (vec u) (vec x) = Ok (rm A, c') & lm_cov c (vec u) (vec x) = Ok (S, c')].
Proof.
split=> //; rewrite /lm_predict /= /lc_mean /= addE /= eqxx termE /= addE /= eqxx termE /= /padd meas_castE /= add0r //.
Qed.
(** These are the linear models that the Kalman filter theorems (C43, C44, ...)
    speak about: the filter's view of a model object is a [linear_model] with the
    same answers. *)
Theorem C58_filter_model n p m (A : 'M[R]_(m, n)) (B : 'M[R]_(m, p)) (mu : 'cV[R]_m) (S : 'M[R]_m) (old old' : meas R) :
  let c := LCG 2 [:: old; old'] [:: rm A; rm B] (vec mu) (sq S) in
  exists a : amodel R 'cV[R]_p n m, linear_model a /\ forall x u,
    [/\ (let! r := lm_predict m c (vec u) (vec x) in Ok r.1) = am_predict a (Some u) x,
        (let! r := lm_jacobian c (vec u) (vec x) in Ok r.1) = (let! F := am_jacobian a (Some u) x in Ok (rm F)) &
        symmetric S -> (let! r := lm_cov c (vec u) (vec x) in Ok r.1) = (let! Q := am_noise a (Some u) x in Ok (sq Q))].
Proof.
move=> c; exists (AModel false (fun x o => A *m x + (if o is Some u then B *m u else 0) + mu)
  (fun _ _ => A) (fun _ _ => S)); split.
  exists (fun=> A), (fun o => (if o is Some u then B *m u else 0) + mu), (fun=> S) => x o.
  by split=> //=; rewrite addrA.
move=> x u; have [-> -> ->] := C58_model2 A B mu (sq S) old old' u x; split=> //= hS.
by rewrite sym_lowerE.
Qed.

(** A larger number of arguments adds matrices without rows: the mean fails
    until they are set. *)
Theorem C58_more_arguments_refuted n c j : (0 < n)%N -> (l_num c < j)%N ->
  lc_mean n (lc_num_set (stored c) j) = Abort.
Proof.
move=> hn hj; rewrite num_setE meanE; case: ifP => // /andP[/allP h _].
have : l_num c \in iota 0 j by rewrite mem_iota /= add0n.
by move/h; rewrite /= ltnn /= => /eqP[e]; rewrite -e in hn.
Qed.
End Linear.

(** ** C69: density and samples *)
From Verif Require Import PropertiesWrapper PropertiesGauss.
Section Density.
Variables (R : rcfType) (eps twopi : R) (expo : R -> R).
(** The density is that of the Gaussian with the mean of the current arguments
    and the covariance of the noise. *)
Theorem C69_density n (c : lcg R) (m x : 'cV[R]_n) (S : 'M[R]_n) :
  0 < twopi -> (forall y, 0 <= expo y) -> pd S -> lc_mean n c = Ok m -> lc_sigma c = sq S ->
  lc_prob twopi expo n c (vec x) = Ok (density twopi expo m S x).
Proof.
move=> tp ep hS hm hs; rewrite /lc_prob hm /= hs /= meas_castE /= C63_inverse pd_unit //=.
rewrite meas_castE /= C63_determinant pd_unit // orbT /= -/(gs_value _ _ _ _ _).
rewrite /gs_factor pmulr_rgt0 ?exprn_gt0 // pd_det // mulmxA -/(qf _ _).
have := pd_psd (pd_inv hS); case=> _ /(_ (x - m)) => h; rewrite h /=.
rewrite pmulr_lge0 ?ep /= /density ?mul1r; last by rewrite invr_gt0 sqrtr_gt0 pmulr_rgt0 ?exprn_gt0 // pd_det.
congr (Ok (expo _ / _)); by rewrite !mulNr mulrC.
Qed.
(** A sample is the mean of the current arguments plus the factor of the noise
    covariance times the draws. *)
Theorem C69_sample n (c : lcg R) (m : 'cV[R]_n) (S : 'M[R]_n) meth z :
  meth = DEFAULT \/ meth = CHOLESKY -> lc_mean n c = Ok m -> lc_sigma c = sq S ->
  lc_sample eps n c meth z = Ok ((cholesky eps S).1, Some (vec ((cholesky eps S).2 *m \col_(i < n) z i.+1 + m))).
Proof.
move=> h hm hs; rewrite /lc_sample hm hs; case: h => -> /=; rewrite /gs_draw /= leqnn /= !castE //.
Qed.
End Density.

(** ** Examples *)
Section Examples.
Variable R : rcfType.
Let s1 (x : nat) : 'M[R]_1 := (x%:R)%:M.
(** [A = 2], [B = 5], noise mean 1; the stored arguments are empty *)
Let c := LCG 2 [:: vec0 R; vec0 R] [:: rm (s1 2); rm (s1 5)] (vec (s1 1)) (sq (s1 1)).
Lemma s1M a b : s1 a *m s1 b = s1 (a * b).
Proof. by rewrite -scalar_mxM -natrM. Qed.
Lemma s1D a b : s1 a + s1 b = s1 (a + b).
Proof. by rewrite /s1 natrD raddfD. Qed.
(** 2*3 + 5*4 + 1 = 27 *)
Example C58_example_model : exists d, lm_predict 1 c (vec (s1 4)) (vec (s1 3)) = Ok (s1 27, d).
Proof. by have [-> _ _] := C58_model2 (s1 2) (s1 5) (s1 1) (sq (s1 1)) (vec0 R) (vec0 R) (s1 4) (s1 3); rewrite !s1M !s1D; eexists. Qed.
(** set both arguments, query; set the second matrix to 0, query; after a third
    argument is added the query fails *)
Let prog := [:: LArg 0%N (vec (s1 3)); LArg 1%N (vec (s1 4)); QMean; LSecond (rm (s1 0)); QMean].
Example C58_example_program :
  (exists d, lc_run 1 c prog = Ok ([:: RNone; RNone; RVec (vec (s1 27)); RNone; RVec (vec (s1 7))], d)) /\
  lc_run 1 c (prog ++ [:: LNum 3; QMean]) = Abort.
Proof.
have E a b (x y : nat) (S : smat R) : lc_mean 1 (LCG 2 [:: vec (s1 x); vec (s1 y)] [:: rm (s1 a); rm (s1 b)] (vec (s1 1)) S)
    = Ok (s1 (a * x + b * y + 1)).
  rewrite /lc_mean /= addE /= ?eqxx termE /= addE /= ?eqxx termE /= /padd meas_castE /= add0r.
  by rewrite !s1M !s1D.
split; first by rewrite /= /lm_second_set /lc_arg_set /lc_mat_set /= E /= E /=; eexists.
rewrite /= /lm_second_set /lc_arg_set /lc_mat_set /= E /= E /=.
by rewrite /lc_num_set /= /lc_mean /= addE /= ?eqxx /= addE /= ?eqxx /= addE.
Qed.
Example C58_example_refuted : lc_mean 1 (lc_num_set (stored (Lin 1 (fun=> rm (s1 2)) (fun=> vec (s1 3)) (vec (s1 1)) (sq (s1 1)))) 2) = Abort.
Proof. exact: C58_more_arguments_refuted. Qed.
Example C69_example : lc_prob 1 (fun=> 1) 1 (LCG 1 [:: vec (s1 3)] [:: rm (s1 2)] (vec (s1 1)) (sq (1%:M : 'M[R]_1))) (vec (s1 9))
  = Ok (density 1 (fun=> 1) (s1 7) 1%:M (s1 9)).
Proof.
apply: C69_density => //; [exact: ltr01|by move=> _; exact: ler01|exact: pd1|].
by rewrite /lc_mean /= addE /= ?eqxx termE /= /padd meas_castE /= add0r s1M s1D.
Qed.
End Examples.

Print Assumptions C58_program. Print Assumptions C58_construction. Print Assumptions C58_mean.
Print Assumptions C58_derivative. Print Assumptions C58_affine. Print Assumptions C58_model1.
Print Assumptions C58_model2. Print Assumptions C58_filter_model. Print Assumptions C58_more_arguments_refuted.
Print Assumptions C69_density. Print Assumptions C69_sample.
