(** * Properties of the matrix and vector wrappers: C61-C65 *)
From mathcomp Require Import all_ssreflect all_algebra fingroup perm zify.
From Verif Require Import Outcome ModelMatrix ModelKalman ModelWrapper SpecMatrix.
Set Implicit Arguments. Unset Strict Implicit. Unset Printing Implicit Defensive.
Import Order.TTheory GRing.Theory Num.Theory.
Local Open Scope ring_scope.

Section Vector.
Variable R : realFieldType.
Implicit Types (v w : seq R).

(** A loop that writes [g i] to position [a + i] for [i = s .. s+k-1]. *)
Lemma fill (F : seq R -> nat -> outcome (seq R)) (g : nat -> R) a s k w :
  (forall w' i, size w' = size w -> (s <= i < s + k)%N -> F w' i = ub_put w' (a + i) (g i)) ->
  (a + s + k <= size w)%N ->
  exists w', [/\ foldO F w (iota s k) = Ok w', size w' = size w &
    forall j, nth 0 w' j = if (a + s <= j < a + s + k)%N then g (j - a)%N else nth 0 w j].
Proof.
elim: k s w => [|k IH] s w hF hs.
  by exists w; split=> // j; case: ifP => //; lia.
rewrite /= hF //; last by lia.
have h1 : (a + s < size w)%N by lia.
rewrite /ub_put h1 (put_set_nth 0 _ h1) /=.
have hz : size (set_nth 0 w (a + s) (g s)) = size w by rewrite size_set_nth (maxn_idPr h1).
have [||w' [h2 h3 h4]] := IH s.+1 (set_nth 0 w (a + s) (g s)).
- by move=> w' i hw hi; apply: hF; [rewrite hw hz|lia].
- by rewrite hz; lia.
exists w'; split=> //; first by rewrite h3 hz.
move=> j; rewrite h4 nth_set_nth /=.
case: (j =P (a + s)%N) => [->|/eqP nj].
  rewrite ifF; last by lia.
  by rewrite ifT; [congr g; lia|lia].
case: ifP => h; first by rewrite ifT //; lia.
by rewrite ifF //; lia.
Qed.

(** C61.  [assign] never succeeds for a size of at least 1: the write goes to
    position [n] of a vector of [n] elements. *)
Theorem C61_assign_refuted v n (x : R) : (0 < n)%N -> vec_assign v n x = Abort.
Proof.
case: n => // n _; rewrite /vec_assign /vec_assign_loop.
have hz : size (ub_resize v n.+1) = n.+1.
  by rewrite /ub_resize size_cat size_take size_nseq; case: ifP; lia.
suff H k s w : size w = (s + k.+1)%N -> foldO (fun w (i : nat) => ub_put w i.+1 x) w (iota s k.+1) = Abort.
  by apply: H; rewrite hz.
elim: k s w => [|k IH] s w hw /=.
  by rewrite /ub_put ifF //; lia.
have h1 : (s.+1 < size w)%N by lia.
rewrite /ub_put h1 (put_set_nth 0 _ h1) /=.
apply: (IH s.+1); rewrite size_set_nth (maxn_idPr h1); lia.
Qed.

(** Up to the failing write, the loop has set every element but the first,
    which still has the value it had (0 if the vector has grown). *)
Theorem C61_first_unset v n (x : R) : (0 < n)%N ->
  exists w, [/\ vec_assign_loop v n n.-1 x = Ok w, size w = n, nth 0 w 0 = nth 0 v 0 &
    forall j, (0 < j < n)%N -> nth 0 w j = x].
Proof.
case: n => // n _; rewrite /vec_assign_loop.
have hz : size (ub_resize v n.+1) = n.+1.
  by rewrite /ub_resize size_cat size_take size_nseq; case: ifP; lia.
have [||w [h1 h2 h3]] := @fill (fun w (i : nat) => ub_put w i.+1 x) (fun _ => x) 1 0 n (ub_resize v n.+1).
- by move=> w' i _ _; rewrite add1n.
- by rewrite hz; lia.
exists w; split=> //=; [by rewrite h2| |by move=> j hj; rewrite h3 ifT //; lia].
rewrite h3 /= /ub_resize; case: v {hz h1 h2 h3} => //=.
Qed.

(** What the user expects holds for the constructor with a value. *)
Theorem C61_constructor n (x : R) : vec_const n x = nseq n x.
Proof. by []. Qed.

(** C64.  Concatenation and sub-vectors, whatever the new vector contains at
    first. *)
Lemma vec_getS v i : (i < size v)%N -> vec_get v i.+1 = Ok (nth 0 v i).
Proof. by move=> h; rewrite /vec_get /ub_get h (at_nth 0 h). Qed.

Theorem C64_concatenation junk v1 v2 : size junk = (size v1 + size v2)%N ->
  vec_add junk v1 v2 = Ok (v1 ++ v2) /\ vec_join junk v1 v2 = Ok (v1 ++ v2).
Proof.
move=> hj.
have gen (P1 P2 : seq R -> nat -> outcome (seq R)) :
  (forall w i, (i < size v1)%N -> P1 w i = ub_put w (0 + i) (nth 0 v1 i)) ->
  (forall w i, (i < size v2)%N -> P2 w i = ub_put w (size v1 + i) (nth 0 v2 i)) ->
  (let! w := foldO P1 junk (iota 0 (size v1)) in foldO P2 w (iota 0 (size v2))) = Ok (v1 ++ v2).
  move=> H1 H2.
  have [||w [h1 h2 h3]] := @fill P1 (nth 0 v1) 0 0 (size v1) junk.
  - by move=> w i _ /andP[_ hi]; apply: H1.
  - by rewrite hj; lia.
  rewrite h1 /=.
  have [||u [k1 k2 k3]] := @fill P2 (nth 0 v2) (size v1) 0 (size v2) w.
  - by move=> w' i _ /andP[_ hi]; apply: H2.
  - by rewrite h2 hj; lia.
  rewrite k1; congr Ok; apply: (@eq_from_nth _ 0); first by rewrite k2 h2 hj size_cat.
  move=> j; rewrite k2 h2 hj => lj; rewrite k3 nth_cat addn0.
  case: (ltnP j (size v1)) => hl.
    by rewrite /= h3 /= add0n hl subn0.
  by rewrite /= lj.
split; apply: gen => w i hi.
- by rewrite vec_getS.
- by rewrite vec_getS.
- by rewrite vec_getS.
- by rewrite vec_getS.
Qed.

Theorem C64_sub junk v a b : (0 < a)%N -> (a <= b.+1)%N -> (b <= size v)%N -> size junk = (b.+1 - a)%N ->
  exists w, [/\ vec_sub junk v a b = Ok w, size w = (b.+1 - a)%N &
    forall i, (i < size w)%N -> nth 0 w i = nth 0 v (a + i).-1].
Proof.
move=> a0 hab hb hj.
suff [w [h1 h2 h3]] : exists w, [/\ vec_sub junk v a b = Ok w, size w = size junk &
   forall j, (j < size w)%N -> nth 0 w j = nth 0 v (a + j).-1].
  by exists w; split=> //; rewrite h2.
rewrite /vec_sub.
(* the loop runs over j = a..b; shift it to start at 0 *)
have shift k s w : foldO (fun w (j : nat) => let! x := vec_get v j in vec_put w (j - a).+1 x) w (iota (a + s) k)
   = foldO (fun w (i : nat) => let! x := vec_get v (a + i) in vec_put w i.+1 x) w (iota s k).
  elim: k s w => //= k IH s w; rewrite addKn.
  by case: (vec_get _ _) => //= x; case: (ub_put _ _ _) => //= w'; rewrite -addnS IH.
have := shift (b.+1 - a)%N 0%N junk; rewrite addn0 => ->.
have [||w [h1 h2 h3]] := @fill (fun w (i : nat) => let! x := vec_get v (a + i) in vec_put w i.+1 x)
   (fun i => nth 0 v (a + i).-1) 0 0 (b.+1 - a) junk.
- move=> w i _ hi; have -> : (a + i)%N = (a + i).-1.+1 by lia.
  by rewrite vec_getS //=; lia.
- by rewrite hj.
exists w; split=> // j; rewrite h2 hj => lj.
by rewrite h3 add0n lj /= subn0.
Qed.

(** The two parts of a concatenation are found again with [sub]. *)
Theorem C64_round_trip junk v1 v2 : size junk = (size v1 + size v2)%N ->
  exists w, [/\ vec_add junk v1 v2 = Ok w,
    forall j, size j = size v1 -> vec_sub j w 1 (size v1) = Ok v1 &
    forall j, size j = size v2 -> vec_sub j w (size v1).+1 (size v1 + size v2) = Ok v2].
Proof.
move=> hj; have [h _] := C64_concatenation hj.
exists (v1 ++ v2); split=> // j hs.
  have [||||w [h1 h2 h3]] := @C64_sub j (v1 ++ v2) 1 (size v1) => //.
  - by rewrite size_cat; lia.
  - by rewrite hs; lia.
  rewrite h1; congr Ok; apply: (@eq_from_nth _ 0); first by rewrite h2 subn1.
  by move=> i; rewrite h2 subn1 => hi; rewrite h3 ?h2 ?subn1 // add1n /= nth_cat hi.
have [||||w [h1 h2 h3]] := @C64_sub j (v1 ++ v2) (size v1).+1 (size v1 + size v2) => //.
- by lia.
- by rewrite size_cat.
- by rewrite hs; lia.
have hw : size w = size v2 by rewrite h2 subSS addKn.
rewrite h1; congr Ok; apply: (@eq_from_nth _ 0); first exact: hw.
move=> i hi; rewrite h3 // addSn /= nth_cat ltnNge leq_addr /=.
by rewrite addKn.
Qed.

(** The inner product. *)
Theorem C64_dot v1 v2 :
  vec_dot v1 v2 = if size v1 == size v2 then Ok (\sum_(0 <= i < size v2) nth 0 v1 i * nth 0 v2 i) else Abort.
Proof.
rewrite /vec_dot; case: eqP => //= hs.
suff H k s (acc : R) : (s + k <= size v2)%N ->
  foldO (fun acc (i : nat) => let! x := vec_get v1 i.+1 in let! y := vec_get v2 i.+1 in Ok (acc + x * y)) acc (iota s k)
  = Ok (acc + \sum_(s <= i < s + k) nth 0 v1 i * nth 0 v2 i).
  by have := H (size v2) 0%N 0 (leqnn _); rewrite add0r.
elim: k s acc => [|k IH] s acc h; first by rewrite addn0 big_geq ?addr0.
have lt : (s < size v2)%N by rewrite (leq_trans _ h) // addnS ltnS leq_addr.
rewrite [iota _ _]/= [foldO _ _ _]/= -/(vec_get v1 s.+1) -/(vec_get v2 s.+1).
rewrite !vec_getS ?hs //= IH; last by rewrite addSnnS.
by rewrite -addrA [in RHS]big_ltn ?addSnnS // addnS ltnS leq_addr.
Qed.
End Vector.

Section Matrix.
Variable R : realFieldType.

(** C62.  Both conversions give a symmetric matrix and leave a symmetric matrix
    as it is. *)
Theorem C62_symmetric n (M : 'M[R]_n) : symmetric (sym_lower M) /\ symmetric (sym_upper M).
Proof.
split; apply/matrixP=> i j; rewrite !mxE;
  by case: (ltngtP i j) => // h; rewrite (ord_inj h).
Qed.

Theorem C62_identity n (M : 'M[R]_n) : symmetric M -> sym_lower M = M /\ sym_upper M = M.
Proof.
move=> /matrixP h; split; apply/matrixP=> i j; rewrite !mxE; case: ifP => // _.
- by have := h i j; rewrite mxE => ->.
- by have := h i j; rewrite mxE => ->.
Qed.

(** The two wrappers agree exactly on symmetric matrices. *)
Theorem C62_wrappers_differ_refuted n (M : 'M[R]_n) : sym_lower M = sym_upper M <-> symmetric M.
Proof.
split=> [/matrixP h|h]; last by have [-> ->] := C62_identity h.
apply/matrixP=> i j; rewrite mxE; have := h i j; rewrite !mxE.
by case: (ltngtP i j) => [||/ord_inj ->].
Qed.

(** The Boost wrapper keeps the lower triangle, as documented; the Eigen
    wrapper keeps the upper one. *)
Theorem C62_triangles n (M : 'M[R]_n) (i j : 'I_n) : (j <= i)%N ->
  sym_lower M i j = M i j /\ sym_upper M i j = M j i.
Proof.
move=> h; rewrite !mxE h; split=> //.
by case: ltngtP h => // /ord_inj ->.
Qed.

(** ** Determinant and inverse *)
Lemma lu_pivotP n (A : 'M[R]_n.+1) k : `|A k ord0| <= `|A (lu_pivot A) ord0|.
Proof.
rewrite /lu_pivot.
suff H (l : seq 'I_n.+1) b : (forall k, k \in l -> `|A k ord0| <= `|A (foldl (fun b k => if `|A b ord0| < `|A k ord0| then k else b) b l) ord0|)
  /\ `|A b ord0| <= `|A (foldl (fun b k => if `|A b ord0| < `|A k ord0| then k else b) b l) ord0|.
  by have [H1 _] := H (enum 'I_n.+1) ord0; apply: H1; rewrite mem_enum.
elim: l b => [|x l IH] b //=.
have [H1 H2] := IH (if `|A b ord0| < `|A x ord0| then x else b).
have hx : `|A x ord0| <= `|A (if `|A b ord0| < `|A x ord0| then x else b) ord0|.
  by case: ltP.
have hb : `|A b ord0| <= `|A (if `|A b ord0| < `|A x ord0| then x else b) ord0|.
  by case: ltP => // /ltW.
split; last exact: le_trans hb H2.
move=> k'; rewrite inE => /orP[/eqP->|]; last exact: H1.
exact: le_trans hx H2.
Qed.

Lemma lu_swappedE n (A : 'M[R]_n.+1) : lu_swapped A = tperm_mx ord0 (lu_pivot A) *m A.
Proof. exact: xrowE. Qed.

Lemma lu_split n (B : 'M[R]_(1 + n)) : B 0 0 != 0 ->
  B = block_mx 1%:M 0 ((B 0 0)^-1 *: dlsubmx B) 1%:M *m block_mx (B 0 0)%:M (ursubmx B) 0 (lu_rest B).
Proof.
move=> h; have hu : ulsubmx B = (B 0 0)%:M.
  apply/matrixP=> i j; rewrite !ord1 !mxE /= mulr1n; congr (B _ _); exact/val_inj.
rewrite mulmx_block !mul1mx !mul0mx ?mulmx0 !addr0 -[LHS]submxK hu; congr block_mx.
  by rewrite -scalemxAl mul_mx_scalar scalerA mulVf // scale1r.
by rewrite /lu_rest -!scalemxAl; rewrite addrC subrK.
Qed.

Lemma det_swapped n (A : 'M[R]_n.+1) :
  \det (lu_swapped A) = (if lu_pivot A != ord0 then -1 else 1) * \det A.
Proof.
rewrite lu_swappedE det_mulmx det_perm odd_tperm; congr (_ * _).
by rewrite eq_sym; case: (_ == _).
Qed.

Lemma det_split n (B : 'M[R]_(1 + n)) : B 0 0 != 0 -> \det B = B 0 0 * \det (lu_rest B).
Proof.
move=> h; rewrite [in LHS](lu_split h) det_mulmx det_lblock det_ublock !det1 !mul1r.
by rewrite det_scalar expr1.
Qed.

Lemma det_no_pivot n (A : 'M[R]_n.+1) : lu_swapped A 0 0 = 0 -> \det A = 0.
Proof.
rewrite /lu_swapped mxE tpermL => h.
have z k : A k 0 = 0.
  by apply/eqP; rewrite -normr_le0; apply: le_trans (lu_pivotP A k) _; rewrite h normr0.
by rewrite (expand_det_col A 0) big1 // => i _; rewrite z mul0r.
Qed.

Lemma lu_detP n (A : 'M[R]_n) : lu_det A = if A \in unitmx then Ok (\det A) else Abort.
Proof.
elim: n A => [|n IH] A; first by rewrite unitmxE det_mx00 unitr1.
rewrite unitmxE unitfE /=; case: eqP => [/det_no_pivot -> |/eqP h]; first by rewrite eqxx.
have hd := det_swapped A; rewrite (det_split h) in hd.
have ->: \det A = (if lu_pivot A != ord0 then -1 else 1) * (lu_swapped A 0 0 * \det (lu_rest (lu_swapped A))).
  by rewrite hd mulrA; case: (_ != _); rewrite ?mulrNN ?mulr1 mul1r.
rewrite IH unitmxE unitfE !mulf_eq0 (negbTE h) /=.
have -> : ((if lu_pivot A != ord0 then -1 else 1) == 0 :> R) = false.
  by case: (_ != _); rewrite ?oppr_eq0 oner_eq0.
by case: (\det (lu_rest _) == 0).
Qed.

Lemma lu_solveP n m (A : 'M[R]_n) (C : 'M[R]_(n, m)) :
  lu_solve A C = if A \in unitmx then Ok (invmx A *m C) else Abort.
Proof.
elim: n A C => [|n IH] A C /=.
  rewrite unitmxE det_mx00 unitr1; congr Ok.
  by apply/matrixP=> -[].
rewrite unitmxE unitfE; case: eqP => [/det_no_pivot -> |/eqP h]; first by rewrite eqxx.
have hd := det_swapped A; rewrite (det_split h) in hd.
have hz : (\det A == 0) = (\det (lu_rest (lu_swapped A)) == 0).
  have : (lu_swapped A 0 0 * \det (lu_rest (lu_swapped A)) == 0) = (\det A == 0).
    rewrite hd mulf_eq0; case: (_ != _); by rewrite ?oppr_eq0 oner_eq0.
  by rewrite mulf_eq0 (negbTE h) /= => ->.
rewrite IH unitmxE unitfE -hz; case: eqP => //= /eqP dA.
have uA : A \in unitmx by rewrite unitmxE unitfE.
have uR : lu_rest (lu_swapped A) \in unitmx by rewrite unitmxE unitfE -hz.
congr Ok.
set B := lu_swapped A in h hd hz uR *.
set D : 'M_(1 + n, m) := xrow _ _ C.
set X := invmx _ *m _.
set Y : 'M_(1 + n, m) := col_mx _ _.
suff hY : A *m (Y : 'M_(n.+1, m)) = C by rewrite -hY mulmxA mulVmx // mul1mx.
have hB : B *m Y = D.
  rewrite (lu_split h) -mulmxA mul_block_col mul_block_col.
  rewrite mul_scalar_mx scalerA mulfV // scale1r subrK !mul1mx !mul0mx add0r addr0.
  by rewrite /X mulmxA mulmxV // mul1mx addrC subrK vsubmxK.
have hP : tperm_mx ord0 (lu_pivot A) *m (A *m Y) = tperm_mx ord0 (lu_pivot A) *m C.
  by rewrite mulmxA -lu_swappedE -/B hB /D xrowE.
have := congr1 (fun Z => tperm_mx ord0 (lu_pivot A) *m Z) hP.
by rewrite /= !mulmxA -!perm_mxM tperm2 perm_mx1 !mul1mx.
Qed.

Lemma det2 (A : 'M[R]_2) : \det A = A 0 0 * A 1 1 - A 1 0 * A 0 1.
Proof.
rewrite (expand_det_row _ 0) !big_ord_recl big_ord0 addr0 /cofactor !det_mx11 !mxE /=.
rewrite expr0 mul1r expr1 mulN1r mulrN [A 1 0 * _]mulrC.
congr (_ * _ - _ * _); congr (A _ _); exact/val_inj.
Qed.

(** C63.  The determinant is the determinant; a singular matrix gives 0 in
    dimensions 1 and 2 and fails an assert in every other dimension. *)
Theorem C63_determinant n (A : 'M[R]_n) :
  mat_det A = if (n == 1)%N || (n == 2)%N || (A \in unitmx) then Ok (\det A) else Abort.
Proof.
case: n A => [|[|[|n]]] A.
- exact: lu_detP.
- by rewrite /= det_mx11.
- by rewrite /= det2.
- exact: lu_detP.
Qed.

(** The inverse is the inverse, and there is a result for the invertible
    matrices only. *)
Theorem C63_inverse n (A : 'M[R]_n) :
  mat_inv A = if A \in unitmx then Ok (invmx A) else Abort.
Proof.
case: n A => [|[|[|n]]] A.
- by rewrite [LHS]lu_solveP mulmx1.
- rewrite unitmxE det_mx11 unitfE /=; case: eqP => //= /eqP h; congr Ok.
  have -> : A = (A 0 0)%:M by apply/matrixP=> i j; rewrite !ord1 mxE mulr1n.
  rewrite invmx_scalar; apply/matrixP=> i j; rewrite !ord1 !mxE !mulr1n; exact: div1r.
- rewrite unitmxE unitfE det2 [A 1 0 * _]mulrC /=; case: eqP => //= /eqP h; congr Ok.
  have uA : A \in unitmx by rewrite unitmxE unitfE det2 [A 1 0 * _]mulrC.
  set B := \matrix_(i, j) _.
  suff hB : A *m B = 1 by rewrite -[B]mul1mx -(mulVmx uA) -mulmxA hB mulmx1.
  have o1 : lift ord0 ord0 = 1 :> 'I_2 by exact/val_inj.
  apply/matrixP=> i j; rewrite !mxE !big_ord_recl big_ord0 addr0 !o1.
  have /orP[/eqP->|/eqP->] : (i == 0) || (i == 1) by case: i => -[|[|]].
    have /orP[/eqP->|/eqP->] : (j == 0) || (j == 1) by case: j => -[|[|]].
      by rewrite !mxE /= !mulrA -mulrDl mulrN divff.
    by rewrite !mxE /= !mulrA -mulrDl mulrN [A 0 1 * _]mulrC addNr mul0r.
  have /orP[/eqP->|/eqP->] : (j == 0) || (j == 1) by case: j => -[|[|]].
    by rewrite !mxE /= !mulrA -mulrDl mulrN [A 1 1 * _]mulrC subrr mul0r.
  by rewrite !mxE /= !mulrA -mulrDl mulrN addrC [A 1 1 * _]mulrC [A 1 0 * _]mulrC divff.
- by rewrite [LHS]lu_solveP mulmx1.
Qed.

(** The inverse the Kalman filter models use is the one computed here. *)
Theorem C63_filters n (A : 'M[R]_n) : minv A = mat_inv A.
Proof. by rewrite C63_inverse. Qed.

(** C65.  [rowCopy(i)] of the Boost wrapper is row [i] counted from 1; for the
    Eigen wrapper it is the row after it, and the last row cannot be asked for
    by its number. *)
Theorem C65_boost m n (A : 'M[R]_(m, n)) (i : 'I_m) : boost_row A i.+1 = Ok (row i A).
Proof. by rewrite /boost_row /raw_row valK. Qed.
Theorem C65_boost_column m n (A : 'M[R]_(m, n)) (j : 'I_n) : boost_col A j.+1 = Ok (col j A).
Proof. by rewrite /boost_col /raw_col valK. Qed.
Theorem C65_eigen_refuted m n (A : 'M[R]_(m, n)) :
  (forall i j : 'I_m, i.+1 = j -> eigen_row A i.+1 = Ok (row j A) /\ eigen_row A i.+1 = boost_row A i.+2) /\
  eigen_row A m = Abort.
Proof.
split; last by rewrite /eigen_row /raw_row insubF // ltnn.
move=> i j ->; by rewrite /eigen_row /raw_row /boost_row /raw_row valK.
Qed.
(** In the Eigen wrapper a matrix and the same matrix stored as symmetric number
    their rows differently. *)
Theorem C65_symmetric n (A : 'M[R]_n) (i : nat) : eigen_sym_row A i.+1 = eigen_row A i.
Proof. by []. Qed.
End Matrix.

(** ** Concrete cases *)
Section Examples.
Notation Q := [realFieldType of rat].
Let isok (m : outcome (seq rat)) (l : seq rat) := if m is Ok r then r == l else false.
Let aborts (A : Type) (m : outcome A) := if m is Abort then true else false.

Example C61_example :
  [/\ aborts (vec_assign ([::] : seq Q) 3 5), aborts (vec_assign ([:: 1; 2] : seq Q) 1 5),
      isok (vec_assign ([:: 1; 2] : seq Q) 0 5) [::] & isok (vec_assign_loop ([:: 1; 2] : seq Q) 3 2 5) [:: 1; 5; 5]].
Proof. by vm_compute. Qed.

Example C64_example :
  [/\ isok (vec_add ([:: 7; 7; 7] : seq Q) [:: 1] [:: 2; 3]) [:: 1; 2; 3],
      isok (vec_join ([:: 7; 7; 7] : seq Q) [:: 1] [:: 2; 3]) [:: 1; 2; 3],
      isok (vec_sub ([:: 7; 7] : seq Q) [:: 1; 2; 3; 4] 2 3) [:: 2; 3] &
      (if vec_dot ([:: 1; 2] : seq Q) [:: 3; 4] is Ok x then x == 11 else false)].
Proof. by vm_compute. Qed.

Variable R : realFieldType.
(** A matrix that is not symmetric: the wrappers give different results. *)
Example C62_example : let M : 'M[R]_2 := delta_mx 1 0 in
  sym_lower M 0 1 = 1 /\ sym_upper M 0 1 = 0.
Proof. by rewrite /= !mxE. Qed.

(** One exchange of rows; a scaled identity; singular matrices. *)
Example C63_example :
  [/\ mat_det (tperm_mx 0 1 : 'M[R]_3) = Ok (-1), mat_inv (tperm_mx 0 1 : 'M[R]_3) = Ok (tperm_mx 0 1),
      mat_det (3%:M : 'M[R]_3) = Ok 27 & mat_inv (3%:M : 'M[R]_3) = Ok (3^-1%:M)].
Proof.
have t3 : (3 : R) != 0 by rewrite pnatr_eq0.
have u3 : (3%:M : 'M[R]_3) \in unitmx by rewrite unitmxE det_scalar unitfE expf_neq0.
rewrite !C63_inverse !C63_determinant unitmx_perm u3 !orbT; split; congr Ok.
- by rewrite det_perm odd_tperm /= expr1.
- by rewrite -[RHS]mul1mx -(mulVmx (unitmx_perm R (tperm 0 1))) -mulmxA -perm_mxM tperm2 perm_mx1 mulmx1.
- by rewrite det_scalar -natrX.
- by rewrite invmx_scalar.
Qed.
Example C63_singular_example :
  mat_det (0 : 'M[R]_2) = Ok 0 /\ mat_det (0 : 'M[R]_3) = Abort.
Proof. by split; rewrite C63_determinant ?unitmxE !det0 ?unitr0. Qed.

(** The first and the last row of a 2x2 matrix. *)
Example C65_example : let M : 'M[R]_2 := delta_mx 0 0 in
  [/\ boost_row M 1 = Ok (delta_mx 0 0), eigen_row M 1 = Ok 0, boost_row M 2 = Ok 0 & eigen_row M 2 = Abort].
Proof.
move=> M.
have r0 : row 0 M = delta_mx 0 0 by apply/matrixP=> i j; rewrite !mxE !ord1 eqxx.
have r1 : row 1 M = 0 by apply/matrixP=> i j; rewrite !mxE.
have [h h'] := C65_eigen_refuted M; have [h1 _] := h 0 1 erefl.
split=> //; last 1 first.
- by rewrite -r1; exact: (C65_boost M 1).
- by rewrite -r0; exact: (C65_boost M 0).
- by rewrite -r1; exact: h1.
Qed.
End Examples.

Print Assumptions C61_assign_refuted.
Print Assumptions C61_first_unset.
Print Assumptions C61_constructor.
Print Assumptions C64_concatenation.
Print Assumptions C64_sub.
Print Assumptions C64_round_trip.
Print Assumptions C64_dot.
Print Assumptions C62_symmetric.
Print Assumptions C62_identity.
Print Assumptions C62_wrappers_differ_refuted.
Print Assumptions C62_triangles.
Print Assumptions C63_determinant.
Print Assumptions C63_inverse.
Print Assumptions C63_filters.
Print Assumptions C65_boost.
Print Assumptions C65_boost_column.
Print Assumptions C65_eigen_refuted.
Print Assumptions C65_symmetric.
