(** * One QR sweep (lemmas for C86) *)
From mathcomp Require Import all_ssreflect all_algebra.
From mathcomp Require Import ring zify.
From Verif Require Import OrdLra Outcome ModelSVD SpecSVD ProofsSVD ProofsSVDBid ProofsSVDAcc ProofsSVDRot ProofsSVDIter.
Set Implicit Arguments. Unset Strict Implicit. Unset Printing Implicit Defensive.
Import Order.TTheory GRing.Theory Num.Theory.
Local Open Scope ring_scope.

Section Sweep.
Variable R : rcfType.
Implicit Types (F G U V : arr2 R) (w rv : arr1 R).
(** the matrix before the rotations for [j] *)
Definition Fs p k j c s f x w rv : arr2 R := fun a l =>
  let rvc := cut k (set1 rv p 0) in
  if (a.+1 == j) && (l == j) then (if j == p then 0 else f)
  else if (a.+1 == j) && (l == j.+1) then (if j == p then 0 else s * rvc j.+1)
  else if (a == j) && (l == j) then x
  else if (a == j) && (l == j.+1) then c * rvc j.+1
  else bid w rvc a l.

Lemma Fs_step p k j c s f x w rv c1 s1 c2 s2 z z2 a l :
  (0 < p <= j)%N -> (j < k)%N -> (0 < a)%N -> (0 < l)%N ->
  let i := j.+1 in let h := s * rv i in let g := c * rv i in let y := w i in
  f * c1 + h * s1 = z -> h * c1 - f * s1 = 0 ->
  let f2 := x * c1 + g * s1 in let g2 := g * c1 - x * s1 in let h2 := y * s1 in let y2 := y * c1 in
  f2 * c2 + h2 * s2 = z2 -> h2 * c2 - f2 * s2 = 0 ->
  rotL j i c2 s2 (rotate j i c1 s1 (Fs p k j c s f x w rv)) a l =
  Fs p k i c2 s2 (c2 * g2 + s2 * y2) (c2 * y2 - s2 * g2) (set1 w j z2) (set1 rv j z) a l.
Proof.
move=> hp jk a0 l0 i h g y e1 e2 f2 g2 h2 y2 e3 e4.
have ei : i = j.+1 by [].
have row b : rotate j i c1 s1 (Fs p k j c s f x w rv) b l =
  if b.+1 == j then (if l == j then (if j == p then 0 else z) else if l == i then 0 else bid w (cut k (set1 rv p 0)) b l)
  else if b == j then (if l == j then f2 else if l == i then g2 else 0)
  else if b == i then (if l == j then h2 else if l == i then y2 else if l == i.+1 then cut k rv i.+1 else 0)
  else bid w (cut k (set1 rv p 0)) b l.
  rewrite /rotate /Fs ei.
  have rvi : cut k (set1 rv p 0) j.+1 = rv j.+1 by rewrite /cut /set1; bdec.
  rewrite rvi -/i -/h -/g.
  case: (b.+1 =P j) => bj.
    case: (l =P j) => lj; first by bdec; case: (j == p); rewrite ?mul0r ?addr0.
    case: (l =P i) => li; first by bdec; case: (j == p); rewrite ?mul0r ?subr0.
    by bdec.
  case: (b =P j) => bj2.
    case: (l =P j) => lj; first by bdec.
    case: (l =P i) => li; first by bdec.
    by bdec; rewrite /bid; bdec.
  case: (b =P i) => bi.
    case: (l =P j) => lj; first by rewrite /bid; bdec; rewrite mul0r add0r.
    case: (l =P i) => li; first by rewrite /bid; bdec; rewrite mul0r subr0.
    rewrite /bid; bdec; case: (l =P i.+1) => li2; last by bdec.
    by rewrite ifT; [rewrite li2 /cut /set1; case: ifP => // _; bdec|lia].
  case: (l =P j) => lj; first by rewrite /bid; bdec; rewrite ?mul0r ?addr0.
  case: (l =P i) => li; first by rewrite /bid; bdec; rewrite ?mul0r ?subr0.
  by bdec.
have rv' q : (q != j) -> cut k (set1 (set1 rv j z) p 0) q = cut k (set1 rv p 0) q.
  by move=> hq; rewrite /cut /set1 (negbTE hq).
rewrite /rotL {1}/flip {1}/rotate /flip !row.
rewrite {1}/Fs ei; case: (a =P j) => aj.
  bdec; case: (l =P j) => lj; first by rewrite /bid; bdec; rewrite e3 lj /set1 eqxx.
  case: (l =P j.+1) => li; first by bdec; rewrite mulrC [y2 * s2]mulrC.
  bdec; rewrite mul0r add0r; case: (l =P j.+2) => li2.
    by bdec; rewrite rv'; [rewrite mulrC; congr (_ * _); rewrite /cut /set1; case: ifP => // _; bdec|lia].
  by rewrite /bid; bdec; rewrite mul0r.
case: (a =P j.+1) => ai.
  bdec; case: (l =P j) => lj; first by rewrite /bid; bdec.
  case: (l =P j.+1) => li; first by bdec; rewrite mulrC [g2 * s2]mulrC.
  bdec; case: (l =P j.+2) => li2.
    by bdec; rewrite rv'; [rewrite mul0r subr0 mulrC; congr (_ * _); rewrite /cut /set1; case: ifP => // _; bdec|lia].
  by rewrite /bid; bdec; rewrite !mul0r subr0.
case: (a.+1 =P j) => aj1.
  bdec; case: (l =P j) => lj.
    rewrite /bid; bdec; rewrite /cut /set1; bdec; case: (l =P p) => lp; first by bdec.
    by bdec.
  case: (l =P j.+1) => li; first by rewrite /bid; bdec.
  rewrite /bid; case: (a =P l) => al; first by rewrite /set1; bdec.
  by bdec.
bdec; rewrite /bid; case: (a =P l) => al; first by rewrite /set1; bdec.
by case: (a.+1 =P l) => al1 //; rewrite rv' //; lia.
Qed.
Lemma Fs_init p k s f w rv a l : (0 < p < k)%N -> (0 < a)%N -> (0 < l)%N ->
  Fs p k p 1 s f (w p) w rv a l = bid w (cut k (set1 rv p 0)) a l.
Proof.
move=> hp a0 l0; rewrite /Fs.
case: (a.+1 =P p) => ap; case: (l =P p) => lp; case: (l =P p.+1) => lp1; case: (a =P p) => ap1; rewrite /bid; bdec; rewrite ?mul1r ?lp ?lp1 //; try by lia.
by rewrite /cut /set1; bdec.
Qed.
Lemma Fs_end p k c s f x w rv a l : (0 < p < k)%N -> (0 < a)%N -> (0 < l)%N ->
  Fs p k k c s f x w rv a l = bid (set1 w k x) (cut k (set1 (set1 rv p 0) k f)) a l.
Proof.
move=> hp a0 l0; rewrite /Fs.
have z : cut k (set1 rv p 0) k.+1 = 0 by rewrite /cut; bdec.
rewrite z !mulr0; case: (a.+1 =P k) => ak; case: (l =P k) => lk; case: (l =P k.+1) => lk1; case: (a =P k) => ak1;
  rewrite /bid; bdec; rewrite /cut /set1; bdec; rewrite ?lk ?lk1 //; try by lia.
Qed.
Lemma rotOK (f h : R) : pythag f h != 0 -> let z := pythag f h in
  [/\ (f / z) ^+ 2 + (h / z) ^+ 2 = 1, f * (f / z) + h * (h / z) = z & h * (f / z) - f * (h / z) = 0].
Proof.
move=> z0 /=; have e := pythag_sq f h; move: z0 e; move: (pythag f h) => z z0 e; split.
- by rewrite !exprMn -mulrDl -e -exprMn divff ?expr1n.
- by rewrite !mulrA -mulrDl -!expr2 -e expr2 mulfK.
- by rewrite mulrCA subrr.
Qed.
End Sweep.

Section Run.
Variables (R : rcfType) (m n : nat) (tol anorm : R).
Variables (U0 : 'M[R]_(m, n)) (V0 B0 : 'M[R]_n).
Implicit Types (F G U V : arr2 R) (w rv : arr1 R) (st : sstate R).
Notation rep := (rep tol anorm U0 V0 B0).
Lemma sweepP p k (kn : (k <= n)%N) (p0 : (0 < p)%N) len : forall N j c s f x w rv U V, (j + len = k)%N -> (p <= j)%N -> ((0 < len)%N -> s != 0) ->
  rep N U V (Fs p k j c s f x w rv) -> (forall l, (j < l < k)%N -> w l != 0) -> (forall l, (j < l <= k)%N -> rv l != 0) ->
  let: (f', x', w', rv', U', V') := sweep (iota j len) c s f x w rv U V in
  (exists c' s', rep N U' V' (Fs p k k c' s' f' x' w' rv')) /\
  (forall l, (l < j)%N || (k <= l)%N -> w' l = w l /\ rv' l = rv l).
Proof.
elim: len => [|len ih] N j c s f x w rv U V hj pj s0 hr hw hrv.
  by move: hr; have -> : j = k by [move: hj; rewrite addn0]; split=> //; exists c, s.
rewrite [sweep _ _ _ _ _ _ _ _ _]/=.
set h := s * rv j.+1; set g := c * rv j.+1; set z := pythag f h; set c1 := f / z; set s1 := h / z.
set f2 := x * c1 + g * s1; set g2 := g * c1 - x * s1; set h2 := w j.+1 * s1; set y2 := w j.+1 * c1; set z2 := pythag f2 h2.
have jk : (j < k)%N by rewrite -hj addnS ltnS leq_addr.
have h0 : h != 0 by rewrite mulf_neq0 ?s0 ?hrv ?ltnSn.
have z0 : z != 0 by rewrite /z pythag_eq0 negb_and h0 orbT.
have [cs1 e1 e2] := rotOK z0; rewrite -/z -/c1 -/s1 in cs1 e1 e2.
have s10 : s1 != 0 by rewrite /s1 mulf_neq0 ?invr_eq0.
case E : (if z2 != 0 then _ else _) => [c2 s2].
have [cs2 e3 e4] : [/\ c2 ^+ 2 + s2 ^+ 2 = 1, f2 * c2 + h2 * s2 = z2 & h2 * c2 - f2 * s2 = 0].
  move: E; case: (z2 =P 0) => [z20|/eqP z20] /= [<- <-]; last by rewrite !mul1r; exact: rotOK.
  move/eqP: (z20); rewrite /z2 pythag_eq0 => /andP [/eqP f20 /eqP h20].
  split; first exact: cs1.
    by rewrite [in LHS]f20 [in LHS]h20 !mul0r addr0; exact: esym z20.
  by rewrite [in LHS]f20 [in LHS]h20 !mul0r subr0.
have s20 : (0 < len)%N -> s2 != 0.
  move=> l0; have y0 : w j.+1 != 0 by apply: hw; rewrite ltnSn -hj; clear -l0; lia.
  have h20 : h2 != 0 by rewrite mulf_neq0.
  move: E; have -> : z2 != 0 by rewrite /z2 pythag_eq0 negb_and h20 orbT.
  by move=> [_ <-]; rewrite mul1r mulf_neq0 // invr_eq0 /z2 pythag_eq0 negb_and h20 orbT.
have hj' : (j.+1 + len = k)%N by rewrite addSn -addnS.
have pj' : (p <= j.+1)%N by apply: leqW.
have r1 : (0 < j <= n)%N by clear -p0 pj jk kn; lia.
have r2 : (0 < j.+1 <= n)%N by clear -jk kn; lia.
have r3 : j != j.+1 by clear; lia.
have hp : (0 < p <= j)%N by rewrite p0.
have := ih N j.+1 c2 s2 (c2 * g2 + s2 * y2) (c2 * y2 - s2 * g2) (set1 w j z2) (set1 rv j z) (rotate j j.+1 c2 s2 U) (rotate j j.+1 c1 s1 V) hj' pj' s20.
case: (sweep _ _ _ _ _ _ _ _ _) => [[[[[f' x'] w'] rv'] U'] V'] /=.
move=> /(_ _ _ _) [| | |h1 h3]; last first.
- split=> // l hl; have [|-> ->] := h3 l; first by clear -hl; lia.
  have lj : (l == j) = false by clear -hl jk; lia.
  by rewrite /set1 lj.
- by move=> l hl; rewrite /set1 ifN_eq; [apply: hrv; clear -hl; lia|clear -hl; lia].
- by move=> l hl; rewrite /set1 ifN_eq; [apply: hw; clear -hl; lia|clear -hl; lia].
- have := rep_rotU r1 r2 r3 cs2 (rep_rotV r1 r2 r3 cs1 hr); apply: rep_ext => a l /andP [a0 _] /andP [l0 _].
  exact: (Fs_step hp jk a0 l0 e1 e2 e3 e4).
Qed.
End Run.
