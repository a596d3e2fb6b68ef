(** * Proofs about particle-set moments *)
From Coq Require Import ZArith Lia.
From mathcomp Require Import all_ssreflect all_algebra.
From mathcomp Require Import ring zify ssrZ.
From Verif Require Import OrdLra Outcome SpecProb ModelTables ProofsTables ModelMCPdf SpecMCPdf
  ProofsMCPdf ModelMatrix SpecMatrix ProofsMatrix ModelMoments.
Set Implicit Arguments. Unset Strict Implicit. Unset Printing Implicit Defensive.
Import Order.TTheory GRing.Theory Num.Theory.
Local Open Scope ring_scope.

Section Vec.
Variables (R : realFieldType) (n : nat).
Notation vec := 'cV[R]_n.
Implicit Types (d : mcpdf R vec) (l : seq (vec * R)).

Lemma foldl_sum (V : zmodType) (A : Type) (f : A -> V) (s : seq A) a :
  foldl (fun acc x => acc + f x) a s = a + \sum_(x <- s) f x.
Proof. by elim: s a => [|x s IH] a /=; rewrite ?big_nil ?addr0 // IH big_cons addrA. Qed.

Lemma mc_meanE d : mc_valid d -> mc_mean d = \sum_(x <- mc_los d) x.2 *: x.1.
Proof. by case=> _ _ h; rewrite /mc_mean h invr1 scale1r (foldl_sum (fun x => x.2 *: x.1)) add0r. Qed.

Lemma weighted_bounds (A : Type) (s : seq (A * R)) (f : A -> R) lo hi :
  distribution (weights s) -> (forall x, List.In x s -> lo <= f x.1 <= hi) ->
  lo <= \sum_(x <- s) x.2 * f x.1 <= hi.
Proof.
move=> [hn ht] hf.
have : forall s : seq (A * R), nonneg (weights s) -> (forall x, List.In x s -> lo <= f x.1 <= hi) ->
  lo * total (weights s) <= \sum_(x <- s) x.2 * f x.1 <= hi * total (weights s).
  elim=> [|x r IH] hnr hfr; first by rewrite !total_nil big_nil !mulr0 lexx.
  move: hnr; rewrite /weights /= => /nonneg_cons [hx hr].
  have := IH hr (fun y hy => hfr y (or_intror hy)).
  have := hfr x (or_introl (erefl x)).
  rewrite big_cons !total_cons -/(weights r) !mulrDr => /andP [h1 h2] /andP [h3 h4].
  by rewrite !ler_add // [_ * x.2]mulrC ler_wpmul2l.
by move=> /(_ s hn hf); rewrite ht !mulr1.
Qed.

Lemma mc_covE d : mc_valid d ->
  mc_cov d = \sum_(x <- mc_los d) x.2 *: ((x.1 - mc_mean d) *m (x.1 - mc_mean d)^T).
Proof.
case=> _ _ h; rewrite /mc_cov h invr1 scale1r.
rewrite (foldl_sum (fun x : vec * R => (x.1 - mc_mean d) *m (x.2 *: (x.1 - mc_mean d)^T))) add0r.
under eq_bigr do rewrite -scalemxAr.
apply: sym_lowerE; rewrite /symmetric linear_sum /=; apply: eq_bigr => x _.
by rewrite linearZ /= trmx_mul trmxK.
Qed.
Lemma mc_cov_psd d : mc_valid d -> psd (mc_cov d).
Proof.
move=> hv; rewrite mc_covE //; case: hv => -[hn _] _ _.
elim: (mc_los d) hn => [|x l IH]; first by rewrite big_nil => _; exact: psd0.
rewrite /weights /= => /nonneg_cons [hx hl]; rewrite big_cons; apply: psdD; last exact: IH.
by apply: psdZ => //; exact: psd_outer.
Qed.
(** second moment minus the square of the mean *)
Lemma mc_cov_second d : mc_valid d ->
  mc_cov d = \sum_(x <- mc_los d) x.2 *: (x.1 *m x.1^T) - mc_mean d *m (mc_mean d)^T.
Proof.
move=> hv; rewrite mc_covE //; have hm := mc_meanE hv; case: hv => -[_ ht] _ _.
move: (mc_mean d) hm => m hm.
have e (x : vec * R) : x.2 *: ((x.1 - m) *m (x.1 - m)^T) =
   x.2 *: (x.1 *m x.1^T) - (x.2 *: x.1) *m m^T - m *m (x.2 *: x.1)^T + x.2 *: (m *m m^T).
  case: x => v w /=; apply/matrixP=> i j; rewrite !(mxE, big_ord1); rnorm; ring.
under eq_bigr do rewrite e.
rewrite !big_split /= !sumrN -mulmx_suml -hm -mulmx_sumr -linear_sum /= -hm.
rewrite -scaler_suml (_ : \sum_(i <- mc_los d) i.2 = 1); last by rewrite -ht /total /weights big_map.
by rewrite scale1r subrK.
Qed.
End Vec.

(** unsigned arithmetic *)
Lemma usquareE v m : usquare v m = Z.modulo (Z.pow (Z.sub v m) 2) (Z.pow 2 32).
Proof.
rewrite /usquare /wrap32 -Z.mul_mod; last by [].
by rewrite Z.pow_2_r.
Qed.
Lemma usquare_small v m : Z.lt (Z.abs (Z.sub v m)) (Z.pow 2 16) ->
  usquare v m = Z.pow (Z.sub v m) 2.
Proof.
move=> h; rewrite usquareE; apply: Z.mod_small.
have -> : Z.pow 2 32 = Z.mul (Z.pow 2 16) (Z.pow 2 16) by [].
move: h; move: (Z.sub v m) => x; rewrite Z.pow_2_r.
move: (Z.pow 2 16) => p h; nia.
Qed.

Lemma trunc_spec (x : rat) (k : Z) : Z.le 0 k ->
  (int_of_Z k)%:~R <= x < (int_of_Z k + 1)%:~R -> trunc x = k.
Proof.
move=> hk hx; rewrite /trunc.
suff -> : (numq x %/ denq x)%Z = int_of_Z k by rewrite int_of_ZK.
have hd : (0 < denq x) by exact: denq_gt0.
have hx0 : (denq x)%:~R != 0 :> rat by rewrite intr_eq0 denq_neq0.
have hd' : 0 < (denq x)%:~R :> rat by rewrite ltr0z.
move: hx; rewrite -[x in X in X -> _]divq_num_den.
rewrite ler_pdivl_mulr // ltr_pdivr_mulr // -!rmorphM /= ler_int ltr_int => /andP [h1 h2].
have h3 : (numq x %/ denq x)%Z < int_of_Z k + 1 by rewrite ltz_divLR.
have h4 : int_of_Z k <= (numq x %/ denq x)%Z by rewrite lez_divRL.
by move: h3 h4; move: (numq x %/ denq x)%Z (int_of_Z k) => a b; lia.
Qed.

Notation Q2 := [realFieldType of rat].
Definition z2q (z : Z) : rat := (int_of_Z z)%:~R.

Lemma trunc_bounds (x : rat) : 0 <= x -> z2q (trunc x) <= x < z2q (trunc x) + 1.
Proof.
move=> h; rewrite /z2q /trunc Z_of_intK.
have hd : 0 < (denq x)%:~R :> rat by rewrite ltr0z denq_gt0.
rewrite -[x in X in (_ <= X) && (X < _)]divq_num_den ler_pdivl_mulr // ltr_pdivr_mulr //.
rewrite -[1 : rat]/(1%:~R) -rmorphD -!rmorphM /= ler_int ltr_int.
rewrite lez_floor ?denq_neq0 //= ltz_ceil //; exact: denq_gt0.
Qed.
Lemma z2q_le a b : (z2q a <= z2q b) <-> Z.le a b.
Proof. by rewrite /z2q ler_int; split; lia. Qed.
Lemma z2q_lt a b : (z2q a < z2q b) <-> Z.lt a b.
Proof. by rewrite /z2q ltr_int; split; lia. Qed.
Lemma z2qD a b : z2q (Z.add a b) = z2q a + z2q b.
Proof. by rewrite /z2q -rmorphD /=; congr (_%:~R); lia. Qed.
Lemma z2q1 : z2q 1 = 1. Proof. by []. Qed.
Lemma z2q0 : z2q 0 = 0. Proof. by []. Qed.
Lemma half2 : 1 / 2%:R + 1 / 2%:R = 1 :> rat. Proof. by []. Qed.

Definition umean (d : mcpdf Q2 Z) : rat := \sum_(x <- mc_los d) x.2 * z2q x.1.

Lemma mcu_mean_ok (d : mcpdf Q2 Z) : mc_valid d ->
  (forall x, List.In x (mc_los d) -> Z.le 0 x.1 /\ Z.lt x.1 (Z.pow 2 32)) ->
  z2q (mcu_mean d) - 1 / 2%:R <= umean d < z2q (mcu_mean d) + 1 / 2%:R.
Proof.
move=> hv hr; case: (hv) => hd _ hs.
pose M := Z.sub (Z.pow 2 32) 1.
have hb : 0 <= umean d <= z2q M.
  apply: (weighted_bounds (R := Q2) hd) => x /hr [h1 h2].
  by apply/andP; split; [rewrite -z2q0 z2q_le|apply/z2q_le; rewrite /M; lia].
rewrite /mcu_mean hs divr1.
have -> : foldl (fun acc (x : Z * rat) => acc + (int_of_Z x.1)%:~R * x.2) 0 (mc_los d) = umean d.
  rewrite (foldl_sum (V := [zmodType of rat]) (fun x : Z * rat => (int_of_Z x.1)%:~R * x.2)) add0r.
  by apply: eq_bigr => x _; rewrite mulrC.
have hhalf : 0 < 1 / 2%:R :> rat by [].
have h0 : 0 <= umean d + 1 / 2%:R by case/andP: hb => h _; rewrite addr_ge0 // ltW.
have := trunc_bounds h0; set t := trunc _ => /andP [ht1 ht2].
have ht0 : Z.le 0 t.
  suff : Z.lt 0 (Z.add t 1) by lia.
  by apply/z2q_lt; rewrite z2q0 z2qD z2q1; exact: le_lt_trans h0 ht2.
have htM : Z.lt t (Z.pow 2 32).
  apply/z2q_lt; apply: le_lt_trans ht1 _.
  have -> : Z.pow 2 32 = Z.add M 1 by [].
  rewrite z2qD z2q1; case/andP: hb => _ hb; apply: ler_lt_add => //.
have -> : wrap32 t = t by apply: Z.mod_small.
by rewrite ler_subl_addr ht1 /= -(ltr_add2r (1 / 2%:R)) -addrA half2.
Qed.

Definition close16 (d : mcpdf Q2 Z) (m : Z) : Prop :=
  forall x, List.In x (mc_los d) -> Z.lt (Z.abs (Z.sub x.1 m)) (Z.pow 2 16).

Lemma eq_big_In (V : zmodType) (A : Type) (f g : A -> V) (s : seq A) :
  (forall x, List.In x s -> f x = g x) -> \sum_(x <- s) f x = \sum_(x <- s) g x.
Proof.
elim: s => [|x s IH] h; first by rewrite !big_nil.
by rewrite !big_cons h /=; [rewrite IH // => y hy; apply: h; right|left].
Qed.

Lemma mcu_cov_ok (d : mcpdf Q2 Z) : mc_valid d -> close16 d (mcu_mean d) ->
  mcu_cov d = \sum_(x <- mc_los d) z2q (Z.pow (Z.sub x.1 (mcu_mean d)) 2) * x.2.
Proof.
case=> _ _ hs hc; rewrite /mcu_cov hs divr1.
rewrite (foldl_sum (V := [zmodType of rat]) (fun x : Z * rat => (int_of_Z (usquare x.1 (mcu_mean d)))%:~R * x.2)) add0r.
by apply: (eq_big_In (V := [zmodType of rat])) => x /hc h; rewrite usquare_small.
Qed.

(** two equally likely particles at distance 65536 on both sides of [m] *)
Definition two_far (m : Z) : seq (Z * rat) :=
  equally_weighted Q2 [:: Z.sub m (Z.pow 2 16); Z.add m (Z.pow 2 16)].
Lemma two_far_mean m c : Z.le (Z.pow 2 16) m -> Z.lt m (Z.sub (Z.pow 2 32) (Z.pow 2 16)) ->
  mcu_mean (MC (two_far m) c 1) = m.
Proof.
move=> h1 h2; rewrite /mcu_mean /= divr1 add0r -mulrDl -rmorphD /=.
have -> : int_of_Z (Z.sub m (Z.pow 2 16)) + int_of_Z (Z.add m (Z.pow 2 16)) = int_of_Z m + int_of_Z m.
  by move: (Z.pow 2 16) => p; lia.
rewrite rmorphD /= -mulr2n -mulr_natr mulfK //.
rewrite (@trunc_spec _ m).
- by apply: Z.mod_small; move: h1 h2; have -> : Z.pow 2 32 = Z.mul (Z.pow 2 16) (Z.pow 2 16) by []; have : Z.le 0 (Z.pow 2 16) by []; move: (Z.pow 2 16) => p; nia.
- by apply: Z.le_trans h1.
rewrite rmorphD /= ler_addl ltr_add2l; by [].
Qed.
Lemma usquare_far_l m : usquare (Z.sub m (Z.pow 2 16)) m = Z0.
Proof.
rewrite usquareE; have -> : Z.sub (Z.sub m (Z.pow 2 16)) m = Z.opp (Z.pow 2 16) by lia.
by [].
Qed.
Lemma usquare_far_r m : usquare (Z.add m (Z.pow 2 16)) m = Z0.
Proof.
rewrite usquareE; have -> : Z.sub (Z.add m (Z.pow 2 16)) m = Z.pow 2 16 by lia.
by [].
Qed.

Lemma two_far_cov m c : Z.le (Z.pow 2 16) m -> Z.lt m (Z.sub (Z.pow 2 32) (Z.pow 2 16)) ->
  mcu_cov (MC (two_far m) c 1) = 0.
Proof.
move=> h1 h2; rewrite /mcu_cov two_far_mean // /two_far /equally_weighted.
by rewrite [mc_los _]/= /= usquare_far_l usquare_far_r !mul0r ?addr0 ?mul0r.
Qed.
