(** * Counting draws *)
From Coq Require Import ZArith Reals Lra Lia.
From Flocq Require Import Core.Core BinarySingleNaN.
From mathcomp Require Import all_ssreflect.
From Verif Require Import Outcome ModelDouble SpecDouble SpecDoubleHist ProofsDouble ProofsDoublePF ProofsDoubleMean PropertiesDouble PropertiesDoubleHist ModelDoubleFreq SpecDoubleFreq.
Set Implicit Arguments. Unset Strict Implicit. Unset Printing Implicit Defensive.
Local Open Scope R_scope.
Local Opaque d0 d1 dprec dlit dadd dsub dmul ddiv dle dlt bpow IZR.

Lemma INR_Z k : INR k = IZR (Z.of_nat k). Proof. exact: INR_IZR_INZ. Qed.
Lemma count_hi (P : pred nat) (N : nat) a b : a <= b -> 0 <= b -> (forall k, (k < N)%N -> P k -> a < INR k <= b) ->
  INR (count P (iota 0 N)) <= b - a + 1.
Proof.
move=> hab b0 hP; set m := Z.to_nat (Zfloor a + 1); set M := Z.to_nat (Zfloor b + 1).
have fa := (Zfloor_lb a, Zfloor_ub a); have fb := (Zfloor_lb b, Zfloor_ub b); case: fa fb => a1 a2 [b1 b2].
have hc : (count P (iota 0 N) <= M - m)%N.
  rewrite -size_filter -(size_iota m (M - m)); apply: uniq_leq_size; first by rewrite filter_uniq // iota_uniq.
  move=> k; rewrite mem_filter !mem_iota add0n => /andP[hk /andP[_ hkN]].
  have [k1 k2] := hP k hkN hk; rewrite INR_Z in k1 k2.
  have k1' : (Zfloor a < Z.of_nat k)%Z by apply: lt_IZR; apply: Rle_lt_trans a1 k1.
  have k2' : (Z.of_nat k <= Zfloor b)%Z by apply: Zfloor_lub.
  have mk : (m <= k)%N by apply/leP; rewrite /m; lia.
  have kM : (k < M)%N by apply/leP; rewrite /M; lia.
  by rewrite mk /= subnKC //; apply: ltnW; apply: leq_ltn_trans mk kM.
apply: Rle_trans (_ : INR (M - m) <= _); first by apply: le_INR; apply/leP.
have hfb : (0 <= Zfloor b)%Z by apply: Zfloor_lub.
rewrite INR_Z; case: (Z.le_gt_cases 0 (Zfloor a + 1)) => ha.
  case: (leqP M m) => hM; first by have -> : (M - m = 0)%N by [apply/eqP]; rewrite /= ; lra.
  have -> : Z.of_nat (M - m) = (Zfloor b - Zfloor a)%Z.
    by move/ltP: hM; rewrite -minusE /M /m; lia.
  by rewrite minus_IZR; lra.
have -> : Z.of_nat (M - m) = (Zfloor b + 1)%Z by rewrite -minusE /M /m; lia.
rewrite plus_IZR; have : IZR (Zfloor a) <= -2 by apply: IZR_le; lia.
lra.
Qed.
Lemma count_lo (P : pred nat) (N : nat) a b : 0 <= a -> b <= INR N -> (forall k, (k < N)%N -> a < INR k <= b -> P k) ->
  b - a - 1 <= INR (count P (iota 0 N)).
Proof.
move=> a0 bN hP; case: (Rle_or_lt b a) => hab; first by have := pos_INR (count P (iota 0 N)); lra.
have [[a1 a2] [b1 b2]] := ((conj (Zfloor_lb a) (Zfloor_ub a)), (conj (Zfloor_lb b) (Zfloor_ub b))).
have hfa : (0 <= Zfloor a)%Z by apply: Zfloor_lub.
set m := Z.to_nat (Zfloor a + 1); set M := minn N (Z.to_nat (Zfloor b + 1)).
have hc : (M - m <= count P (iota 0 N))%N.
  rewrite -size_filter -(size_iota m (M - m)); apply: uniq_leq_size; first exact: iota_uniq.
  move=> k; rewrite mem_filter !mem_iota add0n => /andP[mk hk].
  have kM : (k < M)%N.
    by case: (leqP m M) hk => h; [rewrite subnKC|move/ltnW: h; rewrite -subn_eq0 => /eqP ->; rewrite addn0 ltnNge mk].
  move: kM; rewrite leq_min => /andP[kN /leP kb]; rewrite kN leq0n !andbT; apply: hP => //.
  have k1 : (Zfloor a + 1 <= Z.of_nat k)%Z by move/leP: mk; rewrite /m; lia.
  have k2 : (Z.of_nat k <= Zfloor b)%Z by lia.
  rewrite INR_Z; split; last by apply: Rle_trans b1; apply: IZR_le.
  by apply: Rlt_le_trans a2 _; have := IZR_le _ _ k1; rewrite plus_IZR.
apply: Rle_trans (_ : INR (M - m) <= _); last by apply: le_INR; apply/leP.
have e : (Z.of_nat M - Z.of_nat m <= Z.of_nat (M - m))%Z by rewrite -minusE; lia.
rewrite INR_Z; apply: Rle_trans (IZR_le _ _ e); rewrite minus_IZR.
have -> : Z.of_nat m = (Zfloor a + 1)%Z by rewrite /m; lia.
rewrite plus_IZR; rewrite /M /minn; case: ifP => _; first by rewrite -INR_Z; lra.
have hb : (0 <= Zfloor b)%Z by apply: Zfloor_lub; lra.
have -> : Z.of_nat (Z.to_nat (Zfloor b + 1)) = (Zfloor b + 1)%Z by lia.
by rewrite plus_IZR; lra.
Qed.

(** the draws *)
Definition u32 (k : nat) : double := dlit (Z.of_nat k) (-32).
Lemma u32_val k : (Z.of_nat k < 2 ^ 32)%Z -> is_finite (u32 k) = true /\ v2R (u32 k) = INR k * / IZR (2 ^ 32).
Proof.
move=> hk; rewrite /u32 INR_Z; set z := Z.of_nat k; have z0 : (0 <= z < 2 ^ 32)%Z by rewrite /z; lia.
have e : F2R (Float radix2 z (-32)) = IZR z * / IZR (2 ^ 32) by [].
have hz : 0 <= IZR z <= 4294967296 by split; apply: IZR_le; lia.
have g : round radix2 (FLT_exp (-1074) 53) ZnearestE (IZR z * / IZR (2 ^ 32)) = IZR z * / IZR (2 ^ 32).
  by apply: round_generic; apply: generic_format_FLT; exists (Float radix2 z (-32)) => //=; lia.
have := binary_normalize_correct 53 1024 prec53 emax1024 mode_NE z (-32) false; cbv zeta.
rewrite -/(dlit z (-32)) e -[round _ _ _ _]/(round radix2 (FLT_exp (-1074) 53) ZnearestE (IZR z * / IZR (2 ^ 32))) g.
have hb : 1 < bpow radix2 1024 by apply: (@bpow_lt radix2 0 1024).
have he : IZR (2 ^ 32) = 4294967296 by [].
case: Rlt_bool_spec => [_ [e1 [f1 _]]|]; first by split; [exact: f1|exact: e1].
rewrite Rabs_pos_eq he; move: (bpow _ _) hb => B; lra.
Qed.

Section Pick.
Variables (pick : double -> option nat) (n : nat) (ex : nat -> R).
Hypotheses (e0 : 0 <= ex 0) (e1 : ex n <= 1) (mono : forall k, (k < n)%N -> ex k <= ex k.+1).
Hypothesis p0 : pick (u32 0) = None.
Hypothesis pk : forall k, (0 < k)%N -> (Z.of_nat k < 2 ^ 32)%Z ->
  exists s, pick (u32 k) = Some s /\ placed n ex (v2R (u32 k)) s.
Lemma mono_le i j : (i <= j)%N -> (j <= n)%N -> ex i <= ex j.
Proof.
elim: j => [|j IH] hij hj; first by move: hij; rewrite leqn0 => /eqP ->; lra.
move: hij; rewrite leq_eqVlt => /orP[/eqP ->|hij]; first lra.
apply: Rle_trans (mono hj); apply: IH => //; exact: ltnW.
Qed.
Lemma two32 : INR (Z.to_nat (2 ^ 32)) = IZR (2 ^ 32). Proof. by rewrite INR_Z Z2Nat.id. Qed.
Lemma small k : (k < Z.to_nat (2 ^ 32))%N -> (Z.of_nat k < 2 ^ 32)%Z. Proof. by move/ltP; lia. Qed.
Lemma tolE : IZR (2 ^ 32) * tol n = (INR n + 1) / IZR (2 ^ 20).
Proof.
rewrite /tol; have -> : IZR (2 ^ 53) = 2 * IZR (2 ^ 32) * IZR (2 ^ 20) by rewrite -!mult_IZR.
have a : IZR (2 ^ 32) <> 0 by apply: not_0_IZR. have b : IZR (2 ^ 20) <> 0 by apply: not_0_IZR.
by field.
Qed.
Lemma half20 x : 2 * (x / IZR (2 ^ 20)) = x / IZR (2 ^ 19).
Proof. have -> : IZR (2 ^ 20) = 2 * IZR (2 ^ 19) by rewrite -mult_IZR. have a : IZR (2 ^ 19) <> 0 by apply: not_0_IZR. by field. Qed.
Theorem times_share s : (s < n)%N -> in_share n (ex s.+1 - ex s) (times pick s).
Proof.
move=> hs; rewrite /in_share /times /draws count_map -half20 -tolE; have := two32.
set N := Z.to_nat _ => hN; set W := IZR (2 ^ 32) in hN *; have W0 : 0 < W by apply: IZR_lt.
have ns := mono_le (leqnSn s) hs; have es0 := Rle_trans _ _ _ e0 (mono_le (leq0n s) (ltnW hs)).
have es1 := Rle_trans _ _ _ (mono_le hs (leqnn n)) e1.
have t0 : 0 < tol n.
  rewrite /tol; apply: Rmult_lt_0_compat; first by have := pos_INR n; lra.
  by apply: Rinv_0_lt_compat; apply: IZR_lt.
have scale k : (k < N)%N -> v2R (u32 k) * W = INR k.
  by move=> /small hk; have [_ ->] := u32_val hk; rewrite -/W; field; lra.
have hi : INR (count (preim u32 (fun u => pick u == Some s)) (iota 0 N)) <= W * (ex s.+1 + tol n) - W * (ex s - tol n) + 1.
  apply: count_hi.
  - by apply: Rmult_le_compat_l; lra.
  - by apply: Rmult_le_pos; lra.
  move=> k hk; change (pick (u32 k) == Some s -> W * (ex s - tol n) < INR k <= W * (ex s.+1 + tol n)).
  case: (posnP k) => [->|k0]; first by rewrite p0.
  have [t [ht [h1 [h2 h3]]]] := pk k0 (small hk); rewrite ht => /eqP [et]; subst t.
  rewrite -(scale _ hk) (Rmult_comm W (ex s - tol n)) (Rmult_comm W (ex s.+1 + tol n)).
  split; [apply: Rmult_lt_compat_r; [exact: W0|lra]|apply: Rmult_le_compat_r; lra].
have lo : W * (ex s.+1 - tol n) - W * (ex s + tol n) - 1 <= INR (count (preim u32 (fun u => pick u == Some s)) (iota 0 N)).
  apply: count_lo.
  - by apply: Rmult_le_pos; lra.
  - by rewrite hN -{2}(Rmult_1_r W); apply: Rmult_le_compat_l; lra.
  move=> k hk [h1 h2]; change (pick (u32 k) == Some s).
  have k0 : (0 < k)%N.
    case: (posnP k) => [ek|h]; last exact: isT.
    have : 0 <= W * (ex s + tol n) by apply: Rmult_le_pos; lra.
    by move: h1; rewrite ek; change (INR 0) with 0; lra.
  have [t [-> [h3 [h4 h5]]]] := pk k0 (small hk).
  rewrite -(scale _ hk) (Rmult_comm W (ex s + tol n)) in h1; rewrite -(scale _ hk) (Rmult_comm W (ex s.+1 - tol n)) in h2.
  have {}h1 := Rmult_lt_reg_r _ _ _ W0 h1; have {}h2 := Rmult_le_reg_r _ _ _ W0 h2.
  case: (ltngtP t s) => [lt|gt|->]; last exact: eqxx.
    by have := mono_le lt (ltnW hs); lra.
  by have := mono_le gt (ltnW h3); lra.
apply: Rabs_le; split.
  by apply: Rle_trans (Rplus_le_compat_r _ _ _ lo); lra.
by apply: Rle_trans (Rplus_le_compat_r _ _ _ hi) _; lra.
Qed.
End Pick.

Lemma none_count (P : pred double) (N : nat) : (forall k, (k < N)%N -> ~~ P (u32 k)) -> count P [seq u32 k | k <- iota 0 N] = 0%N.
Proof.
move=> h; rewrite count_map; apply/eqP; rewrite -leqn0 leqNgt -has_count; apply/hasPn => k.
by rewrite mem_iota add0n => /andP[_ hk]; exact: h.
Qed.
Lemma times_never pick s : (forall k, (Z.of_nat k < 2 ^ 32)%Z -> pick (u32 k) <> Some s) -> times pick s = 0%N.
Proof.
move=> h; apply: (@none_count (fun u => pick u == Some s)) => k hk; apply/eqP; apply: h; exact: (small hk).
Qed.
(** ** Averages *)
Lemma rsum_split (A : Type) (pick : A -> option nat) (g : nat -> R) n (l : seq A) :
  (forall u s, List.In u l -> pick u = Some s -> (s < n)%N) ->
  rsum [seq (if pick u is Some s then g s else 0) | u <- l] =
  over n (fun s => INR (count (fun u => pick u == Some s) l) * g s).
Proof.
elim: l => [|u l IH] h.
  by rewrite /= (@over_ext n _ (fun _ => 0)) => [|i _]; [rewrite over_const; ring|rewrite /=; ring].
rewrite [rsum _]/= IH; last by move=> v s hv; apply: h; right.
have hu s : pick u = Some s -> (s < n)%N by apply: h; left.
case e: (pick u) hu => [s|] hu.
  have {}hu := hu s erefl.
  transitivity (over n (fun t => (if s == t then 1 else 0) * g t) + over n (fun t => INR (count (fun u => pick u == Some t) l) * g t)).
    congr (_ + _); clear IH h; rewrite /over; have := hu; rewrite -{1}[n]add0n -[X in (X + n)%N]/(0%N).
    have : (0 <= s)%N by []. move: 0%N => a.
    elim: n a {hu} => [|m IH] a ha hs; first by move: hs; rewrite addn0 ltnNge ha.
    rewrite /=; case: (eqVneq s a) => [->|ne].
      rewrite Rmult_1_l (_ : rsum _ = 0); first by ring.
      clear IH hs ha; have : (a < a.+1)%N by []. move: {2 3}a.+1 => b; elim: m b => //= m IH b hb.
      rewrite IH; last exact: ltnW. rewrite (ltn_eqF hb); ring.
    rewrite Rmult_0_l Rplus_0_l; apply: IH; first by rewrite ltn_neqAle eq_sym ne.
    by rewrite addSn -addnS.
  rewrite -over_add; apply: over_ext => t _; rewrite /= e.
  have -> : (Some s == Some t) = (s == t) by []. rewrite -[(_ + count _ l)%N]/(addn _ _) plus_INR; case: (s == t) => /=; ring.
rewrite Rplus_0_l; apply: over_ext => t _; by rewrite /= e.
Qed.
Lemma list_average (l : seq double) pick n p g G : (forall u s, pick u = Some s -> (s < n)%N) ->
  (forall s, (s < n)%N -> in_share n (p s) (count (fun u => pick u == Some s) l)) -> (forall s, (s < n)%N -> Rabs (g s) <= G) ->
  Rabs (rsum [seq (if pick u is Some s then g s else 0) | u <- l] / IZR (2 ^ 32) - over n (fun s => p s * g s)) <= INR n * G * (1 + (INR n + 1) / IZR (2 ^ 19)) / IZR (2 ^ 32).
Proof.
move=> hp ht hg; rewrite (@rsum_split _ pick g n); last by move=> u s _; exact: hp.
set W := IZR (2 ^ 32); have W0 : 0 < W by apply: IZR_lt.
set e := 1 + _ in ht *; have e0 : 0 <= e.
  have : 0 <= (INR n + 1) / IZR (2 ^ 19).
    apply: Rmult_le_pos; first by have := pos_INR n; lra.
    by apply: Rlt_le; apply: Rinv_0_lt_compat; apply: IZR_lt.
  by rewrite /e; lra.
have -> : over n (fun s => INR (count (fun u => pick u == Some s) l) * g s) / W - over n (fun s => p s * g s) =
    / W * over n (fun s => (INR (count (fun u => pick u == Some s) l) - W * p s) * g s).
  rewrite (@over_ext n (fun s => (INR (count (fun u => pick u == Some s) l) - W * p s) * g s)
    (fun s => INR (count (fun u => pick u == Some s) l) * g s + (- W) * (p s * g s))) => [|i _]; last ring.
  by rewrite over_add over_scale; field; lra.
have iW : 0 < / W by apply: Rinv_0_lt_compat.
rewrite Rabs_mult (Rabs_pos_eq (/ W)); last lra.
have -> : INR n * G * e / W = / W * (INR n * (e * G)) by field; lra.
apply: Rmult_le_compat_l; first lra.
apply: Rle_trans (over_abs _ _) _; rewrite -over_const; apply: over_le => i hi.
rewrite Rabs_mult; apply: Rmult_le_compat; [exact: Rabs_pos|exact: Rabs_pos|exact: ht|exact: hg].
Qed.
Lemma times_average pick n p g G : (forall u s, pick u = Some s -> (s < n)%N) ->
  (forall s, (s < n)%N -> in_share n (p s) (times pick s)) -> (forall s, (s < n)%N -> Rabs (g s) <= G) ->
  Rabs (average pick g - over n (fun s => p s * g s)) <= INR n * G * (1 + (INR n + 1) / IZR (2 ^ 19)) / IZR (2 ^ 32).
Proof. exact: (@list_average draws). Qed.
