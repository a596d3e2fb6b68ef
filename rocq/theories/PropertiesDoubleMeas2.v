(** * C116: a particle filter with a two-dimensional Gaussian measurement model in doubles *)
From Coq Require Import ZArith Reals Lra Lia.
From Flocq Require Import Core.Core BinarySingleNaN.
From mathcomp Require Import all_ssreflect.
From Verif Require Import Outcome ModelDouble SpecDouble ProofsDouble PropertiesDouble
  ModelDoubleHist SpecDoubleHist ProofsDoubleHist PropertiesDoubleHist ModelDoublePF SpecDoublePF ProofsDoublePF PropertiesDoublePF
  ModelDoubleKF ProofsDoubleKF ModelDoubleUni ProofsDoubleUni ProofsDoubleProp ModelDoubleGauss SpecDoubleGauss ProofsDoubleGauss PropertiesDoubleGauss
  ModelDoubleNoise SpecDoubleNoise ProofsDoubleNoise PropertiesDoubleNoise
  ModelDoubleChol SpecDoubleChol ProofsDoubleChol ModelDoubleGauss2 SpecDoubleGauss2 ProofsDoubleGauss2 PropertiesDoubleGauss2
  SpecDoubleDens2 ProofsDoubleDens2 PropertiesDoubleDens2 ModelDoubleMeas2.
Set Implicit Arguments. Unset Strict Implicit. Unset Printing Implicit Defensive.
Local Open Scope R_scope.
Lemma uu41 : IZR (2 ^ 41) * uu = / 4096. Proof. by rewrite uu_val /=; lra. Qed.
Lemma z41 : IZR (2 ^ 41) <= 70 * IZR (2 ^ 35). Proof. by rewrite /=; lra. Qed.
Local Opaque d0 d1 dprec dlit dadd dsub dmul ddiv dle dlt bpow IZR dsqrt.

Section C116.
Variables (expd : double -> double) (powd : double -> double -> double).
Hypotheses (he : exp_ok expd) (hp : pow2_ok powd).
Variables (sq : double -> double) (root : double -> nat -> double) (sc : scheme).
Variables (a b c : double) (z : double * double) (ms : seq (double * double)) (s : dpf) (K : nat).
Let n := size (dm_w (pf_d s)).
Let p := exact (dm_w (pf_d s)).
Let k := excess (v2R a) (v2R b) (v2R c).
Let m0 : double * double := (d0, d0).
Let e1 (j : nat) : R := v2R z.1 - v2R (nth m0 ms j).1.
Let e2 (j : nat) : R := v2R z.2 - v2R (nth m0 ms j).2.
Let N (j : nat) : R := normal2 (v2R a) (v2R b) (v2R c) (e1 j) (e2 j).
Let E (j : nat) : R := maha (v2R a) (v2R b) (v2R c) (e1 j) (e2 j) / 2.
(** the covariance, the predictions and the number of roundings of a likelihood *)
Definition cov_ok : Prop := [/\ mid a, mid0 b, mid c & 0 < det2 (v2R a) (v2R b) (v2R c)].
Definition preds_ok : Prop :=
  forall j, (j < n)%N -> [/\ dev2_ok (nth m0 ms j).1 z.1, dev2_ok (nth m0 ms j).2 z.2 & E j <= 499].
Definition rounds_ok : Prop := 70 * (k * k) * 500 <= INR K /\ (Z.of_nat K <= 2 ^ 41)%Z.
Let value (o : outcome double) : double := if o is Ok x then x else d0.

Lemma likes2_tame : cov_ok -> size ms = n -> few n -> goods (dm_w (pf_d s)) -> Rabs (total (dm_w (pf_d s)) - 1) <= / 4 ->
  (forall j, (j < n)%N -> p j = 0 \/ bpow radix2 (-60) <= p j) -> preds_ok -> rounds_ok ->
  exists ls, [/\ g2_likes expd powd a b c z ms = Ok ls, forall j, (j < n)%N -> approx (2 * K) (N j) (v2R (nth d0 ls j)),
    0 < over n (fun i => N i * p i) & forall us, pf_tame n p (PMeas (fun k => nth d0 ls k) us)].
Proof.
move=> [ha hb hc hD] hm hn hg ht hpp hd [hK1 hK2]; have [n0 hI] := start erefl hg ht; rewrite -/n -/p in n0 hI.
have [_ _ o1 _] := hI; have u0 := uu_gt0; have ut := uu_tiny; have p3 := pi_3.
have p0 j : (j < n)%N -> 0 <= p j by move=> /hpp [->|h]; [lra|apply: Rle_trans h; exact: bpow_ge_0].
have hw := exc_well ha hc hD; rewrite -/k in hw.
set D := det2 _ _ _ in hD.
have k1 : 1 <= k.
  case: (hw) => _; rewrite -/D => ek; apply: (Rmult_le_reg_l D) => //; rewrite -ek /D /det2.
  by have : 0 <= v2R b * v2R b by [exact: Rle_0_sqr]; lra.
have K41 : INR K <= IZR (2 ^ 41) by rewrite INR_IZR_INZ; apply: IZR_le.
have Ku : INR K * uu <= / 4096 by rewrite -uu41; apply: Rmult_le_compat_r; lra.
have kk1 : k <= k * k by rewrite -[X in X <= _]Rmult_1_l; apply: Rmult_le_compat_r; lra.
have ku : k * uu <= / 100000.
  have : k * uu <= / 35000 * INR K * uu by apply: Rmult_le_compat_r; lra.
  lra.
have [_ hT _] := root2_ok hp ha hb hc hw ku; rewrite -/D in hT.
set T := 2 * PI * sqrt D in hT; have T0 : 0 < T by have := bpow_gt_0 radix2 (-150); lra.
have [r1 r2] : bpow radix2 (-103) <= / T <= bpow radix2 150 by exact: (@inv_bp (-150) 103).
have b0 := bpow_gt_0 radix2 (-103).
set sv := / T in r1 r2; have s0 : 0 < sv by lra.
have hv j : (j < n)%N -> exists2 q, cg2_prob expd powd (nth m0 ms j).1 (nth m0 ms j).2 a b c z.1 z.2 = Ok q &
    [/\ good q, approx (2 * K) (N j) (v2R q), sv * bpow radix2 (-811) <= v2R q & v2R q <= 2 * sv].
  move=> hj; have [d1' d2' ej] := hd j hj.
  have E0 : 0 <= E j.
    have z0 : 0 <= 0 <= / 1000 by lra.
    have a0 := proj2 (mid_rng ha); have c0 := proj2 (mid_rng hc); have r0 : Rabs 0 <= 0 by rewrite Rabs_R0; lra.
    have [h _] := @maha_move (v2R a) (v2R b) (v2R c) (e1 j) (e2 j) 0 0 0 a0 c0 hD z0 r0 r0.
    by rewrite /E; lra.
  have kE : k * k * (E j + 1) <= k * k * 500 by apply: Rmult_le_compat_l; [nra|lra].
  have hk : k * k * (E j + 1) <= IZR (2 ^ 35) by have := z41; lra.
  have [_ [q hq0 [gq hq]]] := C115_value he hp ha hb hc hD d1' d2' ej hk.
  rewrite -/(e1 j) -/(e2 j) -/(N j) -/(E j) -/k -uu_val in hq.
  exists q; first exact: hq0.
  have eN : N j = exp (- E j) * sv by [].
  have x0 := exp_pos (- E j); have hx : bpow radix2 (-810) <= exp (- E j) by apply: exp_near; lra.
  have x1 : exp (- E j) <= 1 by rewrite -exp_0; case: (Req_dec (E j) 0) => [->|h']; [rewrite Ropp_0; lra|left; apply: exp_increasing; lra].
  have N0 : 0 < N j by rewrite eN; exact: Rmult_lt_0_compat.
  have hKE : 70 * (k * k) * (E j + 1) * uu <= INR K * uu by apply: Rmult_le_compat_r; lra.
  have e811 : bpow radix2 (-811) = / 2 * bpow radix2 (-810) by rewrite -[(-810)%Z]/(-811 + 1)%Z bpow_S; lra.
  have N1 : sv * bpow radix2 (-810) <= N j by rewrite eN Rmult_comm; apply: Rmult_le_compat_r; lra.
  have N2 : N j <= sv by rewrite eN -{2}[sv]Rmult_1_l; apply: Rmult_le_compat_r; lra.
  have hqK : Rabs (v2R q - N j) <= N j * (INR K * uu) by apply: Rle_trans hq _; apply: Rmult_le_compat_l; lra.
  have hq2 : Rabs (v2R q - N j) <= N j * / 1000 by apply: Rle_trans hqK _; apply: Rmult_le_compat_l; lra.
  move/Rabs_le_inv: (hq2) => hq3.
  split=> //; [by apply: ap_of; lra|by rewrite e811; lra|lra].
set ls := [seq value (cg2_prob expd powd m.1 m.2 a b c z.1 z.2) | m <- ms].
have hl : g2_likes expd powd a b c z ms = Ok ls.
  apply: mapO_ok => m /(List.In_nth ms m m0) [j [/ltP hj <-]].
  have -> : List.nth j ms m0 = nth m0 ms j by elim: (ms) (j) => [|x l ih] [|i] //=.
  by rewrite -[length ms]/(size ms) hm in hj; have [q -> _] := hv j hj.
have hL j : (j < n)%N -> [/\ good (nth d0 ls j), approx (2 * K) (N j) (v2R (nth d0 ls j)), sv * bpow radix2 (-811) <= v2R (nth d0 ls j) &
    v2R (nth d0 ls j) <= 2 * sv].
  by move=> hj; rewrite /ls (nth_map m0) ?hm //; have [q -> h] := hv j hj.
pose L j := v2R (nth d0 ls j).
have hO1 : sv * bpow radix2 (-811) <= over n (fun i => L i * p i).
  rewrite -[X in X <= _]Rmult_1_r -o1 -over_scale; apply: over_le => i hi; apply: Rmult_le_compat_r; first exact: p0.
  by case: (hL i hi).
have hO2 : over n (fun i => L i * p i) <= 2 * sv.
  rewrite -[X in _ <= X]Rmult_1_r -o1 -over_scale; apply: over_le => i hi; apply: Rmult_le_compat_r; first exact: p0.
  by case: (hL i hi).
have c0 : 0 < sv * bpow radix2 (-811) by apply: Rmult_lt_0_compat => //; exact: bpow_gt_0.
have O0 : 0 < over n (fun i => L i * p i) by lra.
have p1 j : (j < n)%N -> p j <= 1 by move=> hj; rewrite -o1; apply: over_le1.
exists ls; split; first exact: hl.
- by move=> j hj; case: (hL j hj).
- have hx i : (i < n)%N -> approx (2 * K) (N i * p i) (L i * p i).
    by move=> hi; case: (hL i hi) => _ h _ _; rewrite !(Rmult_comm _ (p i)); apply: ap_scale => //; exact: p0.
  case: (ap_over hx) => _ _ h; apply: Rlt_le_trans h; apply: Rmult_lt_0_compat => //; by case: (qq_pow (2 * K)).
move=> us; split=> //.
  - move=> j hj; have [g1 _ l1 l2] := hL j hj; split=> //; case: (hpp j hj) => [->|h]; first by left; rewrite Rmult_0_r.
    right; have h1 := p1 j hj; split.
      apply: Rle_trans (_ : bpow radix2 (-103) * bpow radix2 (-811) * bpow radix2 (-60) <= _).
        by rewrite -!bpow_plus; apply: bpow_le; lia.
      apply: Rmult_le_compat => //; [by apply: Rmult_le_pos; exact: bpow_ge_0|exact: bpow_ge_0|].
      by apply: Rle_trans l1; apply: Rmult_le_compat_r => //; exact: bpow_ge_0.
    apply: Rle_trans (_ : 2 * bpow radix2 150 * 1 <= _); last by rewrite Rmult_1_r -bpow_S; apply: bpow_le; lia.
    by apply: Rmult_le_compat => //; [case: g1|apply: p0|lra].
  - move=> j hj; change (tame (L j * p j / over n (fun i => L i * p i))).
    have [g1 _ l1 l2] := hL j hj; rewrite -/(L j) in l1 l2; case: (hpp j hj) => [->|h].
      by left; rewrite Rmult_0_r /Rdiv Rmult_0_l.
    have bp := bpow_gt_0 radix2 (-60); have bq := bpow_gt_0 radix2 (-811).
    have hlp : sv * bpow radix2 (-811) * bpow radix2 (-60) <= L j * p j by apply: Rmult_le_compat => //; lra.
    right; split.
      apply: (Rmult_le_reg_r (over n (fun i => L i * p i))) => //; rewrite /Rdiv Rmult_assoc Rinv_l ?Rmult_1_r; last lra.
      apply: Rle_trans (_ : bpow radix2 (-1000) * (2 * sv) <= _); first by apply: Rmult_le_compat_l => //; exact: bpow_ge_0.
      apply: Rle_trans hlp; rewrite Rmult_assoc -bpow_plus.
      have -> : bpow radix2 (-1000) * (2 * sv) = sv * bpow radix2 (-999) by rewrite -[(-999)%Z]/(-1000 + 1)%Z bpow_S; ring.
      by apply: Rmult_le_compat_l; [lra|apply: bpow_le; lia].
    apply: Rle_trans (_ : 1 <= _); last exact: one_le_bpow.
    apply: (Rmult_le_reg_r (over n (fun i => L i * p i))) => //; rewrite /Rdiv Rmult_assoc Rinv_l ?Rmult_1_r ?Rmult_1_l; last lra.
    apply: (@over_le1 n (fun i => L i * p i)) => // i hi; apply: Rmult_le_pos; [by case: (hL i hi) => [[]]|exact: p0].
Qed.
(** A measurement update that does not resample: if every particle predicts a value within 31
    standard deviations, every weight is the exact posterior one up to [4 K + 3 n + 7] roundings. *)
Theorem C116_filter us r s' (Q := fun j => N j * p j / over n (fun i => N i * p i)) :
  cov_ok -> size ms = n -> few n -> goods (dm_w (pf_d s)) -> Rabs (total (dm_w (pf_d s)) - 1) <= / 4 ->
  (forall j, (j < n)%N -> p j = 0 \/ bpow radix2 (-60) <= p j) -> preds_ok -> rounds_ok ->
  g2_step expd powd sq root sc a b c z ms us s = Ok ((r, None), s') ->
  [/\ r = true, size (dm_w (pf_d s')) = n &
   forall j, (j < n)%N -> good (nth d0 (dm_w (pf_d s')) j) /\
     Rabs (v2R (nth d0 (dm_w (pf_d s')) j) - Q j) <= Q j * relative (2 * K + 2 * K + (3 * n + 7))].
Proof.
move=> hS hm hn hg ht hpp hd hK hr; have [ls [hl hL QO hTs]] := likes2_tame hS hm hn hg ht hpp hd hK.
have p0 j : (j < n)%N -> 0 <= p j by move=> /hpp [->|h]; [lra|apply: Rle_trans h; exact: bpow_ge_0].
rewrite /g2_step hl in hr.
have hrun : p_run sq root sc s [:: PMeas (fun k => nth d0 ls k) us] = Ok ([:: (r, None)], s').
  by rewrite /=; move: hr => /= ->.
have hZ : (Z.of_nat (pf_roundings 1 n) <= 2 ^ 51)%Z.
  by rewrite /pf_roundings; move: hn; rewrite /few -plusE -multE; lia.
have ek : pf_roundings 1 n = (3 * n + 7)%N by rewrite /pf_roundings -!plusE -!multE; lia.
have hT : pf_tames n p [:: PMeas (fun k => nth d0 ls k) us] [:: (r, None)] by split.
have [h1 h2 h3 _] := C98_run hn hg ht (fun h : [:: _] = [::] => ltac:(discriminate h)) hT hZ hrun.
split; [by case: h1|exact: h2|].
move=> j hj; have [h4 h5] := h3 j hj; split; first exact: h4.
rewrite -/n ek in h5; apply: rel_comp h5.
- by rewrite /Q; apply: Rmult_le_pos; [apply: Rmult_le_pos; [case: (hL j hj)|exact: p0]|left; exact: Rinv_0_lt_compat].
- have u0 := uu_gt0; have ut := uu_tiny.
  have hn2 : INR n <= 4194304 by rewrite INR_IZR_INZ; apply: IZR_le; exact: hn.
  have K41 : INR K <= IZR (2 ^ 41) by rewrite INR_IZR_INZ; apply: IZR_le; case: hK.
  have Ku : INR K * uu <= / 4096 by rewrite -uu41; apply: Rmult_le_compat_r; lra.
  rewrite (slack s).
  have : (3 * INR n + 7) * uu <= 13000000 * uu by apply: Rmult_le_compat_r; lra.
  lra.
have hNL i : (i < n)%N -> approx (2 * K) (N i * p i) (v2R (nth d0 ls i) * p i).
  by move=> hi; have h := hL i hi; rewrite !(Rmult_comm _ (p i)); apply: ap_scale => //; exact: p0.
exact: (ap_div (hNL j hj) (ap_over hNL) QO).
Qed.
(** Without dynamic resampling such an update returns. *)
Theorem C116_returns us i : sc = Period i -> cov_ok -> size ms = n -> few n -> goods (dm_w (pf_d s)) -> Rabs (total (dm_w (pf_d s)) - 1) <= / 4 ->
  (forall j, (j < n)%N -> p j = 0 \/ bpow radix2 (-60) <= p j) -> preds_ok -> rounds_ok ->
  exists s', g2_step expd powd sq root sc a b c z ms us s = Ok ((true, None), s').
Proof.
move=> -> hS hm hn hg ht hpp hd hK; have [ls [hl hL QO hTs]] := likes2_tame hS hm hn hg ht hpp hd hK.
have [n0 hI] := start erefl hg ht; rewrite -/n -/p in n0 hI.
have hn2 : INR n <= 4194304 by rewrite INR_IZR_INZ; apply: IZR_le; exact: hn.
have hK' : INR (1 + 2 * n + 1) * uu <= / 2.
  have -> : INR (1 + 2 * n + 1) = 2 * INR n + 2 by rewrite -plusE -multE plus_INR plus_INR mult_INR /=; ring.
  have u0 := uu_gt0; have ut := uu_tiny; have : (2 * INR n + 2) * uu <= 10000000 * uu by apply: Rmult_le_compat_r; lra.
  lra.
have [h1 [d' [h2 _]]] := @meas_tidy n 1 p (pf_d s) (fun k => nth d0 ls k) hn hK' hI (hTs us).
by exists (DPF d' (pf_t s)); rewrite /g2_step hl [obind (Ok _) _]/= /p_step h1 [obind (Ok _) _]/= h2.
Qed.
(** REFUTED: if the determinant of the covariance of the measurement rounds to 0, the first
    update ends in a failed assertion, whatever the particles, the measurement and exp and pow. *)
Theorem C116_zero_refuted us e q : (0 < size ms)%N -> is_finite a = true -> is_finite b = true -> is_finite c = true ->
  v2R a <> 0 -> v2R b <> 0 -> v2R c <> 0 -> is_finite (d2_det a b c) = true -> v2R (d2_det a b c) = 0 ->
  g2_step e q sq root sc a b c z ms us s = Abort.
Proof.
case: ms => [|m l] // _ fa fb fc na' nb' nc' fd zd.
have [_ h] := @C114_zero_refuted e q m.1 m.2 a b c z.1 z.2 fa fb fc na' nb' nc' fd zd.
by rewrite /g2_step /g2_likes /= h.
Qed.
End C116.

(** ** Cases *)
Lemma dev2_01 : dev2_ok d0 d1.
Proof. by split; [exact: finS0|exact: fin1'|right; rewrite v2R0 Rminus_0_r v2R1 Rabs_R1 -bp0; split; apply: bpow_le; lia]. Qed.
Lemma dev2_11 : dev2_ok d1 d1. Proof. by split; [exact: fin1'|exact: fin1'|left]. Qed.
Definition pow_sq (x y : double) : double := dmul x x.
Definition exp_dof (x : double) : double := dof (exp (v2R x)).
(** variances 1, covariance 1/2; two equal particles that predict (0,0) and (1,1), measurement
    (1,1): the weight of the second is 1/(1 + exp(-2/3)) *)
Example C116_case us K : K = Z.to_nat 62223 ->
  exists s', g2_step exp_dof pow_sq sqm half_root (Period 2) d1 halfd d1 (d1, d1) [:: (d0, d0); (d1, d1)] us pair = Ok ((true, None), s') /\
  Rabs (v2R (nth d0 (dm_w (pf_d s')) 1) - / (1 + exp (- (2 / 3)))) <= / (1 + exp (- (2 / 3))) * relative (2 * K + 2 * K + (3 * 2 + 7)).
Proof.
move=> eK; have [h1 h2] : exp_ok exp_dof /\ pow2_ok pow_sq by exact: library2.
have [g t e] := PropertiesDoublePF.pair_ok; have [_ eh] := half_val.
have ht : Rabs (total (dm_w (pf_d pair)) - 1) <= / 4 by rewrite t Rminus_diag_eq // Rabs_R0; lra.
have hpp j : (j < 2)%N -> exact (dm_w (pf_d pair)) j = 0 \/ bpow radix2 (-60) <= exact (dm_w (pf_d pair)) j.
  by move=> hj; right; rewrite e // -b1; apply: bpow_le; lia.
have hC : cov_ok d1 halfd d1 by split; [exact: mid1|exact: mid0half|exact: mid1|rewrite det_half; lra].
have q0 : maha (v2R d1) (v2R halfd) (v2R d1) (v2R d1 - v2R d0) (v2R d1 - v2R d0) / 2 = 2 / 3.
  by rewrite v2R0 Rminus_0_r /maha det_half v2R1 eh; field.
have q1 : maha (v2R d1) (v2R halfd) (v2R d1) (v2R d1 - v2R d1) (v2R d1 - v2R d1) / 2 = 0.
  by rewrite Rminus_diag_eq // /maha det_half; field.
have hd : preds_ok d1 halfd d1 (d1, d1) [:: (d0, d0); (d1, d1)] pair.
  rewrite /preds_ok; cbv zeta; case=> [|[|j]] // _; cbn [nth fst snd]; rewrite ?q0 ?q1; split; [exact: dev2_01|exact: dev2_01|lra|exact: dev2_11|exact: dev2_11|lra].
have hK : rounds_ok d1 halfd d1 K.
  rewrite /rounds_ok eK INR_IZR_INZ Z2Nat.id //; split; last lia.
  by rewrite /excess det_half v2R1; lra.
have [s' hs'] := @C116_returns _ _ h1 h2 sqm half_root (Period 2) d1 halfd d1 (d1, d1) [:: (d0, d0); (d1, d1)] pair K us 2 erefl hC erefl few2 g ht hpp hd hK.
exists s'; split; first exact: hs'.
have [_ _ h] := C116_filter h1 h2 hC (erefl : size [:: (d0, d0); (d1, d1)] = size (dm_w (pf_d pair))) few2 g ht hpp hd hK hs'.
have [_ hw] := h 1%N isT.
set Q := (_ / _) in hw; have eQ : Q = / (1 + exp (- (2 / 3))).
  rewrite /Q [size _]/= /over; cbn [iota map rsum foldr nth fst snd]; rewrite (e 0%N isT) (e 1%N isT) /normal2 q0 q1 Ropp_0 exp_0 det_half.
  have hq : 0 < 2 * PI * sqrt (3 / 4) by apply: Rmult_lt_0_compat; [have := pi_3; lra|apply: sqrt_lt_R0; lra].
  by have hx := exp_pos (- (2 / 3)); move: (2 * PI * sqrt (3 / 4)) hq => T hq; field; lra.
by rewrite -eQ; exact: hw.
Qed.
(** variances 1 and [zc], covariance [zb] (correlation 1 - 10^-16): positive definite, every update fails *)
Example C116_case_zero e q us z m : posdef (v2R d1) (v2R zb) (v2R zc) /\
  g2_step e q sqm half_root (Period 2) d1 zb zc z [:: m; m] us pair = Abort.
Proof.
have [fb eb] := @lit_val 268435459 (-28) erefl ltac:(lia); have [fc ec] := @lit_val 4503599728033793 (-52) erefl ltac:(lia).
rewrite bm28 in eb; rewrite bm52 in ec; have [s es] := zero_det; split; first by case: (@C114_case_zero e q d0 d0 d0 d0).
have fz : is_finite (d2_det d1 zb zc) = true by rewrite es.
have ez : v2R (d2_det d1 zb zc) = 0 by rewrite es.
have nb' : v2R zb <> 0 by rewrite /zb eb; lra.
have nc' : v2R zc <> 0 by rewrite /zc ec; lra.
have na' : v2R d1 <> 0 by rewrite v2R1; lra.
exact: (@C116_zero_refuted sqm half_root (Period 2) d1 zb zc z [:: m; m] pair us e q isT fin1' fb fc na' nb' nc' fz ez).
Qed.
Print Assumptions C116_filter.
Print Assumptions C116_returns.
Print Assumptions C116_zero_refuted.
Print Assumptions C116_case.
Print Assumptions C116_case_zero.
