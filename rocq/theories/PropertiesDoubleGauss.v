(** * C111: the density of a one-dimensional Gaussian in doubles *)
From Coq Require Import ZArith Reals Lra Lia.
From Flocq Require Import Core.Core BinarySingleNaN.
From mathcomp Require Import all_ssreflect.
From Verif Require Import Outcome ModelDouble SpecDouble ProofsDouble PropertiesDouble
  ModelDoubleHist SpecDoubleHist ProofsDoubleHist PropertiesDoubleHist ModelDoublePF SpecDoublePF ProofsDoublePF PropertiesDoublePF
  ModelDoubleKF ProofsDoubleKF ModelDoubleUni ProofsDoubleUni ProofsDoubleProp ModelDoubleGauss SpecDoubleGauss ProofsDoubleGauss.
Set Implicit Arguments. Unset Strict Implicit. Unset Printing Implicit Defensive.
Local Open Scope R_scope.

(** the double nearest to a real *)
Definition dof (r : R) : double :=
  binary_normalize 53 1024 _ _ mode_NE (ZnearestE (scaled_mantissa radix2 (FLT_exp (-1074) 53) r)) (cexp radix2 (FLT_exp (-1074) 53) r) false.
Lemma dof_val r : small r -> is_finite (dof r) = true /\ v2R (dof r) = rnd r.
Proof.
move=> h; have := binary_normalize_correct 53 1024 prec53 emax1024 mode_NE
  (ZnearestE (scaled_mantissa radix2 (FLT_exp (-1074) 53) r)) (cexp radix2 (FLT_exp (-1074) 53) r) false; cbv zeta.
rewrite -/(dof r) -[F2R _]/(rnd r) -[round _ _ _ _]/(rnd (rnd r)) round_generic; last by apply: generic_format_round.
rewrite Rlt_bool_true; last exact: rnd_small.
by case=> e1 [f1 _]; split; [exact: f1|exact: e1].
Qed.

Lemma b6p : bpow radix2 6 = 64. Proof. by []. Qed.
Local Opaque d0 d1 dprec dlit dadd dsub dmul ddiv dle dlt bpow IZR dsqrt.

(** the hypotheses on the C library can be met *)
Lemma library : exp_ok (fun x => dof (exp (v2R x))) /\ pow_ok (fun x _ => x).
Proof.
split=> // x fx hx; have x0 := exp_pos (v2R x).
have x1 : exp (v2R x) <= 1 by rewrite -exp_0; case: (Req_dec (v2R x) 0) => [->|h']; [lra|left; apply: exp_increasing; lra].
have hs : small (exp (v2R x)).
  rewrite /small Rabs_pos_eq; last lra.
  by apply: Rle_trans x1 _; exact: one_le_bpow.
have [f e] := dof_val hs; split; first by split; [exact: f|rewrite e; apply: rnd_ge0; lra].
rewrite e; apply: Rle_trans (rnd_err _) _; rewrite b52 Rabs_pos_eq; last lra.
have := bpow_gt_0 radix2 (-1074); have := uu_gt0; rewrite /ee; nra.
Qed.

Section C111.
Variables (expd : double -> double) (powd : double -> double -> double).
Hypotheses (he : exp_ok expd) (hp : pow_ok powd).

(** No assertion fails; the density is finite and [>= 0]. *)
Theorem C111_total mu S x : var_ok S -> dev_ok mu x ->
  (exists2 p, g_prob expd powd mu S x = Ok p & good p) /\ (exists2 p, cg_prob expd powd mu S x = Ok p & good p).
Proof.
move=> hS hd; have [t [h1 _ h3 h4]] := square_ok hS hd; have h0 := ap_ge0 h4.
have [|[f _ [p e1 [g1 _]]] [f' _ [p' e2 [g2 _]]]] := @ends expd powd S (dmul dmhalf t) he hp hS h3; first lra.
by rewrite /g_prob /cg_prob h1 /=; split; [exists p|exists p'].
Qed.
(** Up to 31 standard deviations from the mean both functions return the normal density up to
    [7 (E + 1)] roundings, where [E] is half the squared deviation in units of the variance. *)
Theorem C111_density mu S x (E := energy (v2R mu) (v2R S) (v2R x)) (N := normal (v2R mu) (v2R S) (v2R x)) (r := 7 * (E + 1) * / IZR (2 ^ 53)) :
  var_ok S -> dev_ok mu x -> E <= 500 ->
  (exists2 p, g_prob expd powd mu S x = Ok p & good p /\ Rabs (v2R p - N) <= N * r) /\
  (exists2 p, cg_prob expd powd mu S x = Ok p & good p /\ Rabs (v2R p - N) <= N * r).
Proof.
move=> hS hd hE; have [t [h1 _ h3 h4]] := square_ok hS hd; have h0 := ap_ge0 h4; have [E0 _ _] := h4.
have [|[f a [p e1 [g1 v1]]] [f' a' [p' e2 [g2 v2]]]] := @ends expd powd S (dmul dmhalf t) he hp hS h3; first lra.
have [_ [c ec hc]] := exp_rel he h3 (conj E0 hE) h4.
have k v : approx 3 (/ sqrt (2 * PI * v2R S)) v -> Rabs (rnd (v2R (expd (dmul dmhalf t)) * v) - N) <= N * r.
  by move=> ha; rewrite /N /r -uu_val; have [_ _ h] := scaled (conj E0 hE) (s_rng hS) ec hc ha; exact: h.
by rewrite /g_prob /cg_prob h1 /=; split; [exists p; rewrite ?v1|exists p'; rewrite ?v2] => //; split=> //; exact: k.
Qed.
(** From 39 standard deviations on the density is 0 or the least positive double. *)
Theorem C111_far mu S x : var_ok S -> / 2 <= v2R S -> dev_ok mu x -> 760 <= energy (v2R mu) (v2R S) (v2R x) ->
  (exists2 p, g_prob expd powd mu S x = Ok p & good p /\ v2R p <= bpow radix2 (-1074)) /\
  (exists2 p, cg_prob expd powd mu S x = Ok p & good p /\ v2R p <= bpow radix2 (-1074)).
Proof.
move=> hS hS2 hd hE; have [t [h1 _ h3 h4]] := square_ok hS hd; have h0 := ap_ge0 h4.
have [|[f a [p e1 [g1 v1]]] [f' a' [p' e2 [g2 v2]]]] := @ends expd powd S (dmul dmhalf t) he hp hS h3; first lra.
have [[_ x0] hx] := exp_under he h3 hE h4; have b0 := bpow_gt_0 radix2 (-1074).
have hr : 3 / 2 <= sqrt (2 * PI * v2R S).
  rewrite -(sqrt_pow2 (3 / 2)); last lra.
  by apply: sqrt_le_1_alt; have := pi_3; nra.
have k v : approx 3 (/ sqrt (2 * PI * v2R S)) v -> rnd (v2R (expd (dmul dmhalf t)) * v) <= bpow radix2 (-1074).
  move=> ha; have v0 := ap_ge0 ha; case: ha => _ _ hv.
  have hi : / sqrt (2 * PI * v2R S) <= 2 / 3.
    have -> : 2 / 3 = / (3 / 2) by field.
    by apply: Rinv_le_contravar; lra.
  have hq : 9 / 10 <= qq ^ 3 by rewrite /qq /=; have := uu_tiny; have := uu_gt0; nra.
  have v1' : v <= 8 / 10 by nra.
  apply: round_le_generic; first by apply: generic_format_bpow; rewrite /FLT_exp; lia.
  nra.
by rewrite /g_prob /cg_prob h1 /=; split; [exists p; rewrite ?v1|exists p'; rewrite ?v2] => //; split=> //; exact: k.
Qed.
(** REFUTED: far enough the square overflows and the assertion of [Probability] ends the program,
    although the density exists (and would round to 0). *)
Theorem C111_overflow_refuted mu S x : is_finite S = true -> bpow radix2 (-200) <= v2R S <= 1 -> is_finite mu = true -> is_finite x = true ->
  bpow radix2 513 <= Rabs (v2R x - v2R mu) <= bpow radix2 700 ->
  [/\ g_prob expd powd mu S x = Abort, cg_prob expd powd mu S x = Abort & 0 < normal (v2R mu) (v2R S) (v2R x) <= bpow radix2 (-980)].
Proof.
move=> fS hS fm fx hd; have h := square_over fS hS fm fx hd; split; [by rewrite /g_prob h|by rewrite /cg_prob h|].
case: hS => s1 s2; have s0 : 0 < v2R S by apply: Rlt_le_trans s1; exact: bpow_gt_0.
have vS : var_ok S by split=> //; split=> //; apply: Rle_trans s2 _; exact: one_le_bpow.
have [r1 r2] := s_rng vS; have b0 := bpow_gt_0 radix2 (-102); have r0 : 0 < / sqrt (2 * PI * v2R S) by lra.
rewrite /normal /Rdiv; split; first by apply: Rmult_lt_0_compat => //; exact: exp_pos.
rewrite -[(-980)%Z]/(-1080 + 100)%Z bpow_plus; apply: Rmult_le_compat; [left; exact: exp_pos|lra| |exact: r2].
apply: exp_far; rewrite /energy; case: hd => d1' _.
have hb : 2048 <= bpow radix2 513 by rewrite -[2048]/(IZR (2 ^ 11)) (IZR_Zpower radix2) //; apply: bpow_le; lia.
have hq : 2048 * 2048 <= (v2R x - v2R mu) ^ 2 by rewrite -[_ ^ 2]Rsqr_pow2 Rsqr_abs /Rsqr; nra.
apply: (Rmult_le_reg_r (2 * v2R S)); first lra.
rewrite /Rdiv Rmult_assoc Rinv_l; [nra|lra].
Qed.

(** ** The measurement update of a particle filter with this density *)
Section Filter.
Variables (sq : double -> double) (root : double -> nat -> double) (sc : scheme) (S z : double) (ms : seq double) (s : dpf).
Let n := size (dm_w (pf_d s)).
Let p := exact (dm_w (pf_d s)).
Let N (j : nat) : R := normal (v2R (nth d0 ms j)) (v2R S) (v2R z).
Let E (j : nat) : R := energy (v2R (nth d0 ms j)) (v2R S) (v2R z).
Let value (o : outcome double) : double := if o is Ok x then x else d0.
Lemma likes_ok : var_ok S -> (forall j, (j < size ms)%N -> dev_ok (nth d0 ms j) z) ->
  g_likes expd powd S z ms = Ok [seq value (cg_prob expd powd m S z) | m <- ms].
Proof.
move=> hS hd; apply: mapO_ok => m /(List.In_nth ms m d0) [j [/ltP hj <-]].
have -> : List.nth j ms d0 = nth d0 ms j by elim: (ms) (j) => [|a l ih] [|k] //=.
by have [_ [q -> _]] := C111_total hS (hd j hj).
Qed.
Lemma like_nth j : (j < size ms)%N ->
  nth d0 [seq value (cg_prob expd powd m S z) | m <- ms] j = value (cg_prob expd powd (nth d0 ms j) S z).
Proof. by move=> hj; rewrite (nth_map d0). Qed.
(** REFUTED: if every particle predicts a value 39 or more standard deviations from the
    measurement, the update fails and all weights are lost, although the exact posterior exists. *)
Theorem C111_lost_refuted : var_ok S -> / 2 <= v2R S -> size ms = n -> (0 < n)%N -> goods (dm_w (pf_d s)) ->
  (forall j, (j < n)%N -> 0 < v2R (nth d0 (dm_w (pf_d s)) j) < / 2) ->
  (forall j, (j < n)%N -> dev_ok (nth d0 ms j) z /\ 760 <= E j) ->
  0 < over n (fun j => N j * p j) /\
  exists d', [/\ forall us, g_step expd powd sq root sc S z ms us s = Ok ((false, None), DPF d' (pf_t s)), gone n d' & dm_c d' = dm_c (pf_d s)].
Proof.
move=> hS hS2 hm n0 hg hw hd; split.
  have N0 j : 0 < N j.
    by apply: Rmult_lt_0_compat; [exact: exp_pos|have [h _] := s_rng hS; apply: Rlt_le_trans h; exact: bpow_gt_0].
  have t0 : 0 < total (dm_w (pf_d s)).
    rewrite total_nth_over; apply: Rlt_le_trans (proj1 (hw 0%N n0)) _.
    by apply: (@over_le1 n (fun j => v2R (nth d0 (dm_w (pf_d s)) j))) => // i hi; left; case: (hw i hi).
  have hj j : (j < n)%N -> 0 < N j * p j.
    move=> hj; apply: Rmult_lt_0_compat => //; rewrite /p /exact.
    by apply: Rmult_lt_0_compat; [case: (hw j hj)|exact: Rinv_0_lt_compat].
  apply: Rlt_le_trans (hj 0%N n0) _; apply: over_le1 => // i hi; left; exact: hj.
have hl := @likes_ok hS; rewrite hm in hl.
set ls := [seq _ | m <- ms] in hl.
have [||d' [h1 h2 h3]] := @C99_underflow sq root sc s (fun k => nth d0 ls k) n0 hg.
- by move=> j hj; case: (hw j hj).
- move=> j hj; have [dj ej] := hd j hj; rewrite /ls like_nth ?hm //.
  by have [_ [q -> []]] := C111_far hS hS2 dj ej.
exists d'; split=> // us; rewrite /g_step hl; last by move=> j hj; case: (hd j hj).
exact: h1.
Qed.

(** a relative error as a number of roundings *)
Lemma pow_bern m : qq ^ m * (1 + INR m * uu) <= 1.
Proof.
have hu := uu_lt; elim: m => [|m ih]; first by rewrite /=; lra.
have h := pos_INR m; have [q0 _] := qq_pow m; rewrite -tech_pow_Rmult S_INR.
have -> : qq * qq ^ m * (1 + (INR m + 1) * uu) = qq ^ m * (1 + INR m * uu) - qq ^ m * ((INR m + 1) * (uu * uu)) by rewrite /qq; ring.
have : 0 <= qq ^ m * ((INR m + 1) * (uu * uu)) by apply: Rmult_le_pos; [lra|apply: Rmult_le_pos; nra].
lra.
Qed.
Lemma ap_of k r v : 0 <= r -> INR k * uu <= / 2 -> Rabs (v - r) <= r * (INR k * uu) -> approx (2 * k) r v.
Proof.
move=> r0 hk /Rabs_le_inv [h1 h2]; have hb := pow_bern (2 * k); have hu := uu_lt; have k0 := pos_INR k.
have e2 : INR (2 * k) = 2 * INR k by rewrite -multE mult_INR.
rewrite e2 Rmult_assoc in hb; have [q0 q1] := qq_pow (2 * k).
have x0 : 0 <= INR k * uu by apply: Rmult_le_pos; lra.
have hq : qq ^ (2 * k) <= 1 - INR k * uu.
  apply: (Rmult_le_reg_r (1 + 2 * (INR k * uu))); first lra.
  apply: Rle_trans hb _; move: (INR k * uu) x0 hk => x x0 hk; nra.
rewrite /approx; move: (qq ^ _) (INR k * uu) q0 q1 hq hb x0 hk h1 h2 => Q x q0 q1 hq hb x0 hk h1 h2.
split=> //; first by apply: Rle_trans (_ : r * (1 - x) <= _); [exact: Rmult_le_compat_l|lra].
apply: Rle_trans (_ : r * (1 + x) * Q <= _); first by apply: Rmult_le_compat_r; lra.
have : Q * (1 + x) <= 1 by nra.
nra.
Qed.
Lemma rel_comp a b x y w : 0 <= x -> INR (a + b) * uu < 1 -> approx a x y -> Rabs (w - y) <= y * relative b ->
  Rabs (w - x) <= x * relative (a + b).
Proof.
move=> x0 hab ha hb; have a0 := pos_INR a; have b0 := pos_INR b; have hu := uu_lt; have hab0 := hab; rewrite -plusE plus_INR Rmult_plus_distr_r in hab.
have u1 : 0 <= INR a * uu by apply: Rmult_le_pos; lra.
have u2 : 0 <= INR b * uu by apply: Rmult_le_pos; lra.
have ha1 : INR a * uu < 1 by lra. have hb1 : INR b * uu < 1 by lra.
have h1 := ap_err ha1 ha; have y0 := ap_ge0 ha.
rewrite -(ProofsDoublePF.relE hb1) in hb; rewrite -(ProofsDoublePF.relE hab0) -plusE plus_INR.
rewrite Rmult_plus_distr_r; move: (INR a * uu) (INR b * uu) u1 u2 ha1 hb1 h1 hb hab => A B u1 u2 ha1 hb1 h1 hb hab'.
have hy : y <= x / (1 - A).
  move/Rabs_le_inv: h1 => [_ h1]; have -> : x / (1 - A) = x + x * (A / (1 - A)) by field; lra.
  lra.
have B0 : 0 <= B / (1 - B) by apply: Rmult_le_pos => //; left; apply: Rinv_0_lt_compat; lra.
have -> : w - x = (w - y) + (y - x) by ring.
apply: Rle_trans (Rabs_triang _ _) _; apply: Rle_trans (Rplus_le_compat _ _ _ _ hb h1) _.
apply: Rle_trans (_ : x / (1 - A) * (B / (1 - B)) + x * (A / (1 - A)) <= _).
  by apply: Rplus_le_compat_r; apply: Rmult_le_compat_r.
have -> : x / (1 - A) * (B / (1 - B)) + x * (A / (1 - A)) = x * (/ ((1 - A) * (1 - B)) - 1) by field; lra.
have -> : (A + B) / (1 - (A + B)) = / (1 - (A + B)) - 1 by field; lra.
apply: Rmult_le_compat_l => //; apply: Rplus_le_compat_r; apply: Rinv_le_contravar; nra.
Qed.
Lemma slack k m : INR (2 * k + 2 * k + (3 * m + 7)) = 4 * INR k + 3 * INR m + 7.
Proof.
have -> : (2 * k + 2 * k + (3 * m + 7) = Nat.add (Nat.mul 4 k) (Nat.add (Nat.mul 3 m) 7))%N by rewrite -!plusE -!multE; lia.
rewrite plus_INR plus_INR mult_INR mult_INR /=; ring.
Qed.
Lemma likes_tame : var_ok S -> size ms = n -> few n -> goods (dm_w (pf_d s)) -> Rabs (total (dm_w (pf_d s)) - 1) <= / 4 ->
  (forall j, (j < n)%N -> p j = 0 \/ bpow radix2 (-60) <= p j) ->
  (forall j, (j < n)%N -> dev_ok (nth d0 ms j) z /\ E j <= 500) ->
  exists ls, [/\ g_likes expd powd S z ms = Ok ls, forall j, (j < n)%N -> approx (2 * 3507) (N j) (v2R (nth d0 ls j)),
    0 < over n (fun i => N i * p i) & forall us, pf_tame n p (PMeas (fun k => nth d0 ls k) us)].
Proof.
move=> hS hm hn hg ht hpp hd; have [n0 hI] := start erefl hg ht; rewrite -/n -/p in n0 hI.
have [_ _ o1 _] := hI.
have p0 j : (j < n)%N -> 0 <= p j by move=> /hpp [->|h]; [lra|apply: Rle_trans h; exact: bpow_ge_0].
have hl := @likes_ok hS; rewrite hm in hl.
set ls := [seq _ | m <- ms] in hl.
have [r1 r2] := s_rng hS; have b0 := bpow_gt_0 radix2 (-102).
set sv := / sqrt (2 * PI * v2R S) in r1 r2; have s0 : 0 < sv by lra.
have u0 := uu_gt0; have ut := uu_tiny.
have hL j : (j < n)%N -> [/\ good (nth d0 ls j), approx (2 * 3507) (N j) (v2R (nth d0 ls j)), sv * bpow radix2 (-811) <= v2R (nth d0 ls j) &
    v2R (nth d0 ls j) <= 2 * sv].
  move=> hj; have [dj ej] := hd j hj; rewrite /ls like_nth ?hm //.
  have [_ [q -> [gq hq]]] := C111_density hS dj ej; rewrite /=.
  rewrite -/(N j) -/(E j) -uu_val in hq ej.
  have E0 : 0 <= E j by apply: Rmult_le_pos; [exact: pow2_ge_0|left; apply: Rinv_0_lt_compat; have := var_pos hS; lra].
  have eN : N j = exp (- E j) * sv by [].
  have x0 := exp_pos (- E j); have hx : bpow radix2 (-810) <= exp (- E j) by apply: exp_near; lra.
  have x1 : exp (- E j) <= 1 by rewrite -exp_0; case: (Req_dec (E j) 0) => [->|h']; [rewrite Ropp_0; lra|left; apply: exp_increasing; lra].
  have N0 : 0 < N j by rewrite eN; exact: Rmult_lt_0_compat.
  have hE1 : 7 * (E j + 1) * uu <= / 1000.
    have : 7 * (E j + 1) * uu <= 3507 * uu by apply: Rmult_le_compat_r; lra.
    lra.
  have e811 : bpow radix2 (-811) = / 2 * bpow radix2 (-810) by rewrite -[(-810)%Z]/(-811 + 1)%Z bpow_S; lra.
  have N1 : sv * bpow radix2 (-810) <= N j by rewrite eN Rmult_comm; apply: Rmult_le_compat_r; lra.
  have N2 : N j <= sv by rewrite eN -{2}[sv]Rmult_1_l; apply: Rmult_le_compat_r; lra.
  have hq2 : Rabs (v2R q - N j) <= N j * / 1000 by apply: Rle_trans hq _; apply: Rmult_le_compat_l; lra.
  move/Rabs_le_inv: (hq2) => hq3.
  split=> //.
  - have e7 : INR 3507 = 3507 by rewrite INR_IZR_INZ.
    apply: (@ap_of 3507); [lra|rewrite e7; lra|].
    apply: Rle_trans hq _; apply: Rmult_le_compat_l; first lra.
    by rewrite e7; apply: Rmult_le_compat_r; lra.
  - by rewrite e811; lra.
  lra.
pose L j := v2R (nth d0 ls j).
have hO1 : sv * bpow radix2 (-811) <= over n (fun i => L i * p i).
  rewrite -[X in X <= _]Rmult_1_r -o1 -over_scale; apply: over_le => i hi; apply: Rmult_le_compat_r; first exact: p0.
  by case: (hL i hi).
have hO2 : over n (fun i => L i * p i) <= 2 * sv.
  rewrite -[X in _ <= X]Rmult_1_r -o1 -over_scale; apply: over_le => i hi; apply: Rmult_le_compat_r; first exact: p0.
  by case: (hL i hi).
have c0 : 0 < sv * bpow radix2 (-811) by apply: Rmult_lt_0_compat => //; exact: bpow_gt_0.
have O0 : 0 < over n (fun i => L i * p i) by lra.
have p1 j : (j < n)%N -> p j <= 1 by move=> hj; rewrite -o1; apply: over_le1.
exists ls; split; first by apply: hl => j hj; case: (hd j hj).
- by move=> j hj; case: (hL j hj).
- have hx i : (i < n)%N -> approx (2 * 3507) (N i * p i) (L i * p i).
    by move=> hi; case: (hL i hi) => _ h _ _; rewrite !(Rmult_comm _ (p i)); apply: ap_scale => //; exact: p0.
  case: (ap_over hx) => _ _ h; apply: Rlt_le_trans h; apply: Rmult_lt_0_compat => //; by case: (qq_pow (2 * 3507)).
move=> us; split=> //.
  - move=> j hj; have [g1 _ l1 l2] := hL j hj; split=> //; case: (hpp j hj) => [->|h]; first by left; rewrite Rmult_0_r.
    right; have h1 := p1 j hj; split.
      apply: Rle_trans (_ : bpow radix2 (-102) * bpow radix2 (-811) * bpow radix2 (-60) <= _).
        by rewrite -!bpow_plus; apply: bpow_le; lia.
      apply: Rmult_le_compat => //; [by apply: Rmult_le_pos; exact: bpow_ge_0|exact: bpow_ge_0|].
      by apply: Rle_trans l1; apply: Rmult_le_compat_r => //; exact: bpow_ge_0.
    apply: Rle_trans (_ : 2 * bpow radix2 100 * 1 <= _); last by rewrite Rmult_1_r -bpow_S; apply: bpow_le; lia.
    by apply: Rmult_le_compat => //; [case: g1|apply: p0|lra].
  - move=> j hj; change (tame (L j * p j / over n (fun i => L i * p i))).
    have [g1 _ l1 l2] := hL j hj; rewrite -/(L j) in l1 l2; case: (hpp j hj) => [->|h].
      by left; rewrite Rmult_0_r /Rdiv Rmult_0_l.
    have bp := bpow_gt_0 radix2 (-60); have bq := bpow_gt_0 radix2 (-811).
    have hlp : sv * bpow radix2 (-811) * bpow radix2 (-60) <= L j * p j by apply: Rmult_le_compat => //; lra.
    right; split.
      apply: (Rmult_le_reg_r (over n (fun i => L i * p i))) => //; rewrite /Rdiv Rmult_assoc Rinv_l ?Rmult_1_r; last lra.
      apply: Rle_trans (_ : bpow radix2 (-1000) * (2 * sv) <= _); first by apply: Rmult_le_compat_l => //; exact: bpow_ge_0.
      apply: Rle_trans hlp; rewrite Rmult_assoc -bpow_plus.
      have -> : bpow radix2 (-1000) * (2 * sv) = sv * bpow radix2 (-999) by rewrite -[(-999)%Z]/(-1000 + 1)%Z bpow_S; ring.
      by apply: Rmult_le_compat_l; [lra|apply: bpow_le; lia].
    apply: Rle_trans (_ : 1 <= _); last exact: one_le_bpow.
    apply: (Rmult_le_reg_r (over n (fun i => L i * p i))) => //; rewrite /Rdiv Rmult_assoc Rinv_l ?Rmult_1_r ?Rmult_1_l; last lra.
    apply: (@over_le1 n (fun i => L i * p i)) => // i hi; apply: Rmult_le_pos; [by case: (hL i hi) => [[]]|exact: p0].
Qed.
(** A measurement update that does not resample: if every particle predicts a value within 31
    standard deviations, every weight is the exact posterior one up to [3 n + 14035] roundings. *)
Theorem C111_filter us b s' (Q := fun j => N j * p j / over n (fun i => N i * p i)) :
  var_ok S -> size ms = n -> few n -> goods (dm_w (pf_d s)) -> Rabs (total (dm_w (pf_d s)) - 1) <= / 4 ->
  (forall j, (j < n)%N -> p j = 0 \/ bpow radix2 (-60) <= p j) ->
  (forall j, (j < n)%N -> dev_ok (nth d0 ms j) z /\ E j <= 500) ->
  g_step expd powd sq root sc S z ms us s = Ok ((b, None), s') ->
  [/\ b = true, size (dm_w (pf_d s')) = n &
   forall j, (j < n)%N -> good (nth d0 (dm_w (pf_d s')) j) /\
     Rabs (v2R (nth d0 (dm_w (pf_d s')) j) - Q j) <= Q j * relative (2 * 3507 + 2 * 3507 + (3 * n + 7))].
Proof.
move=> hS hm hn hg ht hpp hd hr; have [ls [hl hL QO hTs]] := likes_tame hS hm hn hg ht hpp hd.
have p0 j : (j < n)%N -> 0 <= p j by move=> /hpp [->|h]; [lra|apply: Rle_trans h; exact: bpow_ge_0].
rewrite /g_step hl in hr.
have hrun : p_run sq root sc s [:: PMeas (fun k => nth d0 ls k) us] = Ok ([:: (b, None)], s').
  by rewrite /=; move: hr => /= ->.
have hZ : (Z.of_nat (pf_roundings 1 n) <= 2 ^ 51)%Z.
  by rewrite /pf_roundings; move: hn; rewrite /few -plusE -multE; lia.
have ek : pf_roundings 1 n = (3 * n + 7)%N by rewrite /pf_roundings -!plusE -!multE; lia.
have hT : pf_tames n p [:: PMeas (fun k => nth d0 ls k) us] [:: (b, None)] by split.
have [h1 h2 h3 _] := C98_run hn hg ht (fun h : [:: _] = [::] => ltac:(discriminate h)) hT hZ hrun.
split; [by case: h1|exact: h2|].
move=> j hj; have [h4 h5] := h3 j hj; split; first exact: h4.
rewrite -/n ek in h5; apply: rel_comp h5.
- by rewrite /Q; apply: Rmult_le_pos; [apply: Rmult_le_pos; [case: (hL j hj)|exact: p0]|left; exact: Rinv_0_lt_compat].
- have u0 := uu_gt0; have ut := uu_tiny.
  have hn2 : INR n <= 4194304 by rewrite INR_IZR_INZ; apply: IZR_le; exact: hn.
  have -> : INR (2 * 3507 + 2 * 3507 + (3 * n + 7)) = 14035 + 3 * INR n.
    by rewrite slack [INR 3507]INR_IZR_INZ [Z.of_nat 3507]/=; ring.
  have : (14035 + 3 * INR n) * uu <= 13000000 * uu by apply: Rmult_le_compat_r; lra.
  lra.
have hNL i : (i < n)%N -> approx (2 * 3507) (N i * p i) (v2R (nth d0 ls i) * p i).
  by move=> hi; have h := hL i hi; rewrite !(Rmult_comm _ (p i)); apply: ap_scale => //; exact: p0.
apply: ap_div; [exact: hNL|exact: ap_over|exact: QO].
Qed.
(** Without dynamic resampling such an update returns. *)
Theorem C111_returns us k : sc = Period k -> var_ok S -> size ms = n -> few n -> goods (dm_w (pf_d s)) -> Rabs (total (dm_w (pf_d s)) - 1) <= / 4 ->
  (forall j, (j < n)%N -> p j = 0 \/ bpow radix2 (-60) <= p j) ->
  (forall j, (j < n)%N -> dev_ok (nth d0 ms j) z /\ E j <= 500) ->
  exists s', g_step expd powd sq root sc S z ms us s = Ok ((true, None), s').
Proof.
move=> -> hS hm hn hg ht hpp hd; have [ls [hl hL QO hTs]] := likes_tame hS hm hn hg ht hpp hd.
have [n0 hI] := start erefl hg ht; rewrite -/n -/p in n0 hI.
have hn2 : INR n <= 4194304 by rewrite INR_IZR_INZ; apply: IZR_le; exact: hn.
have hK : INR (1 + 2 * n + 1) * uu <= / 2.
  have -> : INR (1 + 2 * n + 1) = 2 * INR n + 2 by rewrite -plusE -multE plus_INR plus_INR mult_INR /=; ring.
  have u0 := uu_gt0; have ut := uu_tiny; have : (2 * INR n + 2) * uu <= 10000000 * uu by apply: Rmult_le_compat_r; lra.
  lra.
have [h1 [d' [h2 _]]] := @meas_tidy n 1 p (pf_d s) (fun k => nth d0 ls k) hn hK hI (hTs us).
by exists (DPF d' (pf_t s)); rewrite /g_step hl [obind (Ok _) _]/= /p_step h1 [obind (Ok _) _]/= h2.
Qed.

End Filter.
End C111.

(** ** Cases *)
Lemma var1 : var_ok d1.
Proof.
split; first by case: good1 => h _; exact: h.
rewrite v2R1; split; last exact: one_le_bpow.
by rewrite -[1]/(bpow radix2 0); apply: bpow_le; lia.
Qed.
Lemma fin1 : is_finite d1 = true. Proof. by case: good1 => h _; exact: h. Qed.
Lemma fin0 : is_finite d0 = true. Proof. by case: good0 => h _; exact: h. Qed.
Lemma dev01 : dev_ok d0 d1.
Proof.
split; [exact: fin0|exact: fin1|right]; rewrite v2R0 v2R1 Rminus_0_r Rabs_R1; split; last exact: one_le_bpow.
by rewrite -[1]/(bpow radix2 0); apply: bpow_le; lia.
Qed.
Lemma dev11 : dev_ok d1 d1.
Proof. by split; [exact: fin1|exact: fin1|left]. Qed.
Definition lib_exp (x : double) : double := dof (exp (v2R x)).
Definition lib_pow (x _ : double) : double := x.
(** one standard deviation from the mean of the standard normal distribution *)
Example C111_case_density : exists2 p, cg_prob lib_exp lib_pow d0 d1 d1 = Ok p &
  Rabs (v2R p - exp (- / 2) / sqrt (2 * PI)) <= exp (- / 2) / sqrt (2 * PI) * (11 / IZR (2 ^ 53)).
Proof.
have [h1 h2] := library; have e : energy (v2R d0) (v2R d1) (v2R d1) = / 2 by rewrite /energy v2R0 v2R1; field.
have [|_ [p hp [_ hr]]] := C111_density h1 h2 var1 dev01; first by rewrite e; lra.
exists p; first exact: hp.
rewrite /normal e v2R1 Rmult_1_r in hr; apply: Rle_trans hr _; apply: Rmult_le_compat_l.
  apply: Rmult_le_pos; first by left; exact: exp_pos.
  by left; apply: Rinv_0_lt_compat; apply: sqrt_lt_R0; have := pi_3; lra.
by have := uu_gt0; rewrite uu_val /Rdiv => h; apply: Rmult_le_compat_r; lra.
Qed.
(** two equal particles that predict 0 and 1, measurement 1 *)
Example C111_case_filter us : exists s', g_step lib_exp lib_pow sqm half_root (Period 2) d1 d1 [:: d0; d1] us pair = Ok ((true, None), s') /\
  Rabs (v2R (nth d0 (dm_w (pf_d s')) 1) - / (1 + exp (- / 2))) <= / (1 + exp (- / 2)) * relative (2 * 3507 + 2 * 3507 + 13).
Proof.
have [h1 h2] := library; have [g t e] := PropertiesDoublePF.pair_ok.
have ht : Rabs (total (dm_w (pf_d pair)) - 1) <= / 4 by rewrite t Rminus_diag_eq // Rabs_R0; lra.
have hpp j : (j < 2)%N -> exact (dm_w (pf_d pair)) j = 0 \/ bpow radix2 (-60) <= exact (dm_w (pf_d pair)) j.
  by move=> hj; right; rewrite e // -b1; apply: bpow_le; lia.
have e0 : energy (v2R d0) (v2R d1) (v2R d1) = / 2 by rewrite /energy v2R0 v2R1; field.
have e1 : energy (v2R d1) (v2R d1) (v2R d1) = 0 by rewrite /energy v2R1; field.
have hd j : (j < 2)%N -> dev_ok (nth d0 [:: d0; d1] j) d1 /\ energy (v2R (nth d0 [:: d0; d1] j)) (v2R d1) (v2R d1) <= 500.
  case: j => [|[|j]] // _; cbn [nth]; rewrite ?e0 ?e1; split; [exact: dev01|lra|exact: dev11|lra].
have [s' hs'] := @C111_returns _ _ h1 h2 sqm half_root (Period 2) d1 d1 [:: d0; d1] pair us 2 erefl var1 erefl few2 g ht hpp hd.
exists s'; split; first exact: hs'.
have [_ _ h] := C111_filter h1 h2 var1 (erefl : size [:: d0; d1] = size (dm_w (pf_d pair))) few2 g ht hpp hd hs'.
have [_ hw] := h 1%N isT; rewrite [(3 * _ + 7)%N]/= in hw.
set Q := (_ / _) in hw; have eQ : Q = / (1 + exp (- / 2)).
  rewrite /Q [size _]/= /over; cbn [iota map rsum foldr nth]; rewrite (e 0%N isT) (e 1%N isT) /normal e0 e1 Ropp_0 exp_0.
  have hq : 0 < sqrt (2 * PI * v2R d1) by rewrite v2R1 Rmult_1_r; apply: sqrt_lt_R0; have := pi_3; lra.
  by have hx := exp_pos (- / 2); field; lra.
by rewrite -eQ; exact: hw.
Qed.
(** four particles at 0, measurement 64 (64 standard deviations): all weights are lost *)
Example C111_case_lost us : exists d', g_step lib_exp lib_pow sqm half_root (Threshold d1) d1 (dlit 1 6) (nseq 4 d0) us four = Ok ((false, None), DPF d' 0) /\ gone 4 d'.
Proof.
have [h1 h2] := library; have [[gq vq] _ _] := lits.
have [f64 v64] := @lit_val 1 6 erefl ltac:(lia); have b6' : bpow radix2 6 = 64 by exact: b6p.
have gf : goods (dm_w (pf_d four)) by move=> x /= [<-|[<-|[<-|[<-|//]]]].
have hw j : (j < 4)%N -> 0 < v2R (nth d0 (dm_w (pf_d four)) j) < / 2.
  by case: j => [|[|[|[|j]]]] //= _; rewrite vq; lra.
have hd j : (j < 4)%N -> dev_ok (nth d0 (nseq 4 d0) j) (dlit 1 6) /\ 760 <= energy (v2R (nth d0 (nseq 4 d0) j)) (v2R d1) (v2R (dlit 1 6)).
  move=> hj; have -> : nth d0 (nseq 4 d0) j = d0 by case: j hj => [|[|[|[|j]]]].
  rewrite /energy v64 v2R0 v2R1 b6'; split; last lra.
  split; [exact: fin0|exact: f64|right]; rewrite v64 v2R0 b6' Rabs_pos_eq; last lra.
  by rewrite Rminus_0_r Rmult_1_l -b6'; split; apply: bpow_le; lia.
have [|_ [d' [k1 k2 _]]] := @C111_lost_refuted _ _ h1 h2 sqm half_root (Threshold d1) d1 (dlit 1 6) (nseq 4 d0) four var1 _ erefl isT gf hw hd.
  by rewrite v2R1; lra.
by exists d'; split; [exact: k1|exact: k2].
Qed.
Example C111_case_overflow expd powd : g_prob expd powd d0 d1 (dlit 1 513) = Abort.
Proof.
have [f v] := @lit_val 1 513 erefl ltac:(lia).
have [||h _ _] := @C111_overflow_refuted expd powd d0 d1 (dlit 1 513) fin1 _ fin0 f; last exact: h.
  by rewrite v2R1; split; [rewrite -[1]/(bpow radix2 0); apply: bpow_le; lia|lra].
rewrite v v2R0 Rminus_0_r Rmult_1_l Rabs_pos_eq; last exact: bpow_ge_0.
by split; apply: bpow_le; lia.
Qed.

Print Assumptions C111_total.
Print Assumptions C111_density.
Print Assumptions C111_far.
Print Assumptions C111_overflow_refuted.
Print Assumptions C111_lost_refuted.
Print Assumptions C111_filter.
Print Assumptions C111_returns.
Print Assumptions C111_case_density.
Print Assumptions C111_case_filter.
Print Assumptions C111_case_lost.
Print Assumptions C111_case_overflow.
