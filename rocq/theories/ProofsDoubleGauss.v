(** * Rounding in the density of a one-dimensional Gaussian *)
From Coq Require Import ZArith Reals Lra Lia Machin.
From Flocq Require Import Core.Core BinarySingleNaN Relative Plus_error.
From mathcomp Require Import all_ssreflect.
From Verif Require Import Outcome ModelDouble SpecDouble ProofsDouble PropertiesDouble ProofsDoubleHist ModelDoubleKF ProofsDoubleKF
  ModelDoubleUni ProofsDoubleUni ModelDoubleGauss SpecDoubleGauss.
Set Implicit Arguments. Unset Strict Implicit. Unset Printing Implicit Defensive.
Local Open Scope R_scope.

(** ** Bounds of pi: the formula with arctangents of 1/3 and 1/7 of the standard library *)
Definition tN (n : nat) : R :=
  2 * / IZR (3 ^ Z.of_nat (2 * n + 1) * Z.of_nat (2 * n + 1)) + / IZR (7 ^ Z.of_nat (2 * n + 1) * Z.of_nat (2 * n + 1)).
Lemma tE n : PI_2_3_7_tg n = tN n.
Proof. by rewrite /PI_2_3_7_tg /Ratan_seq /tN !pow_inv INR_IZR_INZ !pow_IZR !mult_IZR /Rdiv !Rinv_mult plusE multE; ring. Qed.
Lemma pi_in : 884279719003555 / 281474976710656 * (1 - / 9007199254740992) <= PI <=
              884279719003555 / 281474976710656 * (1 + / 9007199254740992).
Proof.
have [a b] := PI_2_3_7_ineq 9.
change (S (Nat.mul 2 9)) with 19%N in a; change (Nat.mul 2 9) with 18%N in b.
cbn [sum_f_R0] in a, b; rewrite /tg_alt in a, b; repeat rewrite tE in a; repeat rewrite tE in b.
rewrite /tN in a, b.
cbv [Z.of_nat muln muln_rec addn addn_rec Nat.mul Nat.add Pos.of_succ_nat Pos.succ Z.pow Z.pow_pos Pos.iter Z.mul Pos.mul Pos.add pow] in a, b.
split; lra.
Qed.
Lemma b48 : bpow radix2 (-48) = / 281474976710656. Proof. by []. Qed.
Lemma b1 : bpow radix2 (-1) = / 2. Proof. by []. Qed.
Lemma b10 : bpow radix2 10 = 1024. Proof. by []. Qed.
Lemma b8 : bpow radix2 8 = 256. Proof. by []. Qed.
Lemma b4 : bpow radix2 4 = 16. Proof. by []. Qed.
Lemma b6 : bpow radix2 (-6) = / 64. Proof. by []. Qed.
Lemma b52 : / IZR (2 ^ 52) = 2 * uu. Proof. rewrite uu_val /=; lra. Qed.
Lemma tiny64 : bpow radix2 (-64) <= / 1000 * uu. Proof. by rewrite uu_val /=; lra. Qed.
Lemma uu53 : uu = / 9007199254740992. Proof. by rewrite uu_val. Qed.
Lemma add0_inf y : is_finite y = false -> is_finite (dadd d0 y) = false.
Proof. by case: y. Qed.
Lemma sqrtS x : is_finite x = true -> 0 < v2R x -> is_finite (dsqrt x) = true /\ v2R (dsqrt x) = rnd (sqrt (v2R x)).
Proof.
move=> fx hx; have [h1 [h2 _]] := Bsqrt_correct 53 1024 _ _ mode_NE x; rewrite -/(dsqrt x) in h1 h2.
split; last exact: h1.
rewrite h2; case: x fx hx {h1 h2} => // s m e h _.
case: s => // hx; have : v2R (B754_finite true m e h) <= 0 by apply: F2R_le_0.
by move=> h0; case: (Rlt_not_le _ _ hx h0).
Qed.
Lemma pow64 : (1 + / 64) ^ 64 >= 2697 / 1000. Proof. rewrite /=; lra. Qed.
Lemma pow7 : (2697 / 1000) ^ 7 >= 1024. Proof. rewrite /=; lra. Qed.
Local Opaque d0 d1 dprec dlit dadd dsub dmul ddiv dle dlt bpow IZR dsqrt.
Lemma pi_val : is_finite dpi = true /\ v2R dpi = 884279719003555 / 281474976710656.
Proof. by have [f ->] := @lit_val 884279719003555 (-48) erefl ltac:(lia); split; [exact: f|rewrite b48]. Qed.
Lemma tau_val : is_finite (dmul dpi dtwo) = true /\ v2R (dmul dpi dtwo) = 2 * v2R dpi.
Proof.
have [f1 e1] := pi_val; have [f2 e2] := two_val.
have [_ e3] := @lit_val 884279719003555 (-47) erefl ltac:(lia).
have e4 : v2R dpi * v2R dtwo = v2R (dlit 884279719003555 (-47)).
  have [_ e1'] := @lit_val 884279719003555 (-48) erefl ltac:(lia).
  by rewrite e3 e2 -[dpi]/(dlit 884279719003555 (-48)) e1' -[(-47)%Z]/(-48 + 1)%Z bpow_S; ring.
have [|f3 e5] := @mulS dpi dtwo f1 f2.
  rewrite e1 e2 /small Rabs_pos_eq; last lra.
  by apply: Rle_trans (_ : bpow radix2 10 <= _); [rewrite b10; lra|apply: bpow_le; lia].
by split; [exact: f3|rewrite e5 e4 rnd_id -e4 e2; ring].
Qed.
Lemma half_mval : is_finite dmhalf = true /\ v2R dmhalf = - / 2.
Proof. by have [f ->] := @lit_val (-1) (-1) erefl ltac:(lia); split; [exact: f|rewrite b1; lra]. Qed.
Lemma tau_ap : approx 1 (2 * PI) (v2R (dmul dpi dtwo)).
Proof.
have [_ ->] := tau_val; have [_ ->] := pi_val; have := pi_in; rewrite -uu53.
move=> [p1 p2]; have hu := uu_gt0; have hl := uu_lt; rewrite /approx /= Rmult_1_r /qq; split; nra.
Qed.
Lemma pi_3 : 3 <= PI <= 4. Proof. by have := pi_in; lra. Qed.

(** ** exp *)
Lemma exp_pow x n : exp (INR n * x) = exp x ^ n.
Proof.
elim: n => [|n ih]; first by rewrite /= Rmult_0_l exp_0.
by rewrite S_INR Rmult_plus_distr_r Rmult_1_l exp_plus ih /=; ring.
Qed.
Lemma bpow_powz e n : bpow radix2 e ^ n = bpow radix2 (e * Z.of_nat n).
Proof.
elim: n => [|n ih]; first by rewrite Z.mul_0_r.
by rewrite -tech_pow_Rmult ih -bpow_plus; congr bpow; lia.
Qed.
Lemma exp1_lo : 2697 / 1000 <= exp 1.
Proof.
have -> : 1 = INR 64 * / 64 by rewrite /=; lra.
rewrite exp_pow; apply: Rle_trans (Rge_le _ _ pow64) _; apply: pow_incr; split; first lra.
by have := exp_ineq1_le (/ 64); lra.
Qed.
Lemma exp_far x : 756 <= x -> exp (- x) <= bpow radix2 (-1080).
Proof.
move=> h; have h1 : bpow radix2 1080 <= exp x.
  apply: Rle_trans (_ : exp 756 <= _); last by case: h => [h|->]; [left; apply: exp_increasing|right].
  have -> : 756 = INR 108 * (INR 7 * 1) by rewrite INR_IZR_INZ [INR 7]INR_IZR_INZ /=; lra.
  rewrite exp_pow exp_pow -[1080%Z]/(10 * Z.of_nat 108)%Z -bpow_powz; apply: pow_incr; split; first exact: bpow_ge_0.
  rewrite b10; apply: Rle_trans (Rge_le _ _ pow7) _; apply: pow_incr; split; first lra.
  exact: exp1_lo.
rewrite exp_Ropp -[(-1080)%Z]/(Z.opp 1080) bpow_opp; apply: Rinv_le_contravar => //; exact: bpow_gt_0.
Qed.
Lemma exp_near x : 0 <= x <= 505 -> bpow radix2 (-810) <= exp (- x).
Proof.
move=> [h0 h]; rewrite exp_Ropp -[(-810)%Z]/(Z.opp 810) bpow_opp; apply: Rinv_le_contravar; first exact: exp_pos.
apply: Rle_trans (_ : exp 505 <= _); first by case: h => [h|->]; [left; apply: exp_increasing|right].
have -> : 505 = INR 101 * (INR 5 * 1) by rewrite INR_IZR_INZ [INR 5]INR_IZR_INZ /=; lra.
rewrite exp_pow exp_pow; apply: Rle_trans (_ : bpow radix2 8 ^ 101 <= _); last by rewrite bpow_powz; apply: bpow_le; lia.
apply: pow_incr; split; first by apply: pow_le; left; exact: exp_pos.
apply: Rle_trans (_ : 3 ^ 5 <= _); last by rewrite b8 /=; lra.
by apply: pow_incr; split; [left; exact: exp_pos|exact: exp_le_3].
Qed.
(** [exp] near 0 *)
Lemma exp_small y Y : Rabs y <= Y -> Y <= / 1000 -> Rabs (exp y - 1) <= Y * (1 + / 500).
Proof.
move=> /Rabs_le_inv [h1 h2] hY; have h3 := exp_ineq1_le y; have h4 := exp_ineq1_le (- y).
have h5 : exp y * exp (- y) = 1 by rewrite -exp_plus Rplus_opp_r exp_0.
have h6 := exp_pos y; apply: Rabs_le; split; first nra.
have h7 : exp y * (1 - y) <= 1 by nra.
nra.
Qed.

(** ** The root *)
Lemma ap_sqrt r v : approx 2 r v -> approx 1 (sqrt r) (sqrt v).
Proof.
move=> [h0 h1 h2]; have hq := qq_pow 1; rewrite /= Rmult_1_r in hq.
have e x : 0 <= x -> sqrt (x * qq ^ 2) = sqrt x * qq.
  by move=> hx; rewrite sqrt_mult; [|lra|nra]; rewrite sqrt_pow2; lra.
rewrite /approx /= Rmult_1_r; split; first exact: sqrt_pos.
  by rewrite -e //; apply: sqrt_le_1_alt.
by rewrite -e; [apply: sqrt_le_1_alt|apply: Rle_trans h1; nra].
Qed.
Lemma sqrt_bp e : sqrt (bpow radix2 (2 * e)) = bpow radix2 e. Proof. exact: sqrt_bpow. Qed.
Lemma rngP a b r : 0 < r -> rng a b r -> bpow radix2 a <= r <= bpow radix2 b.
Proof. by move=> h; case=> [|]; rewrite ?Rabs_pos_eq; lra. Qed.
Lemma rng_pos a b r : 0 <= r -> bpow radix2 a <= r <= bpow radix2 b -> rng a b r.
Proof. by move=> h h'; right; rewrite Rabs_pos_eq. Qed.
Lemma inv_bp a b r : bpow radix2 a <= r <= bpow radix2 b -> bpow radix2 (- b) <= / r <= bpow radix2 (- a).
Proof.
move=> [h1 h2]; have h0 := bpow_gt_0 radix2 a; rewrite !bpow_opp; split; apply: Rinv_le_contravar; lra.
Qed.
Lemma var_pos S : var_ok S -> 0 < v2R S.
Proof. by case=> _ [h _]; apply: Rlt_le_trans h; exact: bpow_gt_0. Qed.
Lemma area_rng S : var_ok S -> bpow radix2 (-200) <= 2 * PI * v2R S <= bpow radix2 204.
Proof.
move=> [_ [h1 h2]]; have hp := pi_3; have h0 := bpow_gt_0 radix2 (-200); split; first nra.
rewrite -[204%Z]/(4 + 200)%Z bpow_plus b4; nra.
Qed.
Lemma root_rng S : var_ok S -> bpow radix2 (-100) <= sqrt (2 * PI * v2R S) <= bpow radix2 102.
Proof.
move/area_rng=> [h1 h2]; rewrite -(sqrt_bp (-100)) -(sqrt_bp 102); split; exact: sqrt_le_1_alt.
Qed.
Lemma root_ok powd S : pow_ok powd -> var_ok S ->
  is_finite (g_root powd S) = true /\ approx 2 (sqrt (2 * PI * v2R S)) (v2R (g_root powd S)).
Proof.
move=> hp hS; have [f1 _] := tau_val; have [fS _] := hS; have s0 := var_pos hS; have p3 := pi_3.
rewrite /g_root (hp _ f1); have hr := area_rng hS; have a0 : 0 < 2 * PI * v2R S by apply: Rmult_lt_0_compat; lra.
have r1 : rel (1 + 0) (2 * PI * v2R S) (v2R (dmul dpi dtwo) * v2R S).
  by apply: rel_mul; [apply: ap_rel; [lra|exact: tau_ap]|exact: rel_refl].
have hn := rng_rel (qqk (isT : (1 <= 100)%N)) r1 (rng_pos (Rlt_le _ _ a0) hr).
have [|f2 e2] := @mulS (dmul dpi dtwo) S f1 fS; first by apply: rng_small hn; lia.
have r2 : rel (1 + 0 + 1) (2 * PI * v2R S) (v2R (dmul (dmul dpi dtwo) S)).
  by rewrite e2; apply: rel_trans r1 (rnd_relS _); apply: rng_weaken hn; lia.
have a2 := rel_ap (Rlt_le _ _ a0) r2; rewrite addn1 addn0 in a2.
have hv : 0 < v2R (dmul (dmul dpi dtwo) S).
  by case: a2 => _ h _; apply: Rlt_le_trans h; apply: Rmult_lt_0_compat; [|case: (qq_pow 2)].
have [f3 e3] := sqrtS f2 hv; split; first exact: f3.
have a3 := ap_sqrt a2; have q0 : 0 < sqrt (2 * PI * v2R S) by exact: sqrt_lt_R0.
have r3 := ap_rel q0 a3.
have hn3 := rng_rel (qqk (isT : (1 <= 100)%N)) r3 (rng_pos (Rlt_le _ _ q0) (root_rng hS)).
by rewrite e3; apply: rel_ap; [lra|apply: (rel_trans r3 (rnd_relS _)); apply: rng_weaken hn3; lia].
Qed.
Lemma factor_ap powd S : pow_ok powd -> var_ok S ->
  is_finite (ddiv d1 (g_root powd S)) = true /\ approx 3 (/ sqrt (2 * PI * v2R S)) (v2R (ddiv d1 (g_root powd S))).
Proof.
move=> hp hS; have [f a] := root_ok hp hS; have [h1 h2] := root_rng hS.
have q0 : 0 < sqrt (2 * PI * v2R S) by apply: Rlt_le_trans h1; exact: bpow_gt_0.
have [v0 ai] := ap_inv q0 a; have i0 := Rinv_0_lt_compat _ q0; have ri := ap_rel i0 ai.
have hb : bpow radix2 (-102) <= / sqrt (2 * PI * v2R S) <= bpow radix2 100.
  exact: (@inv_bp (-100) 102).
have hn := rng_rel (qqk (isT : (2 <= 100)%N)) ri (rng_pos (Rlt_le _ _ i0) hb).
have e1 : v2R d1 / v2R (g_root powd S) = / v2R (g_root powd S) by rewrite v2R1 /Rdiv Rmult_1_l.
have [|||f3 e3] := @divS d1 (g_root powd S); first (by case: good1 => h _; exact: h); first lra.
  by rewrite e1; apply: rng_small hn; lia.
split=> //; rewrite e3 e1; apply: rel_ap; [lra|apply: (rel_trans ri (rnd_relS _)); apply: rng_weaken hn; lia].
Qed.

(** ** The exponent *)
Lemma square_ok mu S x (E := energy (v2R mu) (v2R S) (v2R x)) : var_ok S -> dev_ok mu x ->
  exists t, [/\ g_square mu S x = Ok t, good t, is_finite (dmul dmhalf t) = true &
    approx 6 E (- v2R (dmul dmhalf t))].
Proof.
move=> hS [fm fx hd]; have s0 := var_pos hS; have [fS [s1 s2]] := hS.
have hn1 : rng (-200) 200 (v2R x - v2R mu) by case: hd => [->|h]; [left; ring|right].
have [|f1 e1] := @subS x mu fx fm; first by apply: rng_small hn1; lia.
have r1 : rel 1 (v2R x - v2R mu) (v2R (dsub x mu)) by rewrite e1; apply: rnd_relS; apply: rng_weaken hn1; lia.
have i0 := Rinv_0_lt_compat _ s0.
have hn2 : rng (-200) 200 (/ v2R S).
  by apply: rng_pos; [lra|exact: (@inv_bp (-200) 200)].
have ei : v2R d1 / v2R S = / v2R S by rewrite v2R1 /Rdiv Rmult_1_l.
have [|||f2 e2] := @divS d1 S; first (by case: good1 => h _; exact: h); first lra.
  by rewrite ei; apply: rng_small hn2; lia.
have r2 : rel 1 (/ v2R S) (v2R (g_inv S)) by rewrite /g_inv e2 ei; apply: rnd_relS; apply: rng_weaken hn2; lia.
have [|f3 r3] := dot_rel f2 f1 r2 r1 hn2 hn1 ltac:(lia) ltac:(lia); first exact: qqk.
have hn3 := rng_mul hn2 hn1.
have [|f4 r4] := dot_rel f1 f3 r1 r3 hn1 hn3 ltac:(lia) ltac:(lia); first exact: qqk.
set t := dot1 _ _ in f4 r4.
set y := (_ * _) in r4.
have hn4 : rng (-600) 600 y by exact: rng_mul hn1 hn3.
have ey : y = 2 * E by rewrite /y /E /energy; field; lra.
have E0 : 0 <= E by rewrite /E /energy; apply: Rmult_le_pos; [exact: pow2_ge_0|left; apply: Rinv_0_lt_compat; lra].
have y0 : 0 <= y by lra.
have gt : good t by split; [exact: f4|exact: ap_ge0 (rel_ap y0 r4)].
exists t; have [fh eh] := half_mval.
have hn5 := rng_rel (qqk (isT : (5 <= 100)%N)) r4 hn4.
have hn6 : rng (-602) 602 (v2R dmhalf * v2R t).
  rewrite eh.
  apply: rng_weaken (_ : rng (-1 + (-600 - 1)) (-1 + (600 + 1)) _); [lia|lia|apply: rng_mul hn5].
  by right; rewrite Rabs_Ropp Rabs_pos_eq ?b1; lra.
have [|f6 e6] := @mulS dmhalf t fh f4; first by apply: rng_small hn6; lia.
have hl : dle d0 t by apply/dleP; [case: good0|exact: f4|rewrite v2R0; case: gt].
split; [by rewrite /g_square -/t /d_prob f4 hl|exact: gt|exact: f6|].
have r5 : rel 5 (- E) (v2R dmhalf * v2R t).
  by case: r4 => q -> hq; exists q => //; rewrite eh ey; field.
have hn7 : rng (-1022) 1000 (v2R dmhalf * v2R t) by apply: rng_weaken hn6; lia.
have [q eq hq] := rel_trans r5 (rnd_relS hn7).
by rewrite e6 eq -Ropp_mult_distr_l Ropp_involutive; apply: (rel_ap E0); exists q.
Qed.

(** ** The value of [exp] *)
Lemma tiny1074 e : (-1010 <= e)%Z -> bpow radix2 (-1074) <= bpow radix2 e * (/ 1000 * uu).
Proof.
move=> he; apply: Rle_trans (_ : bpow radix2 e * bpow radix2 (-64) <= _); first by rewrite -bpow_plus; apply: bpow_le; lia.
by apply: Rmult_le_compat_l; [exact: bpow_ge_0|exact: tiny64].
Qed.
Lemma mul_close a b A B : 0 <= A -> 0 <= B -> Rabs (a - 1) <= A -> Rabs (b - 1) <= B -> Rabs (a * b - 1) <= A + B + A * B.
Proof.
move=> A0 B0 ha hb; have -> : a * b - 1 = (a - 1) + (b - 1) + (a - 1) * (b - 1) by ring.
apply: Rle_trans (Rabs_triang _ _) _; apply: Rplus_le_compat.
  by apply: Rle_trans (Rabs_triang _ _) _; lra.
by rewrite Rabs_mult; apply: Rmult_le_compat => //; exact: Rabs_pos.
Qed.
Lemma ap6 r v : approx 6 r v -> Rabs (v - r) <= r * (601 / 100 * uu).
Proof.
move=> h; have hu := uu_lt; have h0 := uu_gt0; have r0 : 0 <= r by case: h.
have e6 : INR 6 = 6 by rewrite /=; lra.
have hb : INR 6 * uu < 1 by rewrite e6; have := uu_tiny; lra.
apply: Rle_trans (ap_err hb h) _; rewrite e6 in hb *; apply: Rmult_le_compat_l => //.
apply: (Rmult_le_reg_r (1 - 6 * uu)); first lra.
rewrite /Rdiv Rmult_assoc Rinv_l; last lra.
by have := uu_tiny; nra.
Qed.
(** what a number close to [-E] gives *)
Lemma exp_rel expd h (E : R) : exp_ok expd -> is_finite h = true -> 0 <= E <= 500 -> approx 6 E (- v2R h) ->
  good (expd h) /\ exists2 c, v2R (expd h) = exp (- E) * c & Rabs (c - 1) <= (603 / 100 * E + 201 / 100) * uu.
Proof.
move=> he fh [E0 E5] ha; have n0 := ap_ge0 ha; have [|gd hd] := he h fh; first lra.
split; first exact: gd.
have hy := ap6 ha; set y := E - - v2R h; have u0 := uu_gt0; have ut := uu_tiny.
have hy' : Rabs y <= 601 / 100 * (E * uu).
  by rewrite /y -Rabs_Ropp; have -> : - (E - - v2R h) = - v2R h - E by [ring]; lra.
have w0 : 0 <= E * uu by apply: Rmult_le_pos; lra.
have w1 : E * uu <= 500 * uu by apply: Rmult_le_compat_r; lra.
have Y1 : 601 / 100 * (E * uu) <= / 1000 by lra.
have h5 := exp_small hy' Y1.
have e1 : exp (v2R h) = exp (- E) * exp y by rewrite -exp_plus /y; congr exp; ring.
have hx : bpow radix2 (-810) <= exp (v2R h).
  rewrite -[v2R h]Ropp_involutive; apply: exp_near; split=> //.
  by move/Rabs_le_inv: hy; nra.
have x0 : 0 < exp (v2R h) by exact: exp_pos.
have hd' : Rabs (v2R (expd h) / exp (v2R h) - 1) <= 2001 / 1000 * uu.
  have -> : v2R (expd h) / exp (v2R h) - 1 = (v2R (expd h) - exp (v2R h)) / exp (v2R h) by field; lra.
  rewrite /Rdiv Rabs_mult (Rabs_pos_eq (/ _)); last by left; exact: Rinv_0_lt_compat.
  apply: (Rmult_le_reg_r (exp (v2R h))) => //; rewrite Rmult_assoc Rinv_l ?Rmult_1_r; last lra.
  apply: Rle_trans hd _; rewrite b52; have h3 := @tiny1074 (-810) ltac:(lia).
  have h4 : bpow radix2 (-810) * (/ 1000 * uu) <= exp (v2R h) * (/ 1000 * uu) by apply: Rmult_le_compat_r; lra.
  lra.
exists (exp y * (v2R (expd h) / exp (v2R h))); first by rewrite -Rmult_assoc -e1; field; lra.
have Y0 : 0 <= 601 / 100 * (E * uu) * (1 + / 500) by lra.
have B0 : 0 <= 2001 / 1000 * uu by lra.
apply: Rle_trans (mul_close Y0 B0 h5 hd') _.
have : E * uu * uu <= E * uu * / 1000000 by apply: Rmult_le_compat_l; lra.
lra.
Qed.

(** ** The density *)
(** a factor near [s], then one rounding *)
Lemma scaled (E s f e c : R) : 0 <= E <= 500 -> bpow radix2 (-102) <= s <= bpow radix2 100 ->
  e = exp (- E) * c -> Rabs (c - 1) <= (603 / 100 * E + 201 / 100) * uu -> approx 3 s f ->
  [/\ 0 <= e * f, small (e * f) & Rabs (rnd (e * f) - exp (- E) * s) <= exp (- E) * s * (7 * (E + 1) * uu)].
Proof.
move=> [E0 E5] hs ee hc ha; have s0 : 0 < s by case: hs => h _; apply: Rlt_le_trans h; exact: bpow_gt_0.
have u0 := uu_gt0; have ut := uu_tiny.
have w0 : 0 <= E * uu by apply: Rmult_le_pos; lra.
have w1 : E * uu <= 500 * uu by apply: Rmult_le_compat_r; lra.
have x0 := exp_pos (- E); have hx := exp_near (conj E0 (Rle_trans _ _ 505 E5 ltac:(lra))).
have x1 : exp (- E) <= 1 by rewrite -exp_0; case: (Req_dec E 0) => [->|h]; [rewrite Ropp_0; lra|left; apply: exp_increasing; lra].
have [q eq hq] := ap_rel s0 ha.
have e3 : INR 3 = 3 by rewrite /=; lra.
have hb : INR 3 * uu < 1 by rewrite e3; lra.
have q3 : Rabs (q - 1) <= 301 / 100 * uu.
  apply: Rle_trans (ap_err hb hq) _; rewrite e3 Rmult_1_l.
  apply: (Rmult_le_reg_r (1 - 3 * uu)); first lra.
  rewrite /Rdiv Rmult_assoc Rinv_l; last lra.
  by nra.
have A0 : 0 <= (603 / 100 * E + 201 / 100) * uu by apply: Rmult_le_pos; lra.
have B0 : 0 <= 301 / 100 * uu by lra.
have h1 := mul_close A0 B0 hc q3; set H := _ + _ in h1.
have w2 : E * uu * uu <= E * uu * / 1000000 by apply: Rmult_le_compat_l; lra.
have w3 : uu * uu <= uu * / 1000000 by apply: Rmult_le_compat_l; lra.
have hH : H <= 604 / 100 * (E * uu) + 503 / 100 * uu by rewrite /H; lra.
have hH1 : H <= / 1000 by lra.
have cq : / 2 <= c * q <= 2 by move/Rabs_le_inv: h1; lra.
have N0 : 0 < exp (- E) * s by exact: Rmult_lt_0_compat.
have ef : e * f = exp (- E) * s * (c * q) by rewrite ee eq; ring.
have ef0 : 0 < e * f by rewrite ef; apply: Rmult_lt_0_compat; lra.
have hN : bpow radix2 (-912) <= exp (- E) * s <= bpow radix2 100.
  case: hs => hs1 hs2; rewrite -[(-912)%Z]/(-810 + -102)%Z bpow_plus; split.
    by apply: Rmult_le_compat => //; exact: bpow_ge_0.
  by rewrite -[bpow _ _]Rmult_1_l; apply: Rmult_le_compat => //; lra.
have hr : rng (-913) 101 (e * f).
  apply: rng_pos; first lra.
  have -> : bpow radix2 101 = 2 * bpow radix2 100 by rewrite -bpow_S.
  have : bpow radix2 (-912) = 2 * bpow radix2 (-913) by rewrite -bpow_S.
  rewrite ef => e912; split; nra.
split; [lra|by apply: rng_small hr; lia|].
have hr' : rng (-1022) 1000 (e * f) by apply: rng_weaken hr; lia.
have h2 := rnd_rel hr'.
rewrite (Rabs_pos_eq (e * f)) in h2; last lra.
have -> : rnd (e * f) - exp (- E) * s = (rnd (e * f) - e * f) + exp (- E) * s * (c * q - 1) by rewrite Rmult_minus_distr_l -ef; ring.
apply: Rle_trans (Rabs_triang _ _) _; rewrite Rabs_mult (Rabs_pos_eq (exp (- E) * s)); last lra.
apply: Rle_trans (Rplus_le_compat _ _ _ _ h2 (Rmult_le_compat_l _ _ _ (Rlt_le _ _ N0) h1)) _.
have -> : uu * (e * f) + exp (- E) * s * H = exp (- E) * s * (uu * (c * q) + H) by rewrite ef; ring.
apply: Rmult_le_compat_l; first lra.
have : uu * (c * q) <= uu * (1 + / 1000) by apply: Rmult_le_compat_l; [lra|move/Rabs_le_inv: h1; lra].
lra.
Qed.

(** far from the mean *)
Lemma exp_under expd h (E : R) : exp_ok expd -> is_finite h = true -> 760 <= E -> approx 6 E (- v2R h) ->
  good (expd h) /\ v2R (expd h) <= 11 / 10 * bpow radix2 (-1074).
Proof.
move=> he fh hE ha; have n0 := ap_ge0 ha; have [|gd hd] := he h fh; first lra.
split; first exact: gd.
have hy := ap6 ha; have u0 := uu_gt0; have ut := uu_tiny.
have hv : 756 <= - v2R h by move/Rabs_le_inv: hy => [h1 _]; have : E * (601 / 100 * uu) <= E * / 1000 by [apply: Rmult_le_compat_l; lra]; lra.
have hx := exp_far hv; rewrite Ropp_involutive in hx.
have e80 : bpow radix2 (-1080) = bpow radix2 (-1074) * / 64 by rewrite -b6 -bpow_plus.
move/Rabs_le_inv: hd; rewrite b52; have x0 := exp_pos (v2R h); have b0 := bpow_gt_0 radix2 (-1074).
have : exp (v2R h) * (2 * uu) <= exp (v2R h) * / 1000 by apply: Rmult_le_compat_l; lra.
lra.
Qed.
Lemma exp_le1 expd h : exp_ok expd -> is_finite h = true -> v2R h <= 0 -> good (expd h) /\ v2R (expd h) <= 2.
Proof.
move=> he fh hn; have [gd hd] := he h fh hn; split; first exact: gd.
have x1 : exp (v2R h) <= 1 by rewrite -exp_0; case: (Req_dec (v2R h) 0) => [->|h']; [lra|left; apply: exp_increasing; lra].
have b1' : bpow radix2 (-1074) <= / 2 by rewrite -b1; apply: bpow_le; lia.
move/Rabs_le_inv: hd; rewrite b52; have x0 := exp_pos (v2R h); have := uu_tiny; have := uu_gt0; nra.
Qed.
Lemma s_rng S : var_ok S -> bpow radix2 (-102) <= / sqrt (2 * PI * v2R S) <= bpow radix2 100.
Proof. by move/root_rng => h; exact: (@inv_bp (-100) 102). Qed.
Lemma prob_ret x : is_finite x = true -> 0 <= v2R x -> d_prob x = Ok x.
Proof.
move=> fx hx; have hl : dle d0 x by apply/dleP; [case: good0|exact: fx|rewrite v2R0].
by rewrite /d_prob fx hl.
Qed.
(** both densities are a rounded product *)
Lemma ends expd powd S h : exp_ok expd -> pow_ok powd -> var_ok S -> is_finite h = true -> v2R h <= 0 ->
  (exists2 f, approx 3 (/ sqrt (2 * PI * v2R S)) f &
     exists2 p, d_prob (dmul (expd h) (ddiv d1 (g_root powd S))) = Ok p & good p /\ v2R p = rnd (v2R (expd h) * f)) /\
  (exists2 f, approx 3 (/ sqrt (2 * PI * v2R S)) f &
     exists2 p, d_prob (ddiv (expd h) (g_root powd S)) = Ok p & good p /\ v2R p = rnd (v2R (expd h) * f)).
Proof.
move=> he hp hS fh h0; have [[fe e0] e2] := exp_le1 he fh h0; have hs := s_rng hS.
have b0 := bpow_gt_0 radix2 (-102); have s0 : 0 <= / sqrt (2 * PI * v2R S) by lra.
have key f : approx 3 (/ sqrt (2 * PI * v2R S)) f -> 0 <= v2R (expd h) * f /\ small (v2R (expd h) * f).
  move=> ha; have f0 := ap_ge0 ha; have hq := qqk (isT : (3 <= 100)%N); case: ha => _ _ hf.
  have f2 : f <= 2 * bpow radix2 100 by nra.
  have p0 : 0 <= v2R (expd h) * f by exact: Rmult_le_pos.
  split=> //; rewrite /small Rabs_pos_eq //; apply: Rle_trans (_ : bpow radix2 200 <= _); last by apply: bpow_le; lia.
  have : bpow radix2 104 = 16 * bpow radix2 100 by rewrite -[104%Z]/(4 + 100)%Z bpow_plus b4.
  have : bpow radix2 104 <= bpow radix2 200 by apply: bpow_le; lia.
  have := bpow_gt_0 radix2 100; nra.
split.
  have [f1 a1] := factor_ap hp hS; have [p0 ps] := key _ a1.
  have [f2 e3] := mulS fe f1 ps; exists (v2R (ddiv d1 (g_root powd S))); first exact: a1.
  have v0 : 0 <= v2R (dmul (expd h) (ddiv d1 (g_root powd S))) by rewrite e3; exact: rnd_ge0.
  by eexists; [apply: prob_ret; [exact: f2|exact: v0]|split; [split; [exact: f2|exact: v0]|exact: e3]].
have [f1 a1] := root_ok hp hS; have [h1 h2] := root_rng hS.
have q0 : 0 < sqrt (2 * PI * v2R S) by apply: Rlt_le_trans h1; exact: bpow_gt_0.
have [v0 a2] := ap_inv q0 a1; have a3 := ap_weaken (isT : (2 <= 3)%N) a2; have [p0 ps] := key _ a3.
have [||f2 e3] := @divS (expd h) (g_root powd S) fe; first lra.
  exact: ps.
exists (/ v2R (g_root powd S)); first exact: a3.
have w0 : 0 <= v2R (ddiv (expd h) (g_root powd S)) by rewrite e3; exact: rnd_ge0.
by eexists; [apply: prob_ret; [exact: f2|exact: w0]|split; [split; [exact: f2|exact: w0]|exact: e3]].
Qed.
(** overflow of the square *)
Lemma mul_over x y : is_finite x = true -> is_finite y = true -> bpow radix2 1024 <= Rabs (v2R x * v2R y) -> is_finite (dmul x y) = false.
Proof.
move=> fx fy h; have := Bmult_correct 53 1024 _ _ mode_NE x y; rewrite -/(dmul x y) -/(v2R x) -/(v2R y).
rewrite -[round _ _ _ _]/(rnd (v2R x * v2R y)) Rlt_bool_false; first by rewrite /binary_overflow /= => e; exact: (inf_SF (e _ _)).
by apply: abs_round_ge_generic => //; apply: generic_format_bpow; rewrite /FLT_exp; lia.
Qed.
Lemma rnd_ge_bp e r : (-1000 <= e <= 1000)%Z -> bpow radix2 e <= Rabs r -> bpow radix2 e <= Rabs (rnd r).
Proof. by move=> he h; apply: abs_round_ge_generic => //; apply: generic_format_bpow; rewrite /FLT_exp; lia. Qed.
Lemma square_over mu S x : is_finite S = true -> bpow radix2 (-200) <= v2R S <= 1 -> is_finite mu = true -> is_finite x = true ->
  bpow radix2 513 <= Rabs (v2R x - v2R mu) <= bpow radix2 700 -> g_square mu S x = Abort.
Proof.
move=> fS [s1 s2] fm fx [h1 h2]; have s0 : 0 < v2R S by apply: Rlt_le_trans s1; exact: bpow_gt_0.
have sd : small (v2R x - v2R mu) by apply: Rle_trans h2 _; apply: bpow_le; lia.
have [f1 e1] := subS fx fm sd.
have d1' : bpow radix2 513 <= Rabs (v2R (dsub x mu)) by rewrite e1; apply: rnd_ge_bp.
have d2' : Rabs (v2R (dsub x mu)) <= bpow radix2 700.
  by rewrite e1; apply: abs_round_le_generic => //; apply: generic_format_bpow; rewrite /FLT_exp; lia.
have ei : v2R d1 / v2R S = / v2R S by rewrite v2R1 /Rdiv Rmult_1_l.
have i1 : 1 <= / v2R S by rewrite -Rinv_1; apply: Rinv_le_contravar.
have i2 : / v2R S <= bpow radix2 200.
  by rewrite -[200%Z]/(Z.opp (-200)) bpow_opp; apply: Rinv_le_contravar => //; exact: bpow_gt_0.
have si : small (/ v2R S) by rewrite /small Rabs_pos_eq; [apply: Rle_trans i2 _; apply: bpow_le; lia|lra].
have [|||f2 e2] := @divS d1 S; first (by case: good1 => h _; exact: h); first lra.
  by rewrite ei.
rewrite ei in e2.
have v1 : 1 <= v2R (ddiv d1 S) by rewrite e2 -v2R1 -(rnd_id d1); apply: rnd_le; rewrite v2R1.
have v2 : v2R (ddiv d1 S) <= bpow radix2 200.
  by rewrite e2; apply: round_le_generic => //; apply: generic_format_bpow; rewrite /FLT_exp; lia.
have m1 : bpow radix2 513 <= Rabs (v2R (g_inv S) * v2R (dsub x mu)).
  rewrite Rabs_mult (Rabs_pos_eq (v2R (g_inv S))); last by rewrite /g_inv; lra.
  rewrite -[X in X <= _]Rmult_1_l; apply: Rmult_le_compat => //; [lra|exact: bpow_ge_0].
have m2 : small (v2R (g_inv S) * v2R (dsub x mu)).
  rewrite /small Rabs_mult (Rabs_pos_eq (v2R (g_inv S))); last by rewrite /g_inv; lra.
  apply: Rle_trans (_ : bpow radix2 200 * bpow radix2 700 <= _); last by rewrite -bpow_plus; apply: bpow_le; lia.
  by apply: Rmult_le_compat => //; [rewrite /g_inv; lra|exact: Rabs_pos].
have [f3 e3] := dotS f2 f1 m2.
have c1 : bpow radix2 513 <= Rabs (v2R (dot1 (g_inv S) (dsub x mu))) by rewrite e3; apply: rnd_ge_bp.
have f4 : is_finite (dmul (dsub x mu) (dot1 (g_inv S) (dsub x mu))) = false.
  apply: mul_over; [exact: f1|exact: f3|]; rewrite Rabs_mult.
  apply: Rle_trans (_ : bpow radix2 513 * bpow radix2 513 <= _); first by rewrite -bpow_plus; apply: bpow_le; lia.
  by apply: Rmult_le_compat => //; exact: bpow_ge_0.
by rewrite /g_square /d_prob {1}/dot1 (add0_inf f4).
Qed.
