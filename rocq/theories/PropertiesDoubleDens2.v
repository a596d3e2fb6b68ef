(** * C115: the value of the density of a two-dimensional Gaussian in doubles *)
From Coq Require Import ZArith Reals Lra Lia.
From Flocq Require Import Core.Core BinarySingleNaN.
From mathcomp Require Import all_ssreflect.
From Verif Require Import Outcome ModelDouble SpecDouble ProofsDouble PropertiesDouble ProofsDoubleHist ModelDoubleKF ProofsDoubleKF
  ModelDoubleUni ProofsDoubleUni ModelDoubleGauss SpecDoubleGauss ProofsDoubleGauss PropertiesDoubleGauss ModelDoubleNoise SpecDoubleNoise ProofsDoubleNoise
  PropertiesDoubleNoise ModelDoubleChol SpecDoubleChol ProofsDoubleChol ModelDoubleGauss2 SpecDoubleGauss2 ProofsDoubleGauss2 PropertiesDoubleGauss2
  SpecDoubleDens2 ProofsDoubleDens2.
Set Implicit Arguments. Unset Strict Implicit. Unset Printing Implicit Defensive.
Local Open Scope R_scope.
Lemma ee_uu : ee <= / 1000 * uu.
Proof. by have := @tiny1074 0 ltac:(lia); rewrite bp0 Rmult_1_l /ee; have := bpow_gt_0 radix2 (-1074); lra. Qed.
Local Opaque d0 d1 dprec dlit dadd dsub dmul ddiv dle dlt bpow IZR dsqrt.

(** the hypotheses on the C library can be met *)
Lemma library2 : exp_ok (fun x => dof (exp (v2R x))) /\ pow2_ok (fun x _ => dmul x x).
Proof.
split; first by case: library.
move=> x fx [x1 x2]; have xx : 1 <= v2R x * v2R x by nra.
have hr : rng 0 200 (v2R x * v2R x).
  apply: rng_pos; first lra.
  rewrite bp0 -[200%Z]/(100 + 100)%Z bpow_plus; split=> //; apply: Rmult_le_compat; lra.
have [|f e] := mulS fx fx; first by apply: ProofsDoubleKF.rng_small hr; lia.
split; first exact: f.
have -> : v2R x ^ 2 = v2R x * v2R x by ring.
have hr' : rng (-1022) 1000 (v2R x * v2R x) by apply: rng_weaken hr; lia.
have h := rnd_rel hr'.
rewrite (Rabs_pos_eq (v2R x * v2R x)) in h; last lra.
by rewrite e b52; have := uu_gt0; nra.
Qed.

Section C115.
Variables (expd : double -> double) (powd : double -> double -> double).
Hypotheses (he : exp_ok expd) (hp : pow2_ok powd).
(** No assertion fails, and both functions return the normal density up to [60 k^2 (E + 1)]
    roundings, where [E] is half the square of the distance in standard deviations and [k] the
    excess of the product of the variances over the determinant. *)
Theorem C115_density mu1 mu2 a b c x1 x2 (k := excess (v2R a) (v2R b) (v2R c)) (e1 := v2R (dsub x1 mu1)) (e2 := v2R (dsub x2 mu2))
  (E := maha (v2R a) (v2R b) (v2R c) e1 e2 / 2) (N := normal2 (v2R a) (v2R b) (v2R c) e1 e2) (r := 60 * (k * k) * (E + 1) * / IZR (2 ^ 53)) :
  mid a -> mid0 b -> mid c -> 0 < det2 (v2R a) (v2R b) (v2R c) -> mid0 (dsub x1 mu1) -> mid0 (dsub x2 mu2) ->
  E <= 500 -> k * k * (E + 1) <= IZR (2 ^ 36) ->
  (exists2 p, g2_prob expd powd mu1 mu2 a b c x1 x2 = Ok p & good p /\ Rabs (v2R p - N) <= N * r) /\
  (exists2 p, cg2_prob expd powd mu1 mu2 a b c x1 x2 = Ok p & good p /\ Rabs (v2R p - N) <= N * r).
Proof.
move=> ha hb hc hD h1 h2 hE hk; have u0 := uu_gt0; have ut := uu_tiny; have hw := exc_well ha hc hD; rewrite -/k in hw.
have p3 := pi_3; have eu := ee_uu; have e0 := ee_gt0.
set D := det2 _ _ _ in hD.
have k1 : 1 <= k.
  case: hw => _; rewrite -/D => ek; apply: (Rmult_le_reg_l D) => //; rewrite -ek /D /det2.
  by have : 0 <= v2R b * v2R b by [exact: Rle_0_sqr]; lra.
have E0 : 0 <= E.
  rewrite /E /maha -/D; apply: Rmult_le_pos; last lra.
  apply: Rmult_le_pos; last by left; exact: Rinv_0_lt_compat.
  have [_ a0] := mid_rng ha; apply: (Rmult_le_reg_l (v2R a)) => //; rewrite Rmult_0_r.
  have -> : v2R a * (v2R c * (e1 * e1) - 2 * v2R b * (e1 * e2) + v2R a * (e2 * e2)) = D * (e1 * e1) + Rsqr (v2R b * e1 - v2R a * e2).
    by rewrite /D /det2 /Rsqr; ring.
  by apply: Rplus_le_le_0_compat; [apply: Rmult_le_pos; [lra|exact: Rle_0_sqr]|exact: Rle_0_sqr].
have kk1 : k <= k * k by rewrite -[X in X <= _]Rmult_1_l; apply: Rmult_le_compat_r; lra.
set P := k * k * E * uu; set Z := k * k * uu.
have PZ : P + Z <= / 131072.
  rewrite -uu36; have -> : P + Z = k * k * (E + 1) * uu by rewrite /P /Z; ring.
  by apply: Rmult_le_compat_r; lra.
have P0 : 0 <= P by rewrite /P; apply: Rmult_le_pos; [apply: Rmult_le_pos; nra|lra].
have Z0 : 0 <= Z by rewrite /Z; apply: Rmult_le_pos; [nra|lra].
have kZ : k * uu <= Z by rewrite /Z; apply: Rmult_le_compat_r; lra.
have uk : uu <= k * uu by rewrite -[X in X <= _]Rmult_1_l; apply: Rmult_le_compat_r; lra.
have EP : E * uu <= P.
  by rewrite /P; apply: Rmult_le_compat_r; [lra|rewrite -[X in X <= _]Rmult_1_l; apply: Rmult_le_compat_r; lra].
have k23 : k <= IZR (2 ^ 23).
  have kE : k * k <= IZR (2 ^ 36) by apply: Rle_trans hk; rewrite -[X in X <= _]Rmult_1_r; apply: Rmult_le_compat_l; [nra|lra].
  rewrite z36 in kE; rewrite z23.
  have : k <= 262144 by apply: Rsqr_incr_0_var; [rewrite /Rsqr|lra].
  lra.
have [t [ht ft et]] := @C114_square mu1 mu2 a b c x1 x2 ha hb hc hD k23 h1 h2.
rewrite -uu_val -/k -/e1 -/e2 in et.
have eq2 : maha (v2R a) (v2R b) (v2R c) e1 e2 = 2 * E by rewrite /E; field.
rewrite eq2 in et.
have et' : Rabs (v2R t - 2 * E) <= 108 * P by have -> : 108 * P = 54 * (k * k) * (2 * E) * uu by [rewrite /P; ring]; exact: et.
move/Rabs_le_inv: et' => et'.
have PE : P <= / 131072 * E.
  have -> : P = Z * E by rewrite /P /Z; ring.
  by apply: Rmult_le_compat_r; lra.
have t0 : 0 <= v2R t by lra.
have [fh eh] := half_mval.
have eht : v2R dmhalf * v2R t = - (v2R t / 2) by rewrite eh; field.
have sm : small (v2R dmhalf * v2R t).
  rewrite eht /small Rabs_Ropp Rabs_pos_eq; last lra.
  by apply: Rle_trans (_ : bpow radix2 10 <= _); [rewrite b10; lra|apply: bpow_le; lia].
have [fm em] := mulS fh ft sm; set h := dmul dmhalf t in fm em.
have hn : v2R h <= 0 by rewrite em -(round_0 radix2 (FLT_exp (-1074) 53) ZnearestE); apply: rnd_le; lra.
have hy : Rabs (v2R h + E) <= 551 / 10 * P + / 1000 * uu.
  have := rnd_err (v2R dmhalf * v2R t); rewrite -em eht Rabs_Ropp (Rabs_pos_eq (v2R t / 2)); last lra.
  move/Rabs_le_inv=> hr.
  have ut2 : uu * (v2R t / 2) <= 101 / 100 * (E * uu) by have : uu * (v2R t / 2) <= uu * (101 / 100 * E) by [apply: Rmult_le_compat_l; lra]; lra.
  by apply: Rabs_le; lra.
have [|ge ne] := exp_nr he fm hn (conj E0 hE) hy; first lra.
have [fr hT nT] : [/\ is_finite (d2_root powd a b c) = true, bpow radix2 (-150) <= 2 * PI * sqrt D <= bpow radix2 103 &
    nr (104 / 10 * (k * uu)) (2 * PI * sqrt D) (v2R (d2_root powd a b c))] by apply: root2_ok => //; lra.
set T := 2 * PI * sqrt D in hT nT; have T0 : 0 < T by have := bpow_gt_0 radix2 (-150); lra.
have ni : nr (105 / 10 * Z) (/ T) (/ v2R (d2_root powd a b c)).
  by apply: nr_weaken (nr_inv T0 _ nT); lra.
have hi : bpow radix2 (-103) <= / T <= bpow radix2 150 by exact: (@inv_bp (-150) 103).
have i0 := Rinv_0_lt_compat _ T0.
have [|rt0 _] := nr_rng T0 _ nT; first lra.
have [|iv0 hiv] := nr_rng i0 _ ni; first lra.
have e103 : bpow radix2 (-103) = 2 * bpow radix2 (-104) by rewrite -bpow_S.
have e150 : bpow radix2 151 = 2 * bpow radix2 150 by rewrite -bpow_S.
have ei : v2R d1 / v2R (d2_root powd a b c) = / v2R (d2_root powd a b c) by rewrite v2R1 /Rdiv Rmult_1_l.
have hiv' : bpow radix2 (-104) <= / v2R (d2_root powd a b c) <= bpow radix2 151 by lra.
have [||fi ei'] := @divS d1 (d2_root powd a b c) fin1'; first lra.
  by rewrite ei; apply: ProofsDoubleKF.rng_small (rng_pos (Rlt_le _ _ iv0) hiv'); lia.
rewrite ei in ei'.
have ni' : nr (116 / 10 * Z) (/ T) (v2R (ddiv d1 (d2_root powd a b c))).
  rewrite ei'; have hZu : Z * uu <= / 1000 * uu by apply: Rmult_le_compat_r; lra.
  apply: nr_weaken (nr_trans ni (nr_rnd _)); first lra.
  by case: hiv' => z1 z2; split; [apply: Rle_trans z1|apply: Rle_trans z2 _]; apply: bpow_le; lia.
have x0 := exp_pos (- E); have hx := exp_near (conj E0 (Rle_trans _ _ 505 hE ltac:(lra))).
have x1' : exp (- E) <= 1 by rewrite -exp_0; case: (Req_dec E 0) => [->|h']; [rewrite Ropp_0; lra|left; apply: exp_increasing; lra].
have eN : N = exp (- E) * / T by [].
have N0 : 0 < N by rewrite eN; exact: Rmult_lt_0_compat.
have hN : bpow radix2 (-913) <= N <= bpow radix2 150.
  rewrite eN -[(-913)%Z]/(-810 + -103)%Z bpow_plus; split.
    by apply: Rmult_le_compat; try exact: bpow_ge_0; [exact: hx|lra].
  by rewrite -[bpow _ _]Rmult_1_l; apply: Rmult_le_compat; lra.
have e913 : bpow radix2 (-913) = 2 * bpow radix2 (-914) by rewrite -bpow_S.
have fine f : nr (116 / 10 * Z) (/ T) f -> [/\ small (v2R (expd h) * f), 0 <= rnd (v2R (expd h) * f) & Rabs (rnd (v2R (expd h) * f) - N) <= N * r].
  move=> nf; have nef := nr_mul ne nf; rewrite -eN in nef.
  have ne' : nr (554 / 10 * P + 138 / 10 * Z) N (v2R (expd h) * f).
    apply: nr_weaken nef; set d := 1003 / 1000 * _ + _.
    have dd : 0 <= d <= / 1000 by rewrite /d; lra.
    have : d * (116 / 10 * Z) <= / 1000 * (116 / 10 * Z) by apply: Rmult_le_compat_r; lra.
    by rewrite /d; lra.
  have [|w0 hw'] := nr_rng N0 _ ne'; first lra.
  have hw2 : bpow radix2 (-914) <= v2R (expd h) * f <= bpow radix2 151 by lra.
  split; first by apply: ProofsDoubleKF.rng_small (rng_pos (Rlt_le _ _ w0) hw2); lia.
    by apply: rnd_ge0; lra.
  apply: nr_err; first lra.
  have -> : r = 60 * (P + Z) by rewrite /r -uu_val /P /Z; ring.
  apply: nr_weaken (nr_trans ne' (nr_rnd _)).
    have : (554 / 10 * P + 138 / 10 * Z) * uu <= / 1000 * uu by apply: Rmult_le_compat_r; lra.
    lra.
  by case: hw2 => z1 z2; split; [apply: Rle_trans z1|apply: Rle_trans z2 _]; apply: bpow_le; lia.
have fe : is_finite (expd h) = true by case: ge.
rewrite /g2_prob /cg2_prob ht /= -/h; split.
- have [s1 s2 s3] := fine _ ni'; have [fp ep] := mulS fe fi s1.
  by exists (dmul (expd h) (ddiv d1 (d2_root powd a b c))); rewrite ?ep; [apply: prob_ret; [exact: fp|rewrite ep]|split; [split; [exact: fp|rewrite ep]|]].
have [|s1 s2 s3] := fine (/ v2R (d2_root powd a b c)); first by apply: nr_weaken ni; lra.
have [||fp ep] := @divS (expd h) (d2_root powd a b c) fe; first lra; first exact: s1.
rewrite -[v2R (expd h) * _]/(v2R (expd h) / _) in s2 s3; rewrite -ep in s2 s3.
by exists (ddiv (expd h) (d2_root powd a b c)); [apply: prob_ret; [exact: fp|exact: s2]|split; [split; [exact: fp|exact: s2]|exact: s3]].
Qed.
Lemma dev_sub mu x : dev2_ok mu x -> mid0 (dsub x mu) /\ exists2 t, v2R (dsub x mu) = (v2R x - v2R mu) * (1 + t) & Rabs t <= 101 / 100 * uu.
Proof.
move=> [fm fx hd]; have ut := uu_tiny; have u0 := uu_gt0.
have hr : rng (-99) 99 (v2R x - v2R mu) by case: hd => [->|h]; [left; ring|right].
have [|f e] := @subS x mu fx fm; first by apply: ProofsDoubleKF.rng_small hr; lia.
have hr' : rng (-1022) 1000 (v2R x - v2R mu) by apply: rng_weaken hr; lia.
have [t et ht] := rel_abs1 (rnd_relS hr'); rewrite -e in et; split; last by exists t.
split; first exact: f.
case: hr => [h0|[h1 h2]]; first by left; rewrite et h0; ring.
right; rewrite et Rabs_mult (Rabs_pos_eq (1 + t)); last by move/Rabs_le_inv: ht; lra.
have e1 : bpow radix2 (-99) = 2 * bpow radix2 (-100) by rewrite -bpow_S.
have e2 : bpow radix2 100 = 2 * bpow radix2 99 by rewrite -bpow_S.
by move/Rabs_le_inv: ht => ht; have b0 := bpow_gt_0 radix2 (-100); split; nra.
Qed.
(** The same against the density at the argument itself, the rounding of the deviations included. *)
Theorem C115_value mu1 mu2 a b c x1 x2 (k := excess (v2R a) (v2R b) (v2R c)) (e1 := v2R x1 - v2R mu1) (e2 := v2R x2 - v2R mu2)
  (E := maha (v2R a) (v2R b) (v2R c) e1 e2 / 2) (N := normal2 (v2R a) (v2R b) (v2R c) e1 e2) (r := 70 * (k * k) * (E + 1) * / IZR (2 ^ 53)) :
  mid a -> mid0 b -> mid c -> 0 < det2 (v2R a) (v2R b) (v2R c) -> dev2_ok mu1 x1 -> dev2_ok mu2 x2 ->
  E <= 499 -> k * k * (E + 1) <= IZR (2 ^ 35) ->
  (exists2 p, g2_prob expd powd mu1 mu2 a b c x1 x2 = Ok p & good p /\ Rabs (v2R p - N) <= N * r) /\
  (exists2 p, cg2_prob expd powd mu1 mu2 a b c x1 x2 = Ok p & good p /\ Rabs (v2R p - N) <= N * r).
Proof.
move=> ha hb hc hD h1 h2 hE hk; have u0 := uu_gt0; have ut := uu_tiny; have p3 := pi_3.
have [m1 [t1 et1 ht1]] := dev_sub h1; have [m2 [t2 et2 ht2]] := dev_sub h2; rewrite -/e1 in et1; rewrite -/e2 in et2.
have [_ a0] := mid_rng ha; have [_ c0] := mid_rng hc.
have [|q0 hm] := @maha_move (v2R a) (v2R b) (v2R c) e1 e2 t1 t2 (101 / 100 * uu) a0 c0 hD _ ht1 ht2; first lra.
rewrite -et1 -et2 -/k in hm.
have [D0 ek] := exc_well ha hc hD; rewrite -/k in ek.
have k1 : 1 <= k.
  apply: (Rmult_le_reg_l _ _ _ D0); rewrite -ek /det2.
  by have : 0 <= v2R b * v2R b by [exact: Rle_0_sqr]; lra.
set E' := maha (v2R a) (v2R b) (v2R c) (v2R (dsub x1 mu1)) (v2R (dsub x2 mu2)) / 2.
have E0 : 0 <= E by rewrite /E; lra.
set Z := k * k * uu; set P := k * k * E * uu.
have kk1 : k <= k * k by rewrite -[X in X <= _]Rmult_1_l; apply: Rmult_le_compat_r; lra.
have e36 : IZR (2 ^ 36) = 2 * IZR (2 ^ 35) by rewrite -mult_IZR.
have PZ : P + Z <= / 262144.
  have := uu36; rewrite e36 => u35; have -> : P + Z = k * k * (E + 1) * uu by rewrite /P /Z; ring.
  by have : k * k * (E + 1) * uu <= IZR (2 ^ 35) * uu by [apply: Rmult_le_compat_r; lra]; lra.
have P0 : 0 <= P by rewrite /P; apply: Rmult_le_pos; [apply: Rmult_le_pos; nra|lra].
have Z0 : 0 <= Z by rewrite /Z; apply: Rmult_le_pos; [nra|lra].
have kP : k * E * uu <= P.
  by rewrite /P; apply: Rmult_le_compat_r; [lra|apply: Rmult_le_compat_r; lra].
have hEE : Rabs (E' - E) <= 82 / 10 * P.
  have -> : E' - E = (maha (v2R a) (v2R b) (v2R c) (v2R (dsub x1 mu1)) (v2R (dsub x2 mu2)) - maha (v2R a) (v2R b) (v2R c) e1 e2) * / 2 by rewrite /E' /E; field.
  rewrite Rabs_mult (Rabs_pos_eq (/ 2)); last lra.
  have eq2 : maha (v2R a) (v2R b) (v2R c) e1 e2 = 2 * E by rewrite /E; field.
  rewrite eq2 in hm *; lra.
move/Rabs_le_inv: (hEE) => hE'.
have ZE : Z * E' <= Z * E + / 1000 * Z.
  by have := Rmult_le_compat_l Z E' (E + / 1000) Z0 ltac:(lra); lra.
have eP : Z * E = P by rewrite /P /Z; ring.
have [||d1' d2'] := @C115_density mu1 mu2 a b c x1 x2 ha hb hc hD m1 m2.
- by rewrite -/E'; lra.
- rewrite -/E' -/k e36.
  have kkE : 0 <= k * k * (E + 1) by apply: Rmult_le_pos; [nra|lra].
  have : k * k * (E' + 1) <= k * k * (2 * (E + 1)) by apply: Rmult_le_compat_l; [nra|lra].
  lra.
set N' := normal2 _ _ _ _ _ in d1' d2'; rewrite -/E' -/k -uu_val in d1' d2'.
have nN : nr (83 / 10 * P) N N'.
  exists (exp (E - E')).
    rewrite /N' /N /normal2 -/E -/E'; have -> : - E' = - E + (E - E') by ring.
    by rewrite exp_plus /Rdiv; ring.
  rewrite Rabs_minus_sym in hEE.
  by apply: Rle_trans (exp_small hEE _) _; lra.
have T0 : 0 < 2 * PI * sqrt (det2 (v2R a) (v2R b) (v2R c)) by apply: Rmult_lt_0_compat; [lra|exact: sqrt_lt_R0].
have N0 : 0 < N by apply: Rmult_lt_0_compat; [exact: exp_pos|exact: Rinv_0_lt_compat].
have N0' : 0 < N' by apply: Rmult_lt_0_compat; [exact: exp_pos|exact: Rinv_0_lt_compat].
have fin v : Rabs (v - N') <= N' * (60 * (k * k) * (E' + 1) * uu) -> Rabs (v - N) <= N * r.
  move=> hv; have nv := nr_abs N0' hv; apply: nr_err; first lra.
  have -> : r = 70 * (P + Z) by rewrite /r -uu_val /P /Z; ring.
  have ed : 60 * (k * k) * (E' + 1) * uu = 60 * (Z * E' + Z) by rewrite /Z; ring.
  rewrite ed in nv; have v0 := nr_ge0 nv.
  apply: nr_weaken (nr_trans nN nv).
  have : P * (60 * (Z * E' + Z)) <= P * / 1000 by apply: Rmult_le_compat_l; lra.
  lra.
case: d1' => p ep [gp hp1]; case: d2' => p' ep' [gp' hp2].
by split; [exists p => //; split=> //; exact: fin|exists p' => //; split=> //; exact: fin].
Qed.
(** variances 1, covariance 1/2, deviations 1: the density is [exp (-2/3) / (pi sqrt 3)] up to
    179 roundings *)
Example C115_case (N := exp (- (2 / 3)) / (2 * PI * sqrt (3 / 4))) :
  exists2 p, g2_prob expd powd d0 d0 d1 halfd d1 d1 d1 = Ok p & Rabs (v2R p - N) <= N * (179 * / IZR (2 ^ 53)).
Proof.
have [_ e] := half_val; have hu := uu_lt.
have [|fs es'] := subS fin1' finS0; first by rewrite v2R0 Rminus_0_r v2R1 /small Rabs_R1 -bp0; apply: bpow_le; lia.
have es : v2R (dsub d1 d0) = 1 by apply: (eq_trans es'); rewrite v2R0 Rminus_0_r rnd_id v2R1.
have hm : mid0 (dsub d1 d0) by split; [exact: fs|right; rewrite es Rabs_R1 -bp0; split; apply: bpow_le; lia].
have hk : excess (v2R d1) (v2R halfd) (v2R d1) = 4 / 3 by rewrite /excess det_half v2R1; field.
have D0 : 0 < det2 (v2R d1) (v2R halfd) (v2R d1) by rewrite det_half; lra.
have hq : maha (v2R d1) (v2R halfd) (v2R d1) (v2R (dsub d1 d0)) (v2R (dsub d1 d0)) / 2 = 2 / 3.
  by apply: (eq_trans (f_equal (fun z => maha _ _ _ z z / 2) es)); rewrite /maha det_half v2R1 e; field.
have [||[p h1 [_ h2]] _] := @C115_density d0 d0 d1 halfd d1 d1 d1 mid1 mid0half mid1 D0 hm hm.
- by rewrite hq; lra.
- by rewrite hq hk z36; lra.
exists p; first exact: h1.
have eN : normal2 (v2R d1) (v2R halfd) (v2R d1) (v2R (dsub d1 d0)) (v2R (dsub d1 d0)) = N by rewrite /normal2 hq det_half.
rewrite eN hq hk in h2; apply: Rle_trans h2 _; apply: Rmult_le_compat_l.
  apply: Rmult_le_pos; [left; exact: exp_pos|left; apply: Rinv_0_lt_compat; apply: Rmult_lt_0_compat; [have := pi_3; lra|apply: sqrt_lt_R0; lra]].
rewrite -uu_val; lra.
Qed.
(** the same against the exact deviations *)
Example C115_case_value (N := exp (- (2 / 3)) / (2 * PI * sqrt (3 / 4))) :
  exists2 p, cg2_prob expd powd d0 d0 d1 halfd d1 d1 d1 = Ok p & Rabs (v2R p - N) <= N * (208 * / IZR (2 ^ 53)).
Proof.
have [_ e] := half_val; have hu := uu_lt.
have es : v2R d1 - v2R d0 = 1 by rewrite v2R0 Rminus_0_r v2R1.
have hm : dev2_ok d0 d1 by split; [exact: finS0|exact: fin1'|right; rewrite es Rabs_R1 -bp0; split; apply: bpow_le; lia].
have hk : excess (v2R d1) (v2R halfd) (v2R d1) = 4 / 3 by rewrite /excess det_half v2R1; field.
have D0 : 0 < det2 (v2R d1) (v2R halfd) (v2R d1) by rewrite det_half; lra.
have hq : maha (v2R d1) (v2R halfd) (v2R d1) (v2R d1 - v2R d0) (v2R d1 - v2R d0) / 2 = 2 / 3.
  by rewrite es /maha det_half v2R1 e; field.
have [||_ [p h1 [_ h2]]] := @C115_value d0 d0 d1 halfd d1 d1 d1 mid1 mid0half mid1 D0 hm hm.
- by rewrite hq; lra.
- by rewrite hq hk; apply: Rle_trans (_ : IZR 4 <= _); [lra|apply: IZR_le; lia].
exists p; first exact: h1.
have eN : normal2 (v2R d1) (v2R halfd) (v2R d1) (v2R d1 - v2R d0) (v2R d1 - v2R d0) = N by rewrite /normal2 hq det_half.
rewrite eN hq hk in h2; apply: Rle_trans h2 _; apply: Rmult_le_compat_l.
  apply: Rmult_le_pos; [left; exact: exp_pos|left; apply: Rinv_0_lt_compat; apply: Rmult_lt_0_compat; [have := pi_3; lra|apply: sqrt_lt_R0; lra]].
rewrite -uu_val; lra.
Qed.
End C115.
Print Assumptions C115_density.
Print Assumptions C115_value.
Print Assumptions C115_case.
Print Assumptions C115_case_value.
