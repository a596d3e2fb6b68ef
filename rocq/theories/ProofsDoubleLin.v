(** * Lemmas for the linear Kalman filter with one state in doubles *)
From Coq Require Import ZArith Reals Lra Lia.
From Flocq Require Import Core.Core BinarySingleNaN Relative.
From mathcomp Require Import all_ssreflect.
From Verif Require Import Outcome ModelDouble SpecDouble SpecDoubleHist ProofsDouble PropertiesDouble ProofsDoubleHist.
From Verif Require Import ModelDoubleKF SpecDoubleKF ProofsDoubleKF ModelDoubleLin SpecDoubleLin.
Set Implicit Arguments. Unset Strict Implicit. Unset Printing Implicit Defensive.
Local Open Scope R_scope.
Local Opaque d0 d1 dprec dlit dadd dsub dmul ddiv dle dlt bpow IZR.

Definition eta : R := bpow radix2 (-1074).
Lemma eta_gt0 : 0 < eta. Proof. exact: bpow_gt_0. Qed.
Lemma dot_err x y : is_finite x = true -> is_finite y = true -> Rabs (v2R x * v2R y) <= bpow radix2 300 ->
  is_finite (dot1 x y) = true /\ Rabs (v2R (dot1 x y) - v2R x * v2R y) <= uu * Rabs (v2R x * v2R y) + eta.
Proof.
move=> fx fy h; have [|f ->] := dotS fx fy; first by apply: le_small h.
split; first exact: f.
have [eps [et [h1 [h2 [_ h3]]]]] := error_N_FLT radix2 (-1074) 53 (erefl _ : (0 < 53)%Z) (fun z => negb (Z.even z)) (v2R x * v2R y).
rewrite -[/ 2 * bpow radix2 (-53 + 1)]/uu in h1; rewrite h3.
have -> : v2R x * v2R y * (1 + eps) + et - v2R x * v2R y = v2R x * v2R y * eps + et by ring.
apply: Rle_trans (Rabs_triang _ _) _; rewrite Rabs_mult Rmult_comm; apply: Rplus_le_compat.
  by apply: Rmult_le_compat_r => //; exact: Rabs_pos.
by have := eta_gt0; rewrite /eta; lra.
Qed.
Lemma add_err x y : is_finite x = true -> is_finite y = true -> Rabs (v2R x + v2R y) <= bpow radix2 300 ->
  is_finite (dadd x y) = true /\ Rabs (v2R (dadd x y) - (v2R x + v2R y)) <= uu * Rabs (v2R x + v2R y).
Proof.
move=> fx fy h; have [|f ->] := addS fx fy; first by apply: le_small h.
split; first exact: f.
have [e -> he] := plus_rel x y.
have -> : (v2R x + v2R y) * (1 + e) - (v2R x + v2R y) = (v2R x + v2R y) * e by ring.
by rewrite Rabs_mult Rmult_comm; apply: Rmult_le_compat_r => //; exact: Rabs_pos.
Qed.
Lemma near_le v r e b : Rabs (v - r) <= e -> Rabs r <= b -> Rabs v <= b + e.
Proof. move=> h h'; have -> : v = r + (v - r) by [ring]; apply: Rle_trans (Rabs_triang _ _) _; lra. Qed.
Lemma add0_id x : is_finite x = true -> Rabs (v2R x) <= bpow radix2 300 -> is_finite (dadd d0 x) = true /\ v2R (dadd d0 x) = v2R x.
Proof.
move=> fx hx; have [f0 e0] : is_finite d0 = true /\ v2R d0 = 0 by case: good0 => f0 _; split=> //; exact: v2R0.
have [|f ->] := addS f0 fx; first by rewrite e0 Rplus_0_l; apply: le_small hx.
by rewrite e0 Rplus_0_l rnd_id.
Qed.
Lemma bp e : bpow radix2 (e + 1) = 2 * bpow radix2 e. Proof. exact: bpow_S. Qed.
(** sums of roundings *)
Lemma acc2 a v c w s b r : Rabs (v - a) <= uu * Rabs a + eta -> Rabs (w - c) <= uu * Rabs c + eta ->
  Rabs (s - (v + w)) <= uu * Rabs (v + w) -> Rabs (r - (s + b)) <= uu * Rabs (s + b) ->
  Rabs (r - (a + (c + b))) <= 4 * uu * (Rabs a + (Rabs c + Rabs b)) + 3 * eta.
Proof.
move=> h1 h2 h3 h4; have hu := uu_lt; have ht := uu_tiny; have e0 := eta_gt0.
have a0 := Rabs_pos a; have b0 := Rabs_pos b; have c0 := Rabs_pos c.
have hv := near_le h1 (Rle_refl (Rabs a)); have hw := near_le h2 (Rle_refl (Rabs c)).
have hvw : Rabs (v + w) <= Rabs v + Rabs w := Rabs_triang _ _.
have hs := near_le h3 hvw; have hsb : Rabs (s + b) <= Rabs s + Rabs b := Rabs_triang _ _.
have -> : r - (a + (c + b)) = (r - (s + b)) + ((s - (v + w)) + ((v - a) + (w - c))) by ring.
have t1 := Rabs_triang (r - (s + b)) ((s - (v + w)) + ((v - a) + (w - c))).
have t2 := Rabs_triang (s - (v + w)) ((v - a) + (w - c)); have t3 := Rabs_triang (v - a) (w - c).
move: (Rabs a) (Rabs b) (Rabs c) (Rabs v) (Rabs w) (Rabs (v + w)) (Rabs s) (Rabs (s + b)) a0 b0 c0 hv hw hvw hs hsb h1 h2 h3 h4 => A B C V W VW S SB a0 b0 c0 hv hw hvw hs hsb h1 h2 h3 h4.
have k1 : VW <= (1 + uu) * (A + C) + 2 * eta by lra.
have k2 : uu * VW <= uu * ((1 + uu) * (A + C) + 2 * eta) by apply: Rmult_le_compat_l; lra.
have k3 : SB <= (1 + uu) * ((1 + uu) * (A + C) + 2 * eta) + B by lra.
have k4 : uu * SB <= uu * ((1 + uu) * ((1 + uu) * (A + C) + 2 * eta) + B) by apply: Rmult_le_compat_l; lra.
have k5 : uu * ((1 + uu) * ((1 + uu) * (A + C) + 2 * eta) + B) + uu * ((1 + uu) * (A + C) + 2 * eta) + (uu * (A + C) + 2 * eta) <= 4 * uu * (A + (C + B)) + 3 * eta.
  have g1 : (1 + uu) * (1 + uu) <= 101 / 100 by nra.
  have g2 : uu * ((1 + uu) * 2 + 2) <= 1 by nra.
  have g0 : 0 <= uu * (A + C) by apply: Rmult_le_pos; lra.
  have u1 : uu * (A + C) * ((1 + uu) * (1 + uu)) <= uu * (A + C) * (101 / 100) by exact: Rmult_le_compat_l g0 g1.
  have u2 : uu * (A + C) * (1 + uu) <= uu * (A + C) * (101 / 100) by apply: Rmult_le_compat_l => //; lra.
  have u3 := Rmult_le_compat_r _ _ _ (Rlt_le _ _ e0) g2.
  have u4 : 0 <= uu * B by apply: Rmult_le_pos; lra.
  have u5 : 0 <= uu * (A + C) by apply: Rmult_le_pos; lra.
  lra.
lra.
Qed.
Lemma acc1 a v b r : Rabs (v - a) <= uu * Rabs a + eta -> Rabs (r - (v + b)) <= uu * Rabs (v + b) ->
  Rabs (r - (a + b)) <= 4 * uu * (Rabs a + Rabs b) + 3 * eta.
Proof.
move=> h1 h2; have := @acc2 a v 0 0 v b r h1; rewrite Rplus_0_l Rplus_0_r !Rminus_eq_0 Rabs_R0 Rmult_0_r !Rplus_0_l.
by apply=> //; [have := eta_gt0; lra|apply: Rmult_le_pos; [have := uu_lt; lra|exact: Rabs_pos]].
Qed.
Lemma pred_ok A x u b M : is_finite A = true -> is_finite x = true -> plain u b ->
  Rabs (v2R A * v2R x) + offsize u b <= M -> M <= bpow radix2 290 ->
  let v := l_pred (l_args A x u) b in
  is_finite v = true /\ Rabs (v2R v - (v2R A * v2R x + offset u b)) <= 4 * uu * (Rabs (v2R A * v2R x) + offsize u b) + 3 * eta.
Proof.
move=> fA fx [fb hu'] hM hM' v; have hu := uu_lt; have e0 := eta_gt0.
have ee : eta <= bpow radix2 290 by apply: bpow_le.
have e8 : 8 * bpow radix2 290 = bpow radix2 293.
  by rewrite -[(293)%Z]/(290 + 1 + 1 + 1)%Z !bp; ring.
have h8 : 8 * bpow radix2 290 <= bpow radix2 300 by rewrite e8; apply: bpow_le.
move: (bpow radix2 290) (bpow radix2 300) hM' ee h8 (@dot_err) (@add_err) (@add0_id) => b1 b2 hM' ee h8 dot_err add_err add0_id; clear e8.
have a0 := Rabs_pos (v2R A * v2R x); have bb := Rabs_pos (v2R b).
have o0 : 0 <= offsize u b.
  rewrite /offsize; case: (u) => [[B w]|]; last lra.
  by have := Rabs_pos (v2R B * v2R w); lra.
have [|f1 d1] := dot_err _ _ fA fx; first lra.
have n1 := near_le d1 (Rle_refl _).
have [|f2 e2] := add0_id _ f1; first nra.
rewrite -e2 in d1 n1.
move: hM o0 hu'; rewrite /v /l_pred /l_args /offsize /offset; case: u {v} => [[B w]|] hM o0.
  move=> [fB fw]; rewrite [foldl _ _ _]/=; have c0 := Rabs_pos (v2R B * v2R w).
  have [|f3 d3] := dot_err _ _ fB fw; first lra.
  have n3 := near_le d3 (Rle_refl _).
  have t3 := Rabs_triang (v2R (dadd d0 (dot1 A x))) (v2R (dot1 B w)).
  have [|f4 d4] := add_err _ _ f2 f3; first nra.
  have n4 := near_le d4 t3.
  have t4 := Rabs_triang (v2R (dadd (dadd d0 (dot1 A x)) (dot1 B w))) (v2R b).
  have [|f5 d5] := add_err _ _ f4 fb.
    have q1 : uu * Rabs (v2R (dadd d0 (dot1 A x)) + v2R (dot1 B w)) <= 1 * Rabs (v2R (dadd d0 (dot1 A x)) + v2R (dot1 B w)).
      by apply: Rmult_le_compat_r; [exact: Rabs_pos|lra].
    have q2 : uu * Rabs (v2R B * v2R w) <= / 10 * Rabs (v2R B * v2R w) by apply: Rmult_le_compat_r; [exact: Rabs_pos|lra].
    have q3 : uu * Rabs (v2R A * v2R x) <= / 10 * Rabs (v2R A * v2R x) by apply: Rmult_le_compat_r; [exact: Rabs_pos|lra].
    lra.
  split; first exact: f5.
  exact: acc2 d1 d3 d4 d5.
move=> _; rewrite [foldl _ _ _]/=.
have t4 := Rabs_triang (v2R (dadd d0 (dot1 A x))) (v2R b).
have [|f5 d5] := add_err _ _ f2 fb; first nra.
split; first exact: f5.
by rewrite !Rplus_0_l; exact: acc1 d1 d5.
Qed.

(** ** The gain *)
Lemma gain_diff p P H N k : 0 < p -> approx k p P -> 0 < v2R N -> INR k * uu <= / 200 ->
  Rabs (P * v2R H / (v2R H ^ 2 * P + v2R N) - gain p H N) <= Rabs (gain p H N) * (202 / 200 * (INR k * uu)).
Proof.
move=> p0 ha n0 hk; rewrite /gain.
have hk1 : INR k * uu < 1 by lra.
have he := ap_err hk1 ha; have P0 := ap_ge0 ha.
move: (v2R H) (v2R N) n0 => h n n0; have h2 := pow2_ge_0 h.
have s0 : 0 < h ^ 2 * p + n by have := Rmult_le_pos _ _ h2 (Rlt_le _ _ p0); lra.
have s1 : n <= h ^ 2 * P + n by have := Rmult_le_pos _ _ h2 P0; lra.
have e : P * h / (h ^ 2 * P + n) - p * h / (h ^ 2 * p + n) = p * h / (h ^ 2 * p + n) * ((P - p) / p * (n / (h ^ 2 * P + n))).
  by field; split; [lra|split; lra].
have n1 : 0 <= n / (h ^ 2 * P + n) <= 1.
  split; first by apply: Rmult_le_pos; [lra|apply/Rlt_le/Rinv_0_lt_compat; lra].
  by apply: (Rmult_le_reg_r (h ^ 2 * P + n)); [lra|rewrite /Rdiv Rmult_assoc Rinv_l; lra].
rewrite e Rabs_mult; apply: Rmult_le_compat_l; first exact: Rabs_pos.
have a0 : 0 <= INR k * uu by apply: Rmult_le_pos; [exact: pos_INR|have := uu_lt; lra].
move: (INR k * uu) hk he a0 {hk1} => a hk he a0.
have d1 : Rabs ((P - p) / p) <= 202 / 200 * a.
  rewrite Rabs_mult Rabs_inv (Rabs_pos_eq p); last lra.
  apply: (Rmult_le_reg_r p) => //; rewrite Rmult_assoc Rinv_l; last lra.
  rewrite Rmult_1_r; apply: Rle_trans he _; rewrite Rmult_comm; apply: Rmult_le_compat_r; first lra.
  apply: (Rmult_le_reg_r (1 - a)); first lra.
  by rewrite /Rdiv Rmult_assoc Rinv_l; [nra|lra].
rewrite Rabs_mult (Rabs_pos_eq (n / _)); last lra.
have := Rabs_pos ((P - p) / p); have := Rmult_le_compat_l _ _ _ (Rabs_pos ((P - p) / p)) (proj2 n1); lra.
Qed.
Lemma gain_bound p H N : mid p -> factor H -> noise N -> Rabs (gain p H N) <= bpow radix2 500.
Proof.
move=> hp [_ hH] [_ hN]; have p0 := mid_gt0 hp; have n0 := mid_gt0 hN.
have hh : Rabs (v2R H) <= bpow radix2 100 by case: hH => [->|[_ h]]; [rewrite Rabs_R0; exact: bpow_ge_0|exact: h].
case: hp => _ hp; case: hN => hN _; rewrite /gain.
have s0 : v2R N <= v2R H ^ 2 * p + v2R N by have := Rmult_le_pos _ _ (pow2_ge_0 (v2R H)) (Rlt_le _ _ p0); lra.
rewrite /Rdiv !Rabs_mult Rabs_inv (Rabs_pos_eq p); last lra.
rewrite (Rabs_pos_eq (_ + _)); last lra.
have -> : bpow radix2 500 = bpow radix2 200 * bpow radix2 100 * bpow radix2 200 by rewrite -!bpow_plus.
have i0 : 0 <= / (v2R H ^ 2 * p + v2R N) by apply/Rlt_le/Rinv_0_lt_compat; lra.
apply: Rmult_le_compat => //.
- by apply: Rmult_le_pos; [lra|exact: Rabs_pos].
- by apply: Rmult_le_compat => //; [lra|exact: Rabs_pos].
rewrite -[bpow radix2 200]/(bpow radix2 (- (-200))) bpow_opp; apply: Rinv_le; [exact: bpow_gt_0|lra].
Qed.
Lemma crunch g gP k W M z D D0 mu m' : 0 <= k -> k * uu <= / 200 -> Rabs (gP - g) <= Rabs g * (202 / 200 * (k * uu)) ->
  Rabs (D - D0) <= 4 * uu * W + 3 * eta -> Rabs D0 <= W -> Rabs g * W <= M -> 3 * (Rabs g * eta) <= uu * M -> eta <= uu * M ->
  Rabs mu <= M -> z = mu + gP * D ->
  Rabs (m' - z) <= uu * Rabs z + 9 * uu * Rabs (gP * D) + eta ->
  Rabs (m' - (mu + g * D0)) <= (2 * k + 20) * uu * M.
Proof.
move=> k0 hk hg hD hW hM he he' hmu ez hm; have hu := uu_lt; have ht := uu_tiny.
have M0 : 0 <= M by have := Rabs_pos mu; lra.
have u0 : 0 <= uu * M by apply: Rmult_le_pos; lra.
have g0 := Rabs_pos g.
have x1 : Rabs (g * (D - D0)) <= 5 * (uu * M).
  by rewrite Rabs_mult; have h1 := Rmult_le_compat_l _ _ _ g0 hD; have h2 := Rmult_le_compat_l _ _ _ (Rlt_le _ _ (proj1 hu)) hM; lra.
have x0 : Rabs (g * D0) <= M by rewrite Rabs_mult; have := Rmult_le_compat_l _ _ _ g0 hW; lra.
have x2 : Rabs g * Rabs D <= 101 / 100 * M.
  rewrite -Rabs_mult; have -> : g * D = g * D0 + g * (D - D0) by ring.
  apply: Rle_trans (Rabs_triang _ _) _; have : uu * M <= / 1000 * M by apply: Rmult_le_compat_r; lra.
  lra.
have a0 : 0 <= k * uu by apply: Rmult_le_pos; lra.
have x3 : Rabs ((gP - g) * D) <= 205 / 200 * (k * uu * M).
  rewrite Rabs_mult; have h1 := Rmult_le_compat_r _ _ _ (Rabs_pos D) hg.
  have h2 : 202 / 200 * (k * uu) * (Rabs g * Rabs D) <= 202 / 200 * (k * uu) * (101 / 100 * M) by apply: Rmult_le_compat_l => //; lra.
  have h3 : 0 <= k * uu * M by apply: Rmult_le_pos.
  lra.
have x4 : k * uu * M <= / 200 * M by apply: Rmult_le_compat_r.
have x5 : Rabs (gP * D) <= 103 / 100 * M.
  have -> : gP * D = g * D + (gP - g) * D by ring.
  by apply: Rle_trans (Rabs_triang _ _) _; rewrite (Rabs_mult g); lra.
have x6 : Rabs z <= 203 / 100 * M by rewrite ez; apply: Rle_trans (Rabs_triang _ _) _; lra.
have x7 := Rmult_le_compat_l _ _ _ (Rlt_le _ _ (proj1 hu)) x5; have x8 := Rmult_le_compat_l _ _ _ (Rlt_le _ _ (proj1 hu)) x6.
have -> : m' - (mu + g * D0) = (m' - z) + ((gP - g) * D + g * (D - D0)) by rewrite ez; ring.
have t1 := Rabs_triang (m' - z) ((gP - g) * D + g * (D - D0)); have t2 := Rabs_triang ((gP - g) * D) (g * (D - D0)).
have h3 : 0 <= k * uu * M by apply: Rmult_le_pos.
lra.
Qed.
(** ** One update *)
Lemma meas_mean z H u b N mu P p M k : is_finite mu = true -> wide P -> factor H -> noise N -> mid p -> approx k p (v2R P) ->
  INR k * uu <= / 200 -> calm 250 M p (v2R mu) (LMeas z H u b N) -> bpow radix2 (-500) <= M <= bpow radix2 200 ->
  let s' := k_meas z (l_pred (l_args H mu u) b) H N (DKF mu P) in
  is_finite (k_mu s') = true /\
  Rabs (v2R (k_mu s') - (v2R mu + gain p H N * (v2R z - (v2R H * v2R mu + offset u b)))) <= (2 * INR k + 20) * uu * M.
Proof.
move=> fm wP fH nN hp ha hk [fz hu' hmu hs hM] [M1 M2]; have hu := uu_lt; have e0 := eta_gt0.
set T := Rabs (v2R H * v2R mu) + offsize u b in hs hM; set W := Rabs (v2R z) + T in hs hM.
have z0 := Rabs_pos (v2R z).
have o0 : 0 <= offsize u b.
  rewrite /offsize; have bb := Rabs_pos (v2R b); case: (u) => [[B w]|]; last lra.
  by have := Rabs_pos (v2R B * v2R w); lra.
have T0 : 0 <= T by rewrite /T; have := Rabs_pos (v2R H * v2R mu); lra.
have b250 : bpow radix2 250 <= bpow radix2 290 by apply: bpow_le.
have b290 : 2 * (2 * bpow radix2 290) <= bpow radix2 300 by rewrite -!bp; apply: bpow_le.
have eb : 3 * eta <= bpow radix2 290.
  apply: Rle_trans (_ : 2 * (2 * bpow radix2 (-1074)) <= _); first by rewrite /eta; have := eta_gt0; rewrite /eta; lra.
  by rewrite -!bp; apply: bpow_le.
have [fH' _] := fH.
have [|fZ dZ] := @pred_ok H mu u b T fH' fm hu' (Rle_refl _); first by rewrite /W in hs; lra.
rewrite -/T in dZ; set Zd := l_pred _ _ in fZ dZ *; move=> s'.
have nZ : Rabs (v2R Zd) <= bpow radix2 300.
  have h1 : Rabs (v2R H * v2R mu + offset u b) <= T.
    apply: Rle_trans (Rabs_triang _ _) _; rewrite /T; apply: Rplus_le_compat_l; rewrite /offset /offsize.
    by case: (u) => [[B w]|]; [exact: Rabs_triang|rewrite !Rplus_0_l; lra].
  have h2 := near_le dZ h1; have h3 : uu * T <= / 1000 * T by apply: Rmult_le_compat_r; lra.
  by rewrite /W in hs; lra.
have b200 : bpow radix2 200 <= bpow radix2 300 by apply: bpow_le.
have [|||fr hr] := @mean_step z Zd H N mu P _ wP fH nN erefl fz fZ fm; [by rewrite /W in hs; lra|exact: nZ|lra|].
split; first exact: fr.
have uM : bpow radix2 (-553) <= uu * M.
  have -> : bpow radix2 (-553) = uu * bpow radix2 (-500) by rewrite uu_val -[(-553)%Z]/(- (53) + -500)%Z bpow_plus bpow_opp -IZR_Zpower.
  by apply: Rmult_le_compat_l; lra.
have gb := gain_bound hp fH nN.
apply: (@crunch _ _ _ W _ _ (v2R z - v2R Zd) _ _ _ _ _ _ _ _ _ _ _ _ erefl hr) => //.
- exact: pos_INR.
- by apply: gain_diff => //; [exact: mid_gt0|apply: mid_gt0; case: nN].
- have -> : v2R z - v2R Zd - (v2R z - (v2R H * v2R mu + offset u b)) = - (v2R Zd - (v2R H * v2R mu + offset u b)) by ring.
  rewrite Rabs_Ropp; apply: Rle_trans dZ _; apply: Rplus_le_compat_r; apply: Rmult_le_compat_l; first lra.
  by rewrite -/T /W; lra.
- apply: Rle_trans (Rabs_triang _ _) _; rewrite Rabs_Ropp /W; apply: Rplus_le_compat_l.
  apply: Rle_trans (Rabs_triang _ _) _; rewrite /T; apply: Rplus_le_compat_l; rewrite /offset /offsize.
  by case: (u) => [[B w]|]; [exact: Rabs_triang|rewrite !Rplus_0_l; lra].
- apply: Rle_trans uM; apply: Rle_trans (_ : 2 * (2 * (bpow radix2 500 * eta)) <= _).
    by have := Rmult_le_compat_r _ _ _ (Rlt_le _ _ e0) gb; have := Rmult_le_pos _ _ (Rabs_pos (gain p H N)) (Rlt_le _ _ e0); lra.
  by rewrite /eta -bpow_plus -!bp; apply: bpow_le.
- by apply: Rle_trans uM; apply: bpow_le.
Qed.
Lemma sys_mean A u b mu M : is_finite mu = true -> is_finite A = true -> plain u b -> Rabs (v2R A * v2R mu) + offsize u b <= M ->
  bpow radix2 (-500) <= M <= bpow radix2 200 ->
  let J := l_pred (l_args A mu u) b in is_finite J = true /\ Rabs (v2R J - (v2R A * v2R mu + offset u b)) <= 20 * uu * M.
Proof.
move=> fm fA hp hM [M1 M2] J; have hu := uu_lt.
have [|f h] := pred_ok fA fm hp hM; first by apply: Rle_trans M2 _; apply: bpow_le.
split; first exact: f.
apply: Rle_trans h _.
have uM : eta <= uu * M.
  apply: Rle_trans (_ : bpow radix2 (-553) <= _); first by apply: bpow_le.
  have -> : bpow radix2 (-553) = uu * bpow radix2 (-500) by rewrite uu_val -[(-553)%Z]/(- (53) + -500)%Z bpow_plus bpow_opp -IZR_Zpower.
  by apply: Rmult_le_compat_l; lra.
have := Rmult_le_compat_l _ _ _ (Rlt_le _ _ (proj1 hu)) hM.
have := eta_gt0; lra.
Qed.

(** ** A run: the error in standard deviations never grows by itself *)
Lemma lo_sqrt lo p : 0 < lo -> lo ^ 2 <= p -> lo <= sqrt p.
Proof. by move=> h h'; rewrite -(sqrt_pow2 lo); [apply: sqrt_le_1_alt|lra]. Qed.
Lemma spread lo p rho e E : 0 < lo -> lo ^ 2 <= p -> 0 <= rho -> e <= sqrt p * E + rho -> e <= sqrt p * (E + rho / lo).
Proof.
move=> l0 hl r0 he; have h := lo_sqrt l0 hl; rewrite Rmult_plus_distr_l; apply: Rle_trans he _; apply: Rplus_le_compat_l.
have h1 : 0 <= rho / lo by apply: Rmult_le_pos => //; apply/Rlt_le/Rinv_0_lt_compat.
have {1}-> : rho = lo * (rho / lo) by field; lra.
exact: Rmult_le_compat_r.
Qed.
Lemma shrink p p' : 0 < p' -> p' <= p -> p' / p * sqrt p <= sqrt p'.
Proof.
move=> h h'; have p0 : 0 < p by lra.
have s0 := sqrt_lt_R0 _ p0; have s1 := sqrt_lt_R0 _ h; have hs := sqrt_le_1_alt _ _ h'.
have e := sqrt_sqrt p (Rlt_le _ _ p0); have e' := sqrt_sqrt p' (Rlt_le _ _ h).
apply: (Rmult_le_reg_r (sqrt p)) => //; rewrite Rmult_assoc e /Rdiv Rmult_assoc Rinv_l ?Rmult_1_r; [|lra].
by rewrite -{1}e'; apply: Rmult_le_compat_l; lra.
Qed.
Lemma mean_info p H N m z o : 0 < p -> 0 < v2R N -> let p' := / (/ p + v2R H ^ 2 / v2R N) in
  p' * (m / p + v2R H * (z - o) / v2R N) = m + gain p H N * (z - (v2R H * m + o)).
Proof.
move=> p0 n0 p'; rewrite /p' /gain; move: (v2R H) (v2R N) n0 => h n n0; have h2 := pow2_ge_0 h.
have := Rmult_le_pos _ _ h2 (Rlt_le _ _ p0) => hp.
by field; repeat split; nra.
Qed.
Lemma one_gain p H N : 0 < p -> 0 < v2R N -> let p' := / (/ p + v2R H ^ 2 / v2R N) in
  [/\ 0 < p', p' <= p & 1 - gain p H N * v2R H = p' / p].
Proof.
move=> p0 n0 p'; rewrite /p' /gain; move: (v2R H) (v2R N) n0 => h n n0; have h2 := pow2_ge_0 h.
have ip := Rinv_0_lt_compat _ p0; have q0 : 0 <= h ^ 2 / n by apply: Rmult_le_pos => //; apply/Rlt_le/Rinv_0_lt_compat.
have := Rmult_le_pos _ _ h2 (Rlt_le _ _ p0) => hp; split.
- by apply: Rinv_0_lt_compat; lra.
- by rewrite -{2}(Rinv_inv p); apply: Rinv_le; lra.
- by field; repeat split; nra.
Qed.
Lemma l_step_mean c M lo k m p s f E rho : is_finite (k_var s) = true -> is_finite (k_mu s) = true -> mid p ->
  approx k p (v2R (k_var s)) -> Rabs (v2R (k_mu s) - m) <= sqrt p * E ->
  lfair c p f -> calm 250 M p (v2R (k_mu s)) f -> lo ^ 2 <= (posterior (m, p) f).2 -> 0 < lo ->
  bpow radix2 (-500) <= M <= bpow radix2 200 -> INR k * uu <= / 200 -> (2 * INR k + 20) * uu * M <= rho ->
  is_finite (k_mu (l_step s f)) = true /\
  Rabs (v2R (k_mu (l_step s f)) - (posterior (m, p) f).1) <= sqrt (posterior (m, p) f).2 * (E + rho / lo).
Proof.
case: s => mu P fP fm hp ha hE hf hc hl l0 hM hk hr; have p0 := mid_gt0 hp; have hu := uu_lt; have k0 := pos_INR k.
rewrite [k_var _]/= [k_mu _]/= in fP fm ha hE hc.
have M0 : 0 < M by apply: Rlt_le_trans (proj1 hM); exact: bpow_gt_0.
have uM : 0 <= uu * M by apply: Rmult_le_pos; lra.
have kM : 0 <= INR k * (uu * M) by apply: Rmult_le_pos.
have r0 : 0 <= rho by lra.
case: f hf hc hl => [A u b Q|z H u b N] hf hc hl.
  case: hf hc => [[fA hA] hQ] [hpl hs].
  have [fJ dJ] := sys_mean fm fA hpl hs hM.
  split; first exact: fJ.
  apply: spread l0 hl r0 _; rewrite [k_mu _]/= [(posterior _ _).1]/=.
  set J := l_pred _ _ in fJ dJ *.
  have -> : v2R J - (v2R A * m + offset u b) = (v2R J - (v2R A * v2R mu + offset u b)) + v2R A * (v2R mu - m) by ring.
  apply: Rle_trans (Rabs_triang _ _) _; rewrite Rabs_mult Rplus_comm; apply: Rplus_le_compat; last lra.
  apply: Rle_trans (_ : Rabs (v2R A) * (sqrt p * E) <= _); first by apply: Rmult_le_compat_l => //; exact: Rabs_pos.
  have sp := sqrt_lt_R0 _ p0.
  have E0 : 0 <= E by have := Rabs_pos (v2R mu - m); nra.
  rewrite -Rmult_assoc; apply: Rmult_le_compat_r => //.
  rewrite -(sqrt_pow2 (Rabs (v2R A))); last exact: Rabs_pos.
  rewrite -sqrt_mult; [|exact: pow2_ge_0|lra]; apply: sqrt_le_1_alt; rewrite pow2_abs /=.
  have q0 : 0 <= v2R Q by case: hQ => [[_ h]|[_ ->]]; [apply/Rlt_le/mid_gt0|lra].
  lra.
case: hf => fH nN _; have n0 : 0 < v2R N by apply: mid_gt0; case: nN.
have wP := mid_wide fP hp hk ha.
have [fr dr] := meas_mean fm wP fH nN hp ha hk hc hM.
split; first exact: fr.
apply: spread l0 hl r0 _; rewrite [(posterior _ _).1]/= mean_info //.
have [h1 h2 h3] := @one_gain p H N p0 n0.
set r := v2R (k_mu _) in dr *; set g := gain p H N in dr h3 *.
have -> : r - (m + g * (v2R z - (v2R H * m + offset u b))) = (r - (v2R mu + g * (v2R z - (v2R H * v2R mu + offset u b)))) + (1 - g * v2R H) * (v2R mu - m) by ring.
apply: Rle_trans (Rabs_triang _ _) _; rewrite Rabs_mult Rplus_comm; apply: Rplus_le_compat; last lra.
rewrite h3 Rabs_pos_eq; last by apply: Rmult_le_pos; [lra|apply/Rlt_le/Rinv_0_lt_compat].
have d0' : 0 <= / (/ p + v2R H ^ 2 / v2R N) / p by apply: Rmult_le_pos; [lra|apply/Rlt_le/Rinv_0_lt_compat].
apply: Rle_trans (_ : / (/ p + v2R H ^ 2 / v2R N) / p * (sqrt p * E) <= _); first exact: Rmult_le_compat_l.
have sp := sqrt_lt_R0 _ p0.
have E0 : 0 <= E by have := Rabs_pos (v2R mu - m); nra.
by rewrite -Rmult_assoc; apply: Rmult_le_compat_r => //; exact: shrink.
Qed.
Lemma post2 m s p f : (posterior (m, p) f).2 = variance p (l_upd s f). Proof. by case: f. Qed.
Lemma lfair_upd c p s f : lfair c p f -> fair c p (l_upd s f). Proof. by case: f. Qed.
Lemma l_run_ok c M lo rho fs k m p s E : is_finite (k_var s) = true -> is_finite (k_mu s) = true -> mid p ->
  approx k p (v2R (k_var s)) -> Rabs (v2R (k_mu s) - m) <= sqrt p * E -> calm_run c M lo p s fs -> 0 < lo ->
  bpow radix2 (-500) <= M <= bpow radix2 200 -> INR (k + kroundings c (size fs)) * uu <= / 200 ->
  (2 * INR (k + kroundings c (size fs)) + 20) * uu * M <= rho ->
  let s' := l_run s fs in let q := posterior_run (m, p) fs in
  is_finite (k_mu s') = true /\ Rabs (v2R (k_mu s') - q.1) <= sqrt q.2 * (E + INR (size fs) * (rho / lo)).
Proof.
move=> + + + + + + l0 hM; have M0 : 0 < M by apply: Rlt_le_trans (proj1 hM); exact: bpow_gt_0.
elim: fs k m p s E => [|f fs ih] k m p s E fv fm hp ha hE hr hk hrho.
  by rewrite /= Rmult_0_l Rplus_0_r.
have hu := uu_lt.
have hn (a b : nat) : (a <= b)%N -> INR a <= INR b by move/leP => h; exact: le_INR.
have ek : (k + kroundings c (size (f :: fs)))%N = (k + (9 * c + 3) + kroundings c (size fs))%N.
  by rewrite /kroundings /= mulSn addnA.
rewrite ek in hk hrho.
case: hr => hf hc [hm' hl] hr.
rewrite !(post2 _ s) in hm' hl hr; rewrite -(post2 m s) in hl.
have h1 : INR k <= INR (k + (9 * c + 3) + kroundings c (size fs)) by apply: hn; rewrite -addnA leq_addr.
have h2 : INR (k + (9 * c + 3)) <= INR (k + (9 * c + 3) + kroundings c (size fs)) by apply: hn; rewrite leq_addr.
have b1 : INR k * uu <= / 200 by apply: Rle_trans hk; apply: Rmult_le_compat_r => //; lra.
have b2 : INR (k + (9 * c + 3)) * uu <= / 200 by apply: Rle_trans hk; apply: Rmult_le_compat_r => //; lra.
have r1 : (2 * INR k + 20) * uu * M <= rho.
  by apply: Rle_trans hrho; apply: Rmult_le_compat_r; [lra|apply: Rmult_le_compat_r; lra].
have [fm' hE'] := l_step_mean fv fm hp ha hE hf hc hl l0 hM b1 r1.
have [fv' ha'] := k_step_ok fv hp ha (lfair_upd s hf) hm' b2.
have e2 : posterior (m, p) f = ((posterior (m, p) f).1, variance p (l_upd s f)) by rewrite -(post2 m s); case: posterior.
rewrite {2}e2 [(_, _).2]/= in hE'.
have [a1 a2] := ih _ (posterior (m, p) f).1 _ _ _ fv' fm' hm' ha' hE' hr hk hrho.
rewrite -e2 in a2; split; first exact: a1.
rewrite [size _]/= S_INR; apply: Rle_trans a2 _; apply: Req_le; rewrite [posterior_run _ (f :: fs)]/=.
by congr (_ * _); ring.
Qed.

(** ** Calm at the exact means is calm at the computed ones *)
Lemma sqrt_le_M p M : 0 <= M -> p <= M ^ 2 -> sqrt p <= M.
Proof. by move=> h h'; rewrite -(sqrt_pow2 M) //; apply: sqrt_le_1_alt. Qed.
Lemma calm_near c M p m (mu : R) f : mid p -> lfair c p f -> calm 240 M p m f -> Rabs (mu - m) <= sqrt p ->
  0 < M <= bpow radix2 100 -> p <= M ^ 2 -> (posterior (m, p) f).2 <= M ^ 2 -> calm 250 (2 * M) p mu f.
Proof.
move=> hp hf hc hd [M0 M1] hpM hq; have p0 := mid_gt0 hp.
have sM := sqrt_le_M (Rlt_le _ _ M0) hpM.
have ab (a : R) : Rabs (a * mu) <= Rabs (a * m) + Rabs a * sqrt p.
  have -> : a * mu = a * m + a * (mu - m) by ring.
  apply: Rle_trans (Rabs_triang _ _) _; rewrite (Rabs_mult a (mu - m)); apply: Rplus_le_compat_l.
  by apply: Rmult_le_compat_l => //; exact: Rabs_pos.
case: f hf hc hq => [A u b Q|z H u b N] hf.
  move=> [h1 h2] hq; split; first exact: h1.
  have [fA hQ] := hf.
  have q0 : 0 <= v2R Q by case: hQ => [[_ h]|[_ ->]]; [apply/Rlt_le/mid_gt0|lra].
  have h3 : Rabs (v2R A) * sqrt p <= M.
    rewrite -(sqrt_pow2 (Rabs (v2R A))); last exact: Rabs_pos.
    rewrite -sqrt_mult; [|exact: pow2_ge_0|lra]; apply: sqrt_le_M; first lra.
    by move: hq; rewrite pow2_abs [(posterior _ _).2]/=; lra.
  by have := ab (v2R A); lra.
have [fH nN _] := hf.
move=> [h1 h2 h3 h4 h5] hq.
have hH : Rabs (v2R H) <= bpow radix2 100 by case: fH => _ [->|[_ h]]; [rewrite Rabs_R0; exact: bpow_ge_0|exact: h].
have n0 : 0 < v2R N by apply: mid_gt0; case: nN.
have g1 : Rabs (gain p H N) * Rabs (v2R H) <= 1.
  have [k1 k2 k3] := @one_gain p H N p0 n0.
  have i1 : 0 <= / (/ p + v2R H ^ 2 / v2R N) / p <= 1.
    split; first by apply: Rmult_le_pos; [lra|apply/Rlt_le/Rinv_0_lt_compat].
    by apply: (Rmult_le_reg_r p) => //; rewrite /Rdiv Rmult_assoc Rinv_l; lra.
  rewrite -Rabs_mult; apply: Rabs_le; lra.
have hab := ab (v2R H); have s0 := sqrt_pos p.
split.
- exact: h1.
- exact: h2.
- have -> : mu = m + (mu - m) by ring.
  by apply: Rle_trans (Rabs_triang _ _) _; lra.
- apply: Rle_trans (_ : bpow radix2 240 + bpow radix2 200 <= _).
    have : Rabs (v2R H) * sqrt p <= bpow radix2 200.
      rewrite -[(200)%Z]/(100 + 100)%Z bpow_plus; apply: Rmult_le_compat => //; [exact: Rabs_pos|lra].
    lra.
  apply: Rle_trans (_ : 2 * bpow radix2 240 <= _); last by rewrite -bp; apply: bpow_le.
  by have : bpow radix2 200 <= bpow radix2 240 by [apply: bpow_le]; lra.
- apply: Rle_trans (_ : Rabs (gain p H N) * (Rabs (v2R z) + (Rabs (v2R H * m) + offsize u b) + Rabs (v2R H) * sqrt p) <= _).
    by apply: Rmult_le_compat_l; [exact: Rabs_pos|lra].
  rewrite Rmult_plus_distr_l -Rmult_assoc.
  by have := Rmult_le_compat_r _ _ _ s0 g1; lra.
Qed.
Lemma exact_calm c M lo rho fs k m p s E : is_finite (k_var s) = true -> is_finite (k_mu s) = true -> mid p ->
  approx k p (v2R (k_var s)) -> Rabs (v2R (k_mu s) - m) <= sqrt p * E -> calm_exact c M lo (m, p) fs -> 0 < lo ->
  bpow radix2 (-500) <= M <= bpow radix2 100 -> p <= M ^ 2 -> INR (k + kroundings c (size fs)) * uu <= / 200 ->
  (2 * INR (k + kroundings c (size fs)) + 20) * uu * (2 * M) <= rho -> E + INR (size fs) * (rho / lo) <= 1 ->
  calm_run c (2 * M) lo p s fs.
Proof.
move=> + + + + + + l0 hM; have M0 : 0 < M by apply: Rlt_le_trans (proj1 hM); exact: bpow_gt_0.
have hM2 : bpow radix2 (-500) <= 2 * M <= bpow radix2 200.
  split; first lra.
  apply: Rle_trans (_ : 2 * bpow radix2 100 <= _); first lra.
  by rewrite -bp; apply: bpow_le.
elim: fs k m p s E => [|f fs ih] k m p s E fv fm hp ha hE hr hpM hk hrho hE1; first exact: I.
have hu := uu_lt.
have hn (a b : nat) : (a <= b)%N -> INR a <= INR b by move/leP => h; exact: le_INR.
have ek : (k + kroundings c (size (f :: fs)))%N = (k + (9 * c + 3) + kroundings c (size fs))%N.
  by rewrite /kroundings /= mulSn addnA.
rewrite ek in hk hrho; rewrite [size _]/= S_INR in hE1.
case: hr; rewrite [(m, p).2]/= [(m, p).1]/= => hf hc [hm' [hl hh]] hr.
have h1 : INR k <= INR (k + (9 * c + 3) + kroundings c (size fs)) by apply: hn; rewrite -addnA leq_addr.
have h2 : INR (k + (9 * c + 3)) <= INR (k + (9 * c + 3) + kroundings c (size fs)) by apply: hn; rewrite leq_addr.
have b1 : INR k * uu <= / 200 by apply: Rle_trans hk; apply: Rmult_le_compat_r => //; lra.
have b2 : INR (k + (9 * c + 3)) * uu <= / 200 by apply: Rle_trans hk; apply: Rmult_le_compat_r => //; lra.
have r1 : (2 * INR k + 20) * uu * (2 * M) <= rho.
  by apply: Rle_trans hrho; apply: Rmult_le_compat_r; [lra|apply: Rmult_le_compat_r; lra].
have r0 : 0 <= rho.
  by apply: Rle_trans r1; apply: Rmult_le_pos; [apply: Rmult_le_pos; [have := pos_INR k|]; lra|lra].
have q0 : 0 <= rho / lo by apply: Rmult_le_pos => //; apply/Rlt_le/Rinv_0_lt_compat.
have q1 : 0 <= INR (size fs) * (rho / lo) by apply: Rmult_le_pos => //; exact: pos_INR.
have E1 : E <= 1 by lra.
have hd : Rabs (v2R (k_mu s) - m) <= sqrt p by have := Rmult_le_compat_l _ _ _ (sqrt_pos p) E1; lra.
have hcal := calm_near hp hf hc hd (conj M0 (proj2 hM)) hpM hh.
have [fm' hE'] := l_step_mean fv fm hp ha hE hf hcal hl l0 hM2 b1 r1.
have hm2 := hm'; rewrite (post2 m s) in hm2.
have [fv' ha'] := k_step_ok fv hp ha (lfair_upd s hf) hm2 b2; rewrite -(post2 m s) in ha'.
have e2 : (posterior (v2R (k_mu s), p) f).2 = (posterior (m, p) f).2 by rewrite !(post2 _ s).
split; rewrite ?e2.
- exact: hf.
- exact: hcal.
- by split.
- apply: (ih _ (posterior (m, p) f).1 _ _ _ fv' fm' hm' ha' hE') hh hk hrho _.
    by move: hr; case: posterior.
  lra.
Qed.
