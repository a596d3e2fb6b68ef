(** * Rounding in the uniform pdf *)
From Coq Require Import ZArith Reals Lra Lia.
From Flocq Require Import Core.Core BinarySingleNaN Relative Plus_error Mult_error.
From mathcomp Require Import all_ssreflect.
From Verif Require Import Outcome ModelDouble SpecDouble ProofsDouble PropertiesDouble ProofsDoubleHist ProofsDoubleKF ModelDoubleUni SpecDoubleUni.
Set Implicit Arguments. Unset Strict Implicit. Unset Printing Implicit Defensive.
Local Open Scope R_scope.
Lemma tiny70 : bpow radix2 (-70) <= / 1000 * uu.
Proof. by rewrite uu_val /=; lra. Qed.
Lemma tri a b : Rabs a <= Rabs (a - b) + Rabs b.
Proof. have {1}-> : a = (a - b) + b by ring. exact: Rabs_triang. Qed.
Local Opaque d0 d1 dprec dlit dadd dsub dmul ddiv dle dlt bpow IZR.

Notation fm := (generic_format radix2 (FLT_exp (-1074) 53)).
Lemma lit_val z e : (Z.abs z < 2 ^ 53)%Z -> (-1074 <= e <= 900)%Z ->
  is_finite (dlit z e) = true /\ v2R (dlit z e) = IZR z * bpow radix2 e.
Proof.
move=> hz he; set r := IZR z * bpow radix2 e.
have g : rnd r = r by apply: round_generic; apply: generic_format_FLT; exists (Float radix2 z e) => //=; lia.
have hb : Rabs r < bpow radix2 1024.
  rewrite /r Rabs_mult (Rabs_pos_eq (bpow _ _)); last exact: bpow_ge_0.
  apply: Rlt_le_trans (_ : bpow radix2 53 * bpow radix2 e <= _).
    by apply: Rmult_lt_compat_r; [exact: bpow_gt_0|rewrite -abs_IZR -(IZR_Zpower radix2 53) //; apply: IZR_lt].
  by rewrite -bpow_plus; apply: bpow_le; lia.
have := binary_normalize_correct 53 1024 prec53 emax1024 mode_NE z e false; cbv zeta.
rewrite -/(dlit z e) -[F2R (Float radix2 z e)]/r -[round _ _ _ _]/(rnd r) g Rlt_bool_true; last exact: hb.
by case=> e1 [f1 _]; split; [exact: f1|exact: e1].
Qed.
Lemma two_val : is_finite dtwo = true /\ v2R dtwo = 2.
Proof. have [f ->] := @lit_val 2 0 erefl ltac:(lia); split; [exact: f|]. have -> : bpow radix2 0 = 1 by []. by ring. Qed.
Lemma rnd_err r : Rabs (rnd r - r) <= uu * Rabs r + ee.
Proof.
have [eps [et [h1 [h2 [_ h3]]]]] := error_N_FLT radix2 (-1074) 53 (erefl _ : (0 < 53)%Z) (fun z => negb (Z.even z)) r.
rewrite h3; have -> : r * (1 + eps) + et - r = r * eps + et by ring.
apply: Rle_trans (Rabs_triang _ _) _; rewrite Rabs_mult.
have e1 : Rabs eps <= uu by exact: h1. have e2 : Rabs et <= ee by exact: h2.
by have := Rabs_pos r; nra.
Qed.
Lemma rnd_le a b : a <= b -> rnd a <= rnd b. Proof. exact: round_le. Qed.
Lemma rnd_rel r : rng (-1022) 1000 r -> Rabs (rnd r - r) <= uu * Rabs r.
Proof.
case=> [->|[h _]]; first by rewrite round_0 Rminus_0_r Rabs_R0; lra.
have [|eps [h1 ->]] := relative_error_N_FLT_ex radix2 (-1074) 53 (erefl _ : (0 < 53)%Z) (fun z => negb (Z.even z)) r.
  exact: h.
have -> : r * (1 + eps) - r = r * eps by ring.
by rewrite Rabs_mult; have e1 : Rabs eps <= uu by [exact: h1]; have := Rabs_pos r; nra.
Qed.

(** ** Borders *)
Lemma half_val w : width_ok w -> is_finite (ddiv w dtwo) = true /\ v2R (ddiv w dtwo) = v2R w / 2.
Proof.
case=> fw [w1 w2]; have [_ e2] := two_val; have w0 : 0 < v2R w by apply: Rlt_le_trans w1; exact: bpow_gt_0.
have [||f e] := @divS w dtwo fw; rewrite ?e2; first lra.
  by apply: (@le_small _ 900) => //; rewrite Rabs_pos_eq; lra.
split; [exact: f|]; rewrite e e2; apply: round_generic.
have -> : v2R w / 2 = v2R w * bpow radix2 (-1) by rewrite /Rdiv; congr (_ * _); rewrite bpow_opp; congr (/ _).
apply: mult_bpow_exact_FLT; first exact: fmt.
have h : (-900 < mag radix2 (v2R w))%Z by apply: mag_gt_bpow; rewrite Rabs_pos_eq; [exact: w1|lra].
by lia.
Qed.
Lemma ulp_gt x : Rabs x * uu < ulp radix2 (FLT_exp (-1074) 53) x.
Proof.
have -> : uu = bpow radix2 (-53) by rewrite /uu -[(-53)%Z]/(-1 + -52)%Z bpow_plus.
exact: ulp_FLT_gt.
Qed.
Lemma gap_pos x y : fm x -> fm y -> 0 <= x -> x < y -> x * (1 + uu) <= y.
Proof.
move=> fx fy x0 h; have {}h : succ radix2 (FLT_exp (-1074) 53) x <= y by apply: succ_le_lt.
move: h; rewrite succ_eq_pos; last lra.
have := ulp_gt x; rewrite Rabs_pos_eq; last lra.
by rewrite /=; lra.
Qed.
Lemma gap x c : fm x -> fm c -> Rabs (x - c) <= 3 / 4 * uu * Rabs c -> x = c.
Proof.
have hu := uu_lt.
have pos : forall x c, fm x -> fm c -> 0 <= c -> Rabs (x - c) <= 3 / 4 * uu * c -> x = c.
  move=> {}x {}c fx fc c0 h; have {}h := Rabs_le_inv _ _ h; case: h => h1 h2.
  case: (Rtotal_order x c) => [h|[//|h]]; last by have := gap_pos fc fx c0 h; nra.
  by have x0 : 0 <= x by [nra]; have := gap_pos fx fc x0 h; nra.
move=> fx fc; case: (Rle_lt_dec 0 c) => c0; first by rewrite (Rabs_pos_eq c) //; apply: pos.
rewrite (Rabs_left c) // => h; suff : - x = - c by lra.
apply: pos.
- exact: generic_format_opp.
- exact: generic_format_opp.
- lra.
by have -> : - x - - c = - (x - c) by [ring]; rewrite Rabs_Ropp.
Qed.
(** a real number near a double rounds to it *)
Lemma rnd_stay c r : fm c -> Rabs (r - c) <= 3 / 8 * uu * Rabs c -> rnd r = c.
Proof.
move=> fc h; apply: gap; [exact: generic_format_round|exact: fc|].
have [_ hn] := @round_N_pt radix2 (FLT_exp (-1074) 53) _ (fun z => negb (Z.even z)) r.
have {}hn := hn c fc; rewrite -[Znearest _]/ZnearestE in hn.
have -> : rnd r - c = (rnd r - r) + (r - c) by ring.
apply: Rle_trans (Rabs_triang _ _) _; rewrite -(Rabs_Ropp (c - r)) Ropp_minus_distr in hn; lra.
Qed.
Lemma p900 : bpow radix2 900 <= bpow radix2 1000 / 4.
Proof. have -> : bpow radix2 1000 = 4 * bpow radix2 998 by rewrite -[1000%Z]/(2 + 998)%Z bpow_plus. by have := @bpow_le radix2 900 998 ltac:(lia); lra. Qed.
Lemma width_pos w : width_ok w -> 0 < v2R w.
Proof. by case=> _ [h _]; apply: Rlt_le_trans h; exact: bpow_gt_0. Qed.
Lemma border c w : centre_ok c -> width_ok w ->
  [/\ is_finite (b_lo c w) = true, is_finite (b_hi c w) = true, v2R (b_lo c w) = rnd (v2R c - v2R w / 2)
    & v2R (b_hi c w) = rnd (v2R c + v2R w / 2)].
Proof.
move=> [fc hc] hw; have [fh eh] := half_val hw; have w0 := width_pos hw; case: hw => _ [_ hw2]; have h9 := p900.
have {}hc := Rabs_le_inv _ _ hc; have b0 := bpow_gt_0 radix2 1000.
have [|f1 e1] := @subS c (ddiv w dtwo) fc fh; first by rewrite eh; apply: Rabs_le; lra.
have [|f2 e2] := @addS c (ddiv w dtwo) fc fh; first by rewrite eh; apply: Rabs_le; lra.
by rewrite eh in e1 e2; split; [exact: f1|exact: f2|exact: e1|exact: e2].
Qed.
Lemma border_err c w : centre_ok c -> width_ok w ->
  [/\ Rabs (v2R (b_lo c w) - (v2R c - v2R w / 2)) <= uu * Rabs (v2R c - v2R w / 2),
      Rabs (v2R (b_hi c w) - (v2R c + v2R w / 2)) <= uu * Rabs (v2R c + v2R w / 2)
    & v2R (b_lo c w) <= v2R c <= v2R (b_hi c w)].
Proof.
move=> hc hw; have [_ _ -> ->] := border hc hw; have [_ eh] := half_val hw; have w0 := width_pos hw.
rewrite -eh; have [e1 E1 h1] := minus_rel c (ddiv w dtwo); have [e2 E2 h2] := plus_rel c (ddiv w dtwo); split.
- rewrite E1; have -> : forall a, a * (1 + e1) - a = e1 * a by move=> a; ring.
  by rewrite Rabs_mult; apply: Rmult_le_compat_r; [exact: Rabs_pos|exact: h1].
- rewrite E2; have -> : forall a, a * (1 + e2) - a = e2 * a by move=> a; ring.
  by rewrite Rabs_mult; apply: Rmult_le_compat_r; [exact: Rabs_pos|exact: h2].
- by rewrite -{2 3}(rnd_id c); split; apply: rnd_le; rewrite eh; lra.
Qed.
Lemma ee_width w : width_ok w -> ee <= / 1000 * uu * v2R w.
Proof.
case=> _ [h _]; apply: Rle_trans (_ : / 1000 * uu * bpow radix2 (-900) <= _).
  have -> : ee = bpow radix2 (-175) * bpow radix2 (-900) by rewrite /ee -bpow_plus -[(-175 + -900)%Z]/(-1 + -1074)%Z bpow_plus.
  apply: Rmult_le_compat_r; first exact: bpow_ge_0.
  apply: Rle_trans (_ : bpow radix2 (-70) <= _); first exact: bpow_le.
  exact: tiny70.
by apply: Rmult_le_compat_l h; have := uu_lt; lra.
Qed.
(** ** Reading the borders back *)
Lemma abs_half c w : 0 <= w -> Rabs (c - w / 2) <= Rabs c + w / 2 /\ Rabs (c + w / 2) <= Rabs c + w / 2.
Proof. move=> h; have := Rabs_le_inv _ _ (Rle_refl (Rabs c)) => h1; split; apply: Rabs_le; lra. Qed.
Lemma border_901 c w : centre_ok c -> width_ok w ->
  Rabs (v2R (b_lo c w)) <= bpow radix2 901 /\ Rabs (v2R (b_hi c w)) <= bpow radix2 901.
Proof.
move=> hc hw; have [h1 h2 _] := border_err hc hw; have hu := uu_lt; have w0 := width_pos hw.
have [a1 a2] := @abs_half (v2R c) (v2R w) (Rlt_le _ _ w0).
case: hc hw => _ hc [_ [_ hw]]; have -> : bpow radix2 901 = 2 * bpow radix2 900 by exact: (bpow_S 900).
move: (v2R (b_lo c w)) (v2R (b_hi c w)) (bpow _ _) (Rabs (v2R c)) (Rabs_pos (v2R c)) (v2R c - v2R w / 2) (v2R c + v2R w / 2) hc hw h1 h2 a1 a2.
move=> l h B C C0 a b hc hw h1 h2 a1 a2.
have k1 : uu * Rabs a <= / 1000 * Rabs a by apply: Rmult_le_compat_r; [exact: Rabs_pos|lra].
have k2 : uu * Rabs b <= / 1000 * Rabs b by apply: Rmult_le_compat_r; [exact: Rabs_pos|lra].
have t1 := tri l a; have t2 := tri h b.
split; lra.
Qed.
Lemma small2 x y : Rabs x <= bpow radix2 901 -> Rabs y <= bpow radix2 901 -> small (x + y) /\ small (x - y).
Proof.
move=> hx hy; have e : bpow radix2 902 = 2 * bpow radix2 901 by exact: (bpow_S 901).
have h : bpow radix2 902 <= bpow radix2 1000 by exact: bpow_le.
have {}hx := Rabs_le_inv _ _ hx; have {}hy := Rabs_le_inv _ _ hy.
by split; apply: Rle_trans h; apply: Rabs_le; lra.
Qed.
Lemma err2 e a : Rabs e <= uu -> Rabs (a * (1 + e) - a) <= uu * Rabs a.
Proof. move=> h; have -> : a * (1 + e) - a = e * a by ring. by rewrite Rabs_mult; apply: Rmult_le_compat_r; [exact: Rabs_pos|exact: h]. Qed.
Theorem width_back c w : centre_ok c -> width_ok w ->
  is_finite (dsub (b_hi c w) (b_lo c w)) = true /\
  Rabs (v2R (dsub (b_hi c w) (b_lo c w)) - v2R w) <= 21 / 10 * uu * (Rabs (v2R c) + v2R w).
Proof.
move=> hc hw; have [f1 f2 _ _] := border hc hw; have [e1 e2 _] := border_err hc hw; have [b1 b2] := border_901 hc hw.
have [_ sm] := small2 b2 b1; have [f e] := subS f2 f1 sm; split; [exact: f|rewrite e {f e}].
have [d -> hd] := minus_rel (b_hi c w) (b_lo c w); have hu := uu_lt; have ht := uu_tiny; have w0 := width_pos hw.
have [a1 a2] := @abs_half (v2R c) (v2R w) (Rlt_le _ _ w0).
move: (v2R (b_lo c w)) (v2R (b_hi c w)) e1 e2 => l h e1 e2 {sm b1 b2 f1 f2 hc hw}.
move: (v2R c) (v2R w) w0 a1 a2 e1 e2 => C W w0 a1 a2 e1 e2.
have {}e1 : Rabs (l - (C - W / 2)) <= uu * (Rabs C + W / 2) by apply: Rle_trans e1 _; apply: Rmult_le_compat_l; lra.
have {}e2 : Rabs (h - (C + W / 2)) <= uu * (Rabs C + W / 2) by apply: Rle_trans e2 _; apply: Rmult_le_compat_l; lra.
have e3 := err2 (h - l) hd; have c0 := Rabs_pos C.
have e4 : Rabs (h - l - W) <= uu * (2 * Rabs C + W).
  by have := Rabs_le_inv _ _ e1; have := Rabs_le_inv _ _ e2 => k1 k2; apply: Rabs_le; lra.
have e5 := tri (h - l) W; rewrite (Rabs_pos_eq W) in e5; last lra.
have e6 : uu * Rabs (h - l) <= uu * (W + uu * (2 * Rabs C + W)) by apply: Rmult_le_compat_l; lra.
have e7 : uu * (uu * (2 * Rabs C + W)) <= uu * (/ 1000 * (2 * Rabs C + W)).
  by apply: Rmult_le_compat_l; [lra|apply: Rmult_le_compat_r; lra].
have e8 : 0 <= uu * Rabs C by apply: Rmult_le_pos; lra.
have e9 : 0 <= uu * W by apply: Rmult_le_pos; lra.
have -> : (h - l) * (1 + d) - W = ((h - l) * (1 + d) - (h - l)) + (h - l - W) by ring.
by apply: Rle_trans (Rabs_triang _ _) _; lra.
Qed.
Theorem center_back c w : centre_ok c -> width_ok w ->
  is_finite (ddiv (dadd (b_hi c w) (b_lo c w)) dtwo) = true /\
  Rabs (v2R (ddiv (dadd (b_hi c w) (b_lo c w)) dtwo) - v2R c) <= uu * (31 / 10 * Rabs (v2R c) + v2R w).
Proof.
move=> hc hw; have [f1 f2 _ _] := border hc hw; have [e1 e2 _] := border_err hc hw; have [b1 b2] := border_901 hc hw.
have [sm _] := small2 b2 b1; have [f e] := addS f2 f1 sm.
have [d E hd] := plus_rel (b_hi c w) (b_lo c w); rewrite E in e; have hu := uu_lt; have ht := uu_tiny; have w0 := width_pos hw.
have [_ et] := two_val; have e9 := ee_width hw; set s := v2R (dadd _ _) in e.
have ss : Rabs s <= bpow radix2 903.
  rewrite e; have k : Rabs (v2R (b_hi c w) + v2R (b_lo c w)) <= bpow radix2 902.
    by rewrite (bpow_S 901); apply: Rle_trans (Rabs_triang _ _) _; lra.
  rewrite (bpow_S 902); have := tri ((v2R (b_hi c w) + v2R (b_lo c w)) * (1 + d)) (v2R (b_hi c w) + v2R (b_lo c w)).
  have := err2 (v2R (b_hi c w) + v2R (b_lo c w)) hd => k1 k2.
  have k3 : uu * Rabs (v2R (b_hi c w) + v2R (b_lo c w)) <= / 1000 * Rabs (v2R (b_hi c w) + v2R (b_lo c w)).
    by apply: Rmult_le_compat_r; [exact: Rabs_pos|lra].
  have := Rabs_pos (v2R (b_hi c w) + v2R (b_lo c w)); lra.
have [||g eg] := @divS (dadd (b_hi c w) (b_lo c w)) dtwo f; rewrite ?et; first lra.
  apply: (@le_small _ 903) => //; rewrite -/s /Rdiv Rabs_mult (Rabs_pos_eq (/ 2)); last lra.
  by have := Rabs_pos s; lra.
split; [exact: g|]; rewrite eg et -/s; have := rnd_err (s / 2).
have -> : Rabs (s / 2) = Rabs s / 2 by rewrite /Rdiv Rabs_mult (Rabs_pos_eq (/ 2)); lra.
have [a1 a2] := @abs_half (v2R c) (v2R w) (Rlt_le _ _ w0).
move=> er; move: (rnd (s / 2)) er => r er; move: {ss eg g et E f f1 f2 b1 b2 sm hc hw} s e er => s e er.
move: (v2R (b_lo c w)) (v2R (b_hi c w)) e1 e2 e => l h e1 e2 e.
move: (v2R c) (v2R w) w0 a1 a2 e1 e2 e9 => C W w0 a1 a2 e1 e2 ew.
have {}e1 : Rabs (l - (C - W / 2)) <= uu * (Rabs C + W / 2) by apply: Rle_trans e1 _; apply: Rmult_le_compat_l; lra.
have {}e2 : Rabs (h - (C + W / 2)) <= uu * (Rabs C + W / 2) by apply: Rle_trans e2 _; apply: Rmult_le_compat_l; lra.
have e3 := err2 (h + l) hd; rewrite -e in e3; have c0 := Rabs_pos C.
have e4 : Rabs (h + l - 2 * C) <= uu * (2 * Rabs C + W).
  by have := Rabs_le_inv _ _ e1; have := Rabs_le_inv _ _ e2 => k1 k2; apply: Rabs_le; lra.
have e5 := tri (h + l) (2 * C); rewrite Rabs_mult (Rabs_pos_eq 2) in e5; last lra.
have e6 : uu * Rabs (h + l) <= uu * (2 * Rabs C + uu * (2 * Rabs C + W)) by apply: Rmult_le_compat_l; lra.
have e7 : uu * (uu * (2 * Rabs C + W)) <= uu * (/ 1000 * (2 * Rabs C + W)).
  by apply: Rmult_le_compat_l; [lra|apply: Rmult_le_compat_r; lra].
have e8 : 0 <= uu * Rabs C by apply: Rmult_le_pos; lra.
have e9 : 0 <= uu * W by apply: Rmult_le_pos; lra.
have s1 : Rabs (s - 2 * C) <= uu * (401 / 100 * Rabs C + 101 / 100 * W).
  have -> : s - 2 * C = (s - (h + l)) + (h + l - 2 * C) by ring.
  by apply: Rle_trans (Rabs_triang _ _) _; lra.
have s2 := tri s (2 * C); rewrite Rabs_mult (Rabs_pos_eq 2) in s2; last lra.
have s3 : uu * Rabs s <= uu * (2 * Rabs C + uu * (401 / 100 * Rabs C + 101 / 100 * W)) by apply: Rmult_le_compat_l; lra.
have s4 : uu * (uu * (401 / 100 * Rabs C + 101 / 100 * W)) <= uu * (/ 1000 * (401 / 100 * Rabs C + 101 / 100 * W)).
  by apply: Rmult_le_compat_l; [lra|apply: Rmult_le_compat_r; lra].
have -> : r - C = (r - s / 2) + (s - 2 * C) / 2 by field.
apply: Rle_trans (Rabs_triang _ _) _; rewrite [X in _ + X]Rabs_mult (Rabs_pos_eq (/ 2)); last lra.
by lra.
Qed.

(** ** One output of the generator *)
Lemma Rdiv_ge0 a b : 0 <= a -> 0 < b -> 0 <= a / b.
Proof. by move=> h h'; apply: Rmult_le_pos => //; apply: Rlt_le; exact: Rinv_0_lt_compat. Qed.
Lemma Rdiv_le1 a b : a <= b -> 0 < b -> a / b <= 1.
Proof. move=> h h'; have -> : 1 = b / b by field; lra. by apply: Rmult_le_compat_r => //; apply: Rlt_le; exact: Rinv_0_lt_compat. Qed.
Definition r_frac (k : Z) : double := ddiv (dlit k 0) (dlit 1 32).
Definition two32 : R := IZR (2 ^ 32).
Lemma two32_gt0 : 0 < two32. Proof. by apply: IZR_lt. Qed.
Lemma frac_val k : output k -> is_finite (r_frac k) = true /\ v2R (r_frac k) = IZR k / two32.
Proof.
move=> [k0 k1]; have [f1 e1] := @lit_val k 0 ltac:(lia) ltac:(lia); have [f2 e2] := @lit_val 1 32 erefl ltac:(lia).
have b0 : bpow radix2 0 = 1 by []. have b32 : bpow radix2 32 = two32 by [].
rewrite b0 Rmult_1_r in e1; rewrite b32 Rmult_1_l in e2.
have hk : 0 <= IZR k < two32 by split; [apply: IZR_le|apply: IZR_lt].
have q1 : 0 <= IZR k / two32 <= 1.
  by split; [apply: Rdiv_ge0; [lra|exact: two32_gt0]|apply: Rdiv_le1; [lra|exact: two32_gt0]].
have g : rnd (IZR k / two32) = IZR k / two32.
  apply: round_generic; apply: generic_format_FLT; exists (Float radix2 k (-32)); rewrite /F2R /=; [|lia|lia].
  by congr (_ * _).
have [||f e] := @divS (dlit k 0) (dlit 1 32) f1; rewrite ?e1 ?e2; first by have := two32_gt0; lra.
  by apply: (@le_small _ 0) => //; rewrite b0; apply: Rabs_le; lra.
by split; [exact: f|rewrite e e1 e2; exact: g].
Qed.
Section Cand.
Variables (lo hi : double) (k : Z).
Hypotheses (fl : is_finite lo = true) (fh : is_finite hi = true) (bl : Rabs (v2R lo) <= bpow radix2 901)
  (bh : Rabs (v2R hi) <= bpow radix2 901) (lh : v2R lo <= v2R hi) (ok : output k).
Let L := v2R lo.
Let H := v2R hi.
Let q := IZR k / two32.
Lemma q01 : 0 <= q <= 1 - / two32.
Proof.
case: ok => k0 k1; have t := two32_gt0; split; first by apply: Rdiv_ge0; [apply: IZR_le|exact: t].
have -> : 1 - / two32 = (two32 - 1) / two32 by field; lra.
by apply: Rmult_le_compat_r; [apply: Rlt_le; apply: Rinv_0_lt_compat|rewrite /two32 -minus_IZR; apply: IZR_le; lia].
Qed.
Lemma q1 : 0 <= q <= 1.
Proof. by have := q01; have := Rinv_0_lt_compat _ two32_gt0; lra. Qed.
Let D := dsub hi lo.
Let P := dmul (r_frac k) D.
Lemma D_val : is_finite D = true /\ v2R D = rnd (H - L).
Proof. have [_ sm] := small2 bh bl; exact: (subS fh fl sm). Qed.
Lemma D_ge0 : 0 <= v2R D.
Proof. by rewrite (proj2 D_val); apply: rnd_ge0; rewrite /H /L; lra. Qed.
Lemma D_hi : v2R D <= bpow radix2 902.
Proof.
rewrite (proj2 D_val); have -> : bpow radix2 902 = rnd (bpow radix2 902).
  by rewrite round_generic //; apply: generic_format_bpow; rewrite /FLT_exp; lia.
apply: rnd_le; rewrite (bpow_S 901); have := Rabs_le_inv _ _ bl; have := Rabs_le_inv _ _ bh; rewrite /H /L; lra.
Qed.
Lemma P_val : is_finite P = true /\ v2R P = rnd (q * v2R D).
Proof.
have [f e] := frac_val ok; have d0 := D_ge0; have d1 := D_hi; have hq := q1.
have [fD _] := D_val; have := @mulS (r_frac k) D f fD; rewrite e -/q => h; apply: h.
by apply: (@le_small _ 902) => //; apply: Rabs_le; nra.
Qed.
Lemma P_bd : 0 <= v2R P <= v2R D.
Proof.
rewrite (proj2 P_val); have d0 := D_ge0; have hq := q1; split; first by apply: rnd_ge0; nra.
by rewrite -[X in _ <= X](rnd_id D); apply: rnd_le; nra.
Qed.
Lemma cand_val : is_finite (r_cand lo hi k) = true /\ v2R (r_cand lo hi k) = rnd (v2R P + L).
Proof.
rewrite /r_cand -/(r_frac k) -/D -/P; have [fP _] := P_val; apply: addS => //; have := P_bd; have := D_hi.
have b1 : bpow radix2 903 = 2 * bpow radix2 902 by exact: (bpow_S 902).
have b2 : bpow radix2 902 = 2 * bpow radix2 901 by exact: (bpow_S 901).
have := Rabs_le_inv _ _ bl => h1 h2 h3; apply: (@le_small _ 903) => //.
by apply: Rabs_le; lra.
Qed.
Lemma cand_ge : L <= v2R (r_cand lo hi k).
Proof. by rewrite (proj2 cand_val) -[X in X <= _](rnd_id lo); apply: rnd_le; rewrite /L; have := P_bd; lra. Qed.
Lemma P_err : Rabs (v2R P - q * (H - L)) <= 201 / 100 * uu * (q * (H - L)) + ee.
Proof.
have [e E he] := minus_rel hi lo; have hq := q1; have hu := uu_lt; have ht := uu_tiny.
have := rnd_err (q * v2R D); rewrite -(proj2 P_val) {1 2}(proj2 D_val) /H /L E -/H -/L.
have d0 : 0 <= H - L by rewrite /H /L; lra.
have e1 := err2 (H - L) he; rewrite (Rabs_pos_eq (H - L)) // in e1.
set X := q * (H - L); have x0 : 0 <= X by apply: Rmult_le_pos; lra.
have -> : q * ((H - L) * (1 + e)) = X * (1 + e) by rewrite /X; ring.
have e2 := err2 X he; rewrite (Rabs_pos_eq X) // in e2 => e3.
have e4 := tri (X * (1 + e)) X; rewrite (Rabs_pos_eq X) // in e4.
have e5 : uu * Rabs (X * (1 + e)) <= uu * (X + uu * X) by apply: Rmult_le_compat_l; lra.
have e6 : uu * (uu * X) <= uu * (/ 1000 * X) by apply: Rmult_le_compat_l; [lra|apply: Rmult_le_compat_r; lra].
have e7 : 0 <= uu * X by apply: Rmult_le_pos; lra.
have -> : v2R P - X = (v2R P - X * (1 + e)) + (X * (1 + e) - X) by ring.
by apply: Rle_trans (Rabs_triang _ _) _; lra.
Qed.
Lemma cand_err : Rabs (v2R (r_cand lo hi k) - target L H k) <= 6 * uu * reach L H + 2 * ee.
Proof.
have pe := P_err; have hq := q1; have hu := uu_lt; have e0 := ee_gt0; rewrite (proj2 cand_val).
have [e E he] := plus_rel P lo; rewrite /L E -/L; rewrite /target -/two32 -/q.
set X := q * (H - L) in pe *; set M := reach L H.
have ml : Rabs L <= M by exact: Rmax_l. have mh : Rabs H <= M by exact: Rmax_r.
have m0 : 0 <= M by have := Rabs_pos L; lra.
have d0 : 0 <= H - L by rewrite /H /L; lra.
have {}ml := Rabs_le_inv _ _ ml; have {}mh := Rabs_le_inv _ _ mh.
have x0 : 0 <= X by apply: Rmult_le_pos; lra.
have x1 : X <= H - L by rewrite /X; nra.
have um : 0 <= uu * M by apply: Rmult_le_pos; lra.
have ux : uu * X <= uu * (2 * M) by apply: Rmult_le_compat_l; lra.
have ue : uu * ee <= / 1000 * ee by apply: Rmult_le_compat_r; lra.
have pe' : Rabs (v2R P - X) <= 402 / 100 * (uu * M) + ee by lra.
have s : Rabs (v2R P + L) <= M + 402 / 100 * (uu * M) + ee.
  by have := Rabs_le_inv _ _ pe' => h; apply: Rabs_le; lra.
have s' : uu * Rabs (v2R P + L) <= uu * (M + 402 / 100 * (uu * M) + ee) by apply: Rmult_le_compat_l; lra.
have uum : uu * (uu * M) <= / 1000 * (uu * M) by apply: Rmult_le_compat_r; lra.
have e1 := err2 (v2R P + L) he.
have -> : (v2R P + L) * (1 + e) - (L + X) = ((v2R P + L) * (1 + e) - (v2R P + L)) + (v2R P - X) by ring.
by apply: Rle_trans (Rabs_triang _ _) _; lra.
Qed.
End Cand.
Lemma uu50 : 8 * uu = bpow radix2 (-18) * / two32.
Proof.
have -> : uu = bpow radix2 (-53) by rewrite /uu -[(-53)%Z]/(-1 + -52)%Z bpow_plus.
have -> : / two32 = bpow radix2 (-32) by [].
rewrite -bpow_plus -[(-18 + -32)%Z]/(3 + -53)%Z bpow_plus; by have -> : bpow radix2 3 = 8 by [].
Qed.
Lemma ee_gap d : bpow radix2 (-901) <= d -> ee <= / 1000 * uu * d.
Proof.
move=> h; apply: Rle_trans (_ : / 1000 * uu * bpow radix2 (-901) <= _).
  have -> : ee = bpow radix2 (-174) * bpow radix2 (-901) by rewrite /ee -bpow_plus -[(-174 + -901)%Z]/(-1 + -1074)%Z bpow_plus.
  apply: Rmult_le_compat_r; first exact: bpow_ge_0.
  by apply: Rle_trans tiny70; exact: bpow_le.
by apply: Rmult_le_compat_l h; have := uu_lt; lra.
Qed.
Lemma cand_lt lo hi k : is_finite lo = true -> is_finite hi = true -> Rabs (v2R lo) <= bpow radix2 901 ->
  Rabs (v2R hi) <= bpow radix2 901 -> output k -> bpow radix2 (-901) <= v2R hi - v2R lo ->
  bpow radix2 (-18) * reach (v2R lo) (v2R hi) <= v2R hi - v2R lo -> v2R (r_cand lo hi k) < v2R hi.
Proof.
move=> fl fh bl bh ok h1 h2; have g0 := bpow_gt_0 radix2 (-901); have lh : v2R lo <= v2R hi by lra.
have := cand_err fl fh bl bh lh ok; have := q01 ok; have eg := ee_gap h1; have hu := uu_lt; have u5 := uu50.
move: (v2R (r_cand lo hi k)) => x; rewrite /target -/two32; set q := IZR k / two32.
move: (v2R lo) (v2R hi) h1 h2 eg lh => L H h1 h2 eg lh q1 er; set M := reach L H in h2 er.
have mL : - M <= L by have := Rabs_le_inv _ _ (Rmax_l (Rabs L) (Rabs H) : _ <= M); lra.
have mH : H <= M by have := Rabs_le_inv _ _ (Rmax_r (Rabs L) (Rabs H) : _ <= M); lra.
have {}er := Rabs_le_inv _ _ er; have t := Rinv_0_lt_compat _ two32_gt0.
have a1 : / two32 * (bpow radix2 (-18) * M) <= / two32 * (H - L) by apply: Rmult_le_compat_l; lra.
have a2 : / two32 * (bpow radix2 (-18) * M) = 8 * (uu * M).
  have -> : / two32 * (bpow radix2 (-18) * M) = (bpow radix2 (-18) * / two32) * M by ring.
  by rewrite -u5; ring.
have a3 : q * (H - L) <= (1 - / two32) * (H - L) by apply: Rmult_le_compat_r; lra.
have a4 : uu * (H - L) <= uu * (2 * M) by apply: Rmult_le_compat_l; lra.
have a5 : 0 < uu * M by apply: Rmult_lt_0_compat; lra.
lra.
Qed.
Lemma cand_half lo hi k : is_finite lo = true -> is_finite hi = true -> Rabs (v2R lo) <= bpow radix2 901 ->
  Rabs (v2R hi) <= bpow radix2 901 -> (0 <= k < 2 ^ 31)%Z -> bpow radix2 (-901) <= v2R hi - v2R lo ->
  v2R (r_cand lo hi k) < v2R hi.
Proof.
move=> fl fh bl bh hk h1; have ok : output k by rewrite /output; lia.
have g0 := bpow_gt_0 radix2 (-901); have lh : v2R lo <= v2R hi by lra.
have := P_err fl fh bl bh lh ok; have hq := q1 ok; have eg := ee_gap h1; have hu := uu_lt; have t := Rinv_0_lt_compat _ two32_gt0.
have q2 : IZR k / two32 <= / 2 - / two32.
  have -> : / 2 - / two32 = IZR (2 ^ 31 - 1) / two32.
    rewrite minus_IZR; have -> : IZR (2 ^ 31) = two32 / 2 by rewrite /two32 -[(2 ^ 32)%Z]/(2 ^ 31 * 2)%Z mult_IZR; field.
    by field; have := two32_gt0; lra.
  by apply: Rmult_le_compat_r; [lra|apply: IZR_le; lia].
rewrite (proj2 (cand_val fl fh bl bh lh ok)).
move: (v2R (dmul _ _)) => p pe; set q := IZR k / two32 in pe hq q2.
have d0 : 0 < v2R hi - v2R lo by lra.
have a1 : q * (v2R hi - v2R lo) <= (/ 2 - / two32) * (v2R hi - v2R lo) by apply: Rmult_le_compat_r; lra.
have a2 : uu * (q * (v2R hi - v2R lo)) <= uu * (/ 2 * (v2R hi - v2R lo)) by apply: Rmult_le_compat_l; [lra|apply: Rmult_le_compat_r; lra].
have a3 : 4 * uu * (v2R hi - v2R lo) <= / two32 * (v2R hi - v2R lo).
  apply: Rmult_le_compat_r; first lra.
  have := uu50; have : bpow radix2 (-18) <= 1 by apply: (@bpow_le radix2 (-18) 0).
  by move=> b1 b2; nra.
have a4 : 0 < uu * (v2R hi - v2R lo) by apply: Rmult_lt_0_compat; lra.
have {}pe := Rabs_le_inv _ _ pe.
have pp : p < (v2R hi - v2R lo) / 2 by lra.
have fp : fm (Ulp.pred radix2 (FLT_exp (-1074) 53) (v2R hi)) by apply: generic_format_pred; exact: fmt.
have lp : v2R lo <= Ulp.pred radix2 (FLT_exp (-1074) 53) (v2R hi) by apply: pred_ge_gt; [exact: fmt|exact: fmt|lra].
apply: Rle_lt_trans (_ : Ulp.pred radix2 (FLT_exp (-1074) 53) (v2R hi) < _); last first.
  case: (Req_dec (v2R hi) 0) => [->|h]; last exact: pred_lt_id.
  by rewrite pred_0 ulp_FLT_0; have := bpow_gt_0 radix2 (-1074); lra.
apply: round_N_le_midp; first exact: fp.
by rewrite succ_pred; [lra|exact: fmt].
Qed.
Lemma cand_stuck lo hi k : is_finite lo = true -> is_finite hi = true -> Rabs (v2R lo) <= bpow radix2 901 ->
  v2R lo = v2R hi -> output k -> is_finite (r_cand lo hi k) = true /\ v2R (r_cand lo hi k) = v2R hi.
Proof.
move=> fl fh bl e ok; have bh := bl; rewrite e in bh; have lh : v2R lo <= v2R hi by lra.
have [f ->] := cand_val fl fh bl bh lh ok; split; [exact: f|].
have [p1 p2] := P_bd fl fh bl bh lh ok; have [_ ed] := D_val fl fh bl bh; rewrite e Rminus_eq_0 round_0 in ed.
by rewrite ed in p2; rewrite (Rle_antisym _ _ p2 p1) Rplus_0_l e; exact: rnd_id.
Qed.

(** ** The loop *)
Definition pair_ok (b : double * double) : Prop :=
  [/\ is_finite b.1 = true, is_finite b.2 = true, Rabs (v2R b.1) <= bpow radix2 901, Rabs (v2R b.2) <= bpow radix2 901
    & v2R b.1 <= v2R b.2].
Lemma outputs_cons k ks : outputs_ok (k :: ks) -> output k /\ outputs_ok ks.
Proof. by move=> h; split; [apply: h; left|move=> j hj; apply: h; right]. Qed.
Lemma loop_some b ks x ks' : pair_ok b -> outputs_ok ks -> r_loop b.1 b.2 ks = Some (x, ks') ->
  [/\ outputs_ok ks', is_finite x = true, v2R b.1 <= v2R x < v2R b.2 &
    exists2 k, List.In k ks & Rabs (v2R x - target (v2R b.1) (v2R b.2) k) <= 6 * uu * reach (v2R b.1) (v2R b.2) + 2 * ee].
Proof.
case=> fl fh bl bh lh; elim: ks => [//|k ks IH] /outputs_cons[ok oks]; rewrite [r_loop _ _ _]/=.
have [fx _] := cand_val fl fh bl bh lh ok; case: (dltP fx fh) => hx; last first.
  by move/(IH oks) => [h1 h2 h3 [j h4 h5]]; split; [exact: h1|exact: h2|exact: h3|exists j; [right|]].
case=> <- <-; split; [exact: oks|exact: fx|split; [exact: (cand_ge fl fh bl bh lh ok)|exact: hx]|].
by exists k; [left|exact: cand_err].
Qed.
Lemma loop_first b k ks : pair_ok b -> output k -> v2R (r_cand b.1 b.2 k) < v2R b.2 -> r_loop b.1 b.2 (k :: ks) = Some (r_cand b.1 b.2 k, ks).
Proof.
move=> [fl fh bl bh lh] ok h; rewrite [r_loop _ _ _]/=; have [fx _] := cand_val fl fh bl bh lh ok.
by case: (dltP fx fh).
Qed.
Lemma loop_stuck b ks : pair_ok b -> v2R b.1 = v2R b.2 -> outputs_ok ks -> r_loop b.1 b.2 ks = None.
Proof.
move=> [fl fh bl bh lh] e; elim: ks => [//|k ks IH] /outputs_cons[ok oks]; rewrite [r_loop _ _ _]/=.
have [fx ex] := cand_stuck fl fh bl e ok; case: (dltP fx fh) => hx; last exact: IH.
by rewrite ex in hx; lra.
Qed.
Lemma loop_half b ks n : pair_ok b -> bpow radix2 (-901) <= v2R b.2 - v2R b.1 -> outputs_ok ks -> (n < count lower ks)%N ->
  exists x ks', [/\ r_loop b.1 b.2 ks = Some (x, ks'), outputs_ok ks' & (n <= count lower ks')%N].
Proof.
move=> [fl fh bl bh lh] g; elim: ks => [//|k ks IH] /outputs_cons[ok oks]; rewrite [count _ _]/= [r_loop _ _ _]/= => hn.
have [fx _] := cand_val fl fh bl bh lh ok; case: (dltP fx fh) => hx.
  by exists (r_cand b.1 b.2 k), ks; split; [exact: erefl|exact: oks|move: hn; case: (lower k)%Z => //; rewrite add0n => /ltnW].
apply: IH; first exact: oks.
move: hn; case hk: (lower k) => //; case: hx; apply: cand_half => //; move/Z.ltb_lt: hk; case: ok; lia.
Qed.
(** ** All coordinates *)
Lemma bindE A B (x : A) (f : A -> outcome B) : obind (Ok x) f = f x. Proof. reflexivity. Qed.
Definition all_ok (bs : seq (double * double)) : Prop := forall b, List.In b bs -> pair_ok b.
Lemma all_cons b bs : all_ok (b :: bs) -> pair_ok b /\ all_ok bs.
Proof. by move=> h; split; [apply: h; left|move=> c hc; apply: h; right]. Qed.
Lemma unif_ok b ks : pair_ok b -> r_unif b.1 b.2 ks = Ok (r_loop b.1 b.2 ks).
Proof. by move=> [f1 f2 _ _ h]; rewrite /r_unif; case: (dleP f1 f2). Qed.
Lemma loop_outs lo hi ks x ks' : r_loop lo hi ks = Some (x, ks') -> forall k, List.In k ks' -> List.In k ks.
Proof.
elim: ks => [//|k ks IH]; rewrite [r_loop _ _ _]/=; case: ifP => _; first by case=> _ <- j hj; right.
by move=> h j hj; right; exact: IH h j hj.
Qed.
Lemma fill_ok bs ks : all_ok bs -> exists r, r_fill bs ks = Ok r.
Proof.
elim: bs ks => [|b bs IH] ks; first by exists (Some ([::], ks)).
move=> /all_cons[hb hbs]; rewrite [r_fill _ _]/= unif_ok // bindE.
case: (r_loop _ _ _) => [[x ks1]|]; last by exists None.
have [q ->] := IH ks1 hbs; rewrite bindE; eexists; reflexivity.
Qed.
Definition good_pick (ks : seq Z) (b : double * double) (x : double) : Prop :=
  [/\ is_finite x = true, v2R b.1 <= v2R x < v2R b.2 &
    exists2 k, List.In k ks & Rabs (v2R x - target (v2R b.1) (v2R b.2) k) <= 6 * uu * reach (v2R b.1) (v2R b.2) + 2 * ee].
Lemma fill_some bs ks xs ks' : all_ok bs -> outputs_ok ks -> r_fill bs ks = Ok (Some (xs, ks')) ->
  size xs = size bs /\ forall i, (i < size bs)%N -> good_pick ks (nth (d0, d0) bs i) (nth d0 xs i).
Proof.
elim: bs ks xs ks' => [|b bs IH] ks xs ks'; first by move=> _ _ [<- _]; split.
move=> /all_cons[hb hbs] hk; rewrite [r_fill _ _]/= unif_ok // bindE.
case e: (r_loop _ _ _) => [[x ks1]|] //; have [ok1 h1 h2 h3] := loop_some hb hk e.
case e2: (r_fill bs ks1) => [[[ys ks2]|]| |] //; rewrite bindE => -[<- _].
have [s h] := IH _ _ _ hbs ok1 e2; split; first by rewrite /= s.
case=> [|i] hi; first by split; [exact: h1|exact: h2|exact: h3].
have [g1 g2 [k g3 g4]] := h i hi; split; [exact: g1|exact: g2|exists k; [exact: loop_outs e _ g3|exact: g4]].
Qed.
Lemma fill_stuck bs ks i : all_ok bs -> outputs_ok ks -> (i < size bs)%N ->
  v2R (nth (d0, d0) bs i).1 = v2R (nth (d0, d0) bs i).2 -> r_fill bs ks = Ok None.
Proof.
elim: bs ks i => [//|b bs IH] ks i /all_cons[hb hbs] hk hi e; rewrite [r_fill _ _]/= unif_ok // bindE.
case: i hi e => [|i] hi e; first by rewrite (loop_stuck hb e hk).
case e1: (r_loop _ _ _) => [[x ks1]|] //; have [ok1 _ _ _] := loop_some hb hk e1.
by rewrite (IH ks1 i hbs ok1 hi e) bindE.
Qed.
Lemma fill_half bs ks : all_ok bs -> outputs_ok ks -> (forall b, List.In b bs -> bpow radix2 (-901) <= v2R b.2 - v2R b.1) ->
  (size bs <= count lower ks)%N -> exists xs ks', r_fill bs ks = Ok (Some (xs, ks')).
Proof.
elim: bs ks => [|b bs IH] ks; first by exists [::], ks.
move=> /all_cons[hb hbs] hk hg hn; rewrite [r_fill _ _]/= unif_ok // bindE.
have gb : bpow radix2 (-901) <= v2R b.2 - v2R b.1 by apply: hg; left.
have [x [ks1 [-> ok1 n1]]] := loop_half hb gb hk hn.
have hg' : forall c, List.In c bs -> bpow radix2 (-901) <= v2R c.2 - v2R c.1 by move=> c hc; apply: hg; right.
have [xs [ks2 ->]] := IH ks1 hbs ok1 hg' n1; rewrite bindE; exists (x :: xs), ks2; reflexivity.
Qed.
Lemma fill_each bs ks : all_ok bs -> outputs_ok ks ->
  (forall b, List.In b bs -> forall k, output k -> v2R (r_cand b.1 b.2 k) < v2R b.2) -> (size bs <= size ks)%N ->
  r_fill bs ks = Ok (Some ([seq r_cand p.1.1 p.1.2 p.2 | p <- zip bs ks], drop (size bs) ks)).
Proof.
elim: bs ks => [|b bs IH] ks; first by rewrite drop0; case: ks.
move=> /all_cons[hb hbs]; case: ks => [//|k ks] /outputs_cons[ok oks] hg hn; rewrite [r_fill _ _]/= unif_ok // bindE.
rewrite (@loop_first b k ks hb ok (hg b (or_introl erefl) k ok)).
have hg' : forall c, List.In c bs -> forall k, output k -> v2R (r_cand c.1 c.2 k) < v2R c.2 by move=> c hc; apply: hg; right.
by rewrite (IH ks hbs oks hg' hn) bindE.
Qed.
(** ** Density *)
Lemma inside_yes lo hi x : size lo = size hi -> size x = size lo ->
  (forall i, (i < size x)%N -> [/\ is_finite (nth d0 lo i) = true, is_finite (nth d0 hi i) = true & is_finite (nth d0 x i) = true]) ->
  exists b : bool, n_inside lo hi x = Ok b /\
    (b = true <-> forall i, (i < size x)%N -> v2R (nth d0 lo i) <= v2R (nth d0 x i) <= v2R (nth d0 hi i)).
Proof.
elim: x lo hi => [|a x IH] [|l lo] [|h hi] //; first by exists true; split.
case=> s1 [s2] hf; rewrite [n_inside _ _ _]/=; have [fl fh fa] : [/\ is_finite l = true, is_finite h = true & is_finite a = true] by exact: (hf 0%N (ltn0Sn _)).
have hf' : forall i, (i < size x)%N -> [/\ is_finite (nth d0 lo i) = true, is_finite (nth d0 hi i) = true & is_finite (nth d0 x i) = true].
  by move=> i hi'; exact: (hf i.+1 hi').
have [b [eb hb]] := IH lo hi s1 s2 hf'.
have no : ~ (v2R l <= v2R a <= v2R h) -> exists b0 : bool, Ok false = Ok b0 /\
    (b0 = true <-> forall i, (i < size (a :: x))%N -> v2R (nth d0 (l :: lo) i) <= v2R (nth d0 (a :: x) i) <= v2R (nth d0 (h :: hi) i)).
  move=> hn; exists false; split; first reflexivity.
  by split=> [//|h']; case: hn; exact: (h' 0%N (ltn0Sn _)).
case: (dltP fh fa) => h1.
by apply: no; lra.
case: (dltP fa fl) => h2.
by apply: no; lra.
exists b; split; first exact: eb.
split=> [/(proj1 hb) h' [|i] hi'|h']; [by rewrite /=; lra|exact: h'|].
by apply/(proj2 hb) => i hi'; exact: (h' i.+1 hi').
Qed.
Lemma div_fold w k r a : is_finite a = true -> 0 < r -> approx k r (v2R a) -> INR (k + size w) * uu <= / 200 ->
  (forall i, (i < size w)%N -> 0 < v2R (nth d0 w i)) ->
  (forall j, (j <= size w)%N -> bpow radix2 (-900) <= r / volume (take j w) <= bpow radix2 900) ->
  is_finite (foldl ddiv a w) = true /\ approx (k + size w) (r / volume w) (v2R (foldl ddiv a w)).
Proof.
elim: w k r a => [|b w IH] k r a fa r0 ha hk hw hr.
  rewrite /= addn0; split; [exact: fa|]; rewrite /Rdiv Rinv_1 Rmult_1_r; exact: ha.
have b0 : 0 < v2R b by exact: (hw 0%N (ltn0Sn _)).
have [h1 h2] := hr 1%N (ltn0Sn _); rewrite [take _ _]/= take0 [volume _]/= Rmult_1_r in h1 h2.
have hq : INR k * uu <= / 200.
  apply: Rle_trans hk; apply: Rmult_le_compat_r; first by have := uu_lt; lra.
  by apply: le_INR; apply/leP; exact: leq_addr.
have q1 := half_pow hq; have rb0 : 0 < r / v2R b by apply: Rdiv_lt_0_compat.
have hab : approx k (r / v2R b) (v2R a / v2R b).
  by rewrite /Rdiv ![_ * / v2R b]Rmult_comm; apply: ap_scale ha; apply/Rlt_le/Rinv_0_lt_compat.
have rg : rng (-901) 901 (v2R a / v2R b).
  apply: (@rng_rel k (-900) 900 (r / v2R b)); [lra|exact: ap_rel|right; rewrite Rabs_pos_eq; lra].
have [f e] := @divS a b fa (Rgt_not_eq _ _ b0) (@rng_small (-901) 901 _ ltac:(lia) rg).
have ab0 : 0 < v2R a / v2R b by exact: (ap_gt0 rb0 hab).
have ap1 : approx (k + 1) (r / v2R b) (v2R (ddiv a b)).
  apply: (ap_trans hab); rewrite e; apply: rel_ap; first lra.
  by apply: rnd_relS; apply: rng_weaken rg; lia.
rewrite [foldl _ _ _]/=; have ev : forall j, r / v2R b / volume (take j w) = r / volume (take j.+1 (b :: w)).
  move=> j; rewrite [volume (take _ (_ :: _))]/= /Rdiv; case: (Req_dec (volume (take j w)) 0) => [->|h0]; last by rewrite Rinv_mult; ring.
  by rewrite Rmult_0_r Rinv_0; ring.
have [|||g1 g2] := IH (k + 1)%N (r / v2R b) (ddiv a b) f rb0 ap1.
- by rewrite -addnA add1n.
- by move=> i hi; exact: (hw i.+1 hi).
- by move=> j hj; rewrite ev; exact: (hr j.+1 hj).
split; [exact: g1|]; have := ev (size w); rewrite take_size [take _ _]/= take_size => <-.
by move: g2; rewrite -addnA add1n.
Qed.
(** ** The object *)
Definition sides (c w : seq double) : seq (double * double) := [seq (b_lo p.1 p.2, b_hi p.1 p.2) | p <- zip c w].
Lemma zip_maps (A B C : Type) (f : A -> B) (g : A -> C) l : zip (map f l) (map g l) = [seq (f x, g x) | x <- l].
Proof. by elim: l => [//|a l IH] /=; rewrite IH. Qed.
Lemma sides_size c w : size c = size w -> size (sides c w) = size c.
Proof. by move=> h; rewrite size_map size1_zip // h. Qed.
Lemma sides_nth c w i : size c = size w -> (i < size c)%N ->
  nth (d0, d0) (sides c w) i = (b_lo (nth d0 c i) (nth d0 w i), b_hi (nth d0 c i) (nth d0 w i)).
Proof.
move=> h hi; rewrite (nth_map (d0, d0)); first by rewrite nth_zip.
by rewrite size1_zip // h.
Qed.
Lemma In_nth (A : Type) (d x : A) l : List.In x l -> exists2 i, (i < size l)%N & x = nth d l i.
Proof.
elim: l => [//|a l IH] [<-|/IH[i hi ->]]; first by exists 0%N.
by exists i.+1.
Qed.
Lemma nth_In (A : Type) (d : A) l i : (i < size l)%N -> List.In (nth d l i) l.
Proof. by elim: l i => [//|a l IH] [|i] hi; [left|right; exact: IH]. Qed.
Lemma side_ok c w : centre_ok c -> width_ok w -> pair_ok (b_lo c w, b_hi c w).
Proof.
move=> hc hw; have [f1 f2 _ _] := border hc hw; have [b1 b2] := border_901 hc hw; have [_ _ h] := border_err hc hw.
by split; rewrite /=; [exact: f1|exact: f2|exact: b1|exact: b2|lra].
Qed.
Lemma sides_ok c w : box_ok c w -> all_ok (sides c w).
Proof.
move=> [hs h] b /(In_nth (d0, d0))[i]; rewrite sides_size // => hi ->; rewrite sides_nth //.
by have [h1 h2] := h i hi; exact: side_ok.
Qed.
Lemma new_sides c w d : n_new c w = Ok d -> zip (un_lo d) (un_hi d) = sides c w.
Proof. by rewrite /n_new; case: eqP => // _ [<-]; exact: zip_maps. Qed.
Lemma gap_low c w : centre_ok c -> width_ok w ->
  v2R w - uu * (2 * Rabs (v2R c) + v2R w) <= v2R (b_hi c w) - v2R (b_lo c w).
Proof.
move=> hc hw; have [e1 e2 _] := border_err hc hw; have w0 := width_pos hw; have hu := uu_lt.
have [a1 a2] := @abs_half (v2R c) (v2R w) (Rlt_le _ _ w0).
have k1 : uu * Rabs (v2R c - v2R w / 2) <= uu * (Rabs (v2R c) + v2R w / 2) by apply: Rmult_le_compat_l; lra.
have k2 : uu * Rabs (v2R c + v2R w / 2) <= uu * (Rabs (v2R c) + v2R w / 2) by apply: Rmult_le_compat_l; lra.
by have := Rabs_le_inv _ _ e1; have := Rabs_le_inv _ _ e2; lra.
Qed.
Lemma reach_hi c w : centre_ok c -> width_ok w ->
  reach (v2R (b_lo c w)) (v2R (b_hi c w)) <= (Rabs (v2R c) + v2R w / 2) * (1 + uu).
Proof.
move=> hc hw; have [e1 e2 _] := border_err hc hw; have w0 := width_pos hw; have hu := uu_lt.
have [a1 a2] := @abs_half (v2R c) (v2R w) (Rlt_le _ _ w0).
have k1 : uu * Rabs (v2R c - v2R w / 2) <= uu * (Rabs (v2R c) + v2R w / 2) by apply: Rmult_le_compat_l; lra.
have k2 : uu * Rabs (v2R c + v2R w / 2) <= uu * (Rabs (v2R c) + v2R w / 2) by apply: Rmult_le_compat_l; lra.
have t1 := tri (v2R (b_lo c w)) (v2R c - v2R w / 2); have t2 := tri (v2R (b_hi c w)) (v2R c + v2R w / 2).
by apply: Rmax_lub; lra.
Qed.
Lemma p901 : bpow radix2 (-900) = 2 * bpow radix2 (-901). Proof. exact: (bpow_S (-901)). Qed.
Lemma uu_pow n : (0 <= n)%Z -> uu * bpow radix2 n = bpow radix2 (n - 53).
Proof. move=> _; have -> : uu = bpow radix2 (-53) by rewrite /uu -[(-53)%Z]/(-1 + -52)%Z bpow_plus. by rewrite -bpow_plus; congr bpow; lia. Qed.
(** widths not below [2^-50] of the centre *)
Lemma gap_wide c w : centre_ok c -> width_ok w -> Rabs (v2R c) <= bpow radix2 50 * v2R w ->
  bpow radix2 (-901) <= v2R (b_hi c w) - v2R (b_lo c w).
Proof.
move=> hc hw h; have g := gap_low hc hw; have w0 := width_pos hw; have hu := uu_lt.
have e : uu * bpow radix2 50 = / 8 by rewrite uu_pow //.
have k : uu * Rabs (v2R c) <= / 8 * v2R w.
  by rewrite -e Rmult_assoc; apply: Rmult_le_compat_l; lra.
have k2 : uu * v2R w <= / 1000 * v2R w by apply: Rmult_le_compat_r; lra.
by case: hw => _ [hw _]; rewrite p901 in hw; lra.
Qed.
Lemma gap_16 c w : centre_ok c -> width_ok w -> Rabs (v2R c) <= bpow radix2 16 * v2R w ->
  bpow radix2 (-901) <= v2R (b_hi c w) - v2R (b_lo c w) /\
  bpow radix2 (-18) * reach (v2R (b_lo c w)) (v2R (b_hi c w)) <= v2R (b_hi c w) - v2R (b_lo c w).
Proof.
move=> hc hw h; have w0 := width_pos hw; have hu := uu_lt.
have h' : Rabs (v2R c) <= bpow radix2 50 * v2R w.
  by apply: Rle_trans h _; apply: Rmult_le_compat_r; [lra|exact: bpow_le].
split; first exact: gap_wide.
have g := gap_low hc hw; have e : uu * bpow radix2 16 <= / 1000.
  by rewrite uu_pow //; apply: Rle_trans (_ : bpow radix2 (-10) <= _); [exact: bpow_le|have -> : bpow radix2 (-10) = / 1024 by []; lra].
have k : uu * Rabs (v2R c) <= / 1000 * v2R w.
  apply: Rle_trans (_ : uu * bpow radix2 16 * v2R w <= _); last by apply: Rmult_le_compat_r; lra.
  by rewrite Rmult_assoc; apply: Rmult_le_compat_l; lra.
have k2 : uu * v2R w <= / 1000 * v2R w by apply: Rmult_le_compat_r; lra.
have r := reach_hi hc hw; set M := reach _ _ in r *.
have b18 := bpow_gt_0 radix2 (-18).
have k3 : bpow radix2 (-18) * M <= bpow radix2 (-18) * ((Rabs (v2R c) + v2R w / 2) * (1 + uu)) by apply: Rmult_le_compat_l; lra.
have k4 : (Rabs (v2R c) + v2R w / 2) * (1 + uu) <= (bpow radix2 16 * v2R w + v2R w / 2) * (1 + / 1000).
  by apply: Rmult_le_compat; have := Rabs_pos (v2R c); lra.
have k5 : bpow radix2 (-18) * ((Rabs (v2R c) + v2R w / 2) * (1 + uu)) <= bpow radix2 (-18) * ((bpow radix2 16 * v2R w + v2R w / 2) * (1 + / 1000)).
  by apply: Rmult_le_compat_l; lra.
have e2 : bpow radix2 (-18) * bpow radix2 16 = / 4 by rewrite -bpow_plus.
have e3 : bpow radix2 (-18) <= / 4 by have -> : / 4 = bpow radix2 (-2) by []; exact: bpow_le.
have e4 : bpow radix2 (-18) * v2R w <= / 4 * v2R w by apply: Rmult_le_compat_r; lra.
have e5 : bpow radix2 (-18) * ((bpow radix2 16 * v2R w + v2R w / 2) * (1 + / 1000)) =
   (bpow radix2 (-18) * bpow radix2 16 * v2R w + bpow radix2 (-18) * v2R w / 2) * (1 + / 1000) by field.
rewrite e5 e2 in k5; lra.
Qed.
(** the point of an output, from centre and width *)
Lemma point_err c w k x : centre_ok c -> width_ok w -> output k ->
  Rabs (x - target (v2R (b_lo c w)) (v2R (b_hi c w)) k) <= 6 * uu * reach (v2R (b_lo c w)) (v2R (b_hi c w)) + 2 * ee ->
  Rabs (x - (v2R c - v2R w / 2 + IZR k / two32 * v2R w)) <= 8 * uu * (Rabs (v2R c) + v2R w).
Proof.
move=> hc hw ok; have [e1 e2 _] := border_err hc hw; have w0 := width_pos hw; have hu := uu_lt; have r := reach_hi hc hw.
have [a1 a2] := @abs_half (v2R c) (v2R w) (Rlt_le _ _ w0); have ew := ee_width hw; have := q1 ok.
rewrite /target -/two32; move: (IZR k / two32) => q hq er; set M := reach _ _ in r er.
move: (v2R (b_lo c w)) (v2R (b_hi c w)) e1 e2 M r er => L H e1 e2 M r er.
have c0 := Rabs_pos (v2R c); set S := Rabs (v2R c) + v2R w / 2 in a1 a2 r; have s0 : 0 < S by rewrite /S; lra.
have k1 : uu * Rabs (v2R c - v2R w / 2) <= uu * S by apply: Rmult_le_compat_l; lra.
have k2 : uu * Rabs (v2R c + v2R w / 2) <= uu * S by apply: Rmult_le_compat_l; lra.
have us : 0 < uu * S by apply: Rmult_lt_0_compat; lra.
have k3 : uu * M <= uu * (S * (1 + uu)) by apply: Rmult_le_compat_l; lra.
have k4 : uu * (S * uu) <= / 1000 * (uu * S).
  have -> : uu * (S * uu) = uu * (uu * S) by ring. by apply: Rmult_le_compat_r; lra.
have uc : 0 <= uu * Rabs (v2R c) by apply: Rmult_le_pos; lra.
have uw : 0 <= uu * v2R w by apply: Rmult_le_pos; lra.
have es : uu * S = uu * Rabs (v2R c) + uu * v2R w / 2 by rewrite /S; field.
have d1 := Rabs_le_inv _ _ (Rle_trans _ _ _ e1 k1); have d2 := Rabs_le_inv _ _ (Rle_trans _ _ _ e2 k2).
have q1' : (1 - q) * (- (uu * S)) <= (1 - q) * (L - (v2R c - v2R w / 2)) <= (1 - q) * (uu * S) by split; apply: Rmult_le_compat_l; lra.
have q2' : q * (- (uu * S)) <= q * (H - (v2R c + v2R w / 2)) <= q * (uu * S) by split; apply: Rmult_le_compat_l; lra.
have ed : (L + q * (H - L)) - (v2R c - v2R w / 2 + q * v2R w) = (1 - q) * (L - (v2R c - v2R w / 2)) + q * (H - (v2R c + v2R w / 2)) by field.
have {}er := Rabs_le_inv _ _ er.
apply: Rabs_le; lra.
Qed.
