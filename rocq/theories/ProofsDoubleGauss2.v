(** * Rounding in the density of a two-dimensional Gaussian *)
From Coq Require Import ZArith Reals Lra Lia.
From Flocq Require Import Core.Core BinarySingleNaN Relative Plus_error.
From mathcomp Require Import all_ssreflect.
From Verif Require Import Outcome ModelDouble SpecDouble ProofsDouble PropertiesDouble ProofsDoubleHist ModelDoubleKF ProofsDoubleKF
  ModelDoubleUni ProofsDoubleUni ProofsDoubleMean ModelDoubleGauss SpecDoubleGauss ProofsDoubleGauss ModelDoubleNoise SpecDoubleNoise ProofsDoubleNoise
  PropertiesDoubleNoise ModelDoubleChol SpecDoubleChol ProofsDoubleChol ModelDoubleGauss2 SpecDoubleGauss2.
Set Implicit Arguments. Unset Strict Implicit. Unset Printing Implicit Defensive.
Local Open Scope R_scope.
(** ** Infinite inverses *)
Definition infd (s : bool) : double := B754_infinity s.
Lemma div_zero (x d : double) : is_finite x = true -> v2R x <> 0 -> is_finite d = true -> v2R d = 0 -> exists s, ddiv x d = infd s.
Proof.
move=> fx nx fd zd; have {fd zd} [s ->] : exists s, d = B754_zero s.
  case: d fd zd => [s|s||s m e h] //; first by exists s.
  by move=> _ h0; exfalso; have := eq_0_F2R _ _ _ h0; clear h0; clear h; case: s.
case: x fx nx => [sx|sx||sx m e h] // fx nx.
by eexists.
Qed.
Lemma form_inf s1 s2 s3 e1 e2 : is_finite (d2_form (Low2 (infd s1) (infd s2) (infd s3)) e1 e2) = false.
Proof. by case: s1; case: s2; case: s3; case: e1 => [[]|[]||[] m1 x1 h1]; case: e2 => [[]|[]||[] m2 x2 h2]. Qed.
Lemma uu53 : uu * bpow radix2 53 = 1. Proof. by rewrite uu_val /=; lra. Qed.
Lemma b4 : bpow radix2 4 = 16. Proof. by []. Qed.
Lemma bm23 : bpow radix2 23 = 8388608. Proof. by []. Qed.
Lemma b46 : bpow radix2 46 * uu = / 128. Proof. by rewrite uu_val /=; lra. Qed.
Local Opaque d0 d1 dprec dlit dadd dsub dmul ddiv dle dlt bpow IZR dsqrt.
Lemma neg_val x : v2R (dneg x) = - v2R x. Proof. exact: B2R_Bopp. Qed.
Lemma neg_fin x : is_finite (dneg x) = is_finite x. Proof. exact: is_finite_Bopp. Qed.
Lemma mid_rng x : mid x -> rng (-100) 100 (v2R x) /\ 0 < v2R x.
Proof.
move=> [_ h]; have b := bpow_gt_0 radix2 (-100); have h0 : 0 < v2R x by lra.
by split=> //; apply: rng_pos => //; lra.
Qed.
(** ** The determinant *)
Lemma det_ok a b c (D := det2 (v2R a) (v2R b) (v2R c)) : mid a -> mid0 b -> mid c -> 0 <= D ->
  [/\ is_finite (d2_det a b c) = true, 0 <= v2R (d2_det a b c) & Rabs (v2R (d2_det a b c) - D) <= 4 * (v2R a * v2R c) * uu].
Proof.
move=> ha [fb hb] hc hD; have [ra a0] := mid_rng ha; have [rc c0] := mid_rng hc; have hu := uu_lt; have ut := uu_tiny.
case: ha => fa _; case: hc => fc _.
have h1 := rng_mul ra rc; have h2 : rng (-200) 200 (v2R b * v2R b) by have := rng_mul hb hb.
have [|f1 e1] := mulS fa fc; first by apply: ProofsDoubleKF.rng_small h1; lia.
have [|f2 e2] := mulS fb fb; first by apply: ProofsDoubleKF.rng_small h2; lia.
have r1 : rel 1 (v2R a * v2R c) (v2R (dmul a c)) by rewrite e1; apply: rnd_relS; apply: rng_weaken h1; lia.
have r2 : rel 1 (v2R b * v2R b) (v2R (dmul b b)) by rewrite e2; apply: rnd_relS; apply: rng_weaken h2; lia.
have le12 : v2R (dmul b b) <= v2R (dmul a c) by rewrite e1 e2; apply: rnd_le; rewrite /D /det2 in hD; lra.
have b0 : 0 <= v2R b * v2R b by exact: Rle_0_sqr.
have q0 : 0 <= v2R (dmul b b) by rewrite e2; exact: rnd_ge0.
have ac0 : 0 < v2R a * v2R c by exact: Rmult_lt_0_compat.
have [d1' g1 /Rabs_le_inv k1] := rel_abs1 r1; have [d2' g2 /Rabs_le_inv k2] := rel_abs1 r2.
set P := v2R (dmul a c) in le12 g1; set Q := v2R (dmul b b) in le12 g2 q0.
have hP : Rabs (P - v2R a * v2R c) <= 101 / 100 * uu * (v2R a * v2R c).
  by rewrite g1; have -> : v2R a * v2R c * (1 + d1') - v2R a * v2R c = d1' * (v2R a * v2R c) by [ring]; apply: Rabs_le; nra.
have hQ : Rabs (Q - v2R b * v2R b) <= 101 / 100 * uu * (v2R b * v2R b).
  by rewrite g2; have -> : v2R b * v2R b * (1 + d2') - v2R b * v2R b = d2' * (v2R b * v2R b) by [ring]; apply: Rabs_le; nra.
move: hP hQ => /Rabs_le_inv hP /Rabs_le_inv hQ.
have uac : uu * (v2R a * v2R c) <= / 100 * (v2R a * v2R c) by apply: Rmult_le_compat_r; lra.
have P2 : P <= 102 / 100 * (v2R a * v2R c) by lra.
have [_ ua] := rngP a0 ra; have [_ uc] := rngP c0 rc.
have acb : v2R a * v2R c <= bpow radix2 200 by rewrite -[200%Z]/(100 + 100)%Z bpow_plus; apply: Rmult_le_compat => //; lra.
have sm : small (v2R (dmul a c) - v2R (dmul b b)).
  rewrite /small -/P -/Q Rabs_pos_eq; last lra.
  apply: Rle_trans (_ : bpow radix2 (200 + 1) <= _); last by apply: bpow_le; lia.
  by rewrite bpow_S; lra.
have [f3 h3] := sub_rel f1 f2 sm; have [_ e3] := subS f1 f2 sm.
split; first exact: f3.
  by rewrite /d2_det e3; apply: rnd_ge0; rewrite -/P -/Q; lra.
rewrite -/(d2_det a b c) -/P -/Q (Rabs_pos_eq (P - Q)) in h3; last lra.
move/Rabs_le_inv: h3 => h3.
have : uu * (P - Q) <= uu * (102 / 100 * (v2R a * v2R c)) by apply: Rmult_le_compat_l; lra.
have bac : uu * (v2R b * v2R b) <= uu * (v2R a * v2R c) by apply: Rmult_le_compat_l; [lra|rewrite /D /det2 in hD; lra].
by rewrite /D /det2 => h4; apply: Rabs_le; lra.
Qed.
(** ** The inverse *)
Lemma quot_ok x d X D k : is_finite x = true -> is_finite d = true -> v2R x = X -> rng (-100) 100 X -> bpow radix2 (-300) <= D <= bpow radix2 200 ->
  1 <= k -> k * uu <= / 16 -> Rabs (v2R d - D) <= 4 * (D * k) * uu ->
  is_finite (ddiv x d) = true /\ Rabs (v2R (ddiv x d) - X / D) <= Rabs (X / D) * (7 * k * uu).
Proof.
move=> fx fd eX rX hD k1 ku hd; have hu := uu_lt; have ut := uu_tiny; have b0 := bpow_gt_0 radix2 (-300); have D0 : 0 < D by lra.
move/Rabs_le_inv: hd => hd; set th := (v2R d - D) / D.
have eth : v2R d = D * (1 + th) by rewrite /th; field; lra.
have hth : Rabs th <= 4 * (k * uu).
  rewrite /th /Rdiv Rabs_mult (Rabs_pos_eq (/ D)); last by apply: Rlt_le; exact: Rinv_0_lt_compat.
  apply: (Rmult_le_reg_r D) => //; rewrite Rmult_assoc Rinv_l; last lra.
  by rewrite Rmult_1_r; apply: Rabs_le; lra.
move/Rabs_le_inv: (hth) => hth'; have th1 : - / 4 <= th <= / 4 by lra.
have d0' : 0 < v2R d by rewrite eth; apply: Rmult_lt_0_compat; lra.
have hdr : bpow radix2 (-301) <= v2R d <= bpow radix2 201.
  have b1 : bpow radix2 (-300) = 2 * bpow radix2 (-301) by rewrite -bpow_S.
  have b2 : bpow radix2 201 = 2 * bpow radix2 200 by rewrite -bpow_S.
  by rewrite b1 in hD b0; rewrite eth b2; split; nra.
have hi : rng (-201) 301 (/ v2R d).
  by have [i1 i2] := inv_bp hdr; apply: rng_pos; [apply: Rlt_le; exact: Rinv_0_lt_compat|split].
have hq := rng_mul rX hi; have nd : v2R d <> 0 by lra.
have [|f e] := divS fx nd; first by rewrite eX; apply: (@ProofsDoubleKF.rng_small (-301) 401) => //; lia.
split; first exact: f.
have r : rel 1 (X / v2R d) (v2R (ddiv x d)) by rewrite e eX; apply: rnd_relS; apply: rng_weaken hq; lia.
have [e1 -> he1] := rel_abs1 r; rewrite eth.
have -> : X / (D * (1 + th)) * (1 + e1) - X / D = X / D * ((e1 - th) / (1 + th)) by field; split; lra.
rewrite Rabs_mult; apply: Rmult_le_compat_l; first exact: Rabs_pos.
rewrite /Rdiv Rabs_mult (Rabs_pos_eq (/ _)); last by apply: Rlt_le; apply: Rinv_0_lt_compat; lra.
apply: (Rmult_le_reg_r (1 + th)); first lra.
rewrite Rmult_assoc Rinv_l; last lra.
have ku1 : uu <= k * uu by rewrite -[X in X <= _]Rmult_1_l; apply: Rmult_le_compat_r; lra.
rewrite Rmult_1_r; move/Rabs_le_inv: he1 => he1; apply: Rabs_le.
have h7 : 7 * k * uu * (3 / 4) <= 7 * k * uu * (1 + th) by apply: Rmult_le_compat_l; lra.
lra.
Qed.
Definition wellcond (a b c : double) (k : R) : Prop :=
  let D := det2 (v2R a) (v2R b) (v2R c) in 0 < D /\ v2R a * v2R c = D * k.
Lemma inv_ok a b c k (D := det2 (v2R a) (v2R b) (v2R c)) : mid a -> mid0 b -> mid c -> wellcond a b c k -> k * uu <= / 16 ->
  [/\ 1 <= k, bpow radix2 (-300) <= D,
   is_finite (l11 (d2_inv a b c)) = true /\ Rabs (v2R (l11 (d2_inv a b c)) - v2R c / D) <= Rabs (v2R c / D) * (7 * k * uu),
   is_finite (l21 (d2_inv a b c)) = true /\ Rabs (v2R (l21 (d2_inv a b c)) - (- v2R b) / D) <= Rabs (- v2R b / D) * (7 * k * uu) &
   is_finite (l22 (d2_inv a b c)) = true /\ Rabs (v2R (l22 (d2_inv a b c)) - v2R a / D) <= Rabs (v2R a / D) * (7 * k * uu)].
Proof.
move=> ha hb hc [D0 ek] ku; rewrite -/D in D0 ek; have [ra a0] := mid_rng ha; have [rc c0] := mid_rng hc; have hu := uu_lt.
have [fd _ ed] := det_ok ha hb hc (Rlt_le _ _ D0); rewrite -/D ek in ed.
have b0 : 0 <= v2R b * v2R b by exact: Rle_0_sqr.
have k1 : 1 <= k by apply: (Rmult_le_reg_l D) => //; rewrite -ek /D /det2; lra.
have acl : bpow radix2 (-200) <= v2R a * v2R c.
  rewrite -[(-200)%Z]/(-100 + -100)%Z bpow_plus; case: ha => _ [ha _]; case: hc => _ [hc _].
  by apply: Rmult_le_compat => //; exact: bpow_ge_0.
have acu : v2R a * v2R c <= bpow radix2 200.
  rewrite -[200%Z]/(100 + 100)%Z bpow_plus; case: ha => _ [_ ha]; case: hc => _ [_ hc].
  by apply: Rmult_le_compat => //; lra.
have Dl : bpow radix2 (-300) <= D.
  have ku2 : k <= bpow radix2 53.
    have e53 := uu53.
    have h53 := bpow_gt_0 radix2 53; have : k * uu * bpow radix2 53 <= / 16 * bpow radix2 53 by apply: Rmult_le_compat_r; lra.
    by rewrite Rmult_assoc e53; lra.
  have h : bpow radix2 (-200) <= D * bpow radix2 53.
    by apply: Rle_trans acl _; rewrite ek; apply: Rmult_le_compat_l; lra.
  apply: (Rmult_le_reg_r (bpow radix2 53)); first exact: bpow_gt_0.
  by apply: Rle_trans h; rewrite -bpow_plus; apply: bpow_le; lia.
have Du : D <= bpow radix2 200 by apply: Rle_trans acu; rewrite /D /det2; lra.
case: (ha) => fa _; case: (hc) => fc _; case: (hb) => fb rb.
have fnb : is_finite (dneg b) = true by rewrite neg_fin.
have rnb : rng (-100) 100 (- v2R b).
  by case: rb => [->|h]; [left; ring|right; rewrite Rabs_Ropp].
split=> //.
- exact: (quot_ok fc fd (erefl _) rc (conj Dl Du) k1 ku ed).
- exact: (quot_ok fnb fd (neg_val b) rnb (conj Dl Du) k1 ku ed).
- exact: (quot_ok fa fd (erefl _) ra (conj Dl Du) k1 ku ed).
Qed.
(** ** The exponent *)
Lemma dot2_abs a b v w (s := v2R a * v2R v) (t := v2R b * v2R w) : is_finite a = true -> is_finite b = true ->
  is_finite v = true -> is_finite w = true -> Rabs s <= bpow radix2 900 -> Rabs t <= bpow radix2 900 ->
  is_finite (dot2 a b v w) = true /\ Rabs (v2R (dot2 a b v w) - (s + t)) <= 21 / 10 * uu * (Rabs s + Rabs t) + 3 * ee.
Proof.
move=> fa fb fv fw hs ht; have hu := uu_lt; have ut := uu_tiny; have e0 := ee_gt0; have e1' := ee_le1.
have b9 : bpow radix2 900 <= bpow radix2 1000 by apply: bpow_le; lia.
have [|f1 e1] := @dotS a v fa fv; first by rewrite /small -/s; lra.
have [|f2 e2] := @mulS b w fb fw; first by rewrite /small -/t; lra.
have k1 := rnd_err s; have k2 := rnd_err t; rewrite -/s in e1; rewrite -/t in e2; rewrite -e1 in k1; rewrite -e2 in k2.
set P := v2R (dot1 a v) in k1; set Q := v2R (dmul b w) in k2.
have s0 := Rabs_pos s; have t0 := Rabs_pos t.
have us : uu * Rabs s <= / 100 * Rabs s by apply: Rmult_le_compat_r; lra.
have ut' : uu * Rabs t <= / 100 * Rabs t by apply: Rmult_le_compat_r; lra.
have P1 := tri P s; have Q1 := tri Q t; have PQ := Rabs_triang P Q.
have bb : 8 * bpow radix2 900 <= bpow radix2 1000.
  by have -> : 8 * bpow radix2 900 = bpow radix2 (900 + 1 + 1 + 1) by [rewrite !bpow_S; ring]; apply: bpow_le; lia.
have b1 : 1 <= bpow radix2 900 by rewrite -bp0; apply: bpow_le; lia.
have [|f3 h3] := @add_rel (dot1 a v) (dmul b w) f1 f2; first by rewrite /small -/P -/Q; lra.
rewrite -/(dot2 a b v w) -/P -/Q in f3 h3; split; first exact: f3.
have h4 : uu * Rabs (P + Q) <= uu * (101 / 100 * (Rabs s + Rabs t) + 2 * ee) by apply: Rmult_le_compat_l; lra.
have h5 : uu * ee <= / 100 * ee by apply: Rmult_le_compat_r; lra.
set y := v2R (dot2 a b v w) in h3 *.
have -> : y - (s + t) = (y - (P + Q)) + ((P - s) + (Q - t)) by ring.
have := Rabs_triang (y - (P + Q)) ((P - s) + (Q - t)); have := Rabs_triang (P - s) (Q - t) => g1 g2.
have us0 : 0 <= uu * Rabs s by apply: Rmult_le_pos; lra.
have ut0 : 0 <= uu * Rabs t by apply: Rmult_le_pos; lra.
lra.
Qed.
(** one row of the product with the inverse *)
Lemma row_ok x y e1 e2 A B h (T := Rabs A * Rabs (v2R e1) + Rabs B * Rabs (v2R e2)) : is_finite x = true -> is_finite y = true ->
  is_finite e1 = true -> is_finite e2 = true -> uu <= h <= / 1000 -> Rabs (v2R x - A) <= Rabs A * (7 * h) -> Rabs (v2R y - B) <= Rabs B * (7 * h) ->
  T <= bpow radix2 800 ->
  is_finite (dot2 x y e1 e2) = true /\ Rabs (v2R (dot2 x y e1 e2) - (A * v2R e1 + B * v2R e2)) <= 10 * h * T + 3 * ee.
Proof.
move=> fx fy f1 f2 hh hx hy hT; have hu := uu_lt; have ut := uu_tiny; have e0 := ee_gt0.
have A0 := Rabs_pos A; have B0 := Rabs_pos B; have p1 := Rabs_pos (v2R e1); have p2 := Rabs_pos (v2R e2).
have AE : 0 <= Rabs A * Rabs (v2R e1) by exact: Rmult_le_pos.
have BE : 0 <= Rabs B * Rabs (v2R e2) by exact: Rmult_le_pos.
have X1 : Rabs (v2R x) <= 101 / 100 * Rabs A by have := tri (v2R x) A; nra.
have Y1 : Rabs (v2R y) <= 101 / 100 * Rabs B by have := tri (v2R y) B; nra.
have X2 : Rabs (v2R x * v2R e1) <= 101 / 100 * (Rabs A * Rabs (v2R e1)).
  by rewrite Rabs_mult; have := Rmult_le_compat_r _ _ _ p1 X1; lra.
have Y2 : Rabs (v2R y * v2R e2) <= 101 / 100 * (Rabs B * Rabs (v2R e2)).
  by rewrite Rabs_mult; have := Rmult_le_compat_r _ _ _ p2 Y1; lra.
have b9 : 2 * bpow radix2 800 <= bpow radix2 900 by rewrite -bpow_S; apply: bpow_le; lia.
have b8 := bpow_gt_0 radix2 800; rewrite /T in hT.
have [||f h1] := dot2_abs fx fy f1 f2; [lra|lra|split; first exact: f].
have g1 : Rabs ((v2R x - A) * v2R e1) <= 7 * h * (Rabs A * Rabs (v2R e1)).
  by rewrite Rabs_mult; have := Rmult_le_compat_r _ _ _ p1 hx; lra.
have g2 : Rabs ((v2R y - B) * v2R e2) <= 7 * h * (Rabs B * Rabs (v2R e2)).
  by rewrite Rabs_mult; have := Rmult_le_compat_r _ _ _ p2 hy; lra.
set t := v2R (dot2 x y e1 e2) in h1 *.
have -> : t - (A * v2R e1 + B * v2R e2) = (t - (v2R x * v2R e1 + v2R y * v2R e2)) + ((v2R x - A) * v2R e1 + (v2R y - B) * v2R e2) by ring.
apply: Rle_trans (Rabs_triang _ _) _; have g3 := Rabs_triang ((v2R x - A) * v2R e1) ((v2R y - B) * v2R e2).
have g4 : uu * (Rabs (v2R x * v2R e1) + Rabs (v2R y * v2R e2)) <= h * (101 / 100 * T).
  apply: Rmult_le_compat; [lra| |lra|rewrite /T; lra].
  by have := Rabs_pos (v2R x * v2R e1); have := Rabs_pos (v2R y * v2R e2); lra.
have T0 : 0 <= h * T by apply: Rmult_le_pos; [lra|rewrite /T; lra].
rewrite /T in g4 T0 *; lra.
Qed.
Lemma tiny971 : 32 * (ee * bpow radix2 100) <= bpow radix2 (-900).
Proof.
rewrite /ee; have -> : 32 * (/ 2 * bpow radix2 (-1074) * bpow radix2 100) = 16 * (bpow radix2 (-1074) * bpow radix2 100) by field.
rewrite -bpow_plus -[(-1074 + 100)%Z]/(-974)%Z.
have h1 : bpow radix2 (-970) = 16 * bpow radix2 (-974) by rewrite -[(-970)%Z]/(4 + -974)%Z bpow_plus b4.
by rewrite -h1; apply: bpow_le; lia.
Qed.
Lemma form_ok i e1 e2 A B C h (S := A * (v2R e1 * v2R e1) + C * (v2R e2 * v2R e2)) :
  [/\ is_finite (l11 i) = true, is_finite (l21 i) = true & is_finite (l22 i) = true] ->
  mid0 e1 -> mid0 e2 -> uu <= h <= / 1000 ->
  0 <= A <= bpow radix2 500 -> 0 <= C <= bpow radix2 500 -> B * B <= A * C -> bpow radix2 (-200) <= A -> bpow radix2 (-200) <= C ->
  [/\ Rabs (v2R (l11 i) - A) <= Rabs A * (7 * h), Rabs (v2R (l21 i) - B) <= Rabs B * (7 * h) & Rabs (v2R (l22 i) - C) <= Rabs C * (7 * h)] ->
  is_finite (d2_form i e1 e2) = true /\
  Rabs (v2R (d2_form i e1 e2) - (A * (v2R e1 * v2R e1) + 2 * B * (v2R e1 * v2R e2) + C * (v2R e2 * v2R e2))) <= 27 * h * S.
Proof.
move=> [fx fy fz] [f1 h1] [f2 h2] hh hA hC hB lA lC [kx ky kz].
have hu := uu_lt; have ut := uu_tiny; have e0 := ee_gt0; have b1 := bpow_gt_0 radix2 100.
have up r : (r = 0 \/ bpow radix2 (-100) <= Rabs r <= bpow radix2 100) -> Rabs r <= bpow radix2 100.
  by case=> [->|[_ //]]; rewrite Rabs_R0; lra.
have u1 := up _ h1; have u2 := up _ h2.
set x1 := v2R e1 in h1 u1 S *; set x2 := v2R e2 in h2 u2 S *.
have p1 := Rabs_pos x1; have p2 := Rabs_pos x2; have B0 := Rabs_pos B.
have b5 : 1 <= bpow radix2 500 by rewrite -bp0; apply: bpow_le; lia.
have B1 : Rabs B <= bpow radix2 500.
  apply: (Rsqr_incr_0 _ _ _ B0); last lra.
  rewrite -Rsqr_abs /Rsqr; apply: Rle_trans hB _; apply: Rmult_le_compat; lra.
have big X Y U V : 0 <= X <= bpow radix2 500 -> 0 <= Y <= bpow radix2 500 -> 0 <= U <= bpow radix2 100 -> 0 <= V <= bpow radix2 100 ->
    X * U + Y * V <= bpow radix2 601.
  move=> hX hY hU hV; have e6 : bpow radix2 601 = bpow radix2 500 * bpow radix2 100 + bpow radix2 500 * bpow radix2 100.
    by rewrite -bpow_plus -[601%Z]/(600 + 1)%Z bpow_S -[(500 + 100)%Z]/600%Z; ring.
  by rewrite e6; apply: Rplus_le_compat; apply: Rmult_le_compat; lra.
have b68 : bpow radix2 601 <= bpow radix2 800 by apply: bpow_le; lia.
set T1 := Rabs A * Rabs x1 + Rabs B * Rabs x2; set T2 := Rabs B * Rabs x1 + Rabs C * Rabs x2.
have eA : Rabs A = A by apply: Rabs_pos_eq; lra.
have eC : Rabs C = C by apply: Rabs_pos_eq; lra.
have T1b : T1 <= bpow radix2 601 by rewrite /T1 eA; apply: big.
have T2b : T2 <= bpow radix2 601 by rewrite /T2 eC; apply: big.
have T10 : 0 <= T1 by apply: Rplus_le_le_0_compat; apply: Rmult_le_pos => //; exact: Rabs_pos.
have T20 : 0 <= T2 by apply: Rplus_le_le_0_compat; apply: Rmult_le_pos => //; exact: Rabs_pos.
have [|g1 k1] := row_ok fx fy f1 f2 hh kx ky; first by rewrite -/x1 -/x2 -/T1; lra.
have [|g2 k2] := row_ok fy fz f1 f2 hh ky kz; first by rewrite -/x1 -/x2 -/T2; lra.
rewrite -/x1 -/x2 -/T1 -/T2 in k1 k2.
set t1 := dot2 (l11 i) _ _ _ in g1 k1; set t2 := dot2 (l21 i) _ _ _ in g2 k2.
set q1 := A * x1 + B * x2 in k1; set q2 := B * x1 + C * x2 in k2.
have q1b : Rabs q1 <= T1 by rewrite /T1 -!Rabs_mult; exact: Rabs_triang.
have q2b : Rabs q2 <= T2 by rewrite /T2 -!Rabs_mult; exact: Rabs_triang.
have hT1 : h * T1 <= / 1000 * T1 by apply: Rmult_le_compat_r; lra.
have hT2 : h * T2 <= / 1000 * T2 by apply: Rmult_le_compat_r; lra.
have ee1 := ee_le1.
have t1b : Rabs (v2R t1) <= 101 / 100 * T1 + 3 * ee by have := tri (v2R t1) q1; lra.
have t2b : Rabs (v2R t2) <= 101 / 100 * T2 + 3 * ee by have := tri (v2R t2) q2; lra.
have fin X Y : Rabs X <= bpow radix2 100 -> Rabs Y <= bpow radix2 601 * 2 -> Rabs (X * Y) <= bpow radix2 900.
  move=> hX hY; rewrite Rabs_mult; apply: Rle_trans (_ : bpow radix2 100 * bpow radix2 602 <= _); last by rewrite -bpow_plus; apply: bpow_le; lia.
  apply: Rmult_le_compat => //; try exact: Rabs_pos.
  by rewrite -[602%Z]/(601 + 1)%Z bpow_S; lra.
have b601 : 1 <= bpow radix2 601 by rewrite -bp0; apply: bpow_le; lia.
have [||g3 k3] := @dot2_abs e1 e2 t1 t2 f1 f2 g1 g2; [by apply: fin => //; lra|by apply: fin => //; lra|].
rewrite -/x1 -/x2 in k3; have eF : dot2 e1 e2 t1 t2 = d2_form i e1 e2 by [].
rewrite eF in g3 k3; split; first exact: g3.
set F := v2R (d2_form i e1 e2) in k3 *.
have eq : A * (x1 * x1) + 2 * B * (x1 * x2) + C * (x2 * x2) = x1 * q1 + x2 * q2 by rewrite /q1 /q2; ring.
rewrite eq; have h0 : 0 <= h by lra.
have s1 : Rabs x1 * Rabs x1 = x1 * x1 by rewrite -Rabs_mult Rabs_pos_eq //; exact: Rle_0_sqr.
have s2 : Rabs x2 * Rabs x2 = x2 * x2 by rewrite -Rabs_mult Rabs_pos_eq //; exact: Rle_0_sqr.
set N := Rabs x1 * T1 + Rabs x2 * T2.
have amgm : 2 * Rabs B * (Rabs x1 * Rabs x2) <= S.
  apply: (Rsqr_incr_0 (2 * Rabs B * (Rabs x1 * Rabs x2)) S).
  - rewrite /Rsqr.
    have -> : 2 * Rabs B * (Rabs x1 * Rabs x2) * (2 * Rabs B * (Rabs x1 * Rabs x2)) = 4 * (Rabs B * Rabs B) * ((x1 * x1) * (x2 * x2)) by rewrite -s1 -s2; ring.
    have -> : Rabs B * Rabs B = B * B by rewrite -Rabs_mult Rabs_pos_eq //; exact: Rle_0_sqr.
    have w0 : 0 <= (x1 * x1) * (x2 * x2) by apply: Rmult_le_pos; exact: Rle_0_sqr.
    have : B * B * ((x1 * x1) * (x2 * x2)) <= A * C * ((x1 * x1) * (x2 * x2)) by apply: Rmult_le_compat_r.
    have := Rle_0_sqr (A * (x1 * x1) - C * (x2 * x2)); rewrite /Rsqr /S; lra.
  - by apply: Rmult_le_pos; [lra|exact: Rmult_le_pos].
  - by apply: Rplus_le_le_0_compat; apply: Rmult_le_pos; try lra; exact: Rle_0_sqr.
have NS : N <= 2 * S.
  have -> : N = A * (Rabs x1 * Rabs x1) + 2 * Rabs B * (Rabs x1 * Rabs x2) + C * (Rabs x2 * Rabs x2) by rewrite /N /T1 /T2 eA eC; ring.
  by rewrite s1 s2; move: amgm; rewrite /S; lra.
have N0 : 0 <= N by apply: Rplus_le_le_0_compat; exact: Rmult_le_pos.
case: (Rle_lt_dec S 0) => hS.
  have a0 : 0 < A by have := bpow_gt_0 radix2 (-200); lra.
  have c0 : 0 < C by have := bpow_gt_0 radix2 (-200); lra.
  have z1 : x1 * x1 = 0 by have := Rle_0_sqr x1; have := Rle_0_sqr x2; rewrite /Rsqr /S in hS * => w2 w1; nra.
  have z2 : x2 * x2 = 0 by have := Rle_0_sqr x1; have := Rle_0_sqr x2; rewrite /Rsqr /S in hS * => w2 w1; nra.
  have y1 : x1 = 0 by case: (Rmult_integral _ _ z1).
  have y2 : x2 = 0 by case: (Rmult_integral _ _ z2).
  have -> : F = 0.
    rewrite /F -eF /dot2 -/(dot1 e1 t1).
    have s0 : small 0 by rewrite /small Rabs_R0; exact: bpow_ge_0.
    have [|m1 n1] := @dotS e1 t1 f1 g1; first by rewrite -/x1 y1 Rmult_0_l.
    have [|m2 n2] := @mulS e2 t2 f2 g2; first by rewrite -/x2 y2 Rmult_0_l.
    rewrite -/x1 y1 Rmult_0_l round_0 in n1; rewrite -/x2 y2 Rmult_0_l round_0 in n2.
    have [|_ ->] := addS m1 m2; first by rewrite n1 n2 Rplus_0_r.
    by rewrite n1 n2 Rplus_0_r round_0.
  by rewrite y1 y2 /S y1 y2 !Rmult_0_l !Rmult_0_r Rplus_0_r Rminus_0_r Rabs_R0 Rmult_0_r; lra.
have Slow : bpow radix2 (-400) <= S.
  have sq r : bpow radix2 (-100) <= Rabs r -> bpow radix2 (-200) <= r * r.
    move=> hr; have -> : r * r = Rabs r * Rabs r by rewrite -Rabs_mult Rabs_pos_eq //; exact: Rle_0_sqr.
    rewrite -[(-200)%Z]/(-100 + -100)%Z bpow_plus; apply: Rmult_le_compat => //; exact: bpow_ge_0.
  have lo X r : bpow radix2 (-200) <= X -> bpow radix2 (-100) <= Rabs r -> bpow radix2 (-400) <= X * (r * r).
    move=> hX hr; rewrite -[(-400)%Z]/(-200 + -200)%Z bpow_plus; apply: Rmult_le_compat; try exact: bpow_ge_0; [exact: hX|exact: sq].
  have n1 : 0 <= A * (x1 * x1) by apply: Rmult_le_pos; [lra|exact: Rle_0_sqr].
  have n2 : 0 <= C * (x2 * x2) by apply: Rmult_le_pos; [lra|exact: Rle_0_sqr].
  case: h1 => [y1|[l1 _]]; last by have := lo _ _ lA l1; rewrite /S; lra.
  case: h2 => [y2|[l2 _]]; last by have := lo _ _ lC l2; rewrite /S; lra.
  by exfalso; move: hS; rewrite /S y1 y2 !Rmult_0_l !Rmult_0_r; lra.
have W : 32 * (ee * bpow radix2 100) <= h * S.
  apply: Rle_trans tiny971 _; apply: Rle_trans (_ : bpow radix2 (-53) * bpow radix2 (-400) <= _).
    by rewrite -bpow_plus; apply: bpow_le; lia.
  apply: Rmult_le_compat; try exact: bpow_ge_0; last exact: Slow.
  apply: Rle_trans (proj1 hh); right; apply: (Rmult_eq_reg_r (bpow radix2 53)); last by have := bpow_gt_0 radix2 53; lra.
  by rewrite uu53 -bpow_plus bp0.
have one1 : 1 <= bpow radix2 100 by rewrite -bp0; apply: bpow_le; lia.
have eb : ee <= ee * bpow radix2 100 by rewrite -[X in X <= _]Rmult_1_r; apply: Rmult_le_compat_l; lra.
have ex1 : ee * Rabs x1 <= ee * bpow radix2 100 by apply: Rmult_le_compat_l; lra.
have ex2 : ee * Rabs x2 <= ee * bpow radix2 100 by apply: Rmult_le_compat_l; lra.
have m1 : Rabs (x1 * (v2R t1 - q1)) <= 10 * h * (Rabs x1 * T1) + 3 * (ee * Rabs x1).
  by rewrite Rabs_mult; have := Rmult_le_compat_l _ _ _ p1 k1; lra.
have m2 : Rabs (x2 * (v2R t2 - q2)) <= 10 * h * (Rabs x2 * T2) + 3 * (ee * Rabs x2).
  by rewrite Rabs_mult; have := Rmult_le_compat_l _ _ _ p2 k2; lra.
have m3 : Rabs (x1 * v2R t1) <= 101 / 100 * (Rabs x1 * T1) + 3 * (ee * Rabs x1).
  by rewrite Rabs_mult; have := Rmult_le_compat_l _ _ _ p1 t1b; lra.
have m4 : Rabs (x2 * v2R t2) <= 101 / 100 * (Rabs x2 * T2) + 3 * (ee * Rabs x2).
  by rewrite Rabs_mult; have := Rmult_le_compat_l _ _ _ p2 t2b; lra.
have m5 : uu * (Rabs (x1 * v2R t1) + Rabs (x2 * v2R t2)) <= h * (101 / 100 * N + 6 * (ee * bpow radix2 100)).
  apply: Rmult_le_compat; [lra| |lra|rewrite /N; lra].
  by have := Rabs_pos (x1 * v2R t1); have := Rabs_pos (x2 * v2R t2); lra.
have m6 : h * (ee * bpow radix2 100) <= 1 * (ee * bpow radix2 100) by apply: Rmult_le_compat_r; lra.
have hN : h * N <= h * (2 * S) by apply: Rmult_le_compat_l.
have hN0 : 0 <= h * N by apply: Rmult_le_pos.
have -> : F - (x1 * q1 + x2 * q2) = (F - (x1 * v2R t1 + x2 * v2R t2)) + (x1 * (v2R t1 - q1) + x2 * (v2R t2 - q2)) by ring.
apply: Rle_trans (Rabs_triang _ _) _; have tr := Rabs_triang (x1 * (v2R t1 - q1)) (x2 * (v2R t2 - q2)).
have m7 : 10 * h * (Rabs x1 * T1) + 10 * h * (Rabs x2 * T2) = 10 * (h * N) by rewrite /N; ring.
lra.
Qed.
