(** * Rounding in the Cholesky factor of a 2x2 covariance *)
From Coq Require Import ZArith Reals Lra Lia.
From Flocq Require Import Core.Core BinarySingleNaN Relative Plus_error.
From mathcomp Require Import all_ssreflect.
From Verif Require Import Outcome ModelDouble SpecDouble ProofsDouble PropertiesDouble ProofsDoubleHist ModelDoubleKF ProofsDoubleKF
  ModelDoubleUni ProofsDoubleUni ModelDoubleGauss SpecDoubleGauss ProofsDoubleGauss ModelDoubleNoise SpecDoubleNoise ProofsDoubleNoise
  PropertiesDoubleNoise ModelDoubleChol SpecDoubleChol.
Set Implicit Arguments. Unset Strict Implicit. Unset Printing Implicit Defensive.
Local Open Scope R_scope.
Lemma eps_uu : bpow radix2 (-52) = 2 * uu.
Proof. by rewrite uu_val /=; lra. Qed.
Local Opaque d0 d1 dprec dlit dadd dsub dmul ddiv dle dlt bpow IZR dsqrt.

Lemma rel_abs1 r v : rel 1 r v -> exists2 e, v = r * (1 + e) & Rabs e <= 101 / 100 * uu.
Proof.
move=> [q -> hq]; have hu := uu_lt; have ut := uu_tiny; exists (q - 1); first by ring.
have e1 : INR 1 = 1 by [].
have hb : INR 1 * uu < 1 by rewrite e1; lra.
apply: Rle_trans (ap_err hb hq) _; rewrite e1 !Rmult_1_l.
apply: (Rmult_le_reg_r (1 - uu)); first lra.
rewrite /Rdiv Rmult_assoc Rinv_l; [nra|lra].
Qed.
Lemma sub_rel x y : is_finite x = true -> is_finite y = true -> small (v2R x - v2R y) ->
  is_finite (dsub x y) = true /\ Rabs (v2R (dsub x y) - (v2R x - v2R y)) <= uu * Rabs (v2R x - v2R y).
Proof.
move=> fx fy hs; have [f e] := subS fx fy hs; split; first exact: f.
have [eps [h h']] := FLT_plus_error_N_ex radix2 (-1074) 53 (fun z => negb (Z.even z)) _ _ (fmt x) (generic_format_opp _ _ _ (fmt y)).
rewrite e /Rminus h'; have -> : (v2R x + - v2R y) * (1 + eps) + - (v2R x + - v2R y) = eps * (v2R x + - v2R y) by ring.
rewrite Rabs_mult; apply: Rmult_le_compat_r; first exact: Rabs_pos.
apply: Rle_trans h _; rewrite u_ro53; have h0 := uu_gt0.
apply: (Rmult_le_reg_r (1 + uu)); first by lra.
rewrite /Rdiv Rmult_assoc Rinv_l; [nra|lra].
Qed.
(** A root squared. *)
Lemma sq_close s e : Rabs e <= 101 / 100 * uu -> 0 <= s -> Rabs (s * (1 + e) * (1 + e) - s) <= 203 / 100 * uu * s.
Proof.
move=> /Rabs_le_inv he hs; have hu := uu_lt; have ut := uu_tiny.
have -> : s * (1 + e) * (1 + e) - s = s * (e * (2 + e)) by ring.
have h : Rabs (e * (2 + e)) <= 203 / 100 * uu by apply: Rabs_le; nra.
by rewrite Rabs_mult (Rabs_pos_eq s) //; nra.
Qed.
Lemma root_ok p : is_finite p = true -> bpow radix2 (-52) <= v2R p <= bpow radix2 900 ->
  [/\ is_finite (dsqrt p) = true, rng (-27) 451 (v2R (dsqrt p)), 0 < v2R (dsqrt p) &
   Rabs (v2R (dsqrt p) * v2R (dsqrt p) - v2R p) <= 203 / 100 * uu * v2R p].
Proof.
move=> fp [h1 h2]; have b0 := bpow_gt_0 radix2 (-52); have p0 : 0 < v2R p by lra.
have [f e] := sqrtS fp p0; have b1' := bpow_gt_0 radix2 (-26).
have hr : bpow radix2 (-26) <= sqrt (v2R p) <= bpow radix2 450.
  by rewrite -(sqrt_bp (-26)) -(sqrt_bp 450); split; exact: sqrt_le_1_alt.
have hn : rng (-26) 450 (sqrt (v2R p)) by apply: rng_pos => //; lra.
have r1 : rel 1 (sqrt (v2R p)) (v2R (dsqrt p)) by rewrite e; apply: rnd_relS; apply: rng_weaken hn; lia.
have hq : / 2 <= qq ^ 1 by exact: qqk.
split=> //; first exact: rng_rel hq r1 hn.
  have [d ed /Rabs_le_inv hd] := rel_abs1 r1; have hu := uu_lt; rewrite ed; apply: Rmult_lt_0_compat; lra.
have [d ed hd] := rel_abs1 r1; rewrite ed.
have -> : sqrt (v2R p) * (1 + d) * (sqrt (v2R p) * (1 + d)) = (sqrt (v2R p) * sqrt (v2R p)) * (1 + d) * (1 + d) by ring.
by rewrite sqrt_sqrt; [apply: sq_close|]; lra.
Qed.
Lemma chol_ok p : is_finite p = true -> - bpow radix2 (-52) < v2R p -> (n_chol p).1 = true.
Proof.
move=> fp hp; case: (Rle_lt_dec (bpow radix2 (-52)) (v2R p)) => h; first by rewrite chol_pos.
by rewrite chol_flat // ; apply: Rabs_lt; lra.
Qed.
Definition off (a b : double) : double := ddiv b (dsqrt a).
Definition piv (a b c : double) : double := dsub c (dmul (off a b) (off a b)).
Definition room (c : double) : Prop := is_finite c = true /\ Rabs (v2R c) <= bpow radix2 200.
Lemma chol2_eq a b c : spread_ok a -> n_chol2 a b c =
  if (n_chol (piv a b c)).1 then (true, Low2 (dsqrt a) (off a b) (n_chol (piv a b c)).2) else (false, Low2 d0 d0 d0).
Proof.
move=> [fa [h1 h2]]; rewrite /n_chol2 chol_pos // [(true, _).1]/= [(true, _).2]/= [~~ true]/=.
have b900 : v2R a <= bpow radix2 900 by apply: Rle_trans h2 _; apply: bpow_le; lia.
have [f r p0 _] := root_ok fa (conj h1 b900); have [fe ee'] := eps_val.
have hl : bpow radix2 (-27) <= v2R (dsqrt a) by case: (rngP p0 r).
have hb : bpow radix2 (-52) < bpow radix2 (-27) by apply: bpow_lt; lia.
case: (dltP f fe) => [h|_]; first by rewrite ee' in h; lra.
by rewrite -/(off a b) -/(piv a b c); case: (n_chol (piv a b c)) => [[] x].
Qed.
(** The factor up to the last root. *)
Lemma parts a b c (l := v2R (dsqrt a)) (m := v2R (off a b)) : spread_ok a -> modest b -> room c -> exists q,
  [/\ [/\ is_finite (dsqrt a) = true, is_finite (off a b) = true & is_finite (piv a b c) = true],
      [/\ rng (-27) 451 l, 0 < l & rng (-700) 500 m],
      Rabs (l * l - v2R a) <= 203 / 100 * uu * v2R a /\ Rabs (l * m - v2R b) <= 101 / 100 * uu * Rabs (v2R b),
      0 <= q /\ Rabs (q - m * m) <= 101 / 100 * uu * (m * m) &
      Rabs (v2R (piv a b c) - (v2R c - q)) <= uu * Rabs (v2R c - q) /\ q <= bpow radix2 500].
Proof.
move=> [fa [h1 h2]] [fb hb] [fc hc]; have hu := uu_lt.
have b900 : v2R a <= bpow radix2 900 by apply: Rle_trans h2 _; apply: bpow_le; lia.
have [fl rl l0 el] := root_ok fa (conj h1 b900); rewrite -/l in rl l0 el.
have hi : rng (-451) 27 (/ l).
  have [i1 i2] := inv_bp (rngP l0 rl); apply: rng_pos; last by split.
  by apply: Rlt_le; exact: Rinv_0_lt_compat.
have hbn : rng (-200) 200 (v2R b) by [].
have hd := rng_mul hbn hi; have ln : v2R (dsqrt a) <> 0 by rewrite -/l; lra.
have [|fm em] := divS fb ln; first by apply: (@ProofsDoubleKF.rng_small (-651) 227) => //; lia.
have rm : rel 1 (v2R b * / l) m by rewrite /m em; apply: rnd_relS; apply: rng_weaken hd; lia.
have hq1 : / 2 <= qq ^ 1 by exact: qqk.
have hm : rng (-652) 228 m by have := rng_rel hq1 rm hd.
have [e em' he] := rel_abs1 rm.
have hmm : rng (-1304) 456 (m * m) by have := rng_mul hm hm.
have lo : m = 0 \/ bpow radix2 (-327) <= Rabs m.
  case: hb => [h|[hb1 _]]; first by left; rewrite em' h !Rmult_0_l.
  right; rewrite em' Rabs_mult Rabs_mult.
  have hl : l <= bpow radix2 101.
    have hr := sqrt_rng (conj h1 h2); have [f0 e0] := sqrtS fa (Rlt_le_trans _ _ _ (bpow_gt_0 radix2 (-52)) h1).
    rewrite /l e0; have h := @rnd_rel (sqrt (v2R a)).
    have r1 : rel 1 (sqrt (v2R a)) (rnd (sqrt (v2R a))).
      by apply: rnd_relS; apply: rng_pos; [exact: sqrt_pos|case: hr => x1 x2; split; [apply: Rle_trans x1|apply: Rle_trans x2 _]; apply: bpow_le; lia].
    have hn : rng (-26) 100 (sqrt (v2R a)) by apply: rng_pos => //; exact: sqrt_pos.
    have hz := rng_rel hq1 r1 hn; rewrite -e0 -/l in hz *.
    by have [_] := rngP l0 hz.
  have hli : bpow radix2 (-101) <= / l by rewrite -[(-101)%Z]/(Z.opp 101) bpow_opp; apply: Rinv_le_contravar.
  have he2 : bpow radix2 (-1) <= Rabs (1 + e).
    have b1 : bpow radix2 (-1) = / 2 by [].
    move/Rabs_le_inv: he => he; rewrite b1 Rabs_pos_eq; lra.
  have -> : bpow radix2 (-327) = bpow radix2 (-200) * bpow radix2 (-126) * bpow radix2 (-1) by rewrite -!bpow_plus.
  apply: Rmult_le_compat => //; try exact: bpow_ge_0; first by apply: Rmult_le_pos; exact: bpow_ge_0.
  apply: Rmult_le_compat => //; try exact: bpow_ge_0.
  rewrite Rabs_pos_eq; last by apply: Rlt_le; exact: Rinv_0_lt_compat.
  by apply: Rle_trans hli; apply: bpow_le; lia.
have hmm' : rng (-654) 456 (m * m).
  case: lo => [h|h]; first by left; rewrite h Rmult_0_l.
  case: hmm => [h'|[_ h']]; [by left|right; split=> //].
  rewrite Rabs_mult -[(-654)%Z]/(-327 + -327)%Z bpow_plus; apply: Rmult_le_compat => //; exact: bpow_ge_0.
have [|fq eq] := mulS fm fm; first by apply: ProofsDoubleKF.rng_small hmm'; lia.
rewrite -/(off a b) -/m in eq fq.
have rq : rel 1 (m * m) (v2R (dmul (off a b) (off a b))) by rewrite eq; apply: rnd_relS; apply: rng_weaken hmm'; lia.
have hq := rng_rel hq1 rq hmm'; have m2 := Rle_0_sqr m; rewrite /Rsqr in m2.
have [e2 eq2 he2] := rel_abs1 rq; set q := v2R (dmul _ _) in eq eq2 hq.
have q0 : 0 <= q by rewrite eq2; apply: Rmult_le_pos => //; move/Rabs_le_inv: he2; lra.
have qb : q <= bpow radix2 457.
  by case: hq => [->|[_]]; [exact: bpow_ge_0|rewrite Rabs_pos_eq].
have sm : small (v2R c - q).
  apply: Rle_trans (_ : bpow radix2 (457 + 1) <= _); last by apply: bpow_le; lia.
  have hc' : Rabs (v2R c) <= bpow radix2 457 by apply: Rle_trans hc _; apply: bpow_le; lia.
  by rewrite bpow_S; move/Rabs_le_inv: hc' => hc'; apply: Rabs_le; lra.
have [fp ep] := sub_rel fc fq sm.
exists q; split.
- by split; [exact: fl|exact: fm|exact: fp].
- by split; [exact: rl|exact: l0|apply: rng_weaken hm; lia].
- split; first exact: el.
  rewrite em'; have -> : l * (v2R b * / l * (1 + e)) - v2R b = e * v2R b by field; lra.
  by rewrite Rabs_mult; apply: Rmult_le_compat_r => //; exact: Rabs_pos.
- split=> //; rewrite eq2; have -> : m * m * (1 + e2) - m * m = e2 * (m * m) by ring.
  by rewrite Rabs_mult (Rabs_pos_eq (m * m)) //; apply: Rmult_le_compat_r.
- split; first exact: ep.
  by apply: Rle_trans qb _; apply: bpow_le; lia.
Qed.
