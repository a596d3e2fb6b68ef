(** * Rounding in the samples of a one-dimensional Gaussian *)
From Coq Require Import ZArith Reals Lra Lia.
From Flocq Require Import Core.Core BinarySingleNaN Relative Plus_error.
From mathcomp Require Import all_ssreflect.
From Verif Require Import Outcome ModelDouble SpecDouble ProofsDouble PropertiesDouble ProofsDoubleHist ModelDoubleKF ProofsDoubleKF
  ModelDoubleUni ProofsDoubleUni ModelDoubleGauss SpecDoubleGauss ProofsDoubleGauss ModelDoubleNoise SpecDoubleNoise.
Set Implicit Arguments. Unset Strict Implicit. Unset Printing Implicit Defensive.
Local Open Scope R_scope.
Lemma u_ro53 : u_ro radix2 53 = uu. Proof. by []. Qed.
Lemma dot0_sq : dsqrt d0 = d0. Proof. by []. Qed.
Local Opaque d0 d1 dprec dlit dadd dsub dmul ddiv dle dlt bpow IZR dsqrt.

Lemma eps_val : is_finite deps = true /\ v2R deps = bpow radix2 (-52).
Proof. by have [f ->] := @lit_val 1 (-52) erefl ltac:(lia); split; [exact: f|ring]. Qed.
Lemma meps_val : is_finite dmeps = true /\ v2R dmeps = - bpow radix2 (-52).
Proof. by have [f ->] := @lit_val (-1) (-52) erefl ltac:(lia); split; [exact: f|ring]. Qed.
Lemma finS0 : is_finite d0 = true. Proof. by case: good0 => h _; exact: h. Qed.
(** ** The factor *)
Lemma chol_pos S : is_finite S = true -> bpow radix2 (-52) <= v2R S -> n_chol S = (true, dsqrt S).
Proof.
move=> fS hS; have [f e] := eps_val; have b0 := bpow_gt_0 radix2 (-52); rewrite /n_chol.
case: (dltP fS f) => [h|h]; first by rewrite e in h; lra.
rewrite [(false && _)%bool]/=.
case: (dltP fS finS0) => // h2; rewrite v2R0 in h2; lra.
Qed.
Lemma chol_flat S : is_finite S = true -> Rabs (v2R S) < bpow radix2 (-52) -> n_chol S = (true, d0).
Proof.
move=> fS /Rabs_lt_inv [h1 h2]; have [f e] := eps_val; have [f' e'] := meps_val; rewrite /n_chol.
case: (dltP fS f) => [_|h]; last by rewrite e in h; lra.
case: (dltP f' fS) => [_|h]; last by rewrite e' in h; lra.
rewrite [(true && _)%bool]/=; case: (dltP finS0 finS0) => [h|_]; first lra.
by rewrite dot0_sq.
Qed.
Lemma chol_neg S : is_finite S = true -> v2R S <= - bpow radix2 (-52) -> n_chol S = (false, d0).
Proof.
move=> fS hS; have [f e] := eps_val; have [f' e'] := meps_val; have b0 := bpow_gt_0 radix2 (-52); rewrite /n_chol.
case: (dltP f' fS) => [h|_]; first by rewrite e' in h; lra.
by rewrite andbF; case: (dltP fS finS0) => [_|h] //; rewrite v2R0 in h; lra.
Qed.
Lemma sqrt_rng S : bpow radix2 (-52) <= v2R S <= bpow radix2 200 -> bpow radix2 (-26) <= sqrt (v2R S) <= bpow radix2 100.
Proof. by move=> [h1 h2]; rewrite -(sqrt_bp (-26)) -(sqrt_bp 100); split; exact: sqrt_le_1_alt. Qed.
Lemma dev_rel S v : is_finite S = true -> bpow radix2 (-52) <= v2R S <= bpow radix2 200 -> modest v ->
  is_finite (dot1 (dsqrt S) v) = true /\ rel 2 (sqrt (v2R S) * v2R v) (v2R (dot1 (dsqrt S) v)).
Proof.
move=> fS hS [fv hv]; have b0 := bpow_gt_0 radix2 (-52); have s0 : 0 < v2R S by lra.
have [f e] := sqrtS fS s0; have hr := sqrt_rng hS; have b1' := bpow_gt_0 radix2 (-26).
have hn : rng (-26) 100 (sqrt (v2R S)) by apply: rng_pos => //; lra.
have r1 : rel 1 (sqrt (v2R S)) (v2R (dsqrt S)) by rewrite e; apply: rnd_relS; apply: rng_weaken hn; lia.
have hnv : rng (-200) 200 (v2R v) by [].
have [|f2 r2] := dot_rel f fv r1 (rel_refl (v2R v)) hn hnv ltac:(lia) ltac:(lia); first exact: qqk.
by split; [exact: f2|exact: r2].
Qed.
Lemma rel_abs2 r v : rel 2 r v -> Rabs (v - r) <= Rabs r * (201 / 100 * uu).
Proof.
move=> [q -> hq]; have hu := uu_lt; have ut := uu_tiny.
have e2 : INR 2 = 2 by rewrite /=; lra.
have hb : INR 2 * uu < 1 by rewrite e2; lra.
have -> : r * q - r = r * (q - 1) by ring.
rewrite Rabs_mult; apply: Rmult_le_compat_l; first exact: Rabs_pos.
apply: Rle_trans (ap_err hb hq) _; rewrite e2 Rmult_1_l.
apply: (Rmult_le_reg_r (1 - 2 * uu)); first lra.
rewrite /Rdiv Rmult_assoc Rinv_l; [nra|lra].
Qed.
Lemma add_rel x y : is_finite x = true -> is_finite y = true -> small (v2R x + v2R y) ->
  is_finite (dadd x y) = true /\ Rabs (v2R (dadd x y) - (v2R x + v2R y)) <= uu * Rabs (v2R x + v2R y).
Proof.
move=> fx fy hs; have [f e] := addS fx fy hs; split; first exact: f.
have [eps [h h']] := FLT_plus_error_N_ex radix2 (-1074) 53 (fun z => negb (Z.even z)) _ _ (fmt x) (fmt y).
rewrite e h'; have -> : (v2R x + v2R y) * (1 + eps) - (v2R x + v2R y) = eps * (v2R x + v2R y) by ring.
rewrite Rabs_mult; apply: Rmult_le_compat_r; first exact: Rabs_pos.
apply: Rle_trans h _; rewrite u_ro53; have h0 := uu_gt0.
apply: (Rmult_le_reg_r (1 + uu)); first by lra.
rewrite /Rdiv Rmult_assoc Rinv_l; [nra|lra].
Qed.
Lemma bp_tri a b : Rabs a <= bpow radix2 310 -> Rabs b <= bpow radix2 310 -> small (a + b).
Proof.
move=> ha hb; apply: Rle_trans (Rabs_triang _ _) _; apply: Rle_trans (_ : bpow radix2 (310 + 1) <= _).
  by rewrite bpow_S; lra.
by apply: bpow_le; lia.
Qed.
(** ** One sample *)
Lemma sample_ok mu S v (d := sqrt (v2R S) * v2R v) : is_finite S = true -> bpow radix2 (-52) <= v2R S <= bpow radix2 200 -> modest v ->
  is_finite mu = true -> Rabs (v2R mu) <= bpow radix2 300 ->
  [/\ (n_sample mu S v).1 = true, is_finite (n_sample mu S v).2 = true,
   v2R (n_sample mu S v).2 = rnd (v2R (dot1 (dsqrt S) v) + v2R mu) &
   Rabs (v2R (n_sample mu S v).2 - (v2R mu + d)) <= (Rabs (v2R mu + d) + 3 * Rabs d) * uu].
Proof.
move=> fS hS hv fm hm; have [f r] := dev_rel fS hS hv; have h1 := rel_abs2 r; rewrite -/d in h1.
have hu := uu_lt; have ut := uu_tiny; rewrite /n_sample chol_pos //; last by case: hS.
rewrite [(true, _).1]/= [(true, _).2]/=; set y := dot1 _ _ in f h1 *.
have d1' : Rabs d <= bpow radix2 300.
  rewrite /d Rabs_mult Rabs_pos_eq; last exact: sqrt_pos.
  apply: Rle_trans (_ : bpow radix2 100 * bpow radix2 200 <= _); last by rewrite -bpow_plus; apply: bpow_le; lia.
  apply: Rmult_le_compat; [exact: sqrt_pos|exact: Rabs_pos|by have [_ h] := sqrt_rng hS|].
  by case: hv => _ [->|[_ h]] //; rewrite Rabs_R0; exact: bpow_ge_0.
have y1 : Rabs (v2R y) <= 2 * Rabs d.
  have -> : v2R y = d + (v2R y - d) by ring.
  apply: Rle_trans (Rabs_triang _ _) _; have := Rabs_pos d; nra.
have b300 : 2 * bpow radix2 300 <= bpow radix2 310.
  by rewrite -bpow_S; apply: bpow_le; lia.
have sm : small (v2R y + v2R mu) by apply: bp_tri; have := bpow_gt_0 radix2 300; lra.
have [f2 h2] := add_rel f fm sm; have [_ e2] := addS f fm sm.
split=> //.
have -> : v2R (dadd y mu) - (v2R mu + d) = (v2R (dadd y mu) - (v2R y + v2R mu)) + (v2R y - d) by ring.
apply: Rle_trans (Rabs_triang _ _) _.
have h3 : Rabs (v2R y + v2R mu) <= Rabs (v2R mu + d) + Rabs (v2R y - d).
  by have -> : v2R y + v2R mu = (v2R mu + d) + (v2R y - d) by [ring]; exact: Rabs_triang.
have h4 : Rabs (v2R y - d) <= Rabs d * / 100 by apply: Rle_trans h1 _; apply: Rmult_le_compat_l; [exact: Rabs_pos|lra].
have := Rabs_pos d; have := Rabs_pos (v2R mu + d); nra.
Qed.
