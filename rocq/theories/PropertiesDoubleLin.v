(** * The estimate of the linear Kalman filter with one state in doubles (C106) *)
From Coq Require Import ZArith Reals Lra Lia.
From Flocq Require Import Core.Core BinarySingleNaN.
From mathcomp Require Import all_ssreflect.
From Verif Require Import Outcome ModelDouble SpecDouble SpecDoubleHist ProofsDouble PropertiesDouble ProofsDoubleHist.
From Verif Require Import ModelDoubleKF SpecDoubleKF ProofsDoubleKF PropertiesDoubleKF ModelDoubleLin SpecDoubleLin ProofsDoubleLin.
Set Implicit Arguments. Unset Strict Implicit. Unset Printing Implicit Defensive.
Local Open Scope R_scope.
Local Opaque d0 d1 dprec dlit dadd dsub dmul ddiv dle dlt bpow IZR.

(** ** C106: over any run the computed mean differs from the exact posterior mean by at most
    [n (2 k + 20) 2^-53 M / lo] exact standard deviations *)
Theorem C106_mean c M lo s fs : is_finite (k_mu s) = true -> is_finite (k_var s) = true -> mid (v2R (k_var s)) ->
  bpow radix2 (-500) <= M <= bpow radix2 200 -> 0 < lo -> calm_run c M lo (v2R (k_var s)) s fs ->
  (Z.of_nat (kroundings c (size fs)) <= 2 ^ 45)%Z ->
  let s' := l_run s fs in let q := posterior_run (v2R (k_mu s), v2R (k_var s)) fs in
  is_finite (k_mu s') = true /\
  Rabs (v2R (k_mu s') - q.1) <=
    sqrt q.2 * (INR (size fs) * ((2 * INR (kroundings c (size fs)) + 20) * / IZR (2 ^ 53) * M / lo)).
Proof.
move=> fm fv hm hM l0 hr hk s' q; have hb := budget hk.
have h0 := ap_refl (Rlt_le _ _ (mid_gt0 hm)).
have hE : Rabs (v2R (k_mu s) - v2R (k_mu s)) <= sqrt (v2R (k_var s)) * 0 by rewrite Rminus_eq_0 Rabs_R0 Rmult_0_r; lra.
have := @l_run_ok c M lo _ fs 0%N _ _ s 0 fv fm hm h0 hE hr l0 hM; rewrite add0n => hrun.
have [f h] := hrun _ hb (Rle_refl _).
split; first exact: f.
by rewrite Rplus_0_l uu_val in h; exact: h.
Qed.
(** the same for runs that are calm at the exact means *)
Theorem C106_exact c M lo s fs : is_finite (k_mu s) = true -> is_finite (k_var s) = true -> mid (v2R (k_var s)) ->
  bpow radix2 (-500) <= M <= bpow radix2 100 -> 0 < lo -> v2R (k_var s) <= M ^ 2 ->
  calm_exact c M lo (v2R (k_mu s), v2R (k_var s)) fs ->
  (Z.of_nat (kroundings c (size fs)) <= 2 ^ 45)%Z ->
  let s' := l_run s fs in let q := posterior_run (v2R (k_mu s), v2R (k_var s)) fs in
  let E := INR (size fs) * ((2 * INR (kroundings c (size fs)) + 20) * / IZR (2 ^ 53) * (2 * M) / lo) in
  E <= 1 -> is_finite (k_mu s') = true /\ Rabs (v2R (k_mu s') - q.1) <= sqrt q.2 * E.
Proof.
move=> fm fv hm hM l0 hp hr hk s' q E hE1; have hb := budget hk.
have h0 := ap_refl (Rlt_le _ _ (mid_gt0 hm)).
have hE : Rabs (v2R (k_mu s) - v2R (k_mu s)) <= sqrt (v2R (k_var s)) * 0 by rewrite Rminus_eq_0 Rabs_R0 Rmult_0_r; lra.
have := @exact_calm c M lo _ fs 0%N _ _ s 0 fv fm hm h0 hE hr l0 hM hp; rewrite add0n => hx.
have hc := hx _ hb (Rle_refl _); rewrite Rplus_0_l uu_val in hc.
apply: C106_mean => //; last exact: hc.
split; first by have := bpow_gt_0 radix2 (-500); lra.
apply: Rle_trans (_ : 2 * bpow radix2 100 <= _); first lra.
by rewrite -bp; apply: bpow_le.
Qed.
(** the variance of the same run: C92 applies, the exact variance is the same *)
Lemma calm_fair c M lo p s fs : calm_run c M lo p s fs ->
  exists ks, [/\ size ks = size fs, k_run s ks = l_run s fs, fair_run c p ks & forall m, variance_run p ks = (posterior_run (m, p) fs).2].
Proof.
elim: fs p s => [|f fs ih] p s; first by exists [::].
move=> [hf _ [hm _] hr]; rewrite (post2 _ s) in hm hr; have [ks [h1 h2 h3 h4]] := ih _ _ hr.
exists (l_upd s f :: ks); split.
- by rewrite /= h1.
- exact: h2.
- by split=> //; apply: lfair_upd.
- move=> m; have -> : posterior_run (m, p) (f :: fs) = posterior_run ((posterior (m, p) f).1, variance p (l_upd s f)) fs.
    by rewrite -(post2 m s) /posterior_run /=; congr foldl; case: posterior.
  by rewrite -h4.
Qed.
Theorem C106_variance c M lo s fs : is_finite (k_var s) = true -> mid (v2R (k_var s)) -> calm_run c M lo (v2R (k_var s)) s fs ->
  (Z.of_nat (kroundings c (size fs)) <= 2 ^ 45)%Z ->
  let s' := l_run s fs in let q := posterior_run (v2R (k_mu s), v2R (k_var s)) fs in
  [/\ is_finite (k_var s') = true, 0 < v2R (k_var s') & Rabs (v2R (k_var s') - q.2) <= q.2 * relative (kroundings c (size fs))].
Proof.
move=> fv hm hr hk s' q; have [ks [h1 h2 h3 h4]] := calm_fair hr.
rewrite /s' /q -h2 -h4 -h1; apply: C92_variance => //.
by rewrite h1.
Qed.
(** a thousand updates, measurements at most a hundred times as precise as the prediction *)
Theorem C106_thousand M lo s fs : is_finite (k_mu s) = true -> is_finite (k_var s) = true -> mid (v2R (k_var s)) ->
  bpow radix2 (-500) <= M <= bpow radix2 200 -> 0 < lo -> calm_run 100 M lo (v2R (k_var s)) s fs ->
  (size fs <= 1000)%N ->
  let s' := l_run s fs in let q := posterior_run (v2R (k_mu s), v2R (k_var s)) fs in
  Rabs (v2R (k_mu s') - q.1) <= sqrt q.2 * (M / lo / 4000000).
Proof.
move=> fm fv hm hM l0 hr hn s' q.
have M0 : 0 < M by apply: Rlt_le_trans (proj1 hM); exact: bpow_gt_0.
have hs : (Z.of_nat (size fs) <= 1000)%Z by move/leP: hn; lia.
have hz : (Z.of_nat (kroundings 100 (size fs)) <= 903000)%Z.
  by rewrite /kroundings -[(9 * 100 + 3)%N]/903%N -multE; lia.
have [|_ h] := C106_mean fm fv hm hM l0 hr; first by apply: Z.le_trans hz _; exact/Z.leb_le.
apply: Rle_trans h _; apply: Rmult_le_compat_l; first exact: sqrt_pos.
have k1 : INR (kroundings 100 (size fs)) <= 903000 by rewrite INR_IZR_INZ; exact: IZR_le.
have n1 : INR (size fs) <= 1000 by rewrite INR_IZR_INZ; exact: IZR_le.
have k0 := pos_INR (kroundings 100 (size fs)); have n0 := pos_INR (size fs).
have w0 : 0 < M / lo by apply: Rdiv_lt_0_compat.
have -> : M / lo / 4000000 = / 4000000 * (M / lo) by rewrite {1}/Rdiv Rmult_comm.
have -> : INR (size fs) * ((2 * INR (kroundings 100 (size fs)) + 20) * / IZR (2 ^ 53) * M / lo) = INR (size fs) * (2 * INR (kroundings 100 (size fs)) + 20) * / IZR (2 ^ 53) * (M / lo) by rewrite /Rdiv; ring.
apply: Rmult_le_compat_r; first lra.
apply: Rle_trans (_ : 1000 * 1806020 * / IZR (2 ^ 53) <= _); last by rewrite /=; lra.
apply: Rmult_le_compat_r; first by apply/Rlt_le/Rinv_0_lt_compat; exact: IZR_lt.
by apply: Rmult_le_compat; lra.
Qed.

(** ** The hypotheses are met: a measurement of 2 with noise 1 at estimate 1, then a motion by 1 *)
Definition dtwo : double := dadd d1 d1.
Example C106_case : let s := DKF d1 d1 in let fs := [:: LMeas dtwo d1 None d0 d1; LSys d1 (Some (d1, d1)) d0 d1] in
  [/\ calm_run 1 8 (/ 2) (v2R (k_var s)) s fs, bpow radix2 (-500) <= 8 <= bpow radix2 200,
    mid (v2R (k_var s)) & posterior_run (v2R (k_mu s), v2R (k_var s)) fs = (5 / 2, 3 / 2)].
Proof.
have f1 : is_finite d1 = true by vm_compute.
have f0 : is_finite d0 = true by vm_compute.
have [f2 e2] : is_finite dtwo = true /\ v2R dtwo = 2.
  have [|f ->] := @v2R_SF dtwo false 4503599627370496 (-51); first by vm_compute.
  by split; [exact: f|rewrite /F2R bpow_powerRZ /=; field].
have m1 : mid (v2R d1) by apply: mid1; rewrite v2R1; lra.
have a1 : factor d1.
  split; first exact: f1.
  by right; rewrite v2R1 Rabs_R1; split; [rewrite -[1]/(bpow radix2 0)|rewrite -[X in X <= _]/(bpow radix2 0)]; apply: bpow_le; lia.
move=> s fs.
set s1 := l_step s (LMeas dtwo d1 None d0 d1).
have e3 : v2R (k_mu s1) = 3 / 2.
  have [|f ->] := @v2R_SF (k_mu s1) false 6755399441055744 (-52); first by vm_compute.
  by rewrite /F2R bpow_powerRZ /=; field.
have v1 m : (posterior (m, 1) (LMeas dtwo d1 None d0 d1)).2 = / 2 by rewrite [_.2]/= v2R1; field.
have v2 m : (posterior (m, / 2) (LSys d1 (Some (d1, d1)) d0 d1)).2 = 3 / 2 by rewrite [_.2]/= v2R1; field.
have b3 : 8 = bpow radix2 3 by rewrite bpow_powerRZ /=; ring.
have A1 : Rabs 1 = 1 by rewrite Rabs_R1.
have A2 : Rabs 2 = 2 by rewrite Rabs_pos_eq; lra.
have A3 : Rabs (3 / 2) = 3 / 2 by rewrite Rabs_pos_eq; lra.
split.
- rewrite [k_var s]/= v2R1; split; rewrite -?/(l_step _ _) -?/s1 ?v1.
  + by split; [exact: a1|split; [exact: f1|exact: m1]|rewrite v2R1 /=; lra].
  + rewrite /calm [k_mu s]/= e2 v2R1 /offsize v2R0 Rmult_1_l Rabs_R0 A1 A2 !Rplus_0_r; split.
    * exact: f2.
    * by split; [exact: f0|exact: I].
    * lra.
    * by apply: Rle_trans (_ : 8 <= _); [lra|rewrite b3; apply: bpow_le; lia].
    * rewrite /gain v2R1; have -> : 1 * 1 / (1 ^ 2 * 1 + 1) = / 2 by field.
      by rewrite Rabs_pos_eq; lra.
  + by split; [apply: mid1; lra|lra].
  + split.
    * by split; [exact: a1|left; split; [exact: f1|exact: m1]].
    * split; first by split; [exact: f0|split; exact: f1].
      rewrite e3 v2R1 /offsize v2R0 !v2R1 !Rmult_1_l Rabs_R0 Rabs_R1 A3; lra.
    * by rewrite v2; split; [apply: mid1; lra|lra].
    * exact: I.
- by rewrite b3; split; apply: bpow_le; lia.
- exact: m1.
- rewrite /posterior_run [foldl _ _ _]/= /offset e2 v2R1 v2R0.
  by congr (_, _); field.
Qed.

(** and those of [C106_exact] *)
Example C106_exact_case : let s := DKF d1 d1 in let fs := [:: LMeas dtwo d1 None d0 d1; LSys d1 (Some (d1, d1)) d0 d1] in
  [/\ calm_exact 1 8 (/ 2) (v2R (k_mu s), v2R (k_var s)) fs, bpow radix2 (-500) <= 8 <= bpow radix2 100, v2R (k_var s) <= 8 ^ 2
    & INR (size fs) * ((2 * INR (kroundings 1 (size fs)) + 20) * / IZR (2 ^ 53) * (2 * 8) / / 2) <= 1].
Proof.
have f1 : is_finite d1 = true by vm_compute.
have f0 : is_finite d0 = true by vm_compute.
have [f2 e2] : is_finite dtwo = true /\ v2R dtwo = 2.
  have [|f ->] := @v2R_SF dtwo false 4503599627370496 (-51); first by vm_compute.
  by split; [exact: f|rewrite /F2R bpow_powerRZ /=; field].
have m1 : mid (v2R d1) by apply: mid1; rewrite v2R1; lra.
have a1 : factor d1.
  split; first exact: f1.
  by right; rewrite v2R1 Rabs_R1; split; [rewrite -[1]/(bpow radix2 0)|rewrite -[X in X <= _]/(bpow radix2 0)]; apply: bpow_le; lia.
move=> s fs.
have e3 : (posterior (1, 1) (LMeas dtwo d1 None d0 d1)).1 = 3 / 2 by rewrite [_.1]/= /offset e2 v2R1 v2R0; field.
have v1 m : (posterior (m, 1) (LMeas dtwo d1 None d0 d1)).2 = / 2 by rewrite [_.2]/= v2R1; field.
have v2 m : (posterior (m, / 2) (LSys d1 (Some (d1, d1)) d0 d1)).2 = 3 / 2 by rewrite [_.2]/= v2R1; field.
have b3 : 8 = bpow radix2 3 by rewrite bpow_powerRZ /=; ring.
have A1 : Rabs 1 = 1 by rewrite Rabs_R1.
have A2 : Rabs 2 = 2 by rewrite Rabs_pos_eq; lra.
have A3 : Rabs (3 / 2) = 3 / 2 by rewrite Rabs_pos_eq; lra.
split.
- rewrite [k_var s]/= [k_mu s]/= v2R1; split; rewrite ?v1 -?[(1, 1).1]/(1 : R) -?[(1, 1).2]/(1 : R).
  + by split; [exact: a1|split; [exact: f1|exact: m1]|rewrite v2R1 /=; lra].
  + rewrite /calm e2 v2R1 /offsize v2R0 Rmult_1_l Rabs_R0 A1 A2 !Rplus_0_r; split.
    * exact: f2.
    * by split; [exact: f0|exact: I].
    * lra.
    * by apply: Rle_trans (_ : 8 <= _); [lra|rewrite b3; apply: bpow_le; lia].
    * rewrite /gain v2R1; have -> : 1 * 1 / (1 ^ 2 * 1 + 1) = / 2 by field.
      by rewrite Rabs_pos_eq; lra.
  + by split; [apply: mid1; lra|lra].
  + have -> : posterior (1, 1) (LMeas dtwo d1 None d0 d1) = (3 / 2, / 2) by rewrite -e3 -(v1 1); case: posterior.
    split.
    * by split; [exact: a1|left; split; [exact: f1|exact: m1]].
    * split; first by split; [exact: f0|split; exact: f1].
      rewrite [(_, _).1]/= v2R1 /offsize v2R0 !v2R1 !Rmult_1_l Rabs_R0 Rabs_R1 A3; lra.
    * by rewrite v2; split; [apply: mid1; lra|lra].
    * exact: I.
- by rewrite b3; split; apply: bpow_le; lia.
- by rewrite [k_var s]/= v2R1; lra.
- have -> : INR (kroundings 1 (size fs)) = 24 by rewrite INR_IZR_INZ.
  by rewrite [INR _]/= {1}/Rdiv Rinv_inv /=; lra.
Qed.

Print Assumptions C106_mean.
Print Assumptions C106_exact.
Print Assumptions C106_variance.
Print Assumptions C106_thousand.
