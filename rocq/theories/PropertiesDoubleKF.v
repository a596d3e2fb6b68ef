(** * Properties of the Kalman filter with one state in doubles (C92, C93) *)
From Coq Require Import ZArith Reals Lra Lia.
From Flocq Require Import Core.Core BinarySingleNaN.
From mathcomp Require Import all_ssreflect.
From Verif Require Import Outcome ModelDouble SpecDouble SpecDoubleHist ProofsDouble PropertiesDouble ProofsDoubleHist.
From Verif Require Import ModelDoubleKF SpecDoubleKF ProofsDoubleKF.
Set Implicit Arguments. Unset Strict Implicit. Unset Printing Implicit Defensive.
Local Open Scope R_scope.
Local Opaque d0 d1 dprec dlit dadd dsub dmul ddiv dle dlt bpow IZR.

Lemma relE k : INR k * uu < 1 -> relative k = INR k * uu / (1 - INR k * uu).
Proof.
rewrite /relative uu_val => h; have h53 : 0 < IZR (2 ^ 53) by apply: IZR_lt.
have hk : INR k < IZR (2 ^ 53).
  by have := Rmult_lt_compat_r _ _ _ h53 h; rewrite Rmult_assoc Rinv_l; lra.
by field; lra.
Qed.
Lemma budget k : (Z.of_nat k <= 2 ^ 45)%Z -> INR k * uu <= / 200.
Proof.
move=> h; have : INR k <= IZR (2 ^ 45) by rewrite INR_IZR_INZ; exact: IZR_le.
rewrite uu_val => hk; apply: Rle_trans (_ : IZR (2 ^ 45) * / IZR (2 ^ 53) <= _).
  by apply: Rmult_le_compat_r => //; apply/Rlt_le/Rinv_0_lt_compat; exact: IZR_lt.
by rewrite -[(2 ^ 53)%Z]/(2 ^ 45 * 256)%Z mult_IZR Rinv_mult -Rmult_assoc Rinv_r ?Rmult_1_l; [|have : 0 < IZR (2 ^ 45) by [exact: IZR_lt]; lra]; lra.
Qed.

(** ** C92: the variance of every run *)
Theorem C92_variance c s fs : is_finite (k_var s) = true -> mid (v2R (k_var s)) -> fair_run c (v2R (k_var s)) fs ->
  (Z.of_nat (kroundings c (size fs)) <= 2 ^ 45)%Z ->
  let s' := k_run s fs in let p := variance_run (v2R (k_var s)) fs in
  [/\ is_finite (k_var s') = true, 0 < v2R (k_var s') & Rabs (v2R (k_var s') - p) <= p * relative (kroundings c (size fs))].
Proof.
move=> f hm hr hk s' p; have hb := budget hk.
have hb' : INR (0 + kroundings c (size fs)) * uu <= / 200 by rewrite add0n.
have h0 := ap_refl (Rlt_le _ _ (mid_gt0 hm)).
have [f' [a hm']] := k_run_ok f hm h0 hr hb'; rewrite add0n -/s' -/p in f' a hm'.
have p0 := mid_gt0 hm'; split=> //; first exact: ap_gt0 a.
by rewrite relE; [apply: ap_err => //|]; lra.
Qed.
(** one measurement of any precision: error at most ten units in the last place of the
    variance before *)
Theorem C92_absolute z Z H R s : is_finite (k_var s) = true -> mid (v2R (k_var s)) -> factor H -> noise R ->
  let s' := k_meas z Z H R s in
  is_finite (k_var s') = true /\
  Rabs (v2R (k_var s') - variance (v2R (k_var s)) (KMeas z Z H R)) <= 10 * / IZR (2 ^ 53) * v2R (k_var s).
Proof.
move=> f [h1 h2] fH nR s'; rewrite -uu_val; apply: meas_abs => //; split=> //; split.
  by apply: Rle_trans h1; apply: bpow_le; lia.
by apply: Rle_trans h2 _; apply: bpow_le; lia.
Qed.
(** and of the mean *)
Theorem C92_mean z Z H R s : is_finite (k_var s) = true -> mid (v2R (k_var s)) -> factor H -> noise R ->
  usual z -> usual Z -> usual (k_mu s) ->
  let s' := k_meas z Z H R s in let step := gain (v2R (k_var s)) H R * (v2R z - v2R Z) in
  let m := v2R (k_mu s) + step in
  is_finite (k_mu s') = true /\
  Rabs (v2R (k_mu s') - m) <= / IZR (2 ^ 53) * (Rabs m + 9 * Rabs step) + bpow radix2 (-1074).
Proof.
case: s => mu P f hm fH nR [fz hz] [fZ hZ] [fm hmu]; rewrite [k_var _]/= [k_mu (DKF mu P)]/= in f hm fm hmu *.
move=> s' step m; have wP : wide P.
  case: hm => h1 h2; split=> //; split; first by apply: Rle_trans h1; apply: bpow_le; lia.
  by apply: Rle_trans h2 _; apply: bpow_le; lia.
have [f' h] := mean_step wP fH nR erefl fz fZ fm hz hZ hmu; split=> //.
by apply: Rle_trans h _; rewrite -/(gain (v2R P) H R) -/step -/m -uu_val; lra.
Qed.
(** positive variance after one measurement whose noise is not below 2^-40 of the spread it observes *)
Corollary C92_positive z Z H R s : is_finite (k_var s) = true -> mid (v2R (k_var s)) -> factor H -> noise R ->
  v2R H ^ 2 * v2R (k_var s) <= IZR (2 ^ 41) * v2R R -> mid (variance (v2R (k_var s)) (KMeas z Z H R)) ->
  0 < v2R (k_var (k_meas z Z H R s)).
Proof.
move=> f hm fH nR hc hm'.
have [c h2] : exists c, Z.of_nat c = (2 ^ 41)%Z by exists (Z.to_nat (2 ^ 41)); rewrite Z2Nat.id.
have hf : fair_run c (v2R (k_var s)) [:: KMeas z Z H R].
  by split=> //; split=> //; rewrite INR_IZR_INZ h2.
have [|_ h _] := C92_variance f hm hf; last exact: h.
have -> : Z.of_nat (kroundings c 1) = (9 * 2 ^ 41 + 3)%Z.
  by rewrite /kroundings mul1n Nat2Z.inj_add Nat2Z.inj_mul h2.
exact/Z.leb_le.
Qed.

(** ** C93: a variance of 0 *)
(** once the variance is 0 no measurement changes the state *)
Theorem C93_stuck s fs : is_finite (k_var s) = true -> v2R (k_var s) = 0 -> usual (k_mu s) ->
  (forall f, List.In f fs -> reading f) ->
  let s' := k_run s fs in [/\ is_finite (k_var s') = true, v2R (k_var s') = 0 & v2R (k_mu s') = v2R (k_mu s)].
Proof.
elim: fs s => [|f fs ih] s fv ev [fm hm] hr //=.
have := hr f (or_introl erefl); case: f hr => [J F Q|z Z H R] //= hr [[fz hz] [fZ hZ] fH [fR [R1 R2]]].
have [|||e1 e2 e3 e4] := zero_step fv ev fm _ fH fR _ fz fZ.
- by apply: le_small hm.
- by split; [apply: Rle_trans R1|apply: Rle_trans R2 _]; apply: bpow_le; lia.
- apply: (@le_small _ 301) => //; have -> : bpow radix2 301 = 2 * bpow radix2 300 by rewrite -bpow_S; congr bpow.
  by apply: Rle_trans (Rabs_triang _ _) _; rewrite Rabs_Ropp; lra.
have [||a1 a2 a3] := ih (k_meas z Z H R s) e1 e2.
- by split=> //; rewrite e4.
- by move=> g hg; apply: hr; right.
by rewrite a3 e4.
Qed.
(** a prior variance of 1 and a measurement noise of 2^-54: the variance becomes 0, although the
    exact one is positive *)
Definition tiny_noise : double := dlit 1 (-54).
Theorem C93_zero_refuted z Z mu : let s := DKF mu d1 in let s' := k_meas z Z d1 tiny_noise s in
  [/\ 0 < v2R (k_var s), 0 < v2R tiny_noise, 0 < variance (v2R (k_var s)) (KMeas z Z d1 tiny_noise),
    is_finite (k_var s') = true & v2R (k_var s') = 0].
Proof.
have e : B2SF (dsub d1 (dot1 (dot1 (k_gain d1 tiny_noise (DKF mu d1)) d1) d1)) = SpecFloat.S754_zero false by vm_compute.
have ht : v2R tiny_noise = F2R (Float radix2 (cond_Zopp false 4503599627370496) (-106)).
  by have [|_ ->] := @v2R_SF tiny_noise false 4503599627370496 (-106); first by vm_compute.
have t0 : 0 < v2R tiny_noise by rewrite ht /F2R /=; apply: Rmult_lt_0_compat; [exact: IZR_lt|exact: bpow_gt_0].
split.
- by rewrite [k_var _]/= v2R1; lra.
- exact: t0.
- rewrite /variance [k_var _]/= v2R1; apply: Rinv_0_lt_compat; have := Rinv_0_lt_compat _ t0; rewrite /Rdiv; nra.
- by rewrite [k_var _]/= -is_finite_SF_B2SF e.
- by rewrite [k_var _]/= /v2R -SF2R_B2SF e.
Qed.
(** prior variance 5, H = 7, measurement noise 2^-52: the variance becomes negative *)
Definition five : double := dlit 5 0.
Definition seven : double := dlit 7 0.
Definition small_noise : double := dlit 1 (-52).
Theorem C93_negative_refuted z Z mu : let s := DKF mu five in let s' := k_meas z Z seven small_noise s in
  [/\ 0 < v2R (k_var s), 0 < v2R small_noise, is_finite (k_var s') = true & v2R (k_var s') < 0].
Proof.
have e : B2SF (dsub five (dot1 (dot1 (k_gain seven small_noise (DKF mu five)) seven) five)) = SpecFloat.S754_finite true 4503599627370496 (-102) by vm_compute.
have [f h] := v2R_SF e.
have ht : v2R small_noise = F2R (Float radix2 (cond_Zopp false 4503599627370496) (-104)).
  by have [|_ ->] := @v2R_SF small_noise false 4503599627370496 (-104); first by vm_compute.
have h5 : v2R five = F2R (Float radix2 (cond_Zopp false 5629499534213120) (-50)).
  by have [|_ ->] := @v2R_SF five false 5629499534213120 (-50); first by vm_compute.
split.
- by rewrite [k_var _]/= h5; apply: F2R_gt_0.
- by rewrite ht; apply: F2R_gt_0.
- exact: f.
- by rewrite [k_var _]/= h; apply: F2R_lt_0.
Qed.

(** ** The hypotheses are met *)
(** one measurement of noise 1 and one step with noise 1, from variance 1 *)
Lemma mid1 r : / 2 <= r <= 2 -> mid r.
Proof.
move=> h; split; first by apply: Rle_trans (_ : bpow radix2 (-1) <= _); [apply: bpow_le; lia|rewrite bpow_powerRZ /=; lra].
by apply: Rle_trans (_ : bpow radix2 1 <= _); [rewrite bpow_powerRZ /=; lra|apply: bpow_le; lia].
Qed.
Example C92_case (mu z : double) : let s := DKF mu d1 in let fs := [:: KMeas z mu d1 d1; KSys mu d1 d1] in
  [/\ is_finite (k_var s) = true, mid (v2R (k_var s)), fair_run 1 (v2R (k_var s)) fs,
    (Z.of_nat (kroundings 1 (size fs)) <= 2 ^ 45)%Z & variance_run (v2R (k_var s)) fs = 3 / 2].
Proof.
have f1 : is_finite d1 = true by vm_compute.
have m1 : mid (v2R d1) by apply: mid1; rewrite v2R1; lra.
have a1 : factor d1.
  split; first exact: f1.
  by right; rewrite v2R1 Rabs_R1; split; [rewrite -[1]/(bpow radix2 0)|rewrite -[X in X <= _]/(bpow radix2 0)]; apply: bpow_le; lia.
have e1 : variance 1 (KMeas z mu d1 d1) = / 2 by rewrite /variance v2R1; field.
have e2 : variance (/ 2) (KSys mu d1 d1) = 3 / 2 by rewrite /variance v2R1; field.
move=> s fs; rewrite [k_var s]/=; split.
- exact: f1.
- exact: m1.
- rewrite v2R1; split; rewrite -?/(fair_run _ _ _) ?e1.
  + by split; [exact: a1|split; [exact: f1|exact: m1]|rewrite v2R1 /=; lra].
  + by apply: mid1; lra.
  + by split; [split; [exact: a1|left; split; [exact: f1|exact: m1]]|rewrite e2; apply: mid1; lra|exact: I].
- exact/Z.leb_le.
- by rewrite v2R1 -[variance_run _ _]/(variance (variance 1 (KMeas z mu d1 d1)) (KSys mu d1 d1)) e1 e2.
Qed.
(** the filter with variance 0 meets the hypotheses of [C93_stuck] and misses a measurement of 5 *)
Example C93_case : let s := DKF d0 d0 in let f := KMeas five d0 d1 d1 in
  [/\ is_finite (k_var s) = true, v2R (k_var s) = 0, usual (k_mu s) & reading f] /\ v2R (k_mu (k_run s [:: f])) = 0.
Proof.
have f1 : is_finite d1 = true by vm_compute.
have f0 : is_finite d0 = true by vm_compute.
have f5 : is_finite five = true by vm_compute.
have h5 : v2R five = F2R (Float radix2 (cond_Zopp false 5629499534213120) (-50)).
  by have [|_ ->] := @v2R_SF five false 5629499534213120 (-50); first by vm_compute.
have u0 : usual d0 by split; [exact: f0|rewrite v2R0 Rabs_R0; exact: bpow_ge_0].
have u5 : usual five.
  split; first exact: f5.
  have -> : v2R five = 5 by rewrite h5 /F2R bpow_powerRZ /=; field.
  rewrite Rabs_pos_eq; last lra.
  by apply: Rle_trans (_ : bpow radix2 3 <= _); [rewrite bpow_powerRZ /=; lra|apply: bpow_le; lia].
have r5 : reading (KMeas five d0 d1 d1).
  by split; [exact: u5|exact: u0|exact: f1|split; [exact: f1|apply: mid1; rewrite v2R1; lra]].
move=> s f; split; first by split; [exact: f0|exact: v2R0|exact: u0|exact: r5].
have [|_ _ ->] := @C93_stuck s [:: f] f0 v2R0 u0; last exact: v2R0.
by move=> g [<-|[]]; exact: r5.
Qed.

Print Assumptions C92_variance.
Print Assumptions C92_absolute.
Print Assumptions C92_mean.
Print Assumptions C92_positive.
Print Assumptions C93_stuck.
Print Assumptions C93_zero_refuted.
Print Assumptions C93_negative_refuted.
