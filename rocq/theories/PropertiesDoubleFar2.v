(** * C115, C116: far from the mean of a two-dimensional Gaussian in doubles *)
From Coq Require Import ZArith Reals Lra Lia.
From Flocq Require Import Core.Core BinarySingleNaN.
From mathcomp Require Import all_ssreflect.
From Verif Require Import Outcome ModelDouble SpecDouble ProofsDouble PropertiesDouble
  ModelDoubleHist SpecDoubleHist ProofsDoubleHist PropertiesDoubleHist ModelDoublePF SpecDoublePF ProofsDoublePF PropertiesDoublePF
  ModelDoubleKF ProofsDoubleKF ModelDoubleUni ProofsDoubleUni ProofsDoubleProp ModelDoubleGauss SpecDoubleGauss ProofsDoubleGauss PropertiesDoubleGauss
  ModelDoubleNoise SpecDoubleNoise ProofsDoubleNoise PropertiesDoubleNoise
  ModelDoubleChol SpecDoubleChol ProofsDoubleChol ModelDoubleGauss2 SpecDoubleGauss2 ProofsDoubleGauss2 PropertiesDoubleGauss2
  SpecDoubleDens2 ProofsDoubleDens2 PropertiesDoubleDens2 ModelDoubleMeas2 PropertiesDoubleMeas2.
Set Implicit Arguments. Unset Strict Implicit. Unset Printing Implicit Defensive.
Local Open Scope R_scope.
Local Opaque d0 d1 dprec dlit dadd dsub dmul ddiv dle dlt bpow IZR dsqrt.

Lemma exp_low expd h : exp_ok expd -> is_finite h = true -> 756 <= - v2R h -> good (expd h) /\ v2R (expd h) <= 11 / 10 * bpow radix2 (-1074).
Proof.
move=> he fh hv; have [|gd hd] := he h fh; first lra.
split; first exact: gd.
have u0 := uu_gt0; have ut := uu_tiny; have hx := exp_far hv; rewrite Ropp_involutive in hx.
have e80 : bpow radix2 (-1080) = bpow radix2 (-1074) * / 64 by rewrite -b6 -bpow_plus.
move/Rabs_le_inv: hd; rewrite b52; have x0 := exp_pos (v2R h); have b0 := bpow_gt_0 radix2 (-1074).
have : exp (v2R h) * (2 * uu) <= exp (v2R h) * / 1000 by apply: Rmult_le_compat_l; lra.
lra.
Qed.
Section Far.
Variables (expd : double -> double) (powd : double -> double -> double).
Hypotheses (he : exp_ok expd) (hp : pow2_ok powd).
(** From 39 standard deviations on the density is 0 or the least positive double. *)
Theorem C115_far mu1 mu2 a b c x1 x2 (k := excess (v2R a) (v2R b) (v2R c)) (e1 := v2R (dsub x1 mu1)) (e2 := v2R (dsub x2 mu2))
  (E := maha (v2R a) (v2R b) (v2R c) e1 e2 / 2) :
  mid a -> mid0 b -> mid c -> / 4 <= det2 (v2R a) (v2R b) (v2R c) -> mid0 (dsub x1 mu1) -> mid0 (dsub x2 mu2) ->
  760 <= E <= bpow radix2 100 -> k * k <= IZR (2 ^ 36) ->
  (exists2 p, g2_prob expd powd mu1 mu2 a b c x1 x2 = Ok p & good p /\ v2R p <= bpow radix2 (-1074)) /\
  (exists2 p, cg2_prob expd powd mu1 mu2 a b c x1 x2 = Ok p & good p /\ v2R p <= bpow radix2 (-1074)).
Proof.
move=> ha hb hc hD4 h1 h2 hE kE; have u0 := uu_gt0; have ut := uu_tiny.
have eu := ee_uu; have e0 := ee_gt0; have p3 := pi_3.
set D := det2 _ _ _ in hD4; have hD : 0 < D by lra.
have hw := exc_well ha hc hD; rewrite -/k in hw.
have k1 : 1 <= k.
  case: (hw) => _; rewrite -/D => ek; apply: (Rmult_le_reg_l D) => //; rewrite -ek /D /det2.
  by have : 0 <= v2R b * v2R b by [exact: Rle_0_sqr]; lra.
have kk1 : k <= k * k by rewrite -[X in X <= _]Rmult_1_l; apply: Rmult_le_compat_r; lra.
set Z := k * k * uu.
have hZ : Z <= / 131072 by rewrite -uu36 /Z; apply: Rmult_le_compat_r; lra.
have kZ : k * uu <= Z by rewrite /Z; apply: Rmult_le_compat_r; lra.
have k18 : k <= 262144 by rewrite z36 in kE; apply: Rsqr_incr_0_var; [rewrite /Rsqr|lra].
have k23 : k <= IZR (2 ^ 23) by rewrite z23; lra.
have ku : k * uu <= / 100000.
  have : k * uu <= 262144 * uu by apply: Rmult_le_compat_r; lra.
  lra.
have [t [ht ft et]] := @C114_square mu1 mu2 a b c x1 x2 ha hb hc hD k23 h1 h2.
rewrite -uu_val -/k -/e1 -/e2 in et.
have eq2 : maha (v2R a) (v2R b) (v2R c) e1 e2 = 2 * E by rewrite /E; field.
rewrite eq2 in et.
have ZE : Z * E <= / 131072 * E by apply: Rmult_le_compat_r; lra.
have et' : Rabs (v2R t - 2 * E) <= 108 * (Z * E) by have -> : 108 * (Z * E) = 54 * (k * k) * (2 * E) * uu by [rewrite /Z; ring]; exact: et.
move/Rabs_le_inv: et' => et'.
have [fh eh] := half_mval.
have eht : v2R dmhalf * v2R t = - (v2R t / 2) by rewrite eh; field.
have sm : small (v2R dmhalf * v2R t).
  rewrite eht /small Rabs_Ropp Rabs_pos_eq; last lra.
  apply: Rle_trans (_ : bpow radix2 (100 + 1) <= _); last by apply: bpow_le; lia.
  by rewrite bpow_S; lra.
have [fm em] := mulS fh ft sm; set h := dmul dmhalf t in fm em.
have hh : 756 <= - v2R h.
  have := rnd_err (v2R dmhalf * v2R t); rewrite -em eht Rabs_Ropp (Rabs_pos_eq (v2R t / 2)); last lra.
  move/Rabs_le_inv=> hr.
  have : uu * (v2R t / 2) <= / 1000 * (v2R t / 2) by apply: Rmult_le_compat_r; lra.
  lra.
have [ge le] := exp_low he fm hh; have [fe pe] := ge.
have [fr hT nT] := root2_ok hp ha hb hc hw ku; rewrite -/D in hT nT.
set T := 2 * PI * sqrt D in hT nT; have T0 : 0 < T by have := bpow_gt_0 radix2 (-150); lra.
have T3 : 3 <= T.
  have hs : / 2 <= sqrt D by rewrite -(sqrt_pow2 (/ 2)); [apply: sqrt_le_1_alt; rewrite /=; lra|lra].
  by rewrite /T; have := Rmult_le_compat 3 (PI) 1 (2 * sqrt D) ltac:(lra) ltac:(lra) ltac:(lra) ltac:(lra); lra.
have [|rt0 hrt] := nr_rng T0 _ nT; first lra.
have hR : 2 <= v2R (d2_root powd a b c).
  by have [cc ec /Rabs_le_inv hcc] := nT; rewrite ec; nra.
set R := v2R (d2_root powd a b c) in rt0 hrt hR.
have iR : 0 < / R <= / 2 by split; [exact: Rinv_0_lt_compat|apply: Rinv_le_contravar; lra].
have b0 := bpow_gt_0 radix2 (-1074).
have fine f : 0 <= f <= 3 / 4 -> [/\ small (v2R (expd h) * f), 0 <= rnd (v2R (expd h) * f) & rnd (v2R (expd h) * f) <= bpow radix2 (-1074)].
  move=> hf; have v0 : 0 <= v2R (expd h) * f by apply: Rmult_le_pos; lra.
  have v1 : v2R (expd h) * f <= bpow radix2 (-1074).
    by have := Rmult_le_compat _ _ _ _ pe (proj1 hf) le (proj2 hf); lra.
  split; first by rewrite /small Rabs_pos_eq //; apply: Rle_trans v1 _; apply: bpow_le; lia.
    exact: rnd_ge0.
  by apply: round_le_generic => //; apply: generic_format_bpow; rewrite /FLT_exp; lia.
have ei : v2R d1 / R = / R by rewrite v2R1 /Rdiv Rmult_1_l.
have si : small (/ R).
  rewrite /small Rabs_pos_eq; last lra.
  by apply: Rle_trans (_ : bpow radix2 0 <= _); [rewrite bp0; lra|apply: bpow_le; lia].
have [||fi ei'] := @divS d1 (d2_root powd a b c) fin1'; [rewrite -/R; lra|by rewrite -/R ei|rewrite -/R ei in ei'].
have hi : 0 <= rnd (/ R) <= 3 / 4.
  split; first by apply: rnd_ge0; lra.
  have := rnd_err (/ R); rewrite (Rabs_pos_eq (/ R)); last lra.
  move/Rabs_le_inv=> hr; have : uu * / R <= / 1000 * / R by apply: Rmult_le_compat_r; lra.
  lra.
rewrite /g2_prob /cg2_prob ht /= -/h; split.
- rewrite -ei' in hi; have [s1 s2 s3] := fine _ hi; have [fp ep] := mulS fe fi s1; rewrite -ep in s2 s3.
  by exists (dmul (expd h) (ddiv d1 (d2_root powd a b c))); [apply: prob_ret; [exact: fp|exact: s2]|split; [split; [exact: fp|exact: s2]|exact: s3]].
have [|s1 s2 s3] := fine (/ R); first lra.
have [||fp ep] := @divS (expd h) (d2_root powd a b c) fe; [rewrite -/R; lra|exact: s1|].
rewrite -[v2R (expd h) * _]/(v2R (expd h) / _) in s2 s3; rewrite -/R in ep; rewrite -ep in s2 s3.
by exists (ddiv (expd h) (d2_root powd a b c)); [apply: prob_ret; [exact: fp|exact: s2]|split; [split; [exact: fp|exact: s2]|exact: s3]].
Qed.
(** REFUTED: if every particle predicts a value 39 or more standard deviations from the
    measurement, the update fails and all weights are lost, although the exact posterior exists. *)
Section Lost.
Variables (sq : double -> double) (root : double -> nat -> double) (sc : scheme).
Variables (a b c : double) (z : double * double) (ms : seq (double * double)) (s : dpf).
Let n := size (dm_w (pf_d s)).
Let p := exact (dm_w (pf_d s)).
Let k := excess (v2R a) (v2R b) (v2R c).
Let m0 : double * double := (d0, d0).
Let E1 (j : nat) : R := v2R (dsub z.1 (nth m0 ms j).1).
Let E2 (j : nat) : R := v2R (dsub z.2 (nth m0 ms j).2).
Let N (j : nat) : R := normal2 (v2R a) (v2R b) (v2R c) (v2R z.1 - v2R (nth m0 ms j).1) (v2R z.2 - v2R (nth m0 ms j).2).
Let value (o : outcome double) : double := if o is Ok x then x else d0.
Theorem C116_lost_refuted : mid a -> mid0 b -> mid c -> / 4 <= det2 (v2R a) (v2R b) (v2R c) -> k * k <= IZR (2 ^ 36) ->
  size ms = n -> (0 < n)%N -> goods (dm_w (pf_d s)) ->
  (forall j, (j < n)%N -> 0 < v2R (nth d0 (dm_w (pf_d s)) j) < / 2) ->
  (forall j, (j < n)%N -> [/\ mid0 (dsub z.1 (nth m0 ms j).1), mid0 (dsub z.2 (nth m0 ms j).2) &
     760 <= maha (v2R a) (v2R b) (v2R c) (E1 j) (E2 j) / 2 <= bpow radix2 100]) ->
  0 < over n (fun j => N j * p j) /\
  exists d', [/\ forall us, g2_step expd powd sq root sc a b c z ms us s = Ok ((false, None), DPF d' (pf_t s)), gone n d' & dm_c d' = dm_c (pf_d s)].
Proof.
move=> ha hb hc hD hk hm n0 hg hw hd; split.
  have N0 j : 0 < N j.
    apply: Rmult_lt_0_compat; [exact: exp_pos|apply: Rinv_0_lt_compat].
    by apply: Rmult_lt_0_compat; [have := pi_3; lra|apply: sqrt_lt_R0; lra].
  have t0 : 0 < total (dm_w (pf_d s)).
    rewrite total_nth_over; apply: Rlt_le_trans (proj1 (hw 0%N n0)) _.
    by apply: (@over_le1 n (fun j => v2R (nth d0 (dm_w (pf_d s)) j))) => // i hi; left; case: (hw i hi).
  have hj j : (j < n)%N -> 0 < N j * p j.
    move=> hj; apply: Rmult_lt_0_compat => //; rewrite /p /exact.
    by apply: Rmult_lt_0_compat; [case: (hw j hj)|exact: Rinv_0_lt_compat].
  apply: Rlt_le_trans (hj 0%N n0) _; apply: over_le1 => // i hi; left; exact: hj.
set ls := [seq value (cg2_prob expd powd m.1 m.2 a b c z.1 z.2) | m <- ms].
have hl : g2_likes expd powd a b c z ms = Ok ls.
  apply: mapO_ok => m /(List.In_nth ms m m0) [j [/ltP hj <-]].
  have -> : List.nth j ms m0 = nth m0 ms j by elim: (ms) (j) => [|x l ih] [|i] //=.
  rewrite -[length ms]/(size ms) hm in hj; have [d1' d2' ej] := hd j hj.
  by have [_ [q -> _]] := C115_far ha hb hc hD d1' d2' ej hk.
have [||d' [h1 h2 h3]] := @C99_underflow sq root sc s (fun k => nth d0 ls k) n0 hg.
- by move=> j hj; case: (hw j hj).
- move=> j hj; have [d1' d2' ej] := hd j hj; rewrite /ls (nth_map m0) ?hm //.
  by have [_ [q -> []]] := C115_far ha hb hc hD d1' d2' ej hk.
by exists d'; split=> // us; rewrite /g2_step hl; exact: h1.
Qed.
End Lost.
End Far.

(** ** Cases *)
(** variances 1, covariance 0, deviations 64 *)
Definition d64 : double := dlit 1 6.
Lemma b6' : bpow radix2 6 = 64. Proof. exact: b6p. Qed.
Lemma b10' : 4096 <= bpow radix2 100.
Proof. by apply: Rle_trans (_ : bpow radix2 (6 + 6) <= _); [rewrite bpow_plus b6'; lra|apply: bpow_le; lia]. Qed.
Lemma sub64 : mid0 (dsub d64 d0) /\ v2R (dsub d64 d0) = 64.
Proof.
have [f v] := @lit_val 1 6 erefl ltac:(lia); rewrite b6' Rmult_1_l in v.
have [|fs es'] := @subS d64 d0 f finS0.
  by rewrite v2R0 Rminus_0_r v /small Rabs_pos_eq; [rewrite -b6'; apply: bpow_le; lia|lra].
have es : v2R (dsub d64 d0) = 64 by apply: (eq_trans es'); rewrite v2R0 Rminus_0_r rnd_id.
split=> //; split; first exact: fs.
by right; rewrite es Rabs_pos_eq; [rewrite -b6'; split; apply: bpow_le; lia|lra].
Qed.
Lemma mid00 : mid0 d0. Proof. by split; [exact: finS0|left; rewrite v2R0]. Qed.
Lemma unit_cov : [/\ det2 (v2R d1) (v2R d0) (v2R d1) = 1, excess (v2R d1) (v2R d0) (v2R d1) = 1 &
  maha (v2R d1) (v2R d0) (v2R d1) 64 64 / 2 = 4096].
Proof.
have e : det2 (v2R d1) (v2R d0) (v2R d1) = 1 by rewrite /det2 v2R1 v2R0; ring.
by split=> //; rewrite /excess /maha e v2R1 ?v2R0; field.
Qed.
Lemma one36 : 1 * 1 <= IZR (2 ^ 36). Proof. by rewrite z36; lra. Qed.
Example C115_case_far : exists2 p, cg2_prob exp_dof pow_sq d0 d0 d1 d0 d1 d64 d64 = Ok p & v2R p <= bpow radix2 (-1074).
Proof.
have [h1 h2] : exp_ok exp_dof /\ pow2_ok pow_sq by exact: library2.
have [m e] := sub64; have [u1 u2 u3] := unit_cov; have o36 := one36; have b := b10'.
have [|||_ [p hp [_ hv]]] := @C115_far _ _ h1 h2 d0 d0 d1 d0 d1 d64 d64 mid1 mid00 mid1 _ m m.
- by rewrite u1; lra.
- by rewrite e u3; lra.
- by rewrite u2.
by exists p.
Qed.
(** four particles at (0,0), measurement (64,64): all weights are lost *)
Example C116_case_lost us : exists d', g2_step exp_dof pow_sq sqm half_root (Threshold d1) d1 d0 d1 (d64, d64) (nseq 4 (d0, d0)) us four = Ok ((false, None), DPF d' 0) /\ gone 4 d'.
Proof.
have [h1 h2] : exp_ok exp_dof /\ pow2_ok pow_sq by exact: library2.
have [[gq vq] _ _] := lits; have [m e] := sub64; have [u1 u2 u3] := unit_cov; have o36 := one36; have b := b10'.
have gf : goods (dm_w (pf_d four)) by move=> x /= [<-|[<-|[<-|[<-|//]]]].
have hw j : (j < 4)%N -> 0 < v2R (nth d0 (dm_w (pf_d four)) j) < / 2.
  by case: j => [|[|[|[|j]]]] //= _; rewrite vq; lra.
have hD : / 4 <= det2 (v2R d1) (v2R d0) (v2R d1) by rewrite u1; lra.
have hk : excess (v2R d1) (v2R d0) (v2R d1) * excess (v2R d1) (v2R d0) (v2R d1) <= IZR (2 ^ 36) by rewrite u2.
have hq : 760 <= maha (v2R d1) (v2R d0) (v2R d1) (v2R (dsub d64 d0)) (v2R (dsub d64 d0)) / 2 <= bpow radix2 100 by rewrite e u3; lra.
have [|_ [d' [k1 k2 _]]] := @C116_lost_refuted _ _ h1 h2 sqm half_root (Threshold d1) d1 d0 d1 (d64, d64) (nseq 4 (d0, d0)) four mid1 mid00 mid1 hD hk erefl isT gf hw.
  move=> j hj; have -> : nth (d0, d0) (nseq 4 (d0, d0)) j = (d0, d0) by case: j hj => [|[|[|[|j]]]].
  by split; [exact: m|exact: m|exact: hq].
by exists d'; split; [exact: k1|exact: k2].
Qed.
Print Assumptions C115_far.
Print Assumptions C116_lost_refuted.
Print Assumptions C115_case_far.
Print Assumptions C116_case_lost.
