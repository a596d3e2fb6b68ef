(** * C112: samples of a one-dimensional Gaussian in doubles *)
From Coq Require Import ZArith Reals Lra Lia.
From Flocq Require Import Core.Core BinarySingleNaN.
From mathcomp Require Import all_ssreflect.
From Verif Require Import Outcome ModelDouble SpecDouble ProofsDouble PropertiesDouble ProofsDoubleHist ModelDoubleKF ProofsDoubleKF
  ModelDoubleUni ProofsDoubleUni ModelDoubleGauss SpecDoubleGauss ProofsDoubleGauss ModelDoubleNoise SpecDoubleNoise ProofsDoubleNoise.
Set Implicit Arguments. Unset Strict Implicit. Unset Printing Implicit Defensive.
Local Open Scope R_scope.
Lemma bits48 : IZR (2 ^ 48) * uu <= / 32. Proof. by rewrite uu_val /=; lra. Qed.
Lemma b53 : bpow radix2 (-53) = / 2 * bpow radix2 (-52). Proof. by rewrite -[(-52)%Z]/(-53 + 1)%Z bpow_S; lra. Qed.
Lemma bp0 : bpow radix2 0 = 1. Proof. by []. Qed.
Lemma bp2 : bpow radix2 2 = 4. Proof. by []. Qed.
Local Opaque d0 d1 dprec dlit dadd dsub dmul ddiv dle dlt bpow IZR dsqrt.

Definition spread_ok (S : double) : Prop := is_finite S = true /\ bpow radix2 (-52) <= v2R S <= bpow radix2 200.
Definition mean_ok (mu : double) : Prop := is_finite mu = true /\ Rabs (v2R mu) <= bpow radix2 300.
Lemma modest0 : modest d0.
Proof. by split; [case: good0 => h _; exact: h|left; exact: v2R0]. Qed.
(** A sample is mean plus standard deviation times draw, up to one rounding of the sample and
    three of the deviation. *)
Theorem C112_sample mu S v (t := affine (v2R mu) (v2R S) (v2R v)) : spread_ok S -> mean_ok mu -> modest v ->
  exists x, [/\ n_sample mu S v = (true, x), is_finite x = true &
    Rabs (v2R x - t) <= (Rabs t + 3 * Rabs (t - v2R mu)) * / IZR (2 ^ 53)].
Proof.
move=> [fS hS] [fm hm] hv; have [h1 h2 _ h3] := sample_ok fS hS hv fm hm.
exists (n_sample mu S v).2; split; [by rewrite -h1; case: (n_sample _ _ _)|exact: h2|].
rewrite -uu_val /t /affine; have -> : v2R mu + sqrt (v2R S) * v2R v - v2R mu = sqrt (v2R S) * v2R v by ring.
exact: h3.
Qed.
Lemma nth_In' (d : double) (l : seq double) k : (k < size l)%N -> List.In (nth d l k) l.
Proof. by elim: l k => [|a l IH] [|k] //= hk; [left|right; exact: IH]. Qed.
(** The list version: one sample per draw, in order, each within the same error. *)
Theorem C112_samples mu S vs : spread_ok S -> mean_ok mu -> (forall v, List.In v vs -> modest v) ->
  exists xs, [/\ n_samples mu S vs = (true, xs), size xs = size vs & forall k, (k < size vs)%N ->
    let t := affine (v2R mu) (v2R S) (v2R (nth d0 vs k)) in let x := nth d0 xs k in
    is_finite x = true /\ Rabs (v2R x - t) <= (Rabs t + 3 * Rabs (t - v2R mu)) * / IZR (2 ^ 53)].
Proof.
move=> hS hm hv; exists [seq (n_sample mu S v).2 | v <- vs]; split; last 1 first.
- move=> k hk t x; have [|y [e f h]] := @C112_sample mu S (nth d0 vs k) hS hm; first by apply: hv; exact: nth_In'.
  have ex : x = y by rewrite /x (nth_map d0) // e.
  by rewrite ex; split; [exact: f|exact: h].
- by have [y [e _ _]] := C112_sample hS hm modest0; rewrite /n_samples; case: e => -> _.
by rewrite size_map.
Qed.
Lemma dev_val S v : spread_ok S -> modest v -> v2R (dot1 (dsqrt S) v) = rnd (v2R (dsqrt S) * v2R v).
Proof.
move=> [fS hS] [fv hv]; have b0 := bpow_gt_0 radix2 (-52); have s0 : 0 < v2R S by lra.
have [f e] := sqrtS fS s0; have [r1 r2] := sqrt_rng hS.
have k1 : Rabs (v2R (dsqrt S)) <= bpow radix2 100.
  rewrite e; apply: abs_round_le_generic; first by apply: generic_format_bpow; rewrite /FLT_exp; lia.
  by rewrite Rabs_pos_eq //; exact: sqrt_pos.
have k2 : Rabs (v2R v) <= bpow radix2 200 by case: hv => [->|[_ //]]; rewrite Rabs_R0; exact: bpow_ge_0.
have [|_ h] := dotS f fv; last exact: h.
rewrite /small Rabs_mult; apply: Rle_trans (_ : bpow radix2 100 * bpow radix2 200 <= _).
  by apply: Rmult_le_compat => //; exact: Rabs_pos.
by rewrite -bpow_plus; apply: bpow_le; lia.
Qed.
(** Larger draws never give smaller samples. *)
Theorem C112_monotone mu S v v' : spread_ok S -> mean_ok mu -> modest v -> modest v' -> v2R v <= v2R v' ->
  v2R (n_sample mu S v).2 <= v2R (n_sample mu S v').2.
Proof.
move=> hS [fm hm] hv hv' h; have [fS hS'] := hS.
have [_ _ -> _] := sample_ok fS hS' hv fm hm; have [_ _ -> _] := sample_ok fS hS' hv' fm hm.
apply: rnd_le; apply: Rplus_le_compat_r; rewrite !dev_val //; apply: rnd_le; apply: Rmult_le_compat_l => //.
have b0 := bpow_gt_0 radix2 (-52); have s0 : 0 < v2R S by lra.
by have [_ ->] := sqrtS fS s0; apply: rnd_ge0; exact: sqrt_pos.
Qed.
Lemma zero_dev v mu : is_finite v = true -> mean_ok mu -> is_finite (dadd (dot1 d0 v) mu) = true /\ v2R (dadd (dot1 d0 v) mu) = v2R mu.
Proof.
move=> fv [fm hm]; have [|f e] := @dotS d0 v finS0 fv; first by rewrite v2R0 Rmult_0_l /small Rabs_R0; exact: bpow_ge_0.
rewrite v2R0 Rmult_0_l round_0 in e.
have [|f2 e2] := @addS (dot1 d0 v) mu f fm.
  by rewrite e Rplus_0_l /small; apply: Rle_trans hm _; apply: bpow_le; lia.
by split; [exact: f2|rewrite e2 e Rplus_0_l rnd_id].
Qed.
(** REFUTED: a variance below 2^-52 (a standard deviation below 2^-26) counts as 0: every sample
    equals the mean, and the call reports success. *)
Theorem C112_flat_refuted mu S v : is_finite S = true -> Rabs (v2R S) < bpow radix2 (-52) -> mean_ok mu -> is_finite v = true ->
  (n_sample mu S v).1 = true /\ v2R (n_sample mu S v).2 = v2R mu.
Proof. by move=> fS hS hm fv; rewrite /n_sample chol_flat //; split=> //; case: (zero_dev fv hm). Qed.
(** A variance of -2^-52 or less is rejected; the sample is the mean. *)
Theorem C112_negative mu S v : is_finite S = true -> v2R S <= - bpow radix2 (-52) -> mean_ok mu -> is_finite v = true ->
  (n_sample mu S v).1 = false /\ v2R (n_sample mu S v).2 = v2R mu.
Proof. by move=> fS hS hm fv; rewrite /n_sample chol_neg //; split=> //; case: (zero_dev fv hm). Qed.

(** ** Random walks *)
Lemma pow_grow x m : 0 <= x -> (1 + x) ^ m * (1 - INR m * x) <= 1.
Proof.
move=> x0; elim: m => [|m ih]; first by rewrite /=; lra.
have h := pos_INR m; have q0 : 0 < (1 + x) ^ m by apply: pow_lt; lra.
rewrite -tech_pow_Rmult S_INR.
have -> : (1 + x) * (1 + x) ^ m * (1 - (INR m + 1) * x) = (1 + x) ^ m * (1 - INR m * x) - (1 + x) ^ m * ((INR m + 1) * (x * x)) by ring.
have : 0 <= (1 + x) ^ m * ((INR m + 1) * (x * x)) by apply: Rmult_le_pos; [lra|apply: Rmult_le_pos; nra].
lra.
Qed.
Definition modests (vs : seq double) : Prop := forall v, List.In v vs -> modest v.
Definition moved (S x : R) (vs : seq R) : R := x + sqrt S * rtotal vs.
Definition reach (S x : R) (vs : seq R) : R := Rabs x + sqrt S * rtotal [seq Rabs v | v <- vs].
Lemma walk_err S vs x B : spread_ok S -> modests vs -> is_finite x = true -> reach (v2R S) (v2R x) (map v2R vs) <= B ->
  B * (1 + 4 * uu) ^ size vs <= bpow radix2 300 ->
  is_finite (n_walk S x vs) = true /\
  Rabs (v2R (n_walk S x vs) - moved (v2R S) (v2R x) (map v2R vs)) <= INR (size vs) * (4 * uu) * (B * (1 + 4 * uu) ^ size vs).
Proof.
move=> hS; have hu := uu_lt; have s0 := sqrt_pos (v2R S); elim: vs x B => [|v vs IH] x B hv fx hr hB.
  by split=> //; rewrite /moved /= Rmult_0_r Rplus_0_r Rminus_diag_eq // Rabs_R0; lra.
have hv1 : modest v by apply: hv; left.
have hv2 : modests vs by move=> w hw; apply: hv; right.
have g0 : 1 <= (1 + 4 * uu) ^ size vs by apply: pow_R1_Rle; lra.
have t0 : 0 <= rtotal [seq Rabs w | w <- map v2R vs].
  by elim: (vs) => [|w l ih] /=; [lra|have := Rabs_pos (v2R w); lra].
rewrite /reach [map v2R _]/= [map Rabs _]/= [rtotal _]/= in hr.
rewrite -/(rtotal _) in hr; set T := rtotal _ in t0 hr.
have st0 : 0 <= sqrt (v2R S) * T by exact: Rmult_le_pos.
have sv0 : 0 <= sqrt (v2R S) * Rabs (v2R v) by apply: Rmult_le_pos => //; exact: Rabs_pos.
have hb : Rabs (v2R x) + sqrt (v2R S) * Rabs (v2R v) + sqrt (v2R S) * T <= B by lra.
have x0 := Rabs_pos (v2R x); have B0 : 0 <= B by lra.
rewrite [size _]/= -tech_pow_Rmult in hB *; set G := (1 + 4 * uu) ^ size vs in g0 hB *.
have hB1 : B * (1 + 4 * uu) * G <= bpow radix2 300 by rewrite Rmult_assoc.
have BG : B <= bpow radix2 300.
  apply: Rle_trans hB1; rewrite -[X in X <= _]Rmult_1_r; apply: Rmult_le_compat => //; [lra|nra].
have [fS hS'] := hS.
have [|_ f1 _ h1] := sample_ok fS hS' hv1 fx; first lra.
have eN : n_walk S x (v :: vs) = n_walk S (n_sample x S v).2 vs by [].
rewrite eN; set x1 := (n_sample x S v).2 in f1 h1 *; set d := sqrt (v2R S) * v2R v in h1.
have ed : Rabs d = sqrt (v2R S) * Rabs (v2R v) by rewrite /d Rabs_mult (Rabs_pos_eq (sqrt _)).
have xd := Rabs_triang (v2R x) d.
have h2 : Rabs (v2R x1 - (v2R x + d)) <= B * (4 * uu).
  apply: Rle_trans h1 _; have : Rabs (v2R x + d) + 3 * Rabs d <= 4 * B by lra.
  by move=> h; have := Rmult_le_compat_r uu _ _ (Rlt_le _ _ (proj1 hu)) h; lra.
have [||f2 h3] := IH x1 (B * (1 + 4 * uu)) hv2 f1.
- rewrite /reach -/T; have h3 := tri (v2R x1) (v2R x + d).
  by have -> : B * (1 + 4 * uu) = B + B * (4 * uu) by [ring]; lra.
- exact: hB1.
split; first exact: f2.
have -> : moved (v2R S) (v2R x) (map v2R (v :: vs)) = moved (v2R S) (v2R x + d) (map v2R vs).
  by rewrite /moved /d /=; ring.
have -> : v2R (n_walk S x1 vs) - moved (v2R S) (v2R x + d) (map v2R vs) =
    (v2R (n_walk S x1 vs) - moved (v2R S) (v2R x1) (map v2R vs)) + (v2R x1 - (v2R x + d)) by rewrite /moved; ring.
apply: Rle_trans (Rabs_triang _ _) _; apply: Rle_trans (Rplus_le_compat _ _ _ _ h3 h2) _.
rewrite S_INR -/G; have -> : B * ((1 + 4 * uu) * G) = B * (1 + 4 * uu) * G by ring.
have hX : B <= B * (1 + 4 * uu) * G.
  by rewrite -[X in X <= _]Rmult_1_r Rmult_assoc; apply: Rmult_le_compat_l => //; nra.
have : B * (4 * uu) <= B * (1 + 4 * uu) * G * (4 * uu) by apply: Rmult_le_compat_r; lra.
move: (B * (1 + 4 * uu) * G) => X; lra.
Qed.
(** Any random walk: after m steps the position is start plus standard deviation times the sum
    of the draws, up to 5 m roundings of the length of the way. *)
Theorem C112_walk S x vs (m := size vs) (W := reach (v2R S) (v2R x) (map v2R vs)) : spread_ok S -> modests vs -> is_finite x = true ->
  W <= bpow radix2 298 -> (Z.of_nat m <= 2 ^ 48)%Z ->
  is_finite (n_walk S x vs) = true /\
  Rabs (v2R (n_walk S x vs) - moved (v2R S) (v2R x) (map v2R vs)) <= 5 * INR m * W * / IZR (2 ^ 53).
Proof.
move=> hS hv fx hW hm; have hu := uu_lt.
have m1 : INR m * uu <= / 32.
  apply: Rle_trans bits48; apply: Rmult_le_compat_r; first lra.
  by rewrite INR_IZR_INZ; apply: IZR_le.
have m0 := pos_INR m; have mu0 : 0 <= INR m * uu by apply: Rmult_le_pos; lra.
have u4 : 0 <= 4 * uu by lra.
have hg := pow_grow m u4.
have G1 : (1 + 4 * uu) ^ m <= 5 / 4.
  have q0 : 0 < (1 + 4 * uu) ^ m by apply: pow_lt; lra.
  by have : INR m * (4 * uu) <= / 8 by [lra]; nra.
have W0 : 0 <= W.
  rewrite /W /reach; apply: Rplus_le_le_0_compat; first exact: Rabs_pos.
  apply: Rmult_le_pos; first exact: sqrt_pos.
  by elim: (vs) => [|w l ih] /=; [lra|have := Rabs_pos (v2R w); lra].
have WG : W * (1 + 4 * uu) ^ m <= W * (5 / 4) by apply: Rmult_le_compat_l.
have b300 : bpow radix2 300 = 4 * bpow radix2 298 by rewrite -[300%Z]/(2 + 298)%Z bpow_plus bp2.
have [|f h] := @walk_err S vs x W hS hv fx (Rle_refl _); first by have := bpow_gt_0 radix2 298; rewrite -/m; lra.
split; first exact: f.
rewrite -uu_val; apply: Rle_trans h _; rewrite -/m.
have : INR m * (4 * uu) * (W * (1 + 4 * uu) ^ m) <= INR m * (4 * uu) * (W * (5 / 4)) by apply: Rmult_le_compat_l => //; apply: Rmult_le_pos.
lra.
Qed.
(** REFUTED: with a variance below 2^-52 the walk never moves, however many steps it takes. *)
Theorem C112_still_refuted S x vs : is_finite S = true -> Rabs (v2R S) < bpow radix2 (-52) -> mean_ok x ->
  (forall v, List.In v vs -> is_finite v = true) -> v2R (n_walk S x vs) = v2R x.
Proof.
move=> fS hS; elim: vs x => [|v vs IH] x hx hv //.
have -> : n_walk S x (v :: vs) = n_walk S (n_sample x S v).2 vs by [].
have fv : is_finite v = true by apply: hv; left.
have [f e] := zero_dev fv hx; rewrite /n_sample chol_flat // [(true, _).2]/=.
rewrite IH //; last by move=> w hw; apply: hv; right.
by split; [exact: f|rewrite e; case: hx].
Qed.

(** ** Cases *)
Lemma fin1' : is_finite d1 = true. Proof. by case: good1 => h _; exact: h. Qed.
Lemma modest1 : modest d1.
Proof. split; [exact: fin1'|right]; rewrite v2R1 Rabs_R1 -bp0; split; apply: bpow_le; lia. Qed.
Lemma spread1 : spread_ok d1.
Proof. split; [exact: fin1'|]; rewrite v2R1 -bp0; split; apply: bpow_le; lia. Qed.
Lemma mean1 : mean_ok d1.
Proof. by split; [exact: fin1'|]; rewrite v2R1 Rabs_R1 -bp0; apply: bpow_le; lia. Qed.
(** mean 1, variance 1, draw 1: the sample is 2 up to 5 roundings *)
Example C112_case_sample : exists x, n_sample d1 d1 d1 = (true, x) /\ Rabs (v2R x - 2) <= 5 * / IZR (2 ^ 53).
Proof.
have [x [h1 _ h2]] := C112_sample spread1 mean1 modest1; exists x; split; first exact: h1.
move: h2; rewrite /affine v2R1 sqrt_1; have -> : 1 + 1 * 1 = 2 by ring.
have -> : 2 - 1 = 1 by ring.
by rewrite Rabs_R1 (Rabs_pos_eq 2); [rewrite -uu_val|]; lra.
Qed.
Lemma In_nseq (k : nat) (v w : double) : List.In v (nseq k w) -> v = w.
Proof. by elim: k => [|k ih] //= [->|/ih]. Qed.
Lemma ones k : rtotal (nseq k 1) = INR k.
Proof. by elim: k => [|k ih] //; rewrite S_INR -ih /=; lra. Qed.
Lemma steps k : INR k <= 1024 -> (Z.of_nat k <= 2 ^ 48)%Z ->
  Rabs (v2R (n_walk d1 d1 (nseq k d1)) - (1 + INR k)) <= 5 * INR k * (1 + INR k) * / IZR (2 ^ 53).
Proof.
move=> k1 k2; have hs : rtotal (map v2R (nseq k d1)) = INR k by rewrite map_nseq v2R1 ones.
have ha : rtotal (map Rabs (map v2R (nseq k d1))) = INR k by rewrite map_nseq v2R1 map_nseq Rabs_R1 ones.
have eW : reach (v2R d1) (v2R d1) (map v2R (nseq k d1)) = 1 + INR k by rewrite /reach ha v2R1 sqrt_1 Rabs_R1; lra.
have [|||_] := @C112_walk d1 d1 (nseq k d1) spread1 _ fin1'.
- by move=> v hv; rewrite (In_nseq hv); exact: modest1.
- rewrite eW; apply: Rle_trans (_ : bpow radix2 11 <= _); first by rewrite -[11%Z]/(10 + 1)%Z bpow_S b10; lra.
  by apply: bpow_le; lia.
- by rewrite size_nseq.
rewrite eW size_nseq /moved hs v2R1 sqrt_1 => h; apply: Rle_trans h; right; congr Rabs; ring.
Qed.
Lemma thousand : INR 1000 = 1000. Proof. by rewrite INR_IZR_INZ. Qed.
(** a thousand steps of 1: 1001 *)
Example C112_case_walk : Rabs (v2R (n_walk d1 d1 (nseq 1000 d1)) - 1001) <= 5 * 1000 * 1001 * / IZR (2 ^ 53).
Proof.
have := @steps 1000; rewrite thousand; have -> : 1 + 1000 = 1001 by ring.
by apply; [lra|lia].
Qed.
(** variance 2^-53, standard deviation about 10^-8: no draw moves the sample *)
Example C112_case_flat v : is_finite v = true -> v2R (n_sample d1 (dlit 1 (-53)) v).2 = 1 /\ affine 1 (bpow radix2 (-53)) 1 > 1.
Proof.
move=> fv; have [f e] := @lit_val 1 (-53) erefl ltac:(lia); have b0 := bpow_gt_0 radix2 (-52).
split.
  have [|_ ->] := @C112_flat_refuted d1 (dlit 1 (-53)) v f _ mean1 fv; last exact: v2R1.
  by rewrite e b53 Rmult_1_l Rabs_pos_eq; lra.
rewrite /affine Rmult_1_r; have := sqrt_lt_R0 (bpow radix2 (-53)) (bpow_gt_0 _ _); lra.
Qed.
(** the same variance: a walk of any number of steps stays where it is *)
Example C112_case_still k : v2R (n_walk (dlit 1 (-53)) d1 (nseq k d1)) = 1.
Proof.
have [f e] := @lit_val 1 (-53) erefl ltac:(lia); have b0 := bpow_gt_0 radix2 (-52).
rewrite C112_still_refuted; [exact: v2R1|exact: f| |exact: mean1|by move=> v hv; rewrite (In_nseq hv); exact: fin1'].
by rewrite e b53 Rmult_1_l Rabs_pos_eq; lra.
Qed.
(** variance -2^-10: rejected *)
Example C112_case_negative : (n_sample d1 (dlit (-1) (-10)) d1).1 = false.
Proof.
have [f e] := @lit_val (-1) (-10) erefl ltac:(lia).
have [|h _] := @C112_negative d1 (dlit (-1) (-10)) d1 f _ mean1 fin1'; last exact: h.
rewrite e; have : bpow radix2 (-52) <= bpow radix2 (-10) by apply: bpow_le; lia.
lra.
Qed.

Print Assumptions C112_sample.
Print Assumptions C112_samples.
Print Assumptions C112_monotone.
Print Assumptions C112_flat_refuted.
Print Assumptions C112_negative.
Print Assumptions C112_walk.
Print Assumptions C112_still_refuted.
Print Assumptions C112_case_sample.
Print Assumptions C112_case_walk.
Print Assumptions C112_case_flat.
Print Assumptions C112_case_still.
Print Assumptions C112_case_negative.
