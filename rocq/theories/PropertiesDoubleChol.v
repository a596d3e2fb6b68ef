(** * C113: the Cholesky factor and the samples of a two-dimensional Gaussian in doubles *)
From Coq Require Import ZArith Reals Lra Lia.
From Flocq Require Import Core.Core BinarySingleNaN.
From mathcomp Require Import all_ssreflect.
From Verif Require Import Outcome ModelDouble SpecDouble ProofsDouble PropertiesDouble ProofsDoubleHist ModelDoubleKF ProofsDoubleKF
  ModelDoubleUni ProofsDoubleUni ModelDoubleGauss SpecDoubleGauss ProofsDoubleGauss ModelDoubleNoise SpecDoubleNoise ProofsDoubleNoise
  PropertiesDoubleNoise ModelDoubleChol SpecDoubleChol ProofsDoubleChol.
Set Implicit Arguments. Unset Strict Implicit. Unset Printing Implicit Defensive.
Local Open Scope R_scope.
Definition three : double := dlit 3 0.
(** 16/3, rounded up *)
Definition third16 : double := dlit 6004799503160662 (-50).
Definition four' : double := dlit 4 0.
Lemma rej_singular : (n_chol2 three three three).1 = false. Proof. by vm_compute. Qed.
Lemma rej_definite : (n_chol2 three four' third16).1 = false. Proof. by vm_compute. Qed.
Lemma three_val : is_finite three = true /\ v2R three = 3.
Proof. by have [f ->] := @lit_val 3 0 erefl ltac:(lia); split; [exact: f|rewrite bp0; ring]. Qed.
Lemma four'_val : is_finite four' = true /\ v2R four' = 4.
Proof. by have [f ->] := @lit_val 4 0 erefl ltac:(lia); split; [exact: f|rewrite bp0; ring]. Qed.
Lemma b50 : bpow radix2 (-50) = / 1125899906842624. Proof. by []. Qed.
Lemma third16_val : is_finite third16 = true /\ v2R third16 = 6004799503160662 / 1125899906842624.
Proof. by have [f ->] := @lit_val 6004799503160662 (-50) erefl ltac:(lia); split; [exact: f|rewrite b50]. Qed.
Lemma bm3 : bpow radix2 (-3) = / 8. Proof. by rewrite /=; lra. Qed.
Local Opaque d0 d1 dprec dlit dadd dsub dmul ddiv dle dlt bpow IZR dsqrt.

(** When the call succeeds, the factor times its transpose is the matrix up to a few roundings of
    each entry; the last entry misses another 2^-51 at most when the second pivot counts as 0. *)
Theorem C113_factor a b c L : spread_ok a -> modest b -> room c -> n_chol2 a b c = (true, L) ->
  exists2 e, e = 0 \/ (v2R (l22 L) = 0 /\ e = bpow radix2 (-51)) &
  factor_of (v2R (l11 L)) (v2R (l21 L)) (v2R (l22 L)) (v2R a) (v2R b) (v2R c)
    (3 * v2R a * / IZR (2 ^ 53)) (2 * Rabs (v2R b) * / IZR (2 ^ 53)) (4 * Rabs (v2R c) * / IZR (2 ^ 53) + e).
Proof.
move=> ha hb hc; rewrite chol2_eq //; case: ifP => // hk [<-] /=; rewrite -uu_val.
have [q [[fl fm fp] [_ l0 _] [el em] [q0 eq] [ep qb]]] := parts ha hb hc.
have hu := uu_lt; have ut := uu_tiny; have a0 : 0 < v2R a by case: ha => _ [h _]; have := bpow_gt_0 radix2 (-52); lra.
set l := v2R (dsqrt a) in l0 el em *; set m := v2R (off a b) in em eq *; set p := piv a b c in fp ep hk *.
set D := v2R c - q in ep.
have m2 : 0 <= m * m by exact: Rle_0_sqr.
have eq' : Rabs (q - m * m) <= 103 / 100 * uu * q.
  move/Rabs_le_inv: (eq) => eq1; have : m * m <= 101 / 100 * q by nra.
  by move=> h; apply: Rle_trans eq _; nra.
move/Rabs_le_inv: eq' => eq'.
have H1 : Rabs (l * l - v2R a) <= 3 * v2R a * uu by apply: Rle_trans el _; nra.
have H2 : Rabs (l * m - v2R b) <= 2 * Rabs (v2R b) * uu by apply: Rle_trans em _; have := Rabs_pos (v2R b); nra.
have b52' := eps_uu; have b51 : bpow radix2 (-51) = 4 * uu by rewrite -[(-51)%Z]/(-52 + 1)%Z bpow_S b52'; ring.
case: (Rle_lt_dec (bpow radix2 (-52)) (v2R p)) => h1.
  exists 0; [by left|split; [exact: H1|split; [exact: H2|]]].
  rewrite chol_pos // [(true, _).2]/= Rplus_0_r.
  have D0 : 0 < D.
    case: (Rle_lt_dec D 0) => // hD; rewrite (Rabs_left1 D) // in ep; move/Rabs_le_inv: ep => ep; nra.
  rewrite (Rabs_pos_eq D) in ep; last lra; move/Rabs_le_inv: (ep) => ep'.
  have p9 : v2R p <= bpow radix2 900.
    have : v2R p <= 2 * v2R c by rewrite /D in D0 ep'; nra.
    case: hc => _ /Rabs_le_inv [_ hc]; have : 2 * bpow radix2 200 <= bpow radix2 900 by rewrite -bpow_S; apply: bpow_le; lia.
    lra.
  have [_ _ _ er] := root_ok fp (conj h1 p9); move/Rabs_le_inv: er => er.
  have c0 : 0 <= v2R c by rewrite /D in D0; lra.
  rewrite (Rabs_pos_eq (v2R c)) //; have ec : v2R c = q + D by rewrite /D; ring.
  set z := v2R (dsqrt p) in er *; rewrite ec; have p2 : v2R p <= 101 / 100 * D by nra.
  apply: Rabs_le; have : uu * v2R p <= uu * (101 / 100 * D) by apply: Rmult_le_compat_l; lra.
  have : 0 <= uu * q by apply: Rmult_le_pos; lra.
  have : 0 <= uu * D by apply: Rmult_le_pos; lra.
  lra.
have h2 : - bpow radix2 (-52) < v2R p.
  case: (Rle_lt_dec (v2R p) (- bpow radix2 (-52))) => // h; by rewrite chol_neg in hk.
have ez : n_chol p = (true, d0) by apply: chol_flat => //; apply: Rabs_lt.
rewrite ez [(true, _).2]/= v2R0; exists (bpow radix2 (-51)); first by right.
split; [exact: H1|split; [exact: H2|]].
have hD : Rabs D <= 101 / 100 * (2 * uu).
  have hp : Rabs (v2R p) <= 2 * uu by rewrite -b52'; apply: Rabs_le; lra.
  have t := tri D (v2R p); rewrite Rabs_minus_sym in t; have := Rabs_pos D; nra.
move/Rabs_le_inv: hD => hD; have ec : v2R c = q + D by rewrite /D; ring.
have hq : q <= Rabs (v2R c) + 101 / 100 * (2 * uu) by have := Rle_abs (v2R c); lra.
rewrite b51; have hcq : uu * q <= uu * (Rabs (v2R c) + 101 / 100 * (2 * uu)) by apply: Rmult_le_compat_l; lra.
have hc0 : 0 <= uu * Rabs (v2R c) by apply: Rmult_le_pos; [lra|exact: Rabs_pos].
have huu : uu * uu <= uu * / 100 by apply: Rmult_le_compat_l; lra.
apply: Rabs_le; lra.
Qed.
Lemma pivot_low a b c k : spread_ok a -> modest b -> room c -> 0 <= k <= 8 -> 0 <= v2R c ->
  v2R b * v2R b <= v2R a * (v2R c * (1 - k * uu)) ->
  is_finite (piv a b c) = true /\ (v2R c * (k - 6) * uu <= v2R (piv a b c) \/ 0 <= v2R (piv a b c)).
Proof.
move=> ha hb hc hk c0 hdet; have [q [[fl fm fp] [_ l0 _] [el em] [q0 eq] [ep qb]]] := parts ha hb hc.
split; first exact: fp.
have hu := uu_lt; have ut := uu_tiny; have a0 : 0 < v2R a by case: ha => _ [h _]; have := bpow_gt_0 radix2 (-52); lra.
set l := v2R (dsqrt a) in l0 el em; set m := v2R (off a b) in em eq; set D := v2R c - q in ep.
have m2 : 0 <= m * m by exact: Rle_0_sqr.
set C := v2R c * (1 - k * uu) in hdet.
have C0 : 0 <= C by apply: Rmult_le_pos => //; nra.
move/Rabs_le_inv: el => el; move/Rabs_le_inv: eq => eq.
have hlm : l * l * (m * m) <= v2R b * v2R b * (1 + 204 / 100 * uu).
  have h : Rabs (l * m) <= Rabs (v2R b) * (1 + 101 / 100 * uu).
    by have t := tri (l * m) (v2R b); lra.
  have -> : l * l * (m * m) = Rabs (l * m) * Rabs (l * m) by rewrite -Rabs_mult Rabs_pos_eq; [ring|exact: Rle_0_sqr].
  apply: Rle_trans (Rmult_le_compat _ _ _ _ (Rabs_pos _) (Rabs_pos _) h h) _.
  have -> : v2R b * v2R b = Rabs (v2R b) * Rabs (v2R b) by rewrite -Rabs_mult Rabs_pos_eq //; exact: Rle_0_sqr.
  have : 0 <= Rabs (v2R b) * Rabs (v2R b) by exact: Rle_0_sqr.
  move: (Rabs (v2R b)) => B hB.
  have -> : B * (1 + 101 / 100 * uu) * (B * (1 + 101 / 100 * uu)) = B * B * ((1 + 101 / 100 * uu) * (1 + 101 / 100 * uu)) by ring.
  apply: Rmult_le_compat_l => //; nra.
have hm : m * m <= C * (1 + 42 / 10 * uu).
  have h1 : v2R a * (1 - 203 / 100 * uu) * (m * m) <= v2R a * C * (1 + 204 / 100 * uu).
    apply: Rle_trans (_ : l * l * (m * m) <= _); first by apply: Rmult_le_compat_r => //; lra.
    by apply: Rle_trans hlm _; apply: Rmult_le_compat_r => //; lra.
  have h2 : (1 - 203 / 100 * uu) * (m * m) <= C * (1 + 204 / 100 * uu).
    by apply: (Rmult_le_reg_l (v2R a)) => //; lra.
  apply: (Rmult_le_reg_l (1 - 203 / 100 * uu)); first lra.
  apply: Rle_trans h2 _; have -> : (1 - 203 / 100 * uu) * (C * (1 + 42 / 10 * uu)) = C * ((1 - 203 / 100 * uu) * (1 + 42 / 10 * uu)) by ring.
  by apply: Rmult_le_compat_l => //; nra.
have hq : q <= C * (1 + 53 / 10 * uu).
  apply: Rle_trans (_ : m * m * (1 + 101 / 100 * uu) <= _); first lra.
  apply: Rle_trans (_ : C * (1 + 42 / 10 * uu) * (1 + 101 / 100 * uu) <= _); first by apply: Rmult_le_compat_r; lra.
  by rewrite Rmult_assoc; apply: Rmult_le_compat_l => //; nra.
have hDq : v2R c * (k - 54 / 10) * uu <= D.
  have : C * (1 + 53 / 10 * uu) <= v2R c * (1 - (k - 54 / 10) * uu).
    rewrite /C Rmult_assoc; apply: Rmult_le_compat_l => //; nra.
  rewrite /D; lra.
case: (Rle_lt_dec 0 D) => hD.
  right; rewrite (Rabs_pos_eq D) // in ep; move/Rabs_le_inv: ep => ep.
  have : uu * D <= 1 * D by apply: Rmult_le_compat_r; lra.
  lra.
left; rewrite (Rabs_left D) // in ep; move/Rabs_le_inv: ep => ep.
have h1 : v2R c * (k - 54 / 10) * uu * (1 + uu) <= D * (1 + uu) by apply: Rmult_le_compat_r; lra.
have h2 : v2R c * uu * (k - 6) <= v2R c * uu * ((k - 54 / 10) * (1 + uu)).
  by apply: Rmult_le_compat_l; [apply: Rmult_le_pos; lra|nra].
have h3 : v2R c * (k - 6) * uu <= D * (1 + uu) by lra.
lra.
Qed.
(** Every semidefinite matrix with second variance at most 1/4 is accepted, and every matrix with
    a correlation r such that r^2 <= 1 - 2^-50. *)
Theorem C113_accept a b c : spread_ok a -> modest b -> room c -> 0 <= v2R c ->
  (semidef (v2R a) (v2R b) (v2R c) /\ v2R c <= / 4) \/ v2R b * v2R b <= v2R a * v2R c * (1 - 8 * / IZR (2 ^ 53)) ->
  exists L, n_chol2 a b c = (true, L).
Proof.
move=> ha hb hc c0 hcase; have hu := uu_lt; have b52' := eps_uu; rewrite -uu_val in hcase.
suff [fp hp] : is_finite (piv a b c) = true /\ - bpow radix2 (-52) < v2R (piv a b c).
  by rewrite chol2_eq // chol_ok //; eexists; reflexivity.
have cu : 0 <= v2R c * uu by apply: Rmult_le_pos; lra.
case: hcase => [[[_ [_ hd]] c1]|hd].
  have [||fp h] := @pivot_low a b c 0 ha hb hc _ c0; [lra|lra|split; [exact: fp|]].
  have : v2R c * uu <= / 4 * uu by apply: Rmult_le_compat_r; lra.
  by case: h; lra.
have [||fp h] := @pivot_low a b c 8 ha hb hc _ c0; [lra|lra|split; [exact: fp|]].
by case: h; lra.
Qed.
Lemma zero_dev2 v w mu : is_finite v = true -> is_finite w = true -> mean_ok mu -> v2R (dadd (dot2 d0 d0 v w) mu) = v2R mu.
Proof.
move=> fv fw [fm hm]; rewrite /dot2 -/(dot1 d0 v).
have s0 : small 0 by rewrite /small Rabs_R0; exact: bpow_ge_0.
have [|f1 e1] := @dotS d0 v finS0 fv; first by rewrite v2R0 Rmult_0_l.
have [|f2 e2] := @mulS d0 w finS0 fw; first by rewrite v2R0 Rmult_0_l.
rewrite v2R0 Rmult_0_l round_0 in e1; rewrite v2R0 Rmult_0_l round_0 in e2.
have [|f3 e3] := @addS (dot1 d0 v) (dmul d0 w) f1 f2; first by rewrite e1 e2 Rplus_0_r.
rewrite e1 e2 Rplus_0_r round_0 in e3.
have [|_ ->] := @addS (dadd (dot1 d0 v) (dmul d0 w)) mu f3 fm; last by rewrite e3 Rplus_0_l rnd_id.
by rewrite e3 Rplus_0_l /small; apply: Rle_trans hm _; apply: bpow_le; lia.
Qed.
(** A rejected matrix: every sample is the mean. *)
Lemma rejected a b c mu1 mu2 v w : (n_chol2 a b c).1 = false -> mean_ok mu1 -> mean_ok mu2 -> is_finite v = true -> is_finite w = true ->
  let r := n_sample2 mu1 mu2 a b c v w in [/\ r.1 = false, v2R r.2.1 = v2R mu1 & v2R r.2.2 = v2R mu2].
Proof.
move=> h h1 h2 fv fw r; have e : n_chol2 a b c = (false, Low2 d0 d0 d0).
  by move: h; rewrite /n_chol2; case: ifP => // _; case: ifP.
by rewrite /r /n_sample2 e; split=> //; exact: zero_dev2.
Qed.
(** A first variance of -2^-52 or less, and a second one with any first variance in the range:
    rejected, every sample is the mean. *)
Theorem C113_negative mu1 mu2 a b c v w : mean_ok mu1 -> mean_ok mu2 -> is_finite v = true -> is_finite w = true ->
  (is_finite a = true /\ v2R a <= - bpow radix2 (-52)) \/ [/\ spread_ok a, modest b, room c & v2R c <= - bpow radix2 (-51)] ->
  let r := n_sample2 mu1 mu2 a b c v w in [/\ r.1 = false, v2R r.2.1 = v2R mu1 & v2R r.2.2 = v2R mu2].
Proof.
move=> h1 h2 fv fw h; apply: rejected => //; case: h => [[fa ha]|[ha hb hc hn]].
  by rewrite /n_chol2 chol_neg.
have [q [[_ _ fp] _ _ [q0 _] [ep _]]] := parts ha hb hc; have hu := uu_lt.
rewrite chol2_eq // chol_neg //; move: ep; set D := v2R c - q => ep; have b0 := bpow_gt_0 radix2 (-51).
have hD : D <= - bpow radix2 (-51) by rewrite /D; lra.
rewrite (Rabs_left1 D) in ep; last lra; move/Rabs_le_inv: ep => ep.
have b51 : bpow radix2 (-51) = 2 * bpow radix2 (-52) by rewrite -bpow_S.
have : uu * - D <= / 4 * - D by apply: Rmult_le_compat_r; lra.
lra.
Qed.
(** REFUTED: "semidefinite covariances have a factor".  The covariance with all entries 3 (two
    fully correlated components) is rejected, and no draw moves any sample. *)
Theorem C113_singular_refuted mu1 mu2 v w : mean_ok mu1 -> mean_ok mu2 -> is_finite v = true -> is_finite w = true ->
  let r := n_sample2 mu1 mu2 three three three v w in
  semidef (v2R three) (v2R three) (v2R three) /\ [/\ r.1 = false, v2R r.2.1 = v2R mu1 & v2R r.2.2 = v2R mu2].
Proof.
move=> h1 h2 fv fw r; split; last by apply: rejected => //; exact: rej_singular.
by have [_ ->] := three_val; split; [lra|split; lra].
Qed.
(** REFUTED, positive definite: variances 3 and the double above 16/3, covariance 4. *)
Theorem C113_definite_refuted mu1 mu2 v w : mean_ok mu1 -> mean_ok mu2 -> is_finite v = true -> is_finite w = true ->
  let r := n_sample2 mu1 mu2 three four' third16 v w in
  posdef (v2R three) (v2R four') (v2R third16) /\ [/\ r.1 = false, v2R r.2.1 = v2R mu1 & v2R r.2.2 = v2R mu2].
Proof.
move=> h1 h2 fv fw r; split; last by apply: rejected => //; exact: rej_definite.
by have [_ ->] := three_val; have [_ ->] := four'_val; have [_ ->] := third16_val; split; lra.
Qed.
(** REFUTED: a first variance below 2^-52 counts as 0 and the covariance is dropped with it: the
    factor is diagonal, whatever the correlation. *)
Theorem C113_dropped_refuted a b c : is_finite a = true -> Rabs (v2R a) < bpow radix2 (-52) -> spread_ok c ->
  exists2 L, n_chol2 a b c = (true, L) & [/\ v2R (l11 L) = 0, v2R (l21 L) = 0 & Rabs (v2R (l22 L) * v2R (l22 L) - v2R c) <= 3 * v2R c * / IZR (2 ^ 53)].
Proof.
move=> fa ha [fc [h1 h2]]; have [fe ee'] := eps_val; have hu := uu_lt.
have e : dlt d0 deps by case: (dltP finS0 fe) => // h; rewrite v2R0 ee' in h; have := bpow_gt_0 radix2 (-52); lra.
have s0 : small 0 by rewrite /small Rabs_R0; exact: bpow_ge_0.
have [|f2 e2'] := @mulS d0 d0 finS0 finS0; first by rewrite v2R0 Rmult_0_l.
have e2 : v2R (dmul d0 d0) = 0 by apply: (eq_trans e2'); rewrite v2R0 Rmult_0_l round_0.
have c0 : 0 <= v2R c by have := bpow_gt_0 radix2 (-52); lra.
have [|f3 e3] := @subS c (dmul d0 d0) fc f2.
  by rewrite e2 Rminus_0_r /small Rabs_pos_eq //; apply: Rle_trans h2 _; apply: bpow_le; lia.
rewrite e2 Rminus_0_r rnd_id in e3.
rewrite /n_chol2 chol_flat // [(true, _).1]/= [(true, _).2]/= e [~~ true]/=.
rewrite chol_pos //; last by rewrite e3.
eexists; first by reflexivity.
split; [exact: v2R0|exact: v2R0|rewrite [l22 _]/=].
have h9 : v2R (dsub c (dmul d0 d0)) <= bpow radix2 900 by rewrite e3; apply: Rle_trans h2 _; apply: bpow_le; lia.
have h5 : bpow radix2 (-52) <= v2R (dsub c (dmul d0 d0)) by rewrite e3.
have [_ _ _ er] := root_ok f3 (conj h5 h9); rewrite -uu_val; rewrite e3 in er.
apply: Rle_trans er _; have : 0 <= uu * v2R c by apply: Rmult_le_pos; lra.
lra.
Qed.

(** ** Samples *)
Lemma dot2_err a b v w mu (x := dadd (dot2 a b v w) mu) (s := v2R a * v2R v) (t := v2R b * v2R w) :
  is_finite a = true -> is_finite b = true -> is_finite v = true -> is_finite w = true -> mean_ok mu ->
  rng (-900) 800 s -> rng (-900) 800 t ->
  is_finite x = true /\ Rabs (v2R x - (v2R mu + s + t)) <= uu * (Rabs (v2R mu + s + t) + 3 * (Rabs s + Rabs t)).
Proof.
move=> fa fb fv fw [fm hm] hs ht; have hu := uu_lt; have ut := uu_tiny.
have [|f1 e1] := @dotS a v fa fv; first by apply: ProofsDoubleKF.rng_small hs; lia.
have [|f2 e2] := @mulS b w fb fw; first by apply: ProofsDoubleKF.rng_small ht; lia.
have r1 : rel 1 s (v2R (dot1 a v)) by rewrite e1; apply: rnd_relS; apply: rng_weaken hs; lia.
have r2 : rel 1 t (v2R (dmul b w)) by rewrite e2; apply: rnd_relS; apply: rng_weaken ht; lia.
have ab s' e' v' : v' = s' * (1 + e') -> Rabs e' <= 101 / 100 * uu -> Rabs (v' - s') <= 101 / 100 * uu * Rabs s'.
  move=> -> he; have -> : s' * (1 + e') - s' = e' * s' by ring.
  by rewrite Rabs_mult; apply: Rmult_le_compat_r => //; exact: Rabs_pos.
have [d1' g1 g1'] := rel_abs1 r1; have k1 := ab _ _ _ g1 g1'.
have [d2' g2 g2'] := rel_abs1 r2; have k2 := ab _ _ _ g2 g2'.
set P := v2R (dot1 a v) in k1; set Q := v2R (dmul b w) in k2.
have s0 := Rabs_pos s; have t0 := Rabs_pos t.
have us : 0 <= uu * Rabs s by apply: Rmult_le_pos; lra.
have ut' : 0 <= uu * Rabs t by apply: Rmult_le_pos; lra.
have uus : uu * (uu * Rabs s) <= / 100 * (uu * Rabs s) by apply: Rmult_le_compat_r; lra.
have uut : uu * (uu * Rabs t) <= / 100 * (uu * Rabs t) by apply: Rmult_le_compat_r; lra.
have P1 : Rabs P <= Rabs s + 101 / 100 * uu * Rabs s by have := tri P s; lra.
have Q1 : Rabs Q <= Rabs t + 101 / 100 * uu * Rabs t by have := tri Q t; lra.
have bb c r : rng (-900) 800 r -> c <= 2 * Rabs r -> c <= bpow radix2 801.
  move=> [->|[_ h]] h'; first by rewrite Rabs_R0 in h'; have := bpow_ge_0 radix2 801; lra.
  by rewrite -[801%Z]/(800 + 1)%Z bpow_S; lra.
have us1 : uu * Rabs s <= / 100 * Rabs s by apply: Rmult_le_compat_r; lra.
have ut1 : uu * Rabs t <= / 100 * Rabs t by apply: Rmult_le_compat_r; lra.
have P2 : Rabs P <= bpow radix2 801 by apply: bb hs _; lra.
have Q2 : Rabs Q <= bpow radix2 801 by apply: bb ht _; lra.
have PQ := Rabs_triang P Q; have b0 := bpow_gt_0 radix2 801.
have b810 : 8 * bpow radix2 801 <= bpow radix2 1000.
  by have -> : 8 * bpow radix2 801 = bpow radix2 (801 + 1 + 1 + 1) by [rewrite !bpow_S; ring]; apply: bpow_le; lia.
have [|f3 h3] := @add_rel (dot1 a v) (dmul b w) f1 f2; first by rewrite /small -/P -/Q; lra.
rewrite -/(dot2 a b v w) -/P -/Q in f3 h3; set y := v2R (dadd (dot1 a v) (dmul b w)) in h3.
have hy : Rabs y <= bpow radix2 801 * 4.
  have := tri y (P + Q); have : uu * Rabs (P + Q) <= 1 * Rabs (P + Q) by apply: Rmult_le_compat_r; [exact: Rabs_pos|lra].
  lra.
have hm8 : Rabs (v2R mu) <= bpow radix2 801 by apply: Rle_trans hm _; apply: bpow_le; lia.
have [|f4 h4] := @add_rel (dot2 a b v w) mu f3 fm.
  by rewrite /small -/y; have := Rabs_triang y (v2R mu); lra.
split; first exact: f4.
rewrite -/x -/y in h4.
have h5 : uu * Rabs (P + Q) <= 102 / 100 * (uu * Rabs s + uu * Rabs t).
  have : uu * Rabs (P + Q) <= uu * (Rabs s + 101 / 100 * uu * Rabs s + (Rabs t + 101 / 100 * uu * Rabs t)) by apply: Rmult_le_compat_l; lra.
  lra.
have h6 : Rabs (y - (s + t)) <= 204 / 100 * (uu * Rabs s + uu * Rabs t).
  have -> : y - (s + t) = (y - (P + Q)) + ((P - s) + (Q - t)) by ring.
  have := Rabs_triang (y - (P + Q)) ((P - s) + (Q - t)); have := Rabs_triang (P - s) (Q - t); lra.
have h7 : Rabs (y + v2R mu) <= Rabs (v2R mu + s + t) + 204 / 100 * (uu * Rabs s + uu * Rabs t).
  have -> : y + v2R mu = (v2R mu + s + t) + (y - (s + t)) by ring.
  have := Rabs_triang (v2R mu + s + t) (y - (s + t)); lra.
have h8 : uu * Rabs (y + v2R mu) <= uu * (Rabs (v2R mu + s + t) + 204 / 100 * (uu * Rabs s + uu * Rabs t)) by apply: Rmult_le_compat_l; lra.
have -> : v2R x - (v2R mu + s + t) = (v2R x - (y + v2R mu)) + (y - (s + t)) by ring.
have := Rabs_triang (v2R x - (y + v2R mu)) (y - (s + t)); lra.
Qed.
Lemma last_rng p : is_finite p = true -> v2R p <= bpow radix2 900 -> (n_chol p).1 = true ->
  is_finite (n_chol p).2 = true /\ rng (-27) 451 (v2R (n_chol p).2).
Proof.
move=> fp hp; case: (Rle_lt_dec (bpow radix2 (-52)) (v2R p)) => h1.
  by have [f r _ _] := root_ok fp (conj h1 hp); rewrite chol_pos.
case: (Rle_lt_dec (v2R p) (- bpow radix2 (-52))) => h2; first by rewrite chol_neg.
rewrite chol_flat //; last exact: Rabs_lt.
by move=> _; split; [exact: finS0|left; exact: v2R0].
Qed.
(** Samples are the factor times the draws plus the mean, up to one rounding of the sample and
    three of each product. *)
Theorem C113_sample a b c L mu1 mu2 v w : spread_ok a -> modest b -> room c -> n_chol2 a b c = (true, L) ->
  mean_ok mu1 -> mean_ok mu2 -> modest v -> modest w ->
  exists x1 x2, [/\ n_sample2 mu1 mu2 a b c v w = (true, (x1, x2)), is_finite x1 = true /\ is_finite x2 = true,
    (let s := v2R (l11 L) * v2R v in
     Rabs (v2R x1 - (v2R mu1 + s)) <= (Rabs (v2R mu1 + s) + 3 * Rabs s) * / IZR (2 ^ 53)) &
    (let s := v2R (l21 L) * v2R v in let t := v2R (l22 L) * v2R w in
     Rabs (v2R x2 - (v2R mu2 + s + t)) <= (Rabs (v2R mu2 + s + t) + 3 * (Rabs s + Rabs t)) * / IZR (2 ^ 53))].
Proof.
move=> ha hb hc hL h1 h2 [fv hv] [fw hw]; have hu := uu_lt.
have [q [[fl fm fp] [rl l0 rm] _ [q0 _] [ep qb]]] := parts ha hb hc.
have [fz rz] : is_finite (l22 L) = true /\ rng (-27) 451 (v2R (l22 L)).
  move: hL; rewrite chol2_eq //; case: ifP => // hk [<-] /=; apply: last_rng => //.
  move: ep; set D := v2R c - q => ep; have hD : Rabs D <= bpow radix2 (500 + 1).
    have hc2 : Rabs (v2R c) <= bpow radix2 500 by case: hc => _ h; apply: Rle_trans h _; apply: bpow_le; lia.
    rewrite bpow_S; have := Rabs_triang (v2R c) (- q); rewrite Rabs_Ropp (Rabs_pos_eq q) // -/(Rminus (v2R c) q) -/D; lra.
  have : uu * Rabs D <= 1 * Rabs D by apply: Rmult_le_compat_r; [exact: Rabs_pos|lra].
  have := tri (v2R (piv a b c)) D; have := Rle_abs (v2R (piv a b c)) => x1 x2 x3.
  apply: Rle_trans (_ : bpow radix2 (501 + 1) <= _); last by apply: bpow_le; lia.
  by rewrite bpow_S; move: hD; rewrite -[(500 + 1)%Z]/501%Z; lra.
have e11 : l11 L = dsqrt a by move: hL; rewrite chol2_eq //; case: ifP => // _ [<-].
have e21 : l21 L = off a b by move: hL; rewrite chol2_eq //; case: ifP => // _ [<-].
have hnv : rng (-200) 200 (v2R v) by [].
have hnw : rng (-200) 200 (v2R w) by [].
have s1 : rng (-900) 800 (v2R (l11 L) * v2R v) by rewrite e11; apply: rng_weaken (rng_mul rl hnv); lia.
have s2 : rng (-900) 800 (v2R (l21 L) * v2R v) by rewrite e21; apply: rng_weaken (rng_mul rm hnv); lia.
have s3 : rng (-900) 800 (v2R (l22 L) * v2R w) by apply: rng_weaken (rng_mul rz hnw); lia.
have s4 : rng (-900) 800 (v2R d0 * v2R w) by left; rewrite v2R0 Rmult_0_l.
have f11 : is_finite (l11 L) = true by rewrite e11.
have f21 : is_finite (l21 L) = true by rewrite e21.
have [g1 k1] := dot2_err f11 finS0 fv fw h1 s1 s4; have [g2 k2] := dot2_err f21 fz fv fw h2 s2 s3.
exists (dadd (dot2 (l11 L) d0 v w) mu1), (dadd (dot2 (l21 L) (l22 L) v w) mu2).
split; [by rewrite /n_sample2 hL|split; [exact: g1|exact: g2]| |].
  move=> s; rewrite v2R0 Rmult_0_l Rplus_0_r Rabs_R0 Rplus_0_r -/s in k1; rewrite -uu_val Rmult_comm; exact: k1.
move=> s t; rewrite -uu_val Rmult_comm; exact: k2.
Qed.

(** ** Cases *)
(** variances 1 and 1/8, covariance 1/8 *)
Definition eighth : double := dlit 1 (-3).
Lemma eighth_val : is_finite eighth = true /\ v2R eighth = / 8.
Proof. by have [f ->] := @lit_val 1 (-3) erefl ltac:(lia); split; [exact: f|rewrite bm3; ring]. Qed.
Lemma modest8 : modest eighth /\ room eighth.
Proof.
have [f e] := eighth_val; have b1' : bpow radix2 (-200) <= / 8 <= bpow radix2 200 by rewrite -bm3; split; apply: bpow_le; lia.
by split; [split=> //; right|split=> //]; rewrite e Rabs_pos_eq; lra.
Qed.
Example C113_case_accept : exists2 L, n_chol2 d1 eighth eighth = (true, L) &
  Rabs (v2R (l11 L) * v2R (l21 L) - / 8) <= / 4 * / IZR (2 ^ 53).
Proof.
have [hm hr] := modest8; have [_ e] := eighth_val.
have [||L hL] := @C113_accept d1 eighth eighth spread1 hm hr; first by rewrite e; lra.
  by left; rewrite e v2R1; split; [split; [lra|split; lra]|lra].
exists L; first exact: hL.
have [x _ [_ [h _]]] := C113_factor spread1 hm hr hL; rewrite e (Rabs_pos_eq (/ 8)) in h; last lra.
by have -> : / 4 = 2 * / 8 by lra.
Qed.
(** variance 2^-53 beside variance 1: covariance 2^-27 (correlation 0.7) dropped *)
Example C113_case_dropped : exists2 L, n_chol2 (dlit 1 (-53)) (dlit 1 (-27)) d1 = (true, L) &
  v2R (l11 L) * v2R (l21 L) = 0 /\ posdef (v2R (dlit 1 (-53))) (v2R (dlit 1 (-27))) (v2R d1).
Proof.
have [f e] := @lit_val 1 (-53) erefl ltac:(lia); have [_ e'] := @lit_val 1 (-27) erefl ltac:(lia); have b0 := bpow_gt_0 radix2 (-52).
have [|L hL [h1 _ _]] := @C113_dropped_refuted (dlit 1 (-53)) (dlit 1 (-27)) d1 f _ spread1.
  by rewrite e b53 Rmult_1_l Rabs_pos_eq; lra.
exists L; first exact: hL; split; first by rewrite h1 Rmult_0_l.
rewrite /posdef e e' v2R1 !Rmult_1_l Rmult_1_r; split; first exact: bpow_gt_0.
by rewrite -bpow_plus; apply: bpow_lt; lia.
Qed.
Example C113_case_singular : (n_sample2 d1 d1 three three three d1 d1).1 = false.
Proof. by have [_ [h _ _]] := C113_singular_refuted mean1 mean1 fin1' fin1'. Qed.
Lemma l11_pos a b c L : spread_ok a -> modest b -> room c -> n_chol2 a b c = (true, L) -> 0 < v2R (l11 L).
Proof.
move=> ha hb hc hL; have [q [_ [_ l0 _] _ _ _]] := parts ha hb hc.
by move: hL; rewrite chol2_eq //; case: ifP => // _ [<-].
Qed.
(** the same matrix, means and draws 1: samples near 2 and near 1 + l21 + l22 *)
Example C113_case_sample : exists x1 x2, n_sample2 d1 d1 d1 eighth eighth d1 d1 = (true, (x1, x2)) /\ Rabs (v2R x1 - 2) <= 30 * / IZR (2 ^ 53).
Proof.
have [hm hr] := modest8; have [L hL _] := C113_case_accept.
have [x1 [x2 [h _ h1 _]]] := C113_sample spread1 hm hr hL mean1 mean1 modest1 modest1.
exists x1, x2; split; first exact: h.
have [e _ [h2 _]] := C113_factor spread1 hm hr hL; move: h1 h2; rewrite v2R1 -uu_val Rmult_1_r; have hu := uu_lt.
have ll := l11_pos spread1 hm hr hL.
move: (v2R (l11 L)) ll => l ll h1 h2; cbv zeta in h1; move/Rabs_le_inv: h2 => h2.
have l1 : 1 - 3 * uu <= l <= 1 + 3 * uu by split; nra.
rewrite (Rabs_pos_eq l) in h1; last lra; rewrite (Rabs_pos_eq (1 + l)) in h1; last lra.
move/Rabs_le_inv: h1 => h1; apply: Rabs_le; nra.
Qed.
(** variances 1 and -1/4 *)
Example C113_case_negative : (n_sample2 d1 d1 d1 d0 (dlit (-1) (-2)) d1 d1).1 = false.
Proof.
have [f e] := @lit_val (-1) (-2) erefl ltac:(lia).
have hb : bpow radix2 (-51) <= bpow radix2 (-2) by apply: bpow_le; lia.
have hb2 : bpow radix2 (-2) <= bpow radix2 200 by apply: bpow_le; lia.
have b0 := bpow_gt_0 radix2 (-2).
have [|h _ _] := @C113_negative d1 d1 d1 d0 (dlit (-1) (-2)) d1 d1 mean1 mean1 fin1' fin1'; last exact: h.
right; split; [exact: spread1|exact: modest0|split; [exact: f|]|]; rewrite e; last lra.
by rewrite Rabs_left; lra.
Qed.

Print Assumptions C113_factor.
Print Assumptions C113_accept.
Print Assumptions C113_sample.
Print Assumptions C113_singular_refuted.
Print Assumptions C113_definite_refuted.
Print Assumptions C113_dropped_refuted.
Print Assumptions C113_case_accept.
Print Assumptions C113_case_dropped.
Print Assumptions C113_case_singular.
Print Assumptions C113_case_sample.
Print Assumptions C113_negative.
Print Assumptions C113_case_negative.
