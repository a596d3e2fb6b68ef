(** * Relative errors of products, quotients and sums of non-negative doubles *)
From Coq Require Import ZArith Reals Lra Lia.
From Flocq Require Import Core.Core BinarySingleNaN Relative.
From mathcomp Require Import all_ssreflect.
From Verif Require Import Outcome ModelDouble SpecDouble ProofsDouble PropertiesDouble.
Set Implicit Arguments. Unset Strict Implicit. Unset Printing Implicit Defensive.
Local Open Scope R_scope.

Definition normal (r : R) : Prop := r = 0 \/ bpow radix2 (-1022) <= r <= bpow radix2 1000.
Lemma normal_ge0 r : normal r -> 0 <= r.
Proof. by case=> [->|[h _]]; [lra|have := bpow_gt_0 radix2 (-1022); move: (bpow _ _) h => b h; lra]. Qed.
Lemma normal_le r : normal r -> r <= bpow radix2 1000.
Proof. by case=> [->|[]]; [exact: bpow_ge_0|]. Qed.
Lemma rnd_rel r : normal r -> r * (1 - uu) <= rnd r <= r * (1 + uu).
Proof.
move=> hn; have h0 := normal_ge0 hn; case: hn => [->|[h _]]; first by rewrite round_0; lra.
have [|eps [h1 ->]] := relative_error_N_FLT_ex radix2 (-1074) 53 (erefl _ : (0 < 53)%Z) (fun z => negb (Z.even z)) r.
  by rewrite Rabs_pos_eq.
by move/Rabs_le_inv: h1; rewrite -[/ 2 * _]/uu => h1; nra.
Qed.
Lemma mulE x y : good x -> good y -> v2R x * v2R y <= bpow radix2 1000 ->
  good (dmul x y) /\ v2R (dmul x y) = rnd (v2R x * v2R y).
Proof.
move=> gx gy hn; have [g _] := mul_gen gx gy hn; split=> //.
have [fx _] := gx; have [fy _] := gy; have [fm _] := g.
have := Bmult_correct 53 1024 prec53 emax1024 mode_NE x y; rewrite -/(dmul x y) -/(v2R x) -/(v2R y).
case: Rlt_bool_spec => _; first by case.
by move=> e; rewrite (inf_SF e) in fm.
Qed.
Lemma mul_rel x y : good x -> good y -> normal (v2R x * v2R y) ->
  good (dmul x y) /\ v2R x * v2R y * (1 - uu) <= v2R (dmul x y) <= v2R x * v2R y * (1 + uu).
Proof. by move=> gx gy hn; have [g ->] := mulE gx gy (normal_le hn); split=> //; exact: rnd_rel. Qed.
Lemma rnd_under r : 0 <= r < bpow radix2 (-1075) -> rnd r = 0.
Proof.
move=> [h0 h1]; case: (Req_dec r 0) => [->|hr]; first exact: round_0.
have hp : 0 < r by lra.
apply: (@round_N_small_pos radix2 (FLT_exp (-1074) 53) _ r (mag radix2 r)).
  by have := bpow_mag_le radix2 r hr; have := bpow_mag_gt radix2 r; rewrite Rabs_pos_eq.
have : (mag radix2 r <= -1075)%Z by apply: mag_le_bpow => //; rewrite Rabs_pos_eq.
by rewrite /FLT_exp; lia.
Qed.
Lemma rnd_over r : bpow radix2 (-1074) <= r -> bpow radix2 (-1074) <= rnd r.
Proof. by move=> h; apply: round_ge_generic => //; apply: generic_format_bpow; rewrite /FLT_exp; lia. Qed.
Lemma div_rel x s : good x -> good s -> 0 < v2R s -> normal (v2R x / v2R s) ->
  good (ddiv x s) /\ v2R x / v2R s * (1 - uu) <= v2R (ddiv x s) <= v2R x / v2R s * (1 + uu).
Proof.
move=> gx gs h0 hn; have [g _] := div_gen gx gs h0 (normal_le hn); split=> //.
suff -> : v2R (ddiv x s) = rnd (v2R x / v2R s) by exact: rnd_rel.
have [fm _] := g; have hne : B2R s <> 0 by rewrite -/(v2R s); lra.
have := Bdiv_correct 53 1024 prec53 emax1024 mode_NE x s hne; rewrite -/(ddiv x s) -/(v2R x) -/(v2R s).
case: Rlt_bool_spec => _; first by case.
by move=> e; rewrite (inf_SF e) in fm.
Qed.
Lemma tiny : 4194304 * / IZR (2 ^ 100) <= / 100 * uu. Proof. by rewrite uu_val /=; lra. Qed.
Lemma uu_tiny : uu < / 100000000000. Proof. by rewrite uu_val /=; lra. Qed.
Lemma tiny_sub : bpow radix2 (-1074) <= / 1000 * uu.
Proof. apply: Rle_trans (_ : bpow radix2 (-70) <= _); [by apply: bpow_le|by rewrite uu_val /=; lra]. Qed.
Lemma uu51 : IZR (2 ^ 51) * uu = / 4. Proof. by rewrite uu_val /=; lra. Qed.
Lemma uu_lt : 0 < uu < / 1000. Proof. by rewrite uu_val /=; lra. Qed.
Local Opaque d0 d1 dprec dlit dadd dsub dmul ddiv dle dlt bpow IZR.

(** ** [k] roundings *)
Definition qq : R := 1 - uu.
Definition approx (k : nat) (r v : R) : Prop := [/\ 0 <= r, r * qq ^ k <= v & v * qq ^ k <= r].
Lemma qq_pow k : 0 < qq ^ k <= 1. Proof. exact: pow_le1. Qed.
Lemma ap_refl r : 0 <= r -> approx 0 r r.
Proof. by move=> h; split=> //=; lra. Qed.
Lemma ap_ge0 k r v : approx k r v -> 0 <= v.
Proof. by case=> h0 h1 _; apply: Rle_trans h1; apply: Rmult_le_pos => //; case: (qq_pow k); lra. Qed.
Lemma ap_sym k r v : approx k r v -> approx k v r.
Proof. by move=> h; have h0 := ap_ge0 h; case: h. Qed.
Lemma ap_trans k l r v w : approx k r v -> approx l v w -> approx (k + l) r w.
Proof.
move=> h1 h2; case: (h1) (h2) => a1 a2 a3 [b1 b2 b3]; have p := qq_pow k; have p' := qq_pow l.
rewrite /approx pow_add; split=> //.
  by apply: Rle_trans b2; rewrite -Rmult_assoc; apply: Rmult_le_compat_r => //; lra.
by apply: Rle_trans a3; rewrite [qq ^ k * _]Rmult_comm -Rmult_assoc; apply: Rmult_le_compat_r => //; lra.
Qed.
Lemma ap_weaken k l r v : (k <= l)%N -> approx k r v -> approx l r v.
Proof.
move=> h [h0 h1 h2]; rewrite -(subnKC h) /approx pow_add; have p := qq_pow k; have p' := qq_pow (l - k).
have v0 : 0 <= v by apply: Rle_trans h1; apply: Rmult_le_pos; lra.
rewrite -!Rmult_assoc; split=> //.
  by have := Rmult_le_pos r (qq ^ k); nra.
by have := Rmult_le_pos v (qq ^ k); nra.
Qed.
Lemma ap_scale c k r v : 0 <= c -> approx k r v -> approx k (c * r) (c * v).
Proof. by move=> hc [h0 h1 h2]; split; rewrite ?Rmult_assoc; [exact: Rmult_le_pos| |]; apply: Rmult_le_compat_l. Qed.
Lemma ap_inv k r v : 0 < r -> approx k r v -> 0 < v /\ approx k (/ r) (/ v).
Proof.
move=> h [h0 h1 h2]; have [p p1] := qq_pow k; have hv : 0 < v by apply: Rlt_le_trans h1; apply: Rmult_lt_0_compat.
split=> //; split; first by apply/Rlt_le/Rinv_0_lt_compat.
  apply: (Rmult_le_reg_l r) => //; apply: (Rmult_le_reg_l v) => //.
  have -> : v * (r * (/ r * qq ^ k)) = v * qq ^ k by field; lra.
  by have -> : v * (r * / v) = r by field; lra.
apply: (Rmult_le_reg_l r) => //; apply: (Rmult_le_reg_l v) => //.
have -> : v * (r * (/ v * qq ^ k)) = r * qq ^ k by field; lra.
by have -> : v * (r * / r) = v by field; lra.
Qed.
Lemma ap_div k l a b c d : approx k a b -> approx l c d -> 0 < c -> approx (k + l) (a / c) (b / d).
Proof.
move=> h1 h2 hc; have [hd h3] := ap_inv hc h2; have hb := ap_ge0 h1.
apply: (@ap_trans _ _ _ (b / c)); last exact: ap_scale.
by rewrite /Rdiv ![_ * / c]Rmult_comm; apply: ap_scale => //; apply/Rlt_le/Rinv_0_lt_compat.
Qed.
Lemma ap_rsum k (A : Type) (f g : A -> R) l : (forall x, List.In x l -> approx k (f x) (g x)) ->
  approx k (rsum [seq f x | x <- l]) (rsum [seq g x | x <- l]).
Proof.
elim: l => [|x l IH] h /=; first by split; lra.
have [a1 a2 a3] := h x (or_introl erefl); have [b1 b2 b3] := IH (fun y hy => h y (or_intror hy)).
by split; lra.
Qed.
Lemma ap_one r v : 0 <= r -> r * (1 - uu) <= v <= r * (1 + uu) -> approx 1 r v.
Proof. by move=> h0 [h1 h2]; have hu := uu_lt; rewrite /approx /= /qq Rmult_1_r; split=> //; nra. Qed.
Lemma ap_sum v : goods v -> is_finite (d_sum v) = true -> approx (size v) (total v) (v2R (d_sum v)).
Proof.
move=> hg f; have [_ _ [h1 h2]] := fold_err good0 hg f; rewrite -/(d_sum v) v2R0 Rplus_0_l in h1 h2.
have ht := total_ge0 hg; split=> //; have [p p1] := qq_pow (size v).
apply: Rle_trans (_ : total v * (1 + uu) ^ size v * qq ^ size v <= _); first by apply: Rmult_le_compat_r => //; lra.
rewrite Rmult_assoc -Rpow_mult_distr -{2}[total v]Rmult_1_r; apply: Rmult_le_compat_l => //.
apply: Rle_trans (_ : 1 ^ size v <= _); last by rewrite pow1; lra.
apply: pow_incr; rewrite /qq; have hu := uu_lt; split; nra.
Qed.
Lemma qq_low k : INR k * uu <= / 2 -> / 2 <= qq ^ k.
Proof. by have := pow_lo k; rewrite -/qq; lra. Qed.
Lemma ap_err k r v : INR k * uu < 1 -> approx k r v -> Rabs (v - r) <= r * (INR k * uu / (1 - INR k * uu)).
Proof.
move=> hk [h0 h1 h2]; have hp := pow_lo k; rewrite -/qq in hp; have hu := uu_lt; have n0 := pos_INR k.
have k0 : 0 <= INR k * uu by apply: Rmult_le_pos; lra.
move: (INR k * uu) hk hp k0 => a hk hp k0.
have e : a / (1 - a) = / (1 - a) - 1 by field; lra.
have i1 : 1 + a <= / (1 - a).
  by apply: (Rmult_le_reg_r (1 - a)); [lra|rewrite Rinv_l; nra].
have v0 : 0 <= v by apply: Rle_trans h1; apply: Rmult_le_pos; case: (qq_pow k); lra.
have a1 : v * (1 - a) <= r by apply: Rle_trans h2; apply: Rmult_le_compat_l.
have a2 : r * (1 - a) <= v by apply: Rle_trans h1; apply: Rmult_le_compat_l.
have a3 : v <= r * / (1 - a).
  by apply: (Rmult_le_reg_r (1 - a)); [lra|rewrite Rmult_assoc Rinv_l; lra].
have a4 : r * (1 + a) <= r * / (1 - a) by apply: Rmult_le_compat_l.
apply: Rabs_le; rewrite e; lra.
Qed.
