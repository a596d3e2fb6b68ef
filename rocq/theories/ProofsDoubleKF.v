(** * Relative errors of doubles of either sign; the variance of the Kalman filter *)
From Coq Require Import ZArith Reals Lra Lia.
From Flocq Require Import Core.Core BinarySingleNaN Relative Plus_error.
From mathcomp Require Import all_ssreflect.
From Verif Require Import Outcome ModelDouble SpecDouble ProofsDouble PropertiesDouble ProofsDoubleHist ModelDoubleKF SpecDoubleKF.
Set Implicit Arguments. Unset Strict Implicit. Unset Printing Implicit Defensive.
Local Open Scope R_scope.
Local Opaque d0 d1 dprec dlit dadd dsub dmul ddiv dle dlt bpow IZR.

(** ** Operations *)
Definition small (r : R) : Prop := Rabs r <= bpow radix2 1000.
Lemma rnd_small r : small r -> Rabs (rnd r) < bpow radix2 1024.
Proof.
move=> h; apply: Rle_lt_trans (_ : bpow radix2 1000 < _); last exact: bpow_lt.
by apply: abs_round_le_generic => //; apply: generic_format_bpow; rewrite /FLT_exp; lia.
Qed.
Lemma mulS x y : is_finite x = true -> is_finite y = true -> small (v2R x * v2R y) ->
  is_finite (dmul x y) = true /\ v2R (dmul x y) = rnd (v2R x * v2R y).
Proof.
move=> fx fy h; have := Bmult_correct 53 1024 _ _ mode_NE x y; rewrite -/(dmul x y) -/(v2R x) -/(v2R y).
rewrite -[round _ _ _ _]/(rnd (v2R x * v2R y)) Rlt_bool_true; last exact: rnd_small.
by move=> [e [f _]]; rewrite f fx fy.
Qed.
Lemma addS x y : is_finite x = true -> is_finite y = true -> small (v2R x + v2R y) ->
  is_finite (dadd x y) = true /\ v2R (dadd x y) = rnd (v2R x + v2R y).
Proof.
move=> fx fy h; have := Bplus_correct 53 1024 _ _ mode_NE x y fx fy; rewrite -/(dadd x y) -/(v2R x) -/(v2R y).
rewrite -[round _ _ _ _]/(rnd (v2R x + v2R y)) Rlt_bool_true; last exact: rnd_small.
by move=> [e [f _]].
Qed.
Lemma subS x y : is_finite x = true -> is_finite y = true -> small (v2R x - v2R y) ->
  is_finite (dsub x y) = true /\ v2R (dsub x y) = rnd (v2R x - v2R y).
Proof.
move=> fx fy h; have := Bminus_correct 53 1024 _ _ mode_NE x y fx fy; rewrite -/(dsub x y) -/(v2R x) -/(v2R y).
rewrite -[round _ _ _ _]/(rnd (v2R x - v2R y)) Rlt_bool_true; last exact: rnd_small.
by move=> [e [f _]].
Qed.
Lemma divS x y : is_finite x = true -> v2R y <> 0 -> small (v2R x / v2R y) ->
  is_finite (ddiv x y) = true /\ v2R (ddiv x y) = rnd (v2R x / v2R y).
Proof.
move=> fx hy h; have := Bdiv_correct 53 1024 _ _ mode_NE x y hy; rewrite -/(ddiv x y) -/(v2R x) -/(v2R y).
rewrite -[round _ _ _ _]/(rnd (v2R x / v2R y)) Rlt_bool_true; last exact: rnd_small.
by move=> [e [f _]]; rewrite f.
Qed.
Lemma rnd_id x : rnd (v2R x) = v2R x.
Proof. by apply: round_generic; exact: fmt. Qed.
Lemma dotS x y : is_finite x = true -> is_finite y = true -> small (v2R x * v2R y) ->
  is_finite (dot1 x y) = true /\ v2R (dot1 x y) = rnd (v2R x * v2R y).
Proof.
move=> fx fy h; have [f e] := mulS fx fy h; rewrite /dot1.
have [||f' ->] := @addS d0 (dmul x y) _ f.
- by case: good0.
- rewrite v2R0 Rplus_0_l e /small.
  by apply: abs_round_le_generic => //; apply: generic_format_bpow; rewrite /FLT_exp; lia.
by split=> //; rewrite v2R0 Rplus_0_l rnd_id.
Qed.

(** ** Relative errors *)
Definition rel (k : nat) (r v : R) : Prop := exists2 q, v = r * q & approx k 1 q.
Definition rng (a b : Z) (r : R) : Prop := r = 0 \/ bpow radix2 a <= Rabs r <= bpow radix2 b.
Lemma ap1_mul k l q r : approx k 1 q -> approx l 1 r -> approx (k + l) 1 (q * r).
Proof. by move=> h h'; apply: (ap_trans h); rewrite -[X in approx _ X _](Rmult_1_r q); apply: ap_scale h'; exact: ap_ge0 h. Qed.
Lemma rel_refl r : rel 0 r r.
Proof. by exists 1; [ring|apply: ap_refl; lra]. Qed.
Lemma rel_trans k l r v w : rel k r v -> rel l v w -> rel (k + l) r w.
Proof. by move=> [q -> hq] [p -> hp]; exists (q * p); [ring|exact: ap1_mul]. Qed.
Lemma rel_mul k l a b c d : rel k a b -> rel l c d -> rel (k + l) (a * c) (b * d).
Proof. by move=> [q -> hq] [p -> hp]; exists (q * p); [ring|exact: ap1_mul]. Qed.
Lemma rel_ap k r v : 0 <= r -> rel k r v -> approx k r v.
Proof. by move=> h [q -> hq]; rewrite -[X in approx _ X _](Rmult_1_r r); exact: ap_scale. Qed.
Lemma ap_rel k r v : 0 < r -> approx k r v -> rel k r v.
Proof.
move=> h [h0 h1 h2]; exists (v / r); first by field; lra.
have hi : 0 <= / r by apply/Rlt_le/Rinv_0_lt_compat.
have := @ap_scale (/ r) k r v hi; rewrite Rinv_l; last lra.
by rewrite /Rdiv Rmult_comm; apply; split.
Qed.
Lemma rel_weaken k l r v : (k <= l)%N -> rel k r v -> rel l r v.
Proof. by move=> h [q e hq]; exists q => //; exact: ap_weaken hq. Qed.
Lemma rnd_relS r : rng (-1022) 1000 r -> rel 1 r (rnd r).
Proof.
case=> [->|[h _]]; first by rewrite round_0; exists 1; [ring|apply: ap_weaken (ap_refl Rle_0_1)].
have [|eps [h1 ->]] := relative_error_N_FLT_ex radix2 (-1074) 53 (erefl _ : (0 < 53)%Z) (fun z => negb (Z.even z)) r.
  exact: h.
exists (1 + eps) => //; apply: ap_one; first lra.
by move/Rabs_le_inv: h1; rewrite -[/ 2 * _]/uu => h1; lra.
Qed.
Lemma rng_small a b r : (b <= 1000)%Z -> rng a b r -> small r.
Proof.
move=> hb [->|[_ h]]; rewrite /small; first by rewrite Rabs_R0; exact: bpow_ge_0.
by apply: Rle_trans h _; apply: bpow_le.
Qed.
Lemma rng_weaken a b c d r : (c <= a)%Z -> (b <= d)%Z -> rng a b r -> rng c d r.
Proof.
move=> h h' [->|[h1 h2]]; [by left|right]; split; [apply: Rle_trans h1|apply: Rle_trans h2 _]; exact: bpow_le.
Qed.
Lemma rng_mul a b c d r s : rng a b r -> rng c d s -> rng (a + c) (b + d) (r * s).
Proof.
move=> [->|[h1 h2]]; first by rewrite Rmult_0_l; left.
move=> [->|[h3 h4]]; first by rewrite Rmult_0_r; left.
right; rewrite Rabs_mult !bpow_plus; split; apply: Rmult_le_compat => //; solve [exact: bpow_ge_0|exact: Rabs_pos].
Qed.
Lemma bpow_S e : bpow radix2 (e + 1) = 2 * bpow radix2 e.
Proof. by rewrite Zplus_comm bpow_plus. Qed.
Lemma rng_rel k a b r v : / 2 <= qq ^ k -> rel k r v -> rng a b r -> rng (a - 1) (b + 1) v.
Proof.
move=> hk [q -> [_ h1 h2]] [->|[h3 h4]]; first by rewrite Rmult_0_l; left.
right; rewrite Rabs_mult; have q1 : / 2 <= q <= 2 by nra.
rewrite (Rabs_pos_eq q); last lra.
have : bpow radix2 a = 2 * bpow radix2 (a - 1) by rewrite -bpow_S; congr bpow; lia.
have := bpow_S b; have := bpow_gt_0 radix2 a; have := bpow_gt_0 radix2 b.
move: (bpow _ a) (bpow _ b) (bpow _ (a - 1)) (bpow _ (b + 1)) (Rabs r) (Rabs_pos r) h3 h4 => A B C D m m0 h3 h4 hB hA eD eC; split; nra.
Qed.
(** an operation adds a rounding *)
Lemma dot_rel k l x y r s a b c d : is_finite x = true -> is_finite y = true -> rel k r (v2R x) -> rel l s (v2R y) ->
  rng a b r -> rng c d s -> (-1020 <= a + c)%Z -> (b + d <= 900)%Z -> / 2 <= qq ^ (k + l) ->
  is_finite (dot1 x y) = true /\ rel (k + l + 1) (r * s) (v2R (dot1 x y)).
Proof.
move=> fx fy hx hy hr hs h1 h2 hq; have h := rel_mul hx hy; have hn := rng_rel hq h (rng_mul hr hs).
have [|f ->] := dotS fx fy; first by apply: rng_small hn; lia.
by split=> //; apply: rel_trans h (rnd_relS _); apply: rng_weaken hn; lia.
Qed.
(** sums of non-negative numbers *)
Lemma ap_plus k a b c : 0 <= c -> approx k a b -> approx k (a + c) (b + c).
Proof. by move=> h [h0 h1 h2]; have := qq_pow k; split; nra. Qed.
Lemma qqk k : (k <= 100)%N -> / 2 <= qq ^ k.
Proof.
move=> h; apply: qq_low; have : INR k <= 100 by rewrite -[100]/(IZR 100) INR_IZR_INZ; apply: IZR_le; move/leP: h; lia.
by have := uu_tiny; have := uu_lt; have := pos_INR k; nra.
Qed.
Lemma qq_hi k : qq ^ k * (1 + INR k * uu) <= 1.
Proof.
have hu := uu_lt; elim: k => [|k ih]; first by rewrite /=; lra.
have [p0 p1] := qq_pow k; have n0 := pos_INR k; rewrite S_INR /= {1}/qq.
move: (qq ^ k) (INR k) ih p0 p1 n0 => a b ih p0 p1 n0.
have h : (1 - uu) * (1 + (b + 1) * uu) <= 1 + b * uu by nra.
by apply: Rle_trans ih; rewrite [_ * a]Rmult_comm Rmult_assoc; apply: Rmult_le_compat_l; lra.
Qed.
Lemma add_ap x y k a b : good x -> good y -> 0 <= b -> approx k a (v2R x) -> v2R y = b -> v2R x + v2R y <= bpow radix2 1000 ->
  good (dadd x y) /\ approx (k + 1) (a + b) (v2R (dadd x y)).
Proof.
move=> gx gy hb ha hy hs.
have f : is_finite (dadd x y) = true by apply: add_fin => //; apply: Rle_trans hs _; apply: bpow_le.
have g := add_good gx gy f; split=> //; apply: ap_trans (ap_plus hb ha) _; rewrite -{1}hy; apply: ap_one.
  by case: gx gy => _ ? [_ ?]; lra.
exact: add_err.
Qed.
Lemma bsum a b : (a <= 999)%Z -> (b <= 999)%Z -> bpow radix2 a + bpow radix2 b <= bpow radix2 1000.
Proof.
move=> ha hb; have := @bpow_le radix2 a 999 ha; have := @bpow_le radix2 b 999 hb; have e : bpow radix2 1000 = 2 * bpow radix2 999 by rewrite -bpow_S; congr bpow.
move: e; move: (bpow _ _) (bpow _ _) (bpow _ _) (bpow _ _) => A B C D; lra.
Qed.
Definition wide (x : double) : Prop := is_finite x = true /\ bpow radix2 (-201) <= v2R x <= bpow radix2 201.
Lemma wide_rng x : wide x -> 0 < v2R x /\ rng (-201) 201 (v2R x).
Proof.
move=> [_ h]; have p : 0 < v2R x by case: h => h _; apply: Rlt_le_trans h; exact: bpow_gt_0.
by split=> //; right; rewrite Rabs_pos_eq //; lra.
Qed.
Lemma factor_rng F : factor F -> rng (-100) 100 (v2R F).
Proof. by case=> _ h. Qed.
(** the square, P H^2, and its sum with the noise *)
Lemma quad P F : wide P -> factor F -> let a := dot1 P F in let b := dot1 F a in
  [/\ is_finite a = true, rel 1 (v2R P * v2R F) (v2R a), good b, approx 2 (v2R F ^ 2 * v2R P) (v2R b) & v2R b <= bpow radix2 500].
Proof.
move=> wP fF a b; have [p0 rP] := wide_rng wP; have rF := factor_rng fF; case: wP fF => fP _ [fF _].
have [|||fa ra] := dot_rel fP fF (rel_refl _) (rel_refl _) rP rF; try by []; try lia; first exact: qqk.
have rPF := rng_mul rP rF.
have [|||fb rb] := dot_rel fF fa (rel_refl _) ra rF rPF; try by []; try lia; first exact: qqk.
have ef : v2R F * (v2R P * v2R F) = v2R F ^ 2 * v2R P by ring.
rewrite -/b ef in rb; have h0 : 0 <= v2R F ^ 2 * v2R P by apply: Rmult_le_pos; [exact: pow2_ge_0|lra].
have ab := rel_ap h0 rb; split=> //; first by split=> //; exact: ap_ge0 ab.
have hn : rng (-501) 501 (v2R F ^ 2 * v2R P) by rewrite -ef; apply: rng_weaken (rng_mul rF rPF).
have hh : rng (-402) 402 (v2R F ^ 2 * v2R P) by rewrite -ef; apply: rng_weaken (rng_mul rF rPF).
have [e|[_ h]] := rng_rel (qqk (erefl : (0 + (0 + 0 + 1) + 1 <= 100)%N)) rb hh; first by rewrite e; exact: bpow_ge_0.
apply: Rle_trans (Rle_abs _) _; apply: Rle_trans h _; exact: bpow_le.
Qed.
Lemma sys_step J F Q s : wide (k_var s) -> factor F -> noise Q \/ is_finite Q = true /\ v2R Q = 0 ->
  good (k_var (k_sys J F Q s)) /\ approx 3 (variance (v2R (k_var s)) (KSys J F Q)) (v2R (k_var (k_sys J F Q s))).
Proof.
move=> wP fF hQ; have [_ _ gb ab hb] := quad wP fF.
have gQ : good Q /\ v2R Q <= bpow radix2 200.
  case: hQ => [[f [h1 h2]]|[f e]]; last by rewrite /good e; split; [split=> //; lra|exact: bpow_ge_0].
  by split=> //; split=> //; apply: Rle_trans h1; exact: bpow_ge_0.
case: gQ => gQ lQ; rewrite /k_sys /=; apply: (add_ap gb gQ _ ab erefl); first by case: gQ.
by apply: Rle_trans (bsum (a := 500) (b := 200) _ _); [lra|lia|lia].
Qed.
(** the gain and the share of the variance that a measurement removes *)
Lemma gain_step P H R (mu : double) : wide P -> factor H -> noise R ->
  let S0 := v2R H ^ 2 * v2R P + v2R R in let K := k_gain H R (DKF mu P) in
  [/\ 0 < S0, is_finite K = true, rel 6 (v2R P * v2R H / S0) (v2R K), rng (-704) 501 (v2R P * v2R H / S0) &
    is_finite (dot1 (dot1 K H) P) = true /\ rel 8 (v2R P * (v2R H ^ 2 * v2R P / S0)) (v2R (dot1 (dot1 K H) P))].
Proof.
move=> wP fH nR S0 K; have [p0 rP] := wide_rng wP; have rH := factor_rng fH.
have [fa ra gb ab hb] := quad wP fH; set a := dot1 P H in fa ra gb ab hb; set b := dot1 H a in gb ab hb.
case: (nR) => fR [R1 R2]; have gR : good R by split=> //; apply: Rle_trans R1; exact: bpow_ge_0.
have [|gS aS] := add_ap gb gR (proj2 gR) ab erefl.
  by apply: Rle_trans (bsum (a := 500) (b := 200) _ _); [lra|lia|lia].
set S := dadd b R in gS aS; rewrite -/S0 in aS.
have hp : 0 <= v2R H ^ 2 * v2R P by apply: Rmult_le_pos; [exact: pow2_ge_0|lra].
have R0 : 0 < v2R R by apply: Rlt_le_trans R1; exact: bpow_gt_0.
have S00 : 0 < S0 by rewrite /S0; lra.
have hS : bpow radix2 (-200) <= S0 <= bpow radix2 403.
  split; first by rewrite /S0; lra.
  have : v2R H ^ 2 * v2R P <= bpow radix2 402.
    have e : v2R H ^ 2 * v2R P = v2R H * (v2R P * v2R H) by ring.
    have : rng (-402) 402 (v2R H ^ 2 * v2R P) by rewrite e; apply: rng_weaken (rng_mul rH (rng_mul rP rH)).
    by case=> [->|[_ h]]; [exact: bpow_ge_0|apply: Rle_trans (Rle_abs _) h].
  have e : bpow radix2 403 = 2 * bpow radix2 402 by rewrite -bpow_S; congr bpow.
  have := @bpow_le radix2 200 402 ltac:(lia).
  move: e R2; rewrite /S0; move: (bpow _ 403) (bpow _ 402) (bpow _ 200) => X Y Z; lra.
have [Sp aI] := ap_inv S00 aS.
have rI : rng (-403) 200 (/ S0).
  have h1 := bpow_opp radix2 403; have h2 := bpow_opp radix2 (-200).
  right; rewrite Rabs_pos_eq; last by apply/Rlt_le/Rinv_0_lt_compat.
  rewrite -[(-403)%Z]/(- (403))%Z h1 -[(200)%Z]/(- (-200))%Z h2.
  by split; apply: Rinv_le => //; [case: hS|exact: bpow_gt_0|case: hS].
have relI := ap_rel (Rinv_0_lt_compat _ S00) aI.
have nI := rng_rel (qqk (erefl : (2 + 1 <= 100)%N)) relI rI.
have [|||fi ei] := @divS d1 S; first by case: good1.
- by lra.
- by rewrite v2R1 /Rdiv Rmult_1_l; apply: rng_small nI; lia.
rewrite v2R1 /Rdiv Rmult_1_l in ei.
have ri : rel 4 (/ S0) (v2R (ddiv d1 S)).
  by rewrite ei; apply: (rel_trans relI); apply: rnd_relS; apply: rng_weaken nI; lia.
have [|||fK rK] := dot_rel fa fi ra ri (rng_mul rP rH) rI; try by []; try lia; first exact: qqk.
have nK := rng_mul (rng_mul rP rH) rI.
have [|||fT rT] := dot_rel fK (proj1 fH) rK (rel_refl _) nK rH; try by []; try lia; first exact: qqk.
have nT := rng_mul nK rH.
have [|||fW rW] := dot_rel fT (proj1 wP) rT (rel_refl _) nT rP; try by []; try lia; first exact: qqk.
split=> //; split=> //; apply: rel_weaken (_ : rel _ _ _); last first.
  have -> : v2R P * (v2R H ^ 2 * v2R P / S0) = v2R P * v2R H * / S0 * v2R H * v2R P by rewrite /Rdiv; ring.
  exact: rW.
by [].
Qed.
Lemma q8 q : approx 8 1 q -> Rabs (1 - q) <= 801 / 100 * uu.
Proof.
move=> [_ h1 h2]; have hp := pow_lo 8; rewrite -/qq in hp; have hu := uu_lt.
have e8 : INR 8 = 8 by rewrite /=; lra.
have ht := uu_tiny; rewrite e8 in hp; have [p0 p1] := qq_pow 8; move: (qq ^ 8) hp p0 p1 h1 h2 => w hp p0 p1 h1 h2.
apply: Rabs_le; split; last lra.
have : q * (1 - 8 * uu) <= 1 by nra.
nra.
Qed.
Lemma meas_step z Z H R c s : wide (k_var s) -> factor H -> noise R -> wide (k_var s) ->
  v2R H ^ 2 * v2R (k_var s) <= 101 / 100 * INR c * v2R R -> 450 * INR c * uu <= 1 ->
  rng (-300) 300 (variance (v2R (k_var s)) (KMeas z Z H R)) ->
  is_finite (k_var (k_meas z Z H R s)) = true /\
  approx (9 * c + 1) (variance (v2R (k_var s)) (KMeas z Z H R)) (v2R (k_var (k_meas z Z H R s))).
Proof.
case: s => mu P /= wP fH nR _ hc hu hv; have [S00 _ _ _ [fW [q eW hq]]] := gain_step mu wP fH nR.
have [p0 rP] := wide_rng wP; have h8 := q8 hq.
have R0 : 0 < v2R R by case: nR => _ [h _]; apply: Rlt_le_trans h; exact: bpow_gt_0.
set S0 := v2R H ^ 2 * v2R P + v2R R in S00 eW; set W := dot1 _ P in fW eW *.
set m := / (/ v2R P + v2R H ^ 2 / v2R R) in hv *.
have h2 : 0 <= v2R H ^ 2 by exact: pow2_ge_0.
have em : m = v2R P * v2R R / S0.
  rewrite /m /S0; field; split; last by split; lra.
  by rewrite -/S0; lra.
have m0 : 0 < m by rewrite em; apply: Rdiv_lt_0_compat => //; exact: Rmult_lt_0_compat.
set rho := v2R H ^ 2 * v2R P / v2R R.
have eD : v2R P - v2R W = m * (1 + rho * (1 - q)).
  rewrite eW em /rho; rewrite -/S0; have : S0 = v2R H ^ 2 * v2R P + v2R R by [].
  by move: (S0) S00 => T hT eT; rewrite eT; rewrite eT in hT; field; lra.
have r0 : 0 <= rho <= 101 / 100 * INR c.
  split; first by apply: Rmult_le_pos; [apply: Rmult_le_pos; lra|apply/Rlt_le/Rinv_0_lt_compat].
  by apply: (Rmult_le_reg_r (v2R R)) => //; rewrite /rho /Rdiv Rmult_assoc Rinv_l; lra.
have hd : Rabs (rho * (1 - q)) <= 81 / 10 * (INR c * uu).
  rewrite Rabs_mult Rabs_pos_eq; last by case: r0.
  apply: Rle_trans (_ : 101 / 100 * INR c * (801 / 100 * uu) <= _).
    by apply: Rmult_le_compat; [lra|exact: Rabs_pos|lra|].
  by have := uu_lt; have := pos_INR c; nra.
have aq : approx (9 * c) 1 (1 + rho * (1 - q)).
  rewrite /approx; have := qq_hi (9 * c); have [k0 k1] := qq_pow (9 * c); rewrite mult_INR.
  have -> : INR 9 = 9 by rewrite /=; lra.
  move/Rabs_le_inv: hd; have y0 : 0 <= INR c * uu by apply: Rmult_le_pos; [exact: pos_INR|have := uu_lt; lra].
  have y1 : 450 * (INR c * uu) <= 1 by lra.
  move: (rho * (1 - q)) (qq ^ _) (INR c * uu) k0 k1 y0 y1 (Rmult_assoc 9 (INR c) uu) => t w y k0 k1 y0 y1 e hd.
  rewrite e => hw; split; first lra.
    rewrite Rmult_1_l; apply: Rle_trans (_ : 1 - 81 / 10 * y <= _); last lra.
    have hy : 1 <= (1 - 81 / 10 * y) * (1 + 9 * y) by nra.
    by apply: (Rmult_le_reg_r (1 + 9 * y)); lra.
  apply: Rle_trans (_ : (1 + 81 / 10 * y) * w <= _); first by apply: Rmult_le_compat_r; lra.
  by apply: Rle_trans hw; rewrite Rmult_comm; apply: Rmult_le_compat_l; lra.
have rD : rel (9 * c) m (v2R P - v2R W) by exists (1 + rho * (1 - q)).
have hk : / 2 <= qq ^ (9 * c).
  apply: qq_low; rewrite mult_INR; have -> : INR 9 = 9 by rewrite /=; lra.
  by lra.
have nD := rng_rel hk rD hv.
have [|f e] := subS (proj1 wP) fW; first by apply: rng_small nD; lia.
rewrite /k_meas /= -/W f e; split=> //.
apply: rel_ap; first lra.
by apply: rel_trans rD _; apply: rnd_relS; apply: rng_weaken nD; lia.
Qed.

(** ** Runs *)
Lemma ap_gt0 k r v : 0 < r -> approx k r v -> 0 < v.
Proof. by move=> h [_ h1 _]; apply: Rlt_le_trans h1; apply: Rmult_lt_0_compat => //; case: (qq_pow k). Qed.
Lemma var_ap c k p q f : 0 < p -> approx k p q -> fair c p f -> approx k (variance p f) (variance q f).
Proof.
move=> p0 h; case: f => [J F Q|z Z H R] /= hf.
  apply: ap_plus; last by apply: ap_scale h; exact: pow2_ge_0.
  by case: hf => _ [[_ [hq _]]|[_ ->]]; [apply: Rle_trans hq; exact: bpow_ge_0|lra].
case: hf => _ [_ [hR _]] _.
have R0 : 0 < v2R R by apply: Rlt_le_trans hR; exact: bpow_gt_0.
have a0 : 0 <= v2R H ^ 2 / v2R R by apply: Rmult_le_pos; [exact: pow2_ge_0|apply/Rlt_le/Rinv_0_lt_compat].
have [q0 h'] := ap_inv p0 h; have h2 := ap_plus a0 h'.
by case: (ap_inv _ h2) => //; have := Rinv_0_lt_compat _ p0; lra.
Qed.
Lemma mid_gt0 r : mid r -> 0 < r.
Proof. by move=> [h _]; apply: Rlt_le_trans h; exact: bpow_gt_0. Qed.
Lemma mid_rng r : mid r -> rng (-200) 200 r.
Proof. by move=> h; right; rewrite Rabs_pos_eq //; apply/Rlt_le/mid_gt0. Qed.
Lemma half_pow k : INR k * uu <= / 200 -> 199 / 200 <= qq ^ k.
Proof. by move=> h; have := pow_lo k; rewrite -/qq; lra. Qed.
Lemma mid_wide k p P : is_finite P = true -> mid p -> INR k * uu <= / 200 -> approx k p (v2R P) -> wide P.
Proof.
move=> f hm hk ha; have hq := half_pow hk; have p0 := mid_gt0 hm.
have [e|[h1 h2]] : rng (-201) 201 (v2R P).
- by apply: (@rng_rel k (-200) 200 p); [lra|exact: ap_rel|exact: mid_rng].
- by have := ap_gt0 p0 ha; lra.
- by split=> //; rewrite Rabs_pos_eq in h1 h2; [split|apply/Rlt_le/(ap_gt0 p0 ha)].
Qed.
Lemma k_step_ok c k p s f : is_finite (k_var s) = true -> mid p -> approx k p (v2R (k_var s)) -> fair c p f -> mid (variance p f) ->
  INR (k + (9 * c + 3)) * uu <= / 200 ->
  is_finite (k_var (k_step s f)) = true /\ approx (k + (9 * c + 3)) (variance p f) (v2R (k_var (k_step s f))).
Proof.
move=> fs hm ha hf hm' hk; have hu := uu_lt.
have c0 := pos_INR c; have k0 := pos_INR k.
have e1 : INR (k + (9 * c + 3)) = INR k + (9 * INR c + 3).
  rewrite -[(k + (9 * c + 3))%N]/(Nat.add k (Nat.add (Nat.mul 9 c) 3)) (plus_INR k) (plus_INR (Nat.mul 9 c) 3) (mult_INR 9 c).
  by have -> : INR 9 = 9 by [rewrite /=; lra]; rewrite /=; lra.
have hk' : INR k * uu <= / 200 by rewrite e1 in hk; nra.
have w := mid_wide fs hm hk' ha; have hq := half_pow hk'.
have hv := var_ap (mid_gt0 hm) ha hf.
have rv : rng (-300) 300 (variance (v2R (k_var s)) f).
  apply: (@rng_weaken (-201) 201); try lia.
  by apply: (@rng_rel k (-200) 200 _ _ _ (ap_rel (mid_gt0 hm') hv)); [lra|exact: mid_rng].
case: f hf hm' hv rv => [J F Q|z Z H R] /= hf hm' hv rv.
  have [fF hQ] := hf; have [[f _] a] := sys_step J w fF hQ; split=> //.
  by apply: ap_weaken (ap_trans hv a); rewrite leq_add2l leq_addl.
have [fH nR hc] := hf.
have [|||f a] := @meas_step z Z H R c s w fH nR w.
- apply: Rle_trans (_ : 101 / 100 * (v2R H ^ 2 * p) <= _); last by have := hc; lra.
  have h2 : 0 <= v2R H ^ 2 by exact: pow2_ge_0.
  case: ha => _ _ ha; have p0 := mid_gt0 hm.
  have : v2R (k_var s) <= 101 / 100 * p by nra.
  by move: (v2R H ^ 2) h2 => h h2 hle; nra.
- by rewrite e1 in hk; nra.
- exact: rv.
by split=> //; apply: ap_weaken (ap_trans hv a); rewrite leq_add2l leq_add2l.
Qed.
Lemma k_run_ok c fs k p s : is_finite (k_var s) = true -> mid p -> approx k p (v2R (k_var s)) -> fair_run c p fs ->
  INR (k + kroundings c (size fs)) * uu <= / 200 ->
  is_finite (k_var (k_run s fs)) = true /\ approx (k + kroundings c (size fs)) (variance_run p fs) (v2R (k_var (k_run s fs))) /\
  mid (variance_run p fs).
Proof.
elim: fs k p s => [|f fs ih] k p s fs0 hm ha /=; first by rewrite /kroundings mul0n addn0.
move=> [hf hm' hr] hk; rewrite /kroundings mulSn addnA -/(kroundings _ _) in hk *.
have le1 : INR (k + (9 * c + 3)) * uu <= / 200.
  apply: Rle_trans hk; apply: Rmult_le_compat_r; first by have := uu_lt; lra.
  by apply: le_INR; apply/leP; exact: leq_addr.
have [f1 a1] := k_step_ok fs0 hm ha hf hm' le1.
exact: ih.
Qed.

(** ** One measurement update without a condition on the precision of the measurement *)
Lemma plus_rel x y : exists2 e, rnd (v2R x + v2R y) = (v2R x + v2R y) * (1 + e) & Rabs e <= uu.
Proof.
have [eps [h e]] := FLT_plus_error_N_ex radix2 (-1074) 53 (fun z => negb (Z.even z)) _ _ (fmt x) (fmt y).
exists eps => //; apply: Rle_trans h _; have hu := uu_lt; have -> : u_ro radix2 53 = uu by [].
have : / (1 + uu) <= 1 by rewrite -[X in _ <= X]Rinv_1; apply: Rinv_le; lra.
by rewrite /Rdiv; nra.
Qed.
Lemma minus_rel x y : exists2 e, rnd (v2R x - v2R y) = (v2R x - v2R y) * (1 + e) & Rabs e <= uu.
Proof.
have fy : generic_format radix2 (FLT_exp (-1074) 53) (- v2R y) by apply: generic_format_opp; exact: fmt.
have [eps [h e]] := FLT_plus_error_N_ex radix2 (-1074) 53 (fun z => negb (Z.even z)) _ _ (fmt x) fy.
exists eps => //; apply: Rle_trans h _; have hu := uu_lt; have -> : u_ro radix2 53 = uu by [].
have : / (1 + uu) <= 1 by rewrite -[X in _ <= X]Rinv_1; apply: Rinv_le; lra.
by rewrite /Rdiv; nra.
Qed.
Lemma one_ap e : Rabs e <= uu -> approx 1 1 (1 + e).
Proof. by move=> /Rabs_le_inv h; apply: ap_one; lra. Qed.
Lemma le_small r b : (b <= 1000)%Z -> Rabs r <= bpow radix2 b -> small r.
Proof. by move=> h h'; apply: Rle_trans h' _; exact: bpow_le. Qed.
Lemma meas_abs z Z H R s : wide (k_var s) -> factor H -> noise R ->
  is_finite (k_var (k_meas z Z H R s)) = true /\
  Rabs (v2R (k_var (k_meas z Z H R s)) - variance (v2R (k_var s)) (KMeas z Z H R)) <= 10 * uu * v2R (k_var s).
Proof.
case: s => mu P /= wP fH nR; have [S00 _ _ _ [fW [q eW hq]]] := gain_step mu wP fH nR.
have [p0 rP] := wide_rng wP; have h8 := q8 hq; have hu := uu_lt.
have R0 : 0 < v2R R by case: nR => _ [h _]; apply: Rlt_le_trans h; exact: bpow_gt_0.
set S0 := v2R H ^ 2 * v2R P + v2R R in S00 eW; rewrite /k_meas /=; set W := dot1 _ P in fW eW *.
set m := / (/ v2R P + v2R H ^ 2 / v2R R).
have h2 : 0 <= v2R H ^ 2 by exact: pow2_ge_0.
set t := v2R H ^ 2 * v2R P / S0.
have ht : 0 <= t <= 1.
  have a0 : 0 <= v2R H ^ 2 * v2R P by apply: Rmult_le_pos; lra.
  split; first by apply: Rmult_le_pos => //; apply/Rlt_le/Rinv_0_lt_compat.
  by apply: (Rmult_le_reg_r S0) => //; rewrite /t /Rdiv Rmult_assoc Rinv_l; [rewrite /S0|]; lra.
have em : m = v2R P * (1 - t).
  rewrite /m /t /S0; field; split; last by split; lra.
  by rewrite -/S0; lra.
have eW' : v2R W = v2R P * t * q by [].
have [e eD he] := minus_rel P W.
have [h1 h3] : - (801 / 100 * uu) <= 1 - q <= 801 / 100 * uu by exact: Rabs_le_inv.
have hd : Rabs (v2R P * t * (1 - q)) <= 801 / 100 * uu * v2R P.
  rewrite (Rabs_mult (v2R P * t)) (Rabs_pos_eq (v2R P * t)); last by apply: Rmult_le_pos; lra.
  apply: Rle_trans (_ : v2R P * 1 * (801 / 100 * uu) <= _); last lra.
  apply: Rmult_le_compat => //; [by apply: Rmult_le_pos; lra|exact: Rabs_pos|].
  by apply: Rmult_le_compat_l; lra.
have hm : 0 <= m <= v2R P by rewrite em; nra.
have eq : v2R P - v2R W = m + v2R P * t * (1 - q) by rewrite em eW'; ring.
have ht' := uu_tiny.
have hs : small (v2R P - v2R W).
  apply: (@le_small _ 202) => //; have -> : bpow radix2 202 = 2 * bpow radix2 201 by rewrite -bpow_S; congr bpow.
  rewrite eq; case: wP => _ [_ hP]; move/Rabs_le_inv: hd => hd; apply: Rabs_le; nra.
have [f ->] := subS (proj1 wP) fW hs; split=> //.
rewrite eD eq; move/Rabs_le_inv: hd => hd; move/Rabs_le_inv: he => he.
move: (v2R P * t * (1 - q)) hd => d hd; clear -hd he hm p0 hu ht'.
apply: Rabs_le; move: (v2R P) p0 hd hm => p p0 hd hm.
have h1 : - (uu * (m + Rabs d)) <= (m + d) * e <= uu * (m + Rabs d).
  apply: Rabs_le_inv; rewrite Rabs_mult Rmult_comm; apply: Rmult_le_compat; try exact: Rabs_pos.
    by apply: Rabs_le; lra.
  by apply: Rle_trans (Rabs_triang _ _) _; rewrite (Rabs_pos_eq m); lra.
have h2 : Rabs d <= p by apply: Rabs_le; nra.
by nra.
Qed.
Lemma mean_step z Z H R mu P b : wide P -> factor H -> noise R -> b = bpow radix2 300 ->
  is_finite z = true -> is_finite Z = true -> is_finite mu = true -> Rabs (v2R z) <= b -> Rabs (v2R Z) <= b -> Rabs (v2R mu) <= b ->
  let K0 := v2R P * v2R H / (v2R H ^ 2 * v2R P + v2R R) in
  let exact := v2R mu + K0 * (v2R z - v2R Z) in
  is_finite (k_mu (k_meas z Z H R (DKF mu P))) = true /\
  Rabs (v2R (k_mu (k_meas z Z H R (DKF mu P))) - exact) <= uu * Rabs exact + 9 * uu * Rabs (K0 * (v2R z - v2R Z)) + bpow radix2 (-1074).
Proof.
move=> wP fH nR eb fz fZ fm hz hZ hmu K0 exact.
have [S00 fK [q eK hq] nK _] := gain_step mu wP fH nR; have hu := uu_lt; have ht := uu_tiny.
rewrite /k_meas; set K := k_gain H R _ in fK eK *; rewrite -/K0 in eK nK; rewrite [k_mu (DKF _ _)]/=.
have e301 : bpow radix2 301 = 2 * b by rewrite eb -bpow_S; congr bpow.
have hi : Rabs (v2R z - v2R Z) <= bpow radix2 301.
  by rewrite e301; apply: Rle_trans (Rabs_triang _ _) _; rewrite Rabs_Ropp; lra.
have [|fi ei] := subS fz fZ; first by apply: le_small hi.
have [e1 ee1 he1] := minus_rel z Z; rewrite ee1 in ei.
have i302 : Rabs (v2R (dsub z Z)) <= bpow radix2 302.
  rewrite ei Rabs_mult; have -> : bpow radix2 302 = 2 * bpow radix2 301 by rewrite -bpow_S; congr bpow.
  have : Rabs (1 + e1) <= 2 by move/Rabs_le_inv: he1 => he1; apply: Rabs_le; lra.
  by have := Rabs_pos (v2R z - v2R Z); have := Rabs_pos (1 + e1); nra.
have K502 : Rabs (v2R K) <= bpow radix2 502.
  have [->|[_ h]] := rng_rel (qqk (erefl : (6 <= 100)%N)) (ex_intro2 _ _ q eK hq) nK; last exact: h.
  by rewrite Rabs_R0; exact: bpow_ge_0.
have sx : Rabs (v2R K * v2R (dsub z Z)) <= bpow radix2 804.
  rewrite Rabs_mult -[(804)%Z]/(502 + 302)%Z bpow_plus; apply: Rmult_le_compat => //; exact: Rabs_pos.
have [|fx ex] := dotS fK fi; first by apply: le_small sx.
have [eps [eta [h1 [h2 [_ h3]]]]] := error_N_FLT radix2 (-1074) 53 (erefl _ : (0 < 53)%Z) (fun z => negb (Z.even z)) (v2R K * v2R (dsub z Z)).
rewrite -[/ 2 * bpow radix2 (-53 + 1)]/uu in h1.
set w := v2R (dot1 K (dsub z Z)) in ex *.
have ew : w = K0 * (v2R z - v2R Z) * (q * (1 + e1) * (1 + eps)) + eta by rewrite ex h3 eK ei; ring.
have hQ := q8 (ap1_mul (ap1_mul hq (one_ap he1)) (one_ap h1)).
set Q := q * (1 + e1) * (1 + eps) in hQ ew.
have sw : Rabs (w + v2R mu) <= bpow radix2 805.
  have -> : bpow radix2 805 = bpow radix2 804 + bpow radix2 804.
    by rewrite [RHS](_ : _ = 2 * bpow radix2 804); [rewrite -bpow_S; congr bpow|ring].
  apply: Rle_trans (Rabs_triang _ _) _; apply: Rplus_le_compat.
    by rewrite ex; apply: abs_round_le_generic => //; apply: generic_format_bpow; rewrite /FLT_exp; lia.
  by apply: Rle_trans hmu _; rewrite eb; apply: bpow_le.
have [|fr er] := addS fx fm; first by apply: le_small sw.
have [e3 ee3 he3] := plus_rel (dot1 K (dsub z Z)) mu; rewrite ee3 -/w in er; split=> //.
rewrite er ew; set g := K0 * (v2R z - v2R Z).
have -> : (g * Q + eta + v2R mu) * (1 + e3) - exact = exact * e3 + (1 + e3) * (g * (Q - 1)) + (1 + e3) * eta.
  by rewrite /exact -/g; ring.
have a1 : Rabs (exact * e3) <= uu * Rabs exact by rewrite Rabs_mult Rmult_comm; apply: Rmult_le_compat_r => //; exact: Rabs_pos.
have he : Rabs (1 + e3) <= 1 + uu by apply: Rle_trans (Rabs_triang _ _) _; rewrite Rabs_R1; lra.
have a2 : Rabs ((1 + e3) * (g * (Q - 1))) <= 9 * uu * Rabs g.
  rewrite (Rabs_mult (1 + e3)) (Rabs_mult g) (Rabs_minus_sym Q 1); have g0 := Rabs_pos g.
  apply: Rle_trans (_ : (1 + uu) * (Rabs g * (801 / 100 * uu)) <= _); last first.
    by have h : (1 + uu) * (801 / 100 * uu) <= 9 * uu by [nra]; have := Rmult_le_compat_l _ _ _ g0 h; lra.
  apply: Rmult_le_compat => //; [exact: Rabs_pos|by apply: Rmult_le_pos; [|exact: Rabs_pos]|].
  exact: Rmult_le_compat_l.
have a3 : Rabs ((1 + e3) * eta) <= bpow radix2 (-1074).
  rewrite Rabs_mult; have b0 := bpow_gt_0 radix2 (-1074); move: (bpow _ (-1074)) b0 h2 => B b0 h2.
  apply: Rle_trans (_ : 2 * (/ 2 * B) <= _); last lra.
  by apply: Rmult_le_compat; try exact: Rabs_pos; lra.
apply: Rle_trans (Rabs_triang _ _) _; apply: Rplus_le_compat => //.
by apply: Rle_trans (Rabs_triang _ _) _; apply: Rplus_le_compat.
Qed.

(** ** Variance 0 *)
Lemma zero_step z Z H R s : is_finite (k_var s) = true -> v2R (k_var s) = 0 -> is_finite (k_mu s) = true -> small (v2R (k_mu s)) ->
  is_finite H = true -> is_finite R = true -> bpow radix2 (-1000) <= v2R R <= bpow radix2 1000 ->
  is_finite z = true -> is_finite Z = true -> small (v2R z - v2R Z) ->
  let s' := k_meas z Z H R s in
  [/\ is_finite (k_var s') = true, v2R (k_var s') = 0, is_finite (k_mu s') = true & v2R (k_mu s') = v2R (k_mu s)].
Proof.
case: s => mu P /= fP eP fm sm fH fR [R1 R2] fz fZ si.
have R0 : 0 < v2R R by apply: Rlt_le_trans R1; exact: bpow_gt_0.
have s0 : small 0 by rewrite /small Rabs_R0; exact: bpow_ge_0.
have [|f1 e1] := dotS fP fH; first by rewrite eP Rmult_0_l.
rewrite eP Rmult_0_l round_0 in e1.
have [|f2 e2] := dotS fH f1; first by rewrite e1 Rmult_0_r.
rewrite e1 Rmult_0_r round_0 in e2.
have [|f3 e3] := addS f2 fR; first by rewrite e2 Rplus_0_l /small Rabs_pos_eq //; lra.
rewrite e2 Rplus_0_l rnd_id in e3.
have [|||f4 _] := @divS d1 (dadd (dot1 H (dot1 P H)) R); first by case: good1.
- by rewrite e3; lra.
- rewrite e3 v2R1 /Rdiv Rmult_1_l /small Rabs_pos_eq; last by apply/Rlt_le/Rinv_0_lt_compat.
  rewrite -[(1000)%Z]/(- (-1000))%Z bpow_opp; apply: Rinv_le => //; exact: bpow_gt_0.
have [|f5 e5] := dotS f1 f4; first by rewrite e1 Rmult_0_l.
rewrite e1 Rmult_0_l round_0 in e5.
rewrite /k_meas /k_gain /=; set K := dot1 (dot1 P H) _ in f5 e5 *.
have [|f6 e6] := dotS f5 fH; first by rewrite e5 Rmult_0_l.
rewrite e5 Rmult_0_l round_0 in e6.
have [|f7 e7] := dotS f6 fP; first by rewrite e6 Rmult_0_l.
rewrite e6 Rmult_0_l round_0 in e7.
have [|f8 e8] := subS fP f7; first by rewrite e7 eP Rminus_0_r.
have [f9 _] := subS fz fZ si.
have [|f10 e10] := dotS f5 f9; first by rewrite e5 Rmult_0_l.
rewrite e5 Rmult_0_l round_0 in e10.
have [|f11 e11] := addS f10 fm; first by rewrite e10 Rplus_0_l.
by rewrite f8 f11 e8 e11 e7 eP e10 Rminus_0_r round_0 Rplus_0_l rnd_id.
Qed.
