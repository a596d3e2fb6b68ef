(** * Rounding in the value of the density of a two-dimensional Gaussian *)
From Coq Require Import ZArith Reals Lra Lia.
From Flocq Require Import Core.Core BinarySingleNaN.
From mathcomp Require Import all_ssreflect.
From Verif Require Import Outcome ModelDouble SpecDouble ProofsDouble PropertiesDouble ProofsDoubleHist ModelDoubleKF ProofsDoubleKF
  ModelDoubleUni ProofsDoubleUni ProofsDoubleMean ModelDoubleGauss SpecDoubleGauss ProofsDoubleGauss ModelDoubleNoise SpecDoubleNoise ProofsDoubleNoise
  PropertiesDoubleNoise ModelDoubleChol SpecDoubleChol ProofsDoubleChol ModelDoubleGauss2 SpecDoubleGauss2 ProofsDoubleGauss2 PropertiesDoubleGauss2 SpecDoubleDens2.
Set Implicit Arguments. Unset Strict Implicit. Unset Printing Implicit Defensive.
Local Open Scope R_scope.
Lemma b7 : bpow radix2 7 = 128. Proof. by []. Qed.
Lemma uu36 : IZR (2 ^ 36) * uu = / 131072. Proof. by rewrite uu_val /=; lra. Qed.
Lemma z36 : IZR (2 ^ 36) = 262144 * 262144. Proof. by rewrite /=; lra. Qed.
Lemma z23 : IZR (2 ^ 23) = 8388608. Proof. by []. Qed.
Local Opaque d0 d1 dprec dlit dadd dsub dmul ddiv dle dlt bpow IZR dsqrt.

(** ** Relative errors *)
Definition nr (d r v : R) : Prop := exists2 c, v = r * c & Rabs (c - 1) <= d.
Lemma nr_weaken d e r v : d <= e -> nr d r v -> nr e r v.
Proof. by move=> h [c -> hc]; exists c => //; lra. Qed.
Lemma nr_ge0 d r v : nr d r v -> 0 <= d.
Proof. by case=> c _ h; have := Rabs_pos (c - 1); lra. Qed.
Lemma nr_trans d e r v w : nr d r v -> nr e v w -> nr (d + e + d * e) r w.
Proof.
move=> h1 h2; have d0 := nr_ge0 h1; have e0 := nr_ge0 h2; case: h1 h2 => c -> hc [c' -> hc'].
by exists (c * c'); [ring|exact: mul_close].
Qed.
Lemma nr_mul d e r s v w : nr d r v -> nr e s w -> nr (d + e + d * e) (r * s) (v * w).
Proof.
move=> h1 h2; have d0 := nr_ge0 h1; have e0 := nr_ge0 h2; case: h1 h2 => c -> hc [c' -> hc'].
by exists (c * c'); [ring|exact: mul_close].
Qed.
Lemma nr_abs d r v : 0 < r -> Rabs (v - r) <= r * d -> nr d r v.
Proof.
move=> r0 h; exists (v / r); first by field; lra.
have -> : v / r - 1 = (v - r) / r by field; lra.
rewrite /Rdiv Rabs_mult (Rabs_pos_eq (/ r)); last by left; exact: Rinv_0_lt_compat.
by apply: (Rmult_le_reg_r r) => //; rewrite Rmult_assoc Rinv_l; lra.
Qed.
Lemma nr_err d r v : 0 <= r -> nr d r v -> Rabs (v - r) <= r * d.
Proof.
move=> r0 [c -> hc]; have -> : r * c - r = r * (c - 1) by ring.
by rewrite Rabs_mult (Rabs_pos_eq r) //; apply: Rmult_le_compat_l.
Qed.
Lemma nr_rng d r v : 0 < r -> d <= / 2 -> nr d r v -> 0 < v /\ r / 2 <= v <= 2 * r.
Proof. by move=> r0 hd [c -> /Rabs_le_inv hc]; split; [apply: Rmult_lt_0_compat; lra|split; nra]. Qed.
Lemma nr_rnd x : bpow radix2 (-1022) <= x <= bpow radix2 1000 -> nr uu x (rnd x).
Proof.
move=> h; have x0 : 0 < x by have := bpow_gt_0 radix2 (-1022); lra.
apply: nr_abs => //; have := rnd_rel (rng_pos (Rlt_le _ _ x0) h); rewrite (Rabs_pos_eq x); lra.
Qed.
Lemma nr_sqrt d r v : 0 <= r -> d <= / 2 -> nr d r v -> nr d (sqrt r) (sqrt v).
Proof.
move=> r0 hd [c -> hc]; move/Rabs_le_inv: (hc) => hc'; exists (sqrt c); first by rewrite sqrt_mult //; lra.
have s0 := sqrt_pos c; have e : sqrt c * sqrt c = c by apply: sqrt_sqrt; lra.
by apply: Rabs_le; nra.
Qed.
Lemma nr_inv d r v : 0 < r -> d <= / 1000 -> nr d r v -> nr (501 / 500 * d) (/ r) (/ v).
Proof.
move=> r0 hd h; have d0 := nr_ge0 h; case: h => c -> hc; move/Rabs_le_inv: (hc) => hc'.
exists (/ c); first by field; split; lra.
have -> : / c - 1 = - (c - 1) * / c by field; lra.
rewrite Rabs_mult Rabs_Ropp (Rabs_pos_eq (/ c)); last by left; apply: Rinv_0_lt_compat; lra.
have hi : / c <= 501 / 500.
  by apply: (Rmult_le_reg_r c); [lra|rewrite Rinv_l; lra].
rewrite Rmult_comm; apply: Rmult_le_compat => //; [left; apply: Rinv_0_lt_compat; lra|exact: Rabs_pos].
Qed.
(** ** The exponential *)
Lemma exp_nr expd h (E Y : R) : exp_ok expd -> is_finite h = true -> v2R h <= 0 -> 0 <= E <= 500 -> Rabs (v2R h + E) <= Y -> Y <= / 1000 ->
  good (expd h) /\ nr (1003 / 1000 * Y + 201 / 100 * uu) (exp (- E)) (v2R (expd h)).
Proof.
move=> he fh n0 [E0 E5] hy Y1; have [gd hd] := he h fh n0; split; first exact: gd.
have u0 := uu_gt0; have ut := uu_tiny; have Y0 : 0 <= Y by have := Rabs_pos (v2R h + E); lra.
have h5 := exp_small hy Y1.
have e1 : exp (v2R h) = exp (- E) * exp (v2R h + E) by rewrite -exp_plus; congr exp; ring.
have hx : bpow radix2 (-810) <= exp (v2R h).
  rewrite -[v2R h]Ropp_involutive; apply: exp_near; split; first lra.
  by move/Rabs_le_inv: hy; lra.
have x0 : 0 < exp (v2R h) by exact: exp_pos.
have n2 : nr (2001 / 1000 * uu) (exp (v2R h)) (v2R (expd h)).
  apply: nr_abs => //; apply: Rle_trans hd _; rewrite b52; have h3 := @tiny1074 (-810) ltac:(lia).
  have h4 : bpow radix2 (-810) * (/ 1000 * uu) <= exp (v2R h) * (/ 1000 * uu) by apply: Rmult_le_compat_r; lra.
  lra.
have n1 : nr (Y * (1 + / 500)) (exp (- E)) (exp (v2R h)) by exists (exp (v2R h + E)).
apply: nr_weaken (nr_trans n1 n2).
have : Y * uu <= / 1000 * uu by apply: Rmult_le_compat_r; lra.
have : Y * uu <= Y * / 1000000 by apply: Rmult_le_compat_l; lra.
lra.
Qed.
(** ** The root *)
Lemma root2_ok powd a b c k (D := det2 (v2R a) (v2R b) (v2R c)) (T := 2 * PI * sqrt D) : pow2_ok powd ->
  mid a -> mid0 b -> mid c -> wellcond a b c k -> k * uu <= / 100000 ->
  [/\ is_finite (d2_root powd a b c) = true, bpow radix2 (-150) <= T <= bpow radix2 103 & nr (104 / 10 * (k * uu)) T (v2R (d2_root powd a b c))].
Proof.
move=> hp ha hb hc hw ku; have u0 := uu_gt0; have ut := uu_tiny; have p3 := pi_3.
have ku16 : k * uu <= / 16 by lra.
have [k1 Dl _ _ _] := inv_ok ha hb hc hw ku16; case: hw => D0 ek; rewrite -/D in D0 ek Dl.
have uk : uu <= k * uu by rewrite -[X in X <= _]Rmult_1_l; apply: Rmult_le_compat_r; lra.
have [fd _ ed] := det_ok ha hb hc (Rlt_le _ _ D0); rewrite -/D ek in ed.
have Du : D <= bpow radix2 200.
  have bb : 0 <= v2R b * v2R b by exact: Rle_0_sqr.
  apply: Rle_trans (_ : v2R a * v2R c <= _); first by rewrite /D /det2; lra.
  rewrite -[200%Z]/(100 + 100)%Z bpow_plus; have [_ [a1 a2]] := ha; have [_ [c1 c2]] := hc; have b0 := bpow_gt_0 radix2 (-100).
  by apply: Rmult_le_compat; lra.
have nd : nr (4 * (k * uu)) D (v2R (d2_det a b c)) by apply: nr_abs => //; lra.
have [ft et] := tau_val; have [_ ep] := pi_val.
set x := v2R (dmul dpi dtwo) in et; have hx : 6 <= x <= 7 by rewrite et ep; lra.
have [|fp hpw] := hp _ ft; first by rewrite -/x; split; [lra|apply: Rle_trans (_ : bpow radix2 10 <= _); [rewrite b10; lra|apply: bpow_le; lia]].
rewrite -/x b52 in hpw; set y := v2R (powd _ dtwo) in hpw.
have tp : 0 < 2 * PI by lra.
have nx : nr (101 / 100 * uu) (2 * PI) x.
  have [e ex he] := rel_abs1 (ap_rel tp tau_ap); exists (1 + e); first exact: ex.
  by have -> : 1 + e - 1 = e by ring.
have x2 : x ^ 2 = x * x by ring.
have np : nr (2 * uu) (x * x) y by rewrite -x2; apply: nr_abs; [rewrite x2; nra|exact: hpw].
have uu2 : uu * uu <= uu * / 1000000 by apply: Rmult_le_compat_l; lra.
have ny : nr (41 / 10 * uu) (2 * PI * (2 * PI)) y.
  apply: nr_weaken (nr_trans (nr_mul nx nx) np).
  have : uu * uu * uu <= uu * uu * 1 by apply: Rmult_le_compat_l; [nra|lra].
  by lra.
have kk : k * uu * uu <= uu * / 1000 by rewrite -Rmult_comm; apply: Rmult_le_compat_l; lra.
have n1 : nr (82 / 10 * (k * uu)) (2 * PI * (2 * PI) * D) (y * v2R (d2_det a b c)).
  by apply: nr_weaken (nr_mul ny nd); lra.
have tt : 36 <= 2 * PI * (2 * PI) <= 64 by nra.
set M := 2 * PI * (2 * PI) * D in n1; have M0 : 0 < M by rewrite /M; nra.
have hM : bpow radix2 (-300) <= M <= bpow radix2 206.
  have b3 := bpow_gt_0 radix2 (-300).
  rewrite -[206%Z]/(6 + 200)%Z bpow_plus; have -> : bpow radix2 6 = 64 by rewrite -[6%Z]/(2 + 4)%Z bpow_plus ProofsDoubleGauss.b4 -[2%Z]/(1 + 1)%Z bpow_S -[1%Z]/(0 + 1)%Z bpow_S bp0; ring.
  by rewrite /M; split; nra.
have [|p0 hz] := nr_rng M0 _ n1; first lra.
have hz' : bpow radix2 (-301) <= y * v2R (d2_det a b c) <= bpow radix2 207.
  have e1 : bpow radix2 (-300) = 2 * bpow radix2 (-301) by rewrite -bpow_S.
  have e2 : bpow radix2 207 = 2 * bpow radix2 206 by rewrite -bpow_S.
  lra.
have [|f2 e2] := mulS fp fd.
  by rewrite -/y; apply: ProofsDoubleKF.rng_small (rng_pos (Rlt_le _ _ p0) hz'); lia.
rewrite -/y in e2.
have n2 : nr (93 / 10 * (k * uu)) M (v2R (dmul (powd (dmul dpi dtwo) dtwo) (d2_det a b c))).
  rewrite e2; apply: nr_weaken (nr_trans n1 (nr_rnd _)); first lra.
  case: hz' => z1 z2; split; [apply: Rle_trans z1|apply: Rle_trans z2 _]; apply: bpow_le; lia.
have [|v0 hv] := nr_rng M0 _ n2; first lra.
have [f3 e3] := sqrtS f2 v0.
have hd : 93 / 10 * (k * uu) <= / 2 by lra.
have n3 := nr_sqrt (Rlt_le _ _ M0) hd n2.
have eT : sqrt M = T.
  rewrite /M /T sqrt_mult; [|nra|lra]; by rewrite sqrt_square; lra.
have hT : bpow radix2 (-150) <= T <= bpow radix2 103.
  by rewrite -eT -(sqrt_bp (-150)) -(sqrt_bp 103); case: hM => m1 m2; split; exact: sqrt_le_1_alt.
rewrite eT in n3; have T0 : 0 < T by have := bpow_gt_0 radix2 (-150); lra.
have [|s0 hs] := nr_rng T0 _ n3; first lra.
split; [exact: f3|exact: hT|].
rewrite /d2_root e3; apply: nr_weaken (nr_trans n3 (nr_rnd _)); first lra.
have e4 : bpow radix2 (-150) = 2 * bpow radix2 (-151) by rewrite -bpow_S.
have e5 : bpow radix2 104 = 2 * bpow radix2 103 by rewrite -bpow_S.
split.
  by apply: Rle_trans (_ : bpow radix2 (-151) <= _); [apply: bpow_le; lia|lra].
by apply: Rle_trans (_ : bpow radix2 104 <= _); [lra|apply: bpow_le; lia].
Qed.
(** ** Rounded deviations *)
Lemma maha_move a b c e1 e2 t1 t2 g (D := det2 a b c) (k := excess a b c) (q := maha a b c e1 e2) : 0 < a -> 0 < c -> 0 < D -> 0 <= g <= / 1000 ->
  Rabs t1 <= g -> Rabs t2 <= g -> 0 <= q /\ Rabs (maha a b c (e1 * (1 + t1)) (e2 * (1 + t2)) - q) <= 401 / 100 * 2 * g * k * q.
Proof.
move=> a0 c0 D0 [g0 g1] h1 h2; have ek : a * c = D * k by rewrite /k /excess -/D; field; lra.
have bb : 0 <= b * b by exact: Rle_0_sqr.
have k1 : 1 <= k by apply: (Rmult_le_reg_l D) => //; rewrite -ek /D /det2; lra.
set A := c / D; set B := - b / D; set C := a / D.
have A0 : 0 <= A by apply: Rmult_le_pos; [lra|left; exact: Rinv_0_lt_compat].
have C0 : 0 <= C by apply: Rmult_le_pos; [lra|left; exact: Rinv_0_lt_compat].
have hB : B * B * k = A * C * (k - 1).
  have e : b * b = D * (k - 1) by rewrite Rmult_minus_distr_l -ek /D /det2; ring.
  have -> : B * B * k = b * b * k / (D * D) by rewrite /B; field; lra.
  have -> : A * C * (k - 1) = a * c * (k - 1) / (D * D) by rewrite /A /C; field; lra.
  by rewrite e ek; field; lra.
have fm x y : maha a b c x y = A * (x * x) + 2 * B * (x * y) + C * (y * y) by rewrite /maha -/D /A /B /C; field; lra.
have lo := @form_low A B C e1 e2 k A0 C0 k1 hB; rewrite -fm -/q in lo.
set S := _ + _ in lo.
have X0 : 0 <= A * (e1 * e1) by apply: Rmult_le_pos => //; exact: Rle_0_sqr.
have Y0 : 0 <= C * (e2 * e2) by apply: Rmult_le_pos => //; exact: Rle_0_sqr.
have q0 : 0 <= q by apply: (Rmult_le_reg_l (2 * k)); [lra|rewrite Rmult_0_r; rewrite /S in lo; lra].
split=> //; have AC : 0 <= A * C by exact: Rmult_le_pos.
have BB : B * B <= A * C.
  apply: (Rmult_le_reg_r k); first lra.
  by rewrite hB; apply: Rmult_le_compat_l; lra.
have Zb : Rabs (2 * B * (e1 * e2)) <= S.
  apply: Rsqr_incr_0; [|exact: Rabs_pos|rewrite /S; lra].
  rewrite -Rsqr_abs /Rsqr.
  have -> : 2 * B * (e1 * e2) * (2 * B * (e1 * e2)) = 4 * (B * B) * ((e1 * e1) * (e2 * e2)) by ring.
  have w0 : 0 <= (e1 * e1) * (e2 * e2) by apply: Rmult_le_pos; exact: Rle_0_sqr.
  have := Rmult_le_compat_r _ _ _ w0 BB; have := Rle_0_sqr (A * (e1 * e1) - C * (e2 * e2)); rewrite /Rsqr /S; lra.
have two s t : Rabs s <= g -> Rabs t <= g -> Rabs (s + t + s * t) <= 2005 / 1000 * g.
  move=> hs ht; apply: Rle_trans (Rabs_triang _ _) _; have := Rabs_triang s t; rewrite Rabs_mult => h3.
  have : Rabs s * Rabs t <= g * / 1000 by apply: Rmult_le_compat; try exact: Rabs_pos; lra.
  lra.
have eq : q = A * (e1 * e1) + 2 * B * (e1 * e2) + C * (e2 * e2) by exact: fm.
rewrite fm; set z := _ - q.
have -> : z = A * (e1 * e1) * (t1 + t1 + t1 * t1) + 2 * B * (e1 * e2) * (t1 + t2 + t1 * t2) + C * (e2 * e2) * (t2 + t2 + t2 * t2).
  by rewrite /z eq; ring.
have m1 := Rmult_le_compat_l _ _ _ X0 (two _ _ h1 h1).
have m2 := Rmult_le_compat_l _ _ _ Y0 (two _ _ h2 h2).
have m3 : Rabs (2 * B * (e1 * e2)) * Rabs (t1 + t2 + t1 * t2) <= S * (2005 / 1000 * g).
  by apply: Rmult_le_compat; try exact: Rabs_pos; [exact: Zb|exact: two].
apply: Rle_trans (Rabs_triang _ _) _; rewrite Rabs_mult (Rabs_pos_eq (C * _)) //.
have tr := Rabs_triang (A * (e1 * e1) * (t1 + t1 + t1 * t1)) (2 * B * (e1 * e2) * (t1 + t2 + t1 * t2)).
rewrite (Rabs_mult (A * (e1 * e1))) (Rabs_pos_eq (A * _)) // (Rabs_mult (2 * B * (e1 * e2))) in tr.
have gS : g * S <= g * (2 * k * q) by apply: Rmult_le_compat_l.
have gkq : 0 <= g * (k * q) by apply: Rmult_le_pos => //; apply: Rmult_le_pos; lra.
rewrite /S in gS m3; lra.
Qed.
