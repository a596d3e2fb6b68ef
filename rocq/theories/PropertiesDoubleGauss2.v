(** * C114: inverse, determinant and exponent of a two-dimensional Gaussian in doubles *)
From Coq Require Import ZArith Reals Lra Lia.
From Flocq Require Import Core.Core BinarySingleNaN.
From mathcomp Require Import all_ssreflect.
From Verif Require Import Outcome ModelDouble SpecDouble ProofsDouble PropertiesDouble ProofsDoubleHist ModelDoubleKF ProofsDoubleKF
  ModelDoubleUni ProofsDoubleUni ModelDoubleGauss SpecDoubleGauss ProofsDoubleGauss ModelDoubleNoise SpecDoubleNoise ProofsDoubleNoise
  PropertiesDoubleNoise ModelDoubleChol SpecDoubleChol ProofsDoubleChol ModelDoubleGauss2 SpecDoubleGauss2 ProofsDoubleGauss2.
Set Implicit Arguments. Unset Strict Implicit. Unset Printing Implicit Defensive.
Local Open Scope R_scope.
(** variances 1 and [zc], covariance [zb] *)
Definition zb : double := dlit 268435459 (-28).
Definition zc : double := dlit 4503599728033793 (-52).
Lemma zero_det : exists s, d2_det d1 zb zc = B754_zero s.
Proof.
have h : (if d2_det d1 zb zc is B754_zero _ then true else false) by vm_compute.
by case: (d2_det d1 zb zc) h => [s|||] // _; exists s.
Qed.
Lemma bm28 : bpow radix2 (-28) = / 268435456. Proof. by []. Qed.
Lemma bm52 : bpow radix2 (-52) = / 4503599627370496. Proof. by []. Qed.
(** variances 6 and [nc], covariance 7, deviations [n1], [n2] *)
Definition na : double := dlit 6 0.
Definition nb : double := dlit 7 0.
Definition nc : double := dlit 2298712309803691 (-48).
Definition n1 : double := dlit 1351079888211149 (-51).
Definition n2 : double := dlit 6305039478318695 (-53).
Lemma bm48 : bpow radix2 (-48) = / 281474976710656. Proof. by []. Qed.
Lemma neg_form : d2_square d0 d0 na nb nc n1 n2 = Abort. Proof. by vm_compute. Qed.
Lemma bm1 : bpow radix2 (-1) = / 2. Proof. by []. Qed.
Lemma b46' : IZR (2 ^ 23) = 8388608. Proof. by []. Qed.
Lemma uu23 : 8388608 * 8388608 * uu = / 128. Proof. by rewrite uu_val /=; lra. Qed.
Lemma sub11 : is_finite (dsub d1 d1) = true /\ v2R (dsub d1 d1) = 0.
Proof.
have s0 : small (v2R d1 - v2R d1) by rewrite /small Rminus_diag_eq // Rabs_R0; exact: bpow_ge_0.
by have [f e] := subS fin1' fin1' s0; split; [exact: f|rewrite e Rminus_diag_eq // round_0].
Qed.
Local Opaque d0 d1 dprec dlit dadd dsub dmul ddiv dle dlt bpow IZR dsqrt.

(** The determinant of a covariance: never negative, up to 4 roundings of the product of the variances. *)
Theorem C114_det a b c (D := det2 (v2R a) (v2R b) (v2R c)) : mid a -> mid0 b -> mid c -> 0 <= D ->
  [/\ is_finite (d2_det a b c) = true, 0 <= v2R (d2_det a b c) & Rabs (v2R (d2_det a b c) - D) <= 4 * (v2R a * v2R c) * / IZR (2 ^ 53)].
Proof. by move=> ha hb hc hD; rewrite -uu_val; exact: det_ok. Qed.
Lemma exc_well a b c : mid a -> mid c -> 0 < det2 (v2R a) (v2R b) (v2R c) -> wellcond a b c (excess (v2R a) (v2R b) (v2R c)).
Proof. by move=> ha hc hD; split=> //; rewrite /excess; field; lra. Qed.
(** The inverse: each entry up to 7 roundings times the excess of the product of the variances
    over the determinant. *)
Theorem C114_inverse a b c (D := det2 (v2R a) (v2R b) (v2R c)) (k := excess (v2R a) (v2R b) (v2R c)) (i := d2_inv a b c) :
  mid a -> mid0 b -> mid c -> 0 < D -> k <= IZR (2 ^ 49) ->
  let near x r := is_finite x = true /\ Rabs (v2R x - r) <= Rabs r * (7 * k * / IZR (2 ^ 53)) in
  [/\ near (l11 i) (v2R c / D), near (l21 i) (- v2R b / D) & near (l22 i) (v2R a / D)].
Proof.
move=> ha hb hc hD hk near; have hw := exc_well ha hc hD; have hu := uu_lt.
have ku : k * uu <= / 16.
  apply: Rle_trans (_ : IZR (2 ^ 49) * uu <= _); first by apply: Rmult_le_compat_r; lra.
  rewrite uu_val; have -> : (2 ^ 53)%Z = (16 * 2 ^ 49)%Z by [].
  by rewrite mult_IZR; right; field; apply: not_0_IZR.
have [_ _ h1 h2 h3] := inv_ok ha hb hc hw ku.
by rewrite /near -uu_val; split.
Qed.
Lemma form_low A B C x1 x2 k (S := A * (x1 * x1) + C * (x2 * x2)) (q := A * (x1 * x1) + 2 * B * (x1 * x2) + C * (x2 * x2)) :
  0 <= A -> 0 <= C -> 1 <= k -> B * B * k = A * C * (k - 1) -> S <= 2 * k * q.
Proof.
move=> A0 C0 k1 hB; have X0 : 0 <= A * (x1 * x1) by apply: Rmult_le_pos => //; exact: Rle_0_sqr.
have Y0 : 0 <= C * (x2 * x2) by apply: Rmult_le_pos => //; exact: Rle_0_sqr.
set Z := 2 * B * (x1 * x2).
have hZ : k * (Z * Z) = 4 * (k - 1) * (A * (x1 * x1) * (C * (x2 * x2))).
  have -> : k * (Z * Z) = 4 * (B * B * k) * ((x1 * x1) * (x2 * x2)) by rewrite /Z; ring.
  by rewrite hB; ring.
have hZ2 : k * (Z * Z) <= (k - 1) * (S * S).
  rewrite hZ; have := Rle_0_sqr (A * (x1 * x1) - C * (x2 * x2)); rewrite /Rsqr => h.
  have : 4 * (A * (x1 * x1) * (C * (x2 * x2))) <= S * S by rewrite /S; lra.
  by move=> h'; have := Rmult_le_compat_l (k - 1) _ _ ltac:(lra) h'; lra.
have S0 : 0 <= S by rewrite /S; lra.
have hs : Rabs (2 * k * Z) <= (2 * k - 1) * S.
  apply: Rsqr_incr_0; [|exact: Rabs_pos|by apply: Rmult_le_pos; lra].
  rewrite -Rsqr_abs /Rsqr.
  have -> : 2 * k * Z * (2 * k * Z) = 4 * k * (k * (Z * Z)) by ring.
  have := Rmult_le_compat_l (4 * k) _ _ ltac:(lra) hZ2; have : 0 <= S * S by exact: Rmult_le_pos.
  by move=> h1 h2; lra.
move/Rabs_le_inv: hs => hs; have -> : q = S + Z by rewrite /q /S /Z; ring.
lra.
Qed.
(** The exponent of the density: for covariances whose product of variances is at most 2^23 times
    the determinant, no assertion fails, and the value is the square of the distance in standard
    deviations up to 54 k^2 roundings. *)
Theorem C114_square mu1 mu2 a b c x1 x2 (k := excess (v2R a) (v2R b) (v2R c))
  (q := maha (v2R a) (v2R b) (v2R c) (v2R (dsub x1 mu1)) (v2R (dsub x2 mu2))) :
  mid a -> mid0 b -> mid c -> 0 < det2 (v2R a) (v2R b) (v2R c) -> k <= IZR (2 ^ 23) ->
  mid0 (dsub x1 mu1) -> mid0 (dsub x2 mu2) ->
  exists t, [/\ d2_square mu1 mu2 a b c x1 x2 = Ok t, is_finite t = true & Rabs (v2R t - q) <= 54 * (k * k) * q * / IZR (2 ^ 53)].
Proof.
move=> ha hb hc hD hk h1 h2; have hw := exc_well ha hc hD; have hu := uu_lt; have u23 := uu23; rewrite b46' in hk.
set D := det2 _ _ _ in hD; have [D0 ek] := hw; rewrite -/D -/k in D0 ek.
have ku : k * uu <= / 1000.
  have : k * uu <= 8388608 * uu by apply: Rmult_le_compat_r; lra.
  lra.
have ku16 : k * uu <= / 16 by lra.
have [k1 Dl [f1 i1] [f2 i2] [f3 i3]] := inv_ok ha hb hc hw ku16; rewrite -/D -/k in k1 Dl i1 i2 i3.
have [ra a0] := mid_rng ha; have [rc c0] := mid_rng hc; have [al au] := rngP a0 ra; have [cl cu] := rngP c0 rc.
have hkk : uu <= k * uu by rewrite -[X in X <= _]Rmult_1_l; apply: Rmult_le_compat_r; lra.
have b300 : bpow radix2 (-300) * bpow radix2 300 = 1 by rewrite -bpow_plus bp0.
have Di : / D <= bpow radix2 300.
  apply: (Rmult_le_reg_l D) => //; rewrite Rinv_r; last lra.
  by rewrite -b300; apply: Rmult_le_compat_r => //; exact: bpow_ge_0.
have Dp : 0 < / D by exact: Rinv_0_lt_compat.
have up X : 0 < X <= bpow radix2 100 -> 0 <= X / D <= bpow radix2 500.
  move=> hX; split; first by apply: Rmult_le_pos; lra.
  apply: Rle_trans (_ : bpow radix2 100 * bpow radix2 300 <= _); last by rewrite -bpow_plus; apply: bpow_le; lia.
  by apply: Rmult_le_compat; lra.
have lo X Y : 0 < X <= bpow radix2 100 -> X * Y = D * k -> bpow radix2 (-200) <= Y / D.
  move=> hX e; have -> : Y / D = k * / X.
    by apply: (Rmult_eq_reg_l (X * D)); [have -> : X * D * (Y / D) = X * Y by [field; lra]; rewrite e; field; lra|apply: Rmult_integral_contrapositive_currified; lra].
  apply: Rle_trans (_ : bpow radix2 (-100) <= _); first by apply: bpow_le; lia.
  have hi : bpow radix2 (-100) <= / X by rewrite -[(-100)%Z]/(Z.opp 100) bpow_opp; apply: Rinv_le_contravar; lra.
  rewrite -[X in X <= _]Rmult_1_l; apply: Rmult_le_compat; try lra; exact: bpow_ge_0.
have Dbb : D = v2R a * v2R c - v2R b * v2R b by [].
have hBk : (- v2R b / D) * (- v2R b / D) * k = v2R c / D * (v2R a / D) * (k - 1).
  have e1 : v2R b * v2R b = D * (k - 1) by lra.
  have -> : - v2R b / D * (- v2R b / D) * k = v2R b * v2R b * k / (D * D) by field; lra.
  have -> : v2R c / D * (v2R a / D) * (k - 1) = v2R a * v2R c * (k - 1) / (D * D) by field; lra.
  by rewrite e1 ek; field; lra.
have hBB : (- v2R b / D) * (- v2R b / D) <= v2R c / D * (v2R a / D).
  have -> : - v2R b / D * (- v2R b / D) = v2R b * v2R b * (/ D * / D) by field; lra.
  have -> : v2R c / D * (v2R a / D) = v2R a * v2R c * (/ D * / D) by field; lra.
  by apply: Rmult_le_compat_r; [apply: Rmult_le_pos; lra|lra].
have e7 : 7 * (k * uu) = 7 * k * uu by ring.
have eca : v2R c * v2R a = D * k by lra.
have [f hF] := @form_ok (d2_inv a b c) (dsub x1 mu1) (dsub x2 mu2) (v2R c / D) (- v2R b / D) (v2R a / D) (k * uu)
  (And3 f1 f2 f3) h1 h2 (conj hkk ku) (up _ (conj c0 cu)) (up _ (conj a0 au)) hBB (lo _ _ (conj a0 au) ek) (lo _ _ (conj c0 cu) eca)
  (And3 (eq_ind_r (fun z => Rabs _ <= Rabs _ * z) i1 e7) (eq_ind_r (fun z => Rabs _ <= Rabs _ * z) i2 e7) (eq_ind_r (fun z => Rabs _ <= Rabs _ * z) i3 e7)).
set y1 := v2R (dsub x1 mu1) in q hF *; set y2 := v2R (dsub x2 mu2) in q hF *.
have hlow := @form_low (v2R c / D) (- v2R b / D) (v2R a / D) y1 y2 k (proj1 (up _ (conj c0 cu))) (proj1 (up _ (conj a0 au))) k1 hBk.
have eq : v2R c / D * (y1 * y1) + 2 * (- v2R b / D) * (y1 * y2) + v2R a / D * (y2 * y2) = q by rewrite /q /maha -/D; field; lra.
rewrite eq in hF hlow; set S := _ + _ in hF hlow; set t := d2_form _ _ _ in f hF.
have S0 : 0 <= S.
  apply: Rplus_le_le_0_compat; apply: Rmult_le_pos; try exact: Rle_0_sqr; [exact: (proj1 (up _ (conj c0 cu)))|exact: (proj1 (up _ (conj a0 au)))].
have q0 : 0 <= q by apply: (Rmult_le_reg_l (2 * k)); lra.
have kuS : k * uu * S <= k * uu * (2 * k * q) by apply: Rmult_le_compat_l; lra.
have hE : Rabs (v2R t - q) <= 54 * (k * k) * q * uu by apply: Rle_trans hF _; lra.
have kk : k * k * uu <= / 128.
  rewrite -u23; apply: Rmult_le_compat_r; first lra.
  by apply: Rmult_le_compat; lra.
have hq2 : k * k * uu * q <= / 128 * q by apply: Rmult_le_compat_r.
have t0 : 0 <= v2R t by move/Rabs_le_inv: hE; lra.
exists t; split; [|exact: f|by rewrite -uu_val].
by rewrite /d2_square -/t /d_prob f [(true && _)%bool]/=; case: (dleP finS0 f) => // h; rewrite v2R0 in h; lra.
Qed.
(** REFUTED: "a Gaussian with positive definite covariance has a density everywhere".  When the
    computed determinant is 0, both densities end in a failed assertion, at every argument, the
    mean included, whatever exp and pow return. *)
Theorem C114_zero_refuted expd powd mu1 mu2 a b c x1 x2 : is_finite a = true -> is_finite b = true -> is_finite c = true ->
  v2R a <> 0 -> v2R b <> 0 -> v2R c <> 0 -> is_finite (d2_det a b c) = true -> v2R (d2_det a b c) = 0 ->
  g2_prob expd powd mu1 mu2 a b c x1 x2 = Abort /\ cg2_prob expd powd mu1 mu2 a b c x1 x2 = Abort.
Proof.
move=> fa fb fc na' nb' nc' fd zd.
have [s1 e1] := div_zero fc nc' fd zd; have [s3 e3] := div_zero fa na' fd zd.
have fnb : is_finite (dneg b) = true by rewrite neg_fin.
have nnb : v2R (dneg b) <> 0 by rewrite neg_val; lra.
have [s2 e2] := div_zero fnb nnb fd zd.
have h : d2_square mu1 mu2 a b c x1 x2 = Abort.
  by rewrite /d2_square /d2_inv e1 e2 e3 /d_prob form_inf.
by rewrite /g2_prob /cg2_prob h.
Qed.
(** REFUTED with a positive determinant: the computed square is negative and the assertion fails. *)
Theorem C114_negative_refuted expd powd :
  posdef (v2R na) (v2R nb) (v2R nc) /\ g2_prob expd powd d0 d0 na nb nc n1 n2 = Abort /\ cg2_prob expd powd d0 d0 na nb nc n1 n2 = Abort.
Proof.
split; last by rewrite /g2_prob /cg2_prob neg_form.
have [_ ->] := @lit_val 6 0 erefl ltac:(lia); have [_ ->] := @lit_val 7 0 erefl ltac:(lia).
have [_ ->] := @lit_val 2298712309803691 (-48) erefl ltac:(lia); rewrite bp0 bm48; split; lra.
Qed.

(** ** Cases *)
Definition halfd : double := dlit 1 (-1).
Lemma half_val : is_finite halfd = true /\ v2R halfd = / 2.
Proof. by have [f ->] := @lit_val 1 (-1) erefl ltac:(lia); split; [exact: f|rewrite bm1; ring]. Qed.
Lemma mid1 : mid d1.
Proof. by split; [exact: fin1'|rewrite v2R1 -bp0; split; apply: bpow_le; lia]. Qed.
Lemma mid01 : mid0 d1.
Proof. by split; [exact: fin1'|right; rewrite v2R1 Rabs_R1 -bp0; split; apply: bpow_le; lia]. Qed.
Lemma mid0half : mid0 halfd.
Proof.
have [f e] := half_val; split; first exact: f.
right; rewrite e Rabs_pos_eq; last lra; rewrite -bm1; split; apply: bpow_le; lia.
Qed.
Lemma det_half : det2 (v2R d1) (v2R halfd) (v2R d1) = 3 / 4.
Proof. by have [_ e] := half_val; rewrite /det2 v2R1 e; lra. Qed.
(** variances 1, covariance 1/2 (excess 4/3), deviations 1: the exponent is 4/3 up to 128 roundings *)
Example C114_case_square : exists t, d2_square d0 d0 d1 halfd d1 d1 d1 = Ok t /\ Rabs (v2R t - 4 / 3) <= 128 * / IZR (2 ^ 53).
Proof.
have [_ e] := half_val; have hu := uu_lt.
have [|fs es'] := subS fin1' finS0; first by rewrite v2R0 Rminus_0_r v2R1 /small Rabs_R1 -bp0; apply: bpow_le; lia.
have es : v2R (dsub d1 d0) = 1 by apply: (eq_trans es'); rewrite v2R0 Rminus_0_r rnd_id v2R1.
have hm : mid0 (dsub d1 d0) by split; [exact: fs|right; rewrite es Rabs_R1 -bp0; split; apply: bpow_le; lia].
have hk : excess (v2R d1) (v2R halfd) (v2R d1) <= IZR (2 ^ 23) by rewrite /excess det_half v2R1 b46'; lra.
have D0 : 0 < det2 (v2R d1) (v2R halfd) (v2R d1) by rewrite det_half; lra.
have [t [h _ h2]] := @C114_square d0 d0 d1 halfd d1 d1 d1 mid1 mid0half mid1 D0 hk hm hm.
exists t; split; first exact: h.
move: h2; rewrite /maha /excess det_half !v2R1 ?es e -uu_val.
have -> : (1 * (1 * 1) - 2 * / 2 * (1 * 1) + 1 * (1 * 1)) / (3 / 4) = 4 / 3 by field.
move=> h2; apply: Rle_trans h2 _; lra.
Qed.
(** the same matrix: entry (2,1) of the inverse is -2/3 *)
Example C114_case_inverse : Rabs (v2R (l21 (d2_inv d1 halfd d1)) + 2 / 3) <= 7 * / IZR (2 ^ 53).
Proof.
have [_ e] := half_val; have hu := uu_lt.
have D0 : 0 < det2 (v2R d1) (v2R halfd) (v2R d1) by rewrite det_half; lra.
have hk : excess (v2R d1) (v2R halfd) (v2R d1) <= IZR (2 ^ 49).
  rewrite /excess det_half v2R1; apply: Rle_trans (_ : IZR 2 <= _); [lra|apply: IZR_le; lia].
have [_ [_ h] _] := C114_inverse mid1 mid0half mid1 D0 hk; move: h; rewrite /excess det_half v2R1 e -uu_val.
have -> : - / 2 / (3 / 4) = - (2 / 3) by field.
rewrite Rabs_Ropp (Rabs_pos_eq (2 / 3)); last lra.
have -> : forall r, r - - (2 / 3) = r + 2 / 3 by move=> r; ring.
move=> h; apply: Rle_trans h _; lra.
Qed.
(** the same matrix: determinant 3/4 *)
Example C114_case_det : Rabs (v2R (d2_det d1 halfd d1) - 3 / 4) <= 4 * / IZR (2 ^ 53).
Proof.
have [_ e] := half_val; have [|_ _] := C114_det mid1 mid0half mid1; first by rewrite /det2 v2R1 e; lra.
by rewrite /det2 v2R1 e; have -> : 1 * 1 - / 2 * / 2 = 3 / 4 by [lra]; rewrite !Rmult_1_r.
Qed.
(** variances 1 and [zc], covariance [zb] (correlation 1 - 10^-16): positive definite, no density *)
Example C114_case_zero expd powd mu1 mu2 x1 x2 : posdef (v2R d1) (v2R zb) (v2R zc) /\ g2_prob expd powd mu1 mu2 d1 zb zc x1 x2 = Abort.
Proof.
have [fb eb] := @lit_val 268435459 (-28) erefl ltac:(lia); have [fc ec] := @lit_val 4503599728033793 (-52) erefl ltac:(lia).
rewrite bm28 in eb; rewrite bm52 in ec; have [s es] := zero_det; split.
  by rewrite /zb /zc eb ec v2R1; split; lra.
have fz : is_finite (d2_det d1 zb zc) = true by rewrite es.
have ez : v2R (d2_det d1 zb zc) = 0 by rewrite es.
have nb' : v2R zb <> 0 by rewrite /zb eb; lra.
have nc' : v2R zc <> 0 by rewrite /zc ec; lra.
have na' : v2R d1 <> 0 by rewrite v2R1; lra.
by have [h _] := @C114_zero_refuted expd powd mu1 mu2 d1 zb zc x1 x2 fin1' fb fc na' nb' nc' fz ez.
Qed.

Print Assumptions C114_det.
Print Assumptions C114_inverse.
Print Assumptions C114_square.
Print Assumptions C114_zero_refuted.
Print Assumptions C114_negative_refuted.
Print Assumptions C114_case_square.
Print Assumptions C114_case_det.
Print Assumptions C114_case_inverse.
Print Assumptions C114_case_zero.
