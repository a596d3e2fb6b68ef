(** * The estimate of the particle filter in doubles: C100, C101 *)
From Coq Require Import ZArith Reals Lra Lia.
From Flocq Require Import Core.Core BinarySingleNaN.
From mathcomp Require Import all_ssreflect.
From Verif Require Import Outcome ModelDouble SpecDouble ProofsDouble PropertiesDouble ModelDoubleHist SpecDoubleHist ProofsDoubleHist PropertiesDoubleHist
  ModelDoubleKF SpecDoubleKF ProofsDoubleKF ModelDoublePF SpecDoublePF ProofsDoublePF PropertiesDoublePF ModelDoubleMean SpecDoubleMean ProofsDoubleMean.
Set Implicit Arguments. Unset Strict Implicit. Unset Printing Implicit Defensive.
Local Open Scope R_scope.
Lemma dlit_int z : (0 <= z < 2 ^ 32)%Z -> is_finite (dlit z 0) = true /\ v2R (dlit z 0) = IZR z.
Proof.
move=> hz; have e : F2R (Float radix2 z 0) = IZR z by rewrite /F2R /= Rmult_1_r.
have g : rnd (IZR z) = IZR z.
  apply: round_generic; apply: generic_format_FLT; exists (Float radix2 z 0) => //.
  by rewrite /=; lia.
have := binary_normalize_correct 53 1024 _ _ mode_NE z 0 false; cbv zeta.
rewrite -/(dlit z 0) e -[round _ _ _ _]/(rnd (IZR z)) g.
case: Rlt_bool_spec => [_ [h1 [h2 _]] //|]; rewrite Rabs_pos_eq; last by apply: IZR_le; lia.
have : IZR z <= bpow radix2 32 by rewrite -IZR_Zpower //; apply: IZR_le; rewrite /=; lia.
have : bpow radix2 32 < bpow radix2 1024 by apply: bpow_lt.
by move: (bpow radix2 32) (bpow radix2 1024) => x y; lra.
Qed.
Lemma btrunc_val (x : double) z : (0 <= z)%Z -> IZR z <= v2R x < IZR z + 1 -> Btrunc x = z.
Proof.
move=> hz [h1 h2]; apply: eq_IZR; have -> := Btrunc_correct 53 1024 _ x; rewrite -/(v2R x) round_FIX_IZR; congr IZR.
have h0 : 0 <= v2R x by apply: Rle_trans h1; apply: IZR_le.
by rewrite Ztrunc_floor //; apply: Zfloor_imp; rewrite plus_IZR.
Qed.
Local Opaque d0 d1 dprec dlit dadd dsub dmul ddiv dle dlt bpow IZR.

(** ** C100: after any updates *)
Section C100.
Variables (sq : double -> double) (root : double -> nat -> double) (sc : scheme) (s s' : dpf).
Variables (fs : seq pupd) (os : seq (bool * option (seq nat))) (x : nat -> nat -> double).
Let n := size (dm_w (pf_d s)).
Let m := size fs.
Let p := exact (dm_w (pf_d s)).
(** the exact posterior weights, and component [a] of the particles *)
Let q := pf_path n p fs os.
Let xr a := fun j => v2R (x j a).
Hypotheses (hn : few n) (hg : goods (dm_w (pf_d s))) (ht : Rabs (total (dm_w (pf_d s)) - 1) <= / 4) (hne : fs <> [::]).
Hypotheses (hT : pf_tames n p fs os) (hZ : (Z.of_nat (pf_roundings m n + n + 4) <= 2 ^ 51)%Z).
Hypothesis hr : p_run sq root sc s fs = Ok (os, s').
Lemma run_weights : [/\ size (dm_w (pf_d s')) = n, goods (dm_w (pf_d s')), over n q = 1,
  (forall j, (j < n)%N -> approx (pf_roundings m n) (q j) (v2R (nth d0 (dm_w (pf_d s')) j))) &
  INR (pf_roundings m n + n + 4) * uu <= / 2].
Proof.
have hK := bits51 hZ; have [n0 hI] := start erefl hg ht; rewrite -/n -/p in n0 hI.
have hK2 : INR (1 + size fs * (n + 2) + n) * uu <= / 2.
  apply: (@INR_leq _ (pf_roundings m n + n + 4)); last lra.
  by rewrite /pf_roundings -/m; move: (m * _)%N => X; apply/leP; rewrite -!plusE -!multE; lia.
have [h1 _ h2] := run_tidy (k := 1) n0 isT hn hK2 hI hT hr; have ht' := h2 hne; rewrite -/m -/q in ht'.
have [[z1 g1 o1 _] _ _] := ht'; split=> //; last lra.
move=> j hj; have := tidy_rel ht' hj; apply: ap_weaken.
by rewrite /pf_roundings; move: (m * _)%N => X; apply/leP; rewrite -!plusE -!multE; lia.
Qed.
(** [ExpectedValueGet]: every component is the mean of the particles with the exact
    posterior weights, up to [pf_roundings m n + n + 1] roundings of the magnitudes. *)
Theorem C100_mean a : (forall j, (j < n)%N -> sized 900 (x j a)) ->
  is_finite (e_mean (pf_d s') x a) = true /\
  Rabs (v2R (e_mean (pf_d s') x a) - mean n q (xr a)) <= mean_tol n (pf_roundings m n) q (xr a).
Proof.
move=> hx; have [h1 h2 h3 h4 h5] := run_weights.
have hr' : (0 <= 900 <= 900)%Z by [].
by have [[f _] h] := mean_ok h1 hn h2 h3 h4 h5 hr' hx.
Qed.
(** [CovarianceGet]: symmetric, close to the exact covariance in terms of the standard
    deviations, and the diagonal is not negative. *)
Theorem C100_covariance a b : (forall j, (j < n)%N -> sized 400 (x j a) /\ sized 400 (x j b)) ->
  let K := pf_roundings m n in let c := e_cov (pf_d s') x in
  [/\ is_finite (c a b) = true, c a b = c b a &
   Rabs (v2R (c a b) - covar n q (xr a) (xr b)) <=
     spread n K q (xr a) * spread n K q (xr b) * relative (K + n + 4) + mean_tol n K q (xr a) * mean_tol n K q (xr b) + INR n * bpow radix2 (-659)].
Proof.
move=> hx K c; have [h1 h2 h3 h4 h5] := run_weights.
have ha j : (j < n)%N -> sized 400 (x j a) by move=> /hx [].
have hb j : (j < n)%N -> sized 400 (x j b) by move=> /hx [].
have sym : c a b = c b a.
  rewrite /c /e_cov; case: (leqP b a) => h1'; case: (leqP a b) => h2'; try exact: erefl.
    by have -> : a = b by apply/eqP; rewrite eqn_leq h1' h2'.
  by have := ltn_trans h1' h2'; rewrite ltnn.
have cc y z : covar n q y z = covar n q z y by apply: over_ext => i _; ring.
suff [f h] : is_finite (c a b) = true /\ Rabs (v2R (c a b) - covar n q (xr a) (xr b)) <=
     spread n K q (xr a) * spread n K q (xr b) * relative (K + n + 4) + mean_tol n K q (xr a) * mean_tol n K q (xr b) + INR n * bpow radix2 (-659).
  by split; [exact: f|exact: sym|exact: h].
rewrite /c /e_cov; case: leqP => hab; first exact: (diffsum_ok h1 hn h2 h3 h4 h5 ha hb).
rewrite cc [spread n K q (xr a) * _]Rmult_comm [mean_tol n K q (xr a) * _]Rmult_comm; exact: (diffsum_ok h1 hn h2 h3 h4 h5 hb ha).
Qed.
Theorem C100_diagonal a : (forall j, (j < n)%N -> sized 400 (x j a)) -> 0 <= v2R (e_cov (pf_d s') x a a).
Proof.
move=> hx; have [h1 h2 h3 h4 h5] := run_weights.
by rewrite /e_cov leqnn; have [] := diag_ge0 h1 hn h2 h3 h4 h5 hx.
Qed.
(** [ExpectedValueGet] of particles with unsigned values: the nearest integer to the
    exact mean, unless that is too close to the middle of two integers. *)
Theorem C100_index v z (y := fun j => IZR (v j)) : (forall j, (j < n)%N -> (0 <= v j < 2 ^ 32)%Z) -> (0 <= z < 2 ^ 32)%Z ->
  IZR z - / 2 + (mean_tol n (pf_roundings m n) q y + bpow radix2 (-18)) <= mean n q y <
  IZR z + / 2 - (mean_tol n (pf_roundings m n) q y + bpow radix2 (-18)) -> e_umean (pf_d s') v = Ok z.
Proof.
move=> hv hz; have [h1 h2 h3 h4 h5] := run_weights.
set x' := fun (j a : nat) => dlit (v j) 0.
have hr' : (0 <= 32 <= 900)%Z by [].
have hx j : (j < n)%N -> sized 32 (x' j 0%N).
  move=> hj; have [f e] := dlit_int (hv j hj); split; first exact: f.
  rewrite /x' e Rabs_pos_eq; last by apply: IZR_le; have := hv j hj; lia.
  by rewrite -IZR_Zpower //; apply: IZR_le; have := hv j hj; rewrite -[(radix2 ^ 32)%Z]/(2 ^ 32)%Z; lia.
have [[fm bm] hm] := mean_ok h1 hn h2 h3 h4 h5 hr' hx.
have ey : forall j, (j < n)%N -> v2R (x' j 0%N) = y j by move=> j hj; have [_] := dlit_int (hv j hj).
have em : mean n q (fun j => v2R (x' j 0%N)) = mean n q y by apply: over_ext => j hj; rewrite ey.
have et : mean_tol n (pf_roundings m n) q (fun j => v2R (x' j 0%N)) = mean_tol n (pf_roundings m n) q y.
  by rewrite /mean_tol; congr (_ * _ + _); apply: over_ext => j hj; rewrite ey.
rewrite em et in hm; have [l1 l2] := Rabs_le_inv _ _ hm => [[u1 u2]].
have [_ _ [[fh _] vh]] := lits.
have e : e_umean (pf_d s') v = let r := dadd (e_mean (pf_d s') x' 0) one_half in let z := Btrunc r in
   if is_finite r && Z.leb 0 z && Z.ltb z (2 ^ 32) then Ok z else UB by [].
rewrite e; set M := e_mean _ _ _ in fm bm l1 l2 *.
have b34 : bpow radix2 (32 + 2) = 17179869184 by rewrite -IZR_Zpower.
have b18 : bpow radix2 (-18) = / 262144 by rewrite -[(-18)%Z]/(Z.opp 18) bpow_opp -IZR_Zpower.
rewrite b34 in bm; rewrite b18 in u1 u2; have [a1 a2] := Rabs_le_inv _ _ bm.
have [|f vr] := @addS M one_half fm fh.
  rewrite vh; apply: (@le_small _ 40) => //; rewrite -IZR_Zpower // -[(radix2 ^ 40)%Z]/1099511627776%Z; apply: Rabs_le; lra.
have [er ev eh] := plus_rel M one_half; rewrite ev vh in vr; have [c1 c2] := Rabs_le_inv _ _ eh.
have ub : uu <= / 9007199254740992 by rewrite uu_val -[(2 ^ 53)%Z]/9007199254740992%Z; lra.
have w : Rabs ((v2R M + / 2) * er) <= / 300000.
  apply: Rle_trans (_ : 17179869185 * / 9007199254740992 <= _); last lra.
  by apply: abs_mul; [apply: Rabs_le; lra|apply: Rle_trans eh ub].
have [w1 w2] := Rabs_le_inv _ _ w.
have bt : Btrunc (dadd M one_half) = z by apply: btrunc_val; [lia|rewrite vr; split; lra].
by cbv zeta; rewrite bt f (introT (Z.leb_spec0 _ _) (proj1 hz)) (introT (Z.ltb_spec0 _ _) (proj2 hz)).
Qed.
End C100.

(** ** C101 (finding): all weights 0 *)
Lemma sum_zero n t : few n -> (forall i, (i < n)%N -> is_finite (t i) = true /\ v2R (t i) = 0) ->
  is_finite (e_sum n t) = true /\ v2R (e_sum n t) = 0.
Proof.
move=> hn ht; have [n1 n2] := fewP hn.
have [|||||f b _] := @sum_sig [seq t i | i <- iota 0 n] d0 0 0.
- by move=> y /List.in_map_iff [i [<- /In_iota hi]]; have [h1 h2] := ht i hi; rewrite h2 Rabs_R0; split; [exact: h1|lra].
- by case: good0.
- by rewrite v2R0 Rabs_R0 /=; lra.
- by split; [lra|exact: bpow_ge_0].
- by rewrite add0n size_map size_iota.
split; first exact: f.
by move: b; rewrite -/(e_sum n t) Rmult_0_r => /Rabs_le_inv; lra.
Qed.
Lemma mul_zero (x w : double) : is_finite x = true -> is_finite w = true -> v2R w = 0 -> is_finite (dmul x w) = true /\ v2R (dmul x w) = 0.
Proof.
move=> fx fw h; have [|f v] := mulS fx fw; first by rewrite h Rmult_0_r /small Rabs_R0; exact: bpow_ge_0.
by split; [exact: f|rewrite v h Rmult_0_r round_0].
Qed.
Section Zero.
Variables (d : dmc) (x : nat -> nat -> double) (n : nat).
Hypotheses (hn : few n) (hz : gone n d).
Let small0 : small 0. Proof. by rewrite /small Rabs_R0; exact: bpow_ge_0. Qed.
(** The estimate is 0, whatever the particles are. *)
Theorem C101_mean a : (forall j, (j < n)%N -> sized 900 (x j a)) -> is_finite (e_mean d x a) = true /\ v2R (e_mean d x a) = 0.
Proof.
move=> hx; have [hs hw] := hz; rewrite /e_mean hs.
have [|f v] := @sum_zero n (fun i => dmul (x i a) (nth d0 (dm_w d) i)) hn.
  by move=> i hi; have [[fw _] w0] := hw i hi; have [fx _] := hx i hi; exact: mul_zero.
have [|f1 v1] := div_one f; first by rewrite v.
by rewrite v1 v; split; [exact: f1|].
Qed.
(** and its covariance is 0, as if it were certain. *)
Theorem C101_covariance a b : (forall j, (j < n)%N -> sized 900 (x j a) /\ sized 900 (x j b)) ->
  is_finite (e_cov d x a b) = true /\ v2R (e_cov d x a b) = 0.
Proof.
have key a' b' : (forall j, (j < n)%N -> sized 900 (x j a') /\ sized 900 (x j b')) -> is_finite (e_diffsum d x a' b') = true /\ v2R (e_diffsum d x a' b') = 0.
  move=> hx; have [hs hw] := hz; have ha j : (j < n)%N -> sized 900 (x j a') by move=> /hx [].
  have hb j : (j < n)%N -> sized 900 (x j b') by move=> /hx [].
  have [fa va] := C101_mean ha; have [fb vb] := C101_mean hb; rewrite /e_diffsum hs.
  have df c m j : sized 900 (x j c) -> is_finite m = true -> v2R m = 0 -> is_finite (dsub (x j c) m) = true.
    move=> [fx bx] fm vm; have [|h _] := subS fx fm; last exact: h.
    by rewrite vm Rminus_0_r; exact: le_small bx.
  have [|f v] := @sum_zero n (fun i => dmul (dsub (x i a') (e_mean d x a')) (dmul (dsub (x i b') (e_mean d x b')) (nth d0 (dm_w d) i))) hn.
    move=> i hi; have [[fw _] w0] := hw i hi; have [h1 h2] := mul_zero (df _ _ _ (hb i hi) fb vb) fw w0.
    exact: mul_zero (df _ _ _ (ha i hi) fa va) h1 h2.
  have [|f1 v1] := div_one f; first by rewrite v.
  by rewrite v1 v; split; [exact: f1|].
move=> hx; rewrite /e_cov; case: ifP => _; apply: key => // j hj; have [h1 h2] := hx j hj; by split.
Qed.
End Zero.
(** Particles at 1 and equal positive likelihoods: the exact mean is 1, the filter
    answers 0 with covariance 0. *)
Theorem C101_estimate_refuted sq root n T (x := fun _ _ : nat => d1) : (3 <= n)%N -> few n -> exists d l s',
  [/\ m_set n = Ok (true, d), forall j, (j < n)%N -> good (l j) /\ 0 < v2R (l j),
      forall us, p_step sq root (Threshold T) (DPF d 0) (PMeas l us) = Ok ((false, None), s'),
      forall us, mean n (pf_next n (exact (dm_w d)) (PMeas l us) None) (fun j => v2R (x j 0%N)) = 1 &
      v2R (e_mean (pf_d s') x 0) = 0 /\ v2R (e_cov (pf_d s') x 0 0) = 0].
Proof.
move=> h3 hn; have [d [l [s' [h1 h2 hq h4 _]]]] := C99_collapse_refuted sq root T h3 hn.
have [_ hz] := h4 (fun _ => d0).
have sx j : (j < n)%N -> sized 900 (x j 0%N).
  by move=> _; split; [case: good1|rewrite v2R1 Rabs_R1 -[X in X <= _]/(bpow radix2 0); apply: bpow_le; lia].
exists d, l, s'; split.
- exact: h1.
- exact: h2.
- by move=> us; case: (h4 us).
- move=> us; rewrite /mean (@over_ext _ _ (fun _ => / INR n)); last by move=> j hj; rewrite (hq us j hj) v2R1; ring.
  rewrite over_const; field; have := lt_0_INR n; have := elimT leP h3; lra || (move=> a b; have := b ltac:(lia); lra).
have [_ e1] := C101_mean hn hz sx; have sx2 j (hj : (j < n)%N) := conj (sx j hj) (sx j hj).
by have [_ e2] := C101_covariance hn hz sx2.
Qed.

(** ** Examples: particles at 1 and 3, then at 1 and 2, weights 3/4 and 1/4 *)
Definition two_updates : seq pupd := [:: PSys halves; PMeas tilt halves].
Definition no_resampling : seq (bool * option (seq nat)) := [:: (true, None); (true, None)].
Definition scheme32 : scheme := Threshold (dlit 3 (-1)).
Lemma pair_run : exists s', p_run sqm half_root scheme32 pair two_updates = Ok (no_resampling, s').
Proof.
have h : (if p_run sqm half_root scheme32 pair two_updates is Ok (os, _) then os else [::]) = no_resampling by vm_compute.
case: (p_run _ _ _ _ _) h => [[os s']||] //= ->; by exists s'.
Qed.
Lemma pair_tames : pf_tames 2 (exact (dm_w (pf_d pair))) two_updates no_resampling.
Proof.
have [_ _ he] := pair_ok; split; last by split; [exact: pair_tame|exact: I].
by move=> j hj; rewrite (he j hj); apply: tame_mid; lra.
Qed.
Definition qf := pf_path 2 (exact (dm_w (pf_d pair))) two_updates no_resampling.
Lemma qf_val : qf 0%N = 3 / 4 /\ qf 1%N = / 4.
Proof.
have [[_ vq] [_ vt] _] := lits; have [_ _ he] := pair_ok.
split.
  change (v2R threeq * exact (dm_w (pf_d pair)) 0 / over 2 (fun i => v2R (tilt i) * exact (dm_w (pf_d pair)) i) = 3 / 4).
  by rewrite pair_over (he 0%N erefl) vt; field.
change (v2R quarter * exact (dm_w (pf_d pair)) 1 / over 2 (fun i => v2R (tilt i) * exact (dm_w (pf_d pair)) i) = / 4).
by rewrite pair_over (he 1%N erefl) vq; field.
Qed.
Lemma pair_bits : (Z.of_nat (pf_roundings 2 2 + 2 + 4) <= 2 ^ 51)%Z.
Proof. by rewrite /pf_roundings /=; lia. Qed.
Lemma rel100 k : (k <= 100)%N -> 0 <= relative k <= / 1000000.
Proof.
move=> hk; have h1 : INR k <= 100 by have := le_INR _ _ (elimT leP hk); rewrite [INR 100]INR_IZR_INZ.
have hu := uu_lt; have ht := uu_tiny; have h0 := pos_INR k.
have hku : 0 <= INR k * uu <= 100 * uu by split; [apply: Rmult_le_pos; lra|apply: Rmult_le_compat_r; lra].
split; first by apply: relative_ge0; lra.
rewrite -relE; last lra.
by move: (INR k * uu) hku => r hr; apply: (Rmult_le_reg_r (1 - r)); [lra|rewrite /Rdiv Rmult_assoc Rinv_l; lra].
Qed.
Lemma tiny_term : 0 <= 2 * bpow radix2 (-1074) <= / 1000000.
Proof. by rewrite ee_sub; have := ee_gt0; have := ee_u; have := uu_tiny; lra. Qed.
Definition at13 (j a : nat) : double := if j is 0%N then dlit 1 0 else dlit 3 0.
Example C100_example : exists s', [/\ p_run sqm half_root scheme32 pair two_updates = Ok (no_resampling, s'),
  Rabs (v2R (e_mean (pf_d s') at13 0) - 3 / 2) <= / 100000 &
  0 <= v2R (e_cov (pf_d s') at13 0 0) /\ Rabs (v2R (e_cov (pf_d s') at13 0 0) - 3 / 4) <= / 100000].
Proof.
have [s' E] := pair_run; exists s'; have [hg ht he] := pair_ok.
have hne : two_updates <> [::] by [].
have [f1 v1] := @dlit_int 1 ltac:(lia); have [f3 v3] := @dlit_int 3 ltac:(lia).
have sx e j : (2 <= e)%Z -> sized e (at13 j 0%N).
  move=> hh; have hb : bpow radix2 2 <= bpow radix2 e by exact: bpow_le.
  have b4 : bpow radix2 2 = 4 by rewrite -IZR_Zpower.
  rewrite b4 in hb.
  by case: j => [|j]; split; [exact: f1|rewrite /= v1 Rabs_pos_eq; lra|exact: f3|rewrite /= v3 Rabs_pos_eq; lra].
have [q0 q1] := qf_val.
have me : mean 2 qf (fun j => v2R (at13 j 0%N)) = 3 / 2 by rewrite /mean /over /= q0 q1 v1 v3; field.
have sz : size_of 2 qf (fun j => v2R (at13 j 0%N)) = 3 / 2.
  by rewrite /size_of /over /= q0 q1 v1 v3 !Rabs_pos_eq; lra.
have cv : covar 2 qf (fun j => v2R (at13 j 0%N)) (fun j => v2R (at13 j 0%N)) = 3 / 4.
  by rewrite /covar me /over /= q0 q1 v1 v3; field.
have tl : 0 <= mean_tol 2 (pf_roundings 2 2) qf (fun j => v2R (at13 j 0%N)) <= / 400000.
  by rewrite /mean_tol sz; have := @rel100 (pf_roundings 2 2 + 2 + 1) isT; have := tiny_term; rewrite [INR 2]/=; lra.
have sp : 0 <= spread 2 (pf_roundings 2 2) qf (fun j => v2R (at13 j 0%N)) <= 1.
  split; first exact: sqrt_pos.
  rewrite -[X in _ <= X]sqrt_1; apply: sqrt_le_1_alt; rewrite cv.
  by move: (mean_tol _ _ _ _) tl => t tl; nra.
have sx9 j : (j < 2)%N -> sized 900 (at13 j 0%N) by move=> _; apply: sx.
have sx4 j : (j < 2)%N -> sized 400 (at13 j 0%N) by move=> _; apply: sx.
have sx44 j (hj : (j < 2)%N) := conj (sx4 j hj) (sx4 j hj).
have [_ r1] := @C100_mean sqm half_root scheme32 pair s' two_updates no_resampling at13 few2 hg pair_total hne pair_tames pair_bits E 0%N sx9.
have [_ _ r2] := @C100_covariance sqm half_root scheme32 pair s' two_updates no_resampling at13 few2 hg pair_total hne pair_tames pair_bits E 0%N 0%N sx44.
have r3 := @C100_diagonal sqm half_root scheme32 pair s' two_updates no_resampling at13 few2 hg pair_total hne pair_tames pair_bits E 0%N sx4.
split; first exact: E.
- move: r1; rewrite -/qf me => r1; apply: Rle_trans r1 _.
  change (mean_tol 2 (pf_roundings 2 2) qf (fun j => v2R (at13 j 0%N)) <= / 100000); lra.
split; first exact: r3.
move: r2; rewrite -/qf cv => r2; apply: Rle_trans r2 _.
have [rl0 rl] := @rel100 (pf_roundings 2 2 + 2 + 4) isT.
have z9 : INR 2 * bpow radix2 (-659) <= / 1000000.
  have : bpow radix2 (-659) <= bpow radix2 (-52) by apply: bpow_le; lia.
  by have := uu_tiny; rewrite /uu [INR 2]/=; lra.
change (spread 2 (pf_roundings 2 2) qf (fun j => v2R (at13 j 0%N)) * spread 2 (pf_roundings 2 2) qf (fun j => v2R (at13 j 0%N)) * relative (pf_roundings 2 2 + 2 + 4) +
  mean_tol 2 (pf_roundings 2 2) qf (fun j => v2R (at13 j 0%N)) * mean_tol 2 (pf_roundings 2 2) qf (fun j => v2R (at13 j 0%N)) + INR 2 * bpow radix2 (-659) <= / 100000).
move: (spread _ _ _ _) (mean_tol _ _ _ _) (relative _) (INR 2 * _) sp tl rl0 rl z9 => S M L Z sp tl rl0 rl z9.
have : S * S <= 1 by nra.
have : 0 <= S * S by nra.
by move: (S * S) => SS; nra.
Qed.
Definition at12 (j : nat) : Z := if j is 0%N then 1%Z else 2%Z.
Example C100_index_example : exists s', p_run sqm half_root scheme32 pair two_updates = Ok (no_resampling, s') /\ e_umean (pf_d s') at12 = Ok 1%Z.
Proof.
have [s' E] := pair_run; exists s'; split; first exact: E.
have [hg ht he] := pair_ok; have hne : two_updates <> [::] by []; have [q0 q1] := qf_val.
have hv j : (j < 2)%N -> (0 <= at12 j < 2 ^ 32)%Z by case: j => [|j] _ /=; lia.
have me : mean 2 qf (fun j => IZR (at12 j)) = 5 / 4 by rewrite /mean /over /= q0 q1; field.
have sz : size_of 2 qf (fun j => IZR (at12 j)) = 5 / 4.
  by rewrite /size_of /over /= q0 q1 !Rabs_pos_eq; lra.
have tl : 0 <= mean_tol 2 (pf_roundings 2 2) qf (fun j => IZR (at12 j)) <= / 400000.
  by rewrite /mean_tol sz; have := @rel100 (pf_roundings 2 2 + 2 + 1) isT; have := tiny_term; rewrite [INR 2]/=; lra.
apply: (@C100_index sqm half_root scheme32 pair s' two_updates no_resampling few2 hg pair_total hne pair_tames pair_bits E at12 1 hv); first lia.
have b18 : bpow radix2 (-18) = / 262144 by rewrite -[(-18)%Z]/(Z.opp 18) bpow_opp -IZR_Zpower.
change (1 - / 2 + (mean_tol 2 (pf_roundings 2 2) qf (fun j => IZR (at12 j)) + bpow radix2 (-18)) <= mean 2 qf (fun j => IZR (at12 j)) <
  1 + / 2 - (mean_tol 2 (pf_roundings 2 2) qf (fun j => IZR (at12 j)) + bpow radix2 (-18))).
by rewrite me b18; lra.
Qed.
(** the collapse on four particles at 5 *)
Example C101_runs : (if p_run sqm half_root (Threshold (dlit 2 0)) four [:: PMeas tilt halves; faint; PSys halves; PMeas tilt halves] is Ok (_, s)
  then (B2SF (e_mean (pf_d s) (fun _ _ => dlit 5 0) 0), B2SF (e_cov (pf_d s) (fun _ _ => dlit 5 0) 0 0)) else (SpecFloat.S754_nan, SpecFloat.S754_nan)) =
  (SpecFloat.S754_zero false, SpecFloat.S754_zero false).
Proof. by vm_compute. Qed.
Print Assumptions C100_mean.
Print Assumptions C100_covariance.
Print Assumptions C100_diagonal.
Print Assumptions C100_index.
Print Assumptions C101_mean.
Print Assumptions C101_covariance.
Print Assumptions C101_estimate_refuted.
