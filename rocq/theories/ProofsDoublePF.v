(** * Proofs: particle weights in doubles *)
From Coq Require Import ZArith Reals Lra Lia.
From Flocq Require Import Core.Core BinarySingleNaN.
From mathcomp Require Import all_ssreflect.
From Verif Require Import Outcome ModelDouble SpecDouble ProofsDouble PropertiesDouble
  ModelDoubleHist SpecDoubleHist ProofsDoubleHist PropertiesDoubleHist ModelDoublePF SpecDoublePF.
Set Implicit Arguments. Unset Strict Implicit. Unset Printing Implicit Defensive.
Local Open Scope R_scope.

Lemma uu52 : / IZR (2 ^ 52) = 2 * uu. Proof. by rewrite uu_val /=; lra. Qed.
Lemma ee_sub : bpow radix2 (-1074) = 2 * ee. Proof. by rewrite /ee; lra. Qed.
Lemma ee_u : 4194304 * (4194304 * ee) <= / 100 * uu.
Proof.
have h1 : ee <= bpow radix2 (-150).
  rewrite /ee; have := @bpow_le radix2 (-1074) (-150) ltac:(lia); have := bpow_gt_0 radix2 (-1074); lra.
have e : bpow radix2 (-150) = / 1427247692705959881058285969449495136382746624 by [].
have e2 : uu = / 9007199254740992 by rewrite uu_val.
rewrite e in h1; rewrite e2; move: (ee) h1 => x h1; lra.
Qed.
Lemma mul1 (x : double) : is_finite x = true -> dmul x d1 = x.
Proof.
move=> f; have := Bmult_correct 53 1024 prec53 emax1024 mode_NE x d1; rewrite -/(dmul x d1) -!/(v2R _) v2R1 Rmult_1_r.
have e : round radix2 (SpecFloat.fexp 53 1024) (round_mode mode_NE) (v2R x) = v2R x by apply: round_generic; exact: fmt.
rewrite e Rlt_bool_true; last exact: abs_B2R_lt_emax.
have [f1 _] := good1; rewrite f f1 => -[h1 [h2 h3]]; apply: B2R_Bsign_inj => //.
have nn : is_nan (dmul x d1) = false by rewrite andbT in h2; move: h2; case: (dmul x d1).
rewrite (h3 nn); have -> : Bsign d1 = false by [].
by case: (Bsign x).
Qed.
Local Opaque d0 d1 dprec dlit dadd dsub dmul ddiv dle dlt bpow IZR.

(** ** The effective sample size *)
Lemma over_le n f g : (forall i, (i < n)%N -> f i <= g i) -> over n f <= over n g.
Proof.
rewrite /over => h; have : forall i, List.In i (iota 0 n) -> f i <= g i by move=> i /In_iota; exact: h.
elim: (iota 0 n) => [|i l IH] hl /=; first lra.
have := hl i (or_introl erefl); have := IH (fun j hj => hl j (or_intror hj)); lra.
Qed.
Lemma over_add n f g : over n (fun i => f i + g i) = over n f + over n g.
Proof. by rewrite /over; elim: (iota 0 n) => [|i l IH] /=; [lra|rewrite IH; lra]. Qed.
Lemma over_const n c : over n (fun _ => c) = INR n * c.
Proof. by rewrite /over -{2}[n](size_iota 0); elim: (iota 0 n) => [|i l IH]; [rewrite /=; lra|rewrite [size _]/= S_INR /= IH; lra]. Qed.
Lemma over_le1 n f j : (forall i, (i < n)%N -> 0 <= f i) -> (j < n)%N -> f j <= over n f.
Proof.
move=> h hj; have hl : forall i, List.In i (iota 0 n) -> 0 <= f i by move=> i /In_iota; exact: h.
move/In_iota: hj; rewrite /over; elim: (iota 0 n) hl => [|i l IH] hl //= hj.
have h0 := hl i (or_introl erefl); have hl' k : List.In k l -> 0 <= f k by move=> hk; apply: hl; right.
have s0 : 0 <= rsum [seq f x | x <- l].
  by elim: (l) hl' => [|k l' IH'] h' /=; [lra|have := h' k (or_introl erefl); have := IH' (fun j hj => h' j (or_intror hj)); lra].
by case: hj => [<-|hj]; [lra|have := IH hl' hj; lra].
Qed.
Lemma sumsq_low n p : over n p = 1 -> (0 < n)%N -> 1 <= INR n * over n (fun j => p j ^ 2).
Proof.
move=> h1 n0; have hN : 0 < INR n by apply: lt_0_INR; apply/ltP.
have : 0 <= over n (fun j => p j ^ 2 + (- (2 * / INR n) * p j + (/ INR n) ^ 2)).
  have := @over_le n (fun _ => 0) (fun j => p j ^ 2 + (- (2 * / INR n) * p j + (/ INR n) ^ 2)).
  rewrite over_const Rmult_0_r; apply=> i _.
  have -> : p i ^ 2 + (- (2 * / INR n) * p i + (/ INR n) ^ 2) = (p i - / INR n) ^ 2 by ring.
  exact: pow2_ge_0.
rewrite over_add over_add over_scale over_const h1.
move: (over _ _) => Q hQ; have h2 : 0 <= Q - / INR n.
  by move: hQ; have -> : Q + (- (2 * / INR n) * 1 + INR n * (/ INR n) ^ 2) = Q - / INR n by field; lra.
have : 0 <= INR n * (Q - / INR n) by apply: Rmult_le_pos; lra.
by rewrite Rmult_minus_distr_l Rinv_r; lra.
Qed.
(** relative error of [k] roundings, and half the smallest positive double *)
Definition loose (k : nat) (r v : R) : Prop := [/\ 0 <= r, r * qq ^ k - ee <= v & v * qq ^ k <= r + ee].
Lemma ap_loose k r v : approx k r v -> loose k r v.
Proof. by case=> h0 h1 h2; have := ee_gt0; split=> //; lra. Qed.
Section Neff.
Variables (sq : double -> double) (n k : nat) (p : nat -> R) (w : seq double).
Hypotheses (hsq : squares sq) (hn : few n) (n0 : (0 < n)%N) (hsz : size w = n) (hg : goods w) (p1 : over n p = 1).
Hypothesis hw : forall j, (j < n)%N -> loose k (p j) (v2R (nth d0 w j)).
Hypothesis hK : INR (2 * k + n + 4) * uu <= / 2.
Let c := qq ^ k.
Let hc : 0 < c <= 1. Proof. exact: qq_pow. Qed.
Let hc2 : / 2 <= c * c.
Proof.
rewrite /c -pow_add plusE; apply: qq_low; apply: Rle_trans hK; apply: Rmult_le_compat_r; first by have := uu_lt; lra.
by apply: le_INR; rewrite -!plusE -!multE; lia.
Qed.
Let hu := uu_lt.
Let he : 0 < ee < / 100 * uu.
Proof. by have := ee_gt0; have := ee_u; split=> //; lra. Qed.
Let hp j : (j < n)%N -> 0 <= p j <= 1.
Proof.
move=> hj; split; first by case: (hw hj).
by rewrite -p1; apply: (over_le1 _ hj) => i /hw [].
Qed.
Let hN : 1 <= INR n <= 4194304.
Proof. by have [] := fewP hn; split=> //; have := le_INR 1 n (elimT leP n0). Qed.
Let x j := v2R (nth d0 w j).
Let y j := v2R (sq (nth d0 w j)).
Let Q := over n (fun j => p j ^ 2).
Let gw j : (j < n)%N -> good (nth d0 w j). Proof. by move=> hj; apply: goods_nth; rewrite ?hsz. Qed.
Let x2 j : (j < n)%N -> x j <= 2.
Proof.
move=> hj; have [_ _ h] := hw hj; have [_ h1] := hp hj; rewrite -/c -/(x j) in h.
have c2 : / 2 < c by nra.
have [_] := gw hj; rewrite -/(x j) => h0.
case: (Rle_dec (x j) 2) => // /Rnot_le_lt h2; nra.
Qed.
Let gy j : (j < n)%N -> good (sq (nth d0 w j)). Proof. by move=> hj; have [] := hsq (gw hj) (x2 hj). Qed.
Let ylow j : (j < n)%N -> (1 - 2 * uu) * (c * c) * p j ^ 2 - 4 * ee <= y j.
Proof.
move=> hj; have [_] := hsq (gw hj) (x2 hj); rewrite uu52 ee_sub -/(x j) -/(y j) => /Rabs_le_inv [h1 _].
have [_ h2 _] := hw hj; have [h3 h4] := hp hj; rewrite -/c -/(x j) in h2; have [_] := gw hj; rewrite -/(x j) => hx.
have h5 : (p j * c) ^ 2 - 2 * ee <= x j ^ 2.
  have pc : 0 <= p j * c <= 1 by split; [apply: Rmult_le_pos; lra|nra].
  move: (p j * c) pc h2 => a a1 h2; case: (Rle_dec ee a) => [h|/Rnot_le_lt h]; nra.
have e : (p j * c) ^ 2 = c * c * p j ^ 2 by ring.
rewrite e in h5; rewrite Rmult_assoc; move: (c * c * p j ^ 2) (x j ^ 2) h5 h1 => A X h5 h1; nra.
Qed.
Let yhigh j : (j < n)%N -> y j * (c * c) <= (1 + 2 * uu) * p j ^ 2 + 6 * ee.
Proof.
move=> hj; have [_] := hsq (gw hj) (x2 hj); rewrite uu52 ee_sub -/(x j) -/(y j) => /Rabs_le_inv [_ h1].
have [_ _ h2] := hw hj; have [h3 h4] := hp hj; rewrite -/c -/(x j) in h2; have [_] := gw hj; rewrite -/(x j) => hx.
have h5 : (x j * c) ^ 2 <= p j ^ 2 + 3 * ee.
  have xc : 0 <= x j * c by apply: Rmult_le_pos; lra.
  by move: (x j * c) xc h2 => a a1 h2; nra.
have e : (x j * c) ^ 2 = x j ^ 2 * (c * c) by ring.
have cc : 0 <= c * c <= 1 by nra.
have h6 : y j * (c * c) <= ((1 + 2 * uu) * x j ^ 2 + 2 * ee) * (c * c) by apply: Rmult_le_compat_r; lra.
rewrite e in h5; apply: Rle_trans h6 _; move: (x j ^ 2) (p j ^ 2) (c * c) h5 cc => X P C h5 cc; nra.
Qed.
Let Y := over n y.
Let Q0 : 1 <= INR n * Q. Proof. exact: sumsq_low. Qed.
Let Qp : 0 < Q. Proof. by have := Q0; have := hN; move: (INR n) (Q) => N q; nra. Qed.
Let small : 6 * (INR n * ee) <= / 4 * uu * Q.
Proof.
have h1 : INR n * (INR n * ee) <= / 100 * uu.
  apply: Rle_trans ee_u; apply: Rmult_le_compat; try lra; last by apply: Rmult_le_compat_r; lra.
  by apply: Rmult_le_pos; lra.
have h2 : INR n * ee <= INR n * ee * (INR n * Q).
  by rewrite -{1}[INR n * ee]Rmult_1_r; apply: Rmult_le_compat_l => //; apply: Rmult_le_pos; lra.
have e : INR n * ee * (INR n * Q) = INR n * (INR n * ee) * Q by ring.
rewrite e in h2; have : INR n * (INR n * ee) * Q <= / 100 * uu * Q by apply: Rmult_le_compat_r; lra.
move: (INR n * (INR n * ee) * Q) (uu * Q) h2 => A B h2; have := Qp; have : 0 <= uu * Q by nra.
lra.
Qed.
Let aY : approx (2 * k + 3) Q Y.
Proof.
have h1 : (1 - 2 * uu) * (c * c) * Q - 4 * (INR n * ee) <= Y.
  have -> : (1 - 2 * uu) * (c * c) * Q - 4 * (INR n * ee) = over n (fun j => (1 - 2 * uu) * (c * c) * p j ^ 2 + (- (4 * ee))).
    by rewrite over_add over_scale over_const -/Q; ring.
  by apply: over_le => j hj; have := ylow hj; lra.
have h2 : Y * (c * c) <= (1 + 2 * uu) * Q + 6 * (INR n * ee).
  have -> : (1 + 2 * uu) * Q + 6 * (INR n * ee) = over n (fun j => (1 + 2 * uu) * p j ^ 2 + 6 * ee).
    by rewrite over_add over_scale over_const -/Q; ring.
  rewrite Rmult_comm -over_scale; apply: over_le => j hj; rewrite Rmult_comm; exact: yhigh.
have eq : qq ^ (2 * k + 3) = c * c * (qq * qq * qq).
  by rewrite mul2n -addnn !pow_add -/c /=; ring.
have q3 : (qq * qq * qq) = 1 - 3 * uu + 3 * (uu * uu) - uu * uu * uu by rewrite /qq; ring.
have u2 : 0 <= uu * uu <= / 1000 * uu by nra.
have u3 : 0 <= uu * uu * uu <= / 1000 * (uu * uu) by nra.
split; rewrite ?eq ?q3; first lra.
  apply: Rle_trans h1; have h3 : (1 - 2 * uu) * (c * c) * Q - / 4 * uu * Q <= (1 - 2 * uu) * (c * c) * Q - 4 * (INR n * ee).
    by have := small; have := Qp; nra.
  apply: Rle_trans h3; have cc : / 2 <= c * c <= 1 by have := hc2; nra.
  have -> : (1 - 2 * uu) * (c * c) * Q - / 4 * uu * Q = Q * ((1 - 2 * uu) * (c * c) - / 4 * uu) by ring.
  apply: Rmult_le_compat_l; first lra.
  move: (c * c) (uu * uu) (uu * uu * uu) cc u2 u3 => C U2 U3 cc u2 u3; nra.
have -> : Y * (c * c * (1 - 3 * uu + 3 * (uu * uu) - uu * uu * uu)) = Y * (c * c) * (1 - 3 * uu + 3 * (uu * uu) - uu * uu * uu) by ring.
apply: Rle_trans (_ : (1 + 2 * uu + / 4 * uu) * Q * (1 - 3 * uu + 3 * (uu * uu) - uu * uu * uu) <= _).
  apply: Rmult_le_compat_r; first lra.
  by apply: Rle_trans h2 _; have := small; lra.
have -> : (1 + 2 * uu + / 4 * uu) * Q * (1 - 3 * uu + 3 * (uu * uu) - uu * uu * uu) =
  Q * ((1 + 9 / 4 * uu) * (1 - 3 * uu + 3 * (uu * uu) - uu * uu * uu)) by field.
rewrite -{2}[Q]Rmult_1_r; apply: Rmult_le_compat_l; first lra.
move: (uu * uu) (uu * uu * uu) u2 u3 => U2 U3 u2 u3; nra.
Qed.
Let ys := [seq sq v | v <- w].
Lemma neffE : p_neff sq w = ddiv d1 (d_sum ys).
Proof. by rewrite /p_neff /d_sum /ys; congr ddiv; elim: (w) (d0) => [|v w' IH] a //=; rewrite IH. Qed.
Lemma neff_ok : good (p_neff sq w) /\ approx (2 * k + n + 4) (/ Q) (v2R (p_neff sq w)).
Proof.
have sy : size ys = n by rewrite size_map.
have gys : goods ys by apply: goods_map => v /(In_nth_ex d0) [j hj <-]; apply: gy; rewrite -hsz.
have ty : total ys = Y.
  rewrite total_nth_over sy /Y; apply: over_ext => j hj.
  by rewrite /ys (nth_map d0) ?hsz.
have Q1 : Q <= INR n.
  apply: Rle_trans (_ : over n (fun _ => 1) <= _); last by rewrite over_const; lra.
  by apply: over_le => j /hp h; nra.
have hq m : (m <= 2 * k + n + 4)%N -> / 2 <= qq ^ m.
  move=> h; apply: qq_low; apply: Rle_trans hK; apply: Rmult_le_compat_r; first by have := uu_lt; lra.
  by apply: le_INR; apply/leP.
have q1 := hq (2 * k + 3)%N ltac:(apply/leP; rewrite -!plusE -!multE; lia).
have hY : Y <= 8388608.
  case: aY => _ _; move: (qq ^ _) q1 => q q1 h; have := hN; case: (Rle_dec Y 0) => [|/Rnot_le_lt]; nra.
have t1 : total ys <= bpow radix2 1022.
  rewrite ty; apply: Rle_trans hY _; apply: Rle_trans (_ : bpow radix2 23 <= _); last by apply: bpow_le; lia.
  rewrite -IZR_Zpower //; exact: Rle_refl.
have fs := sum_fin gys (eq_ind_r few hn sy) t1.
have as_ := ap_sum gys fs; rewrite sy ty in as_.
have aS := ap_trans aY as_; have es : (2 * k + 3 + n = 2 * k + n + 3)%N by rewrite addnAC.
rewrite es in aS; have [S0 iS] := ap_inv Qp aS.
have gS : good (d_sum ys) by split; [exact: fs|exact: Rlt_le].
have q2 := hq (2 * k + n + 3)%N ltac:(apply/leP; rewrite -!plusE -!multE; lia).
have hi : normal (v2R d1 / v2R (d_sum ys)).
  rewrite v2R1 /Rdiv Rmult_1_l; right; case: iS => _ i1 i2; move: (qq ^ _) q2 i1 i2 => q q2 i1 i2.
  have Qi : / 4194304 <= / Q <= 4194304.
    split; first by apply: Rinv_le_contravar; lra.
    have : / Q <= INR n.
      by apply: (Rmult_le_reg_r Q) => //; rewrite Rinv_l; lra.
    by have := hN; lra.
  have Si : / 4194304 * / 2 <= / v2R (d_sum ys).
    by apply: Rle_trans i1; apply: Rmult_le_compat; lra.
  have Si0 := Rinv_0_lt_compat _ S0; split.
    apply: Rle_trans Si; apply: Rle_trans (_ : bpow radix2 (- (23)) <= _); first by apply: bpow_le; lia.
    rewrite bpow_opp -IZR_Zpower // -[(radix2 ^ 23)%Z]/8388608%Z; lra.
  apply: Rle_trans (_ : bpow radix2 23 <= _); last by apply: bpow_le; lia.
  rewrite -IZR_Zpower // -[(radix2 ^ 23)%Z]/8388608%Z; nra.
have [g2 e2] := div_rel good1 gS S0 hi; have a2 := ap_one (normal_ge0 hi) e2.
rewrite neffE; split; first exact: g2.
have -> : (2 * k + n + 4 = 2 * k + n + 3 + 1)%N by rewrite -[in RHS]addnA.
by apply: ap_trans a2; rewrite v2R1 /Rdiv Rmult_1_l.
Qed.
End Neff.

(** ** Normalising *)
Lemma mupdE d w (ps := [seq ddiv x (d_sum w) | x <- w]) : size w = size (dm_w d) -> few (size w) -> goods w ->
  0 < total w <= bpow radix2 1022 -> m_update d w = Ok (true, DMC ps (m_cum ps d1)).
Proof.
move=> hs hn hg [h0 h1]; have f := sum_fin hg hn h1; have sp := sum_pos hg f h0.
have n0 : size w != 0%N by case: (w) h0 => //; rewrite /total /=; lra.
rewrite /m_update n0 hs eqxx [guard _]/= [obind (Ok _) _]/= /m_normalize.
have -> : dlt d0 (d_sum w) by apply/dltP.
rewrite (@mapO_ok _ _ _ (fun x => ddiv x (d_sum w))) // => x hx.
by apply: weight_ok; have [[]] := div_near hg hn f h0 hx.
Qed.
Lemma norm_loose w j : few (size w) -> goods w -> 0 < total w <= bpow radix2 1022 -> (j < size w)%N ->
  loose (size w + 1) (exact w j) (v2R (ddiv (nth d0 w j) (d_sum w))).
Proof.
move=> hn hg [h0 h1] hj; have f := sum_fin hg hn h1; have gj := goods_nth hg hj.
have aS := ap_sum hg f; have [S0 iS] := ap_inv h0 aS.
have gS : good (d_sum w) by split; [exact: f|exact: Rlt_le].
have hle : v2R (nth d0 w j) <= v2R (d_sum w) by apply: (fold_mem good0 hg f); exact: nth_In.
have [_ _ [e1 e2]] := div_val gj gS S0 hle; case: gj => _ x0.
have ax : approx (size w) (exact w j) (v2R (nth d0 w j) / v2R (d_sum w)) by apply: ap_scale.
have [q0 q1] := qq_pow (size w); have hu := uu_lt; have he := ee_gt0.
rewrite addn1 /loose [qq ^ _.+1]/=; case: ax => a0 a1 a2; split=> //.
  apply: Rle_trans e1; apply: Rplus_le_compat_r.
  have -> : exact w j * (qq * qq ^ size w) = exact w j * qq ^ size w * (1 - uu) by rewrite /qq; ring.
  by apply: Rmult_le_compat_r; lra.
have hqq : 0 <= qq <= 1 by rewrite /qq; lra.
have h2 : qq * qq ^ size w <= 1 by rewrite -[1]Rmult_1_l; apply: Rmult_le_compat; lra.
have h3 : 0 <= qq * qq ^ size w by apply: Rmult_le_pos; lra.
apply: Rle_trans (_ : (v2R (nth d0 w j) / v2R (d_sum w) * (1 + uu) + ee) * (qq * qq ^ size w) <= _).
  by apply: Rmult_le_compat_r.
rewrite Rmult_plus_distr_r; apply: Rplus_le_compat.
  have -> : v2R (nth d0 w j) / v2R (d_sum w) * (1 + uu) * (qq * qq ^ size w) =
    v2R (nth d0 w j) / v2R (d_sum w) * qq ^ size w * (1 - uu * uu) by rewrite /qq; ring.
  apply: Rle_trans (_ : exact w j * (1 - uu * uu) <= _); first by apply: Rmult_le_compat_r; nra.
  by rewrite -{2}[exact w j]Rmult_1_r; apply: Rmult_le_compat_l; nra.
by rewrite -{2}[ee]Rmult_1_r; apply: Rmult_le_compat_l; lra.
Qed.
Lemma exact_sum w : 0 < total w -> over (size w) (exact w) = 1.
Proof.
move=> h; rewrite (@over_ext _ _ (fun j => / total w * v2R (nth d0 w j))); last by move=> j _; rewrite /exact /Rdiv Rmult_comm.
by rewrite over_scale -total_nth_over Rinv_l; lra.
Qed.
Lemma ess1 n p : over n p = 1 -> ess n p = / over n (fun j => p j ^ 2).
Proof. by move=> h; rewrite /ess h pow1 /Rdiv Rmult_1_l. Qed.
Lemma ess_exact w : 0 < total w -> ess (size w) (exact w) = ess (size w) (fun j => v2R (nth d0 w j)).
Proof.
move=> h; rewrite /ess exact_sum // (@over_ext _ (fun j => exact w j ^ 2) (fun j => (/ total w) ^ 2 * v2R (nth d0 w j) ^ 2)); last first.
  by move=> j _; rewrite /exact /Rdiv; ring.
rewrite over_scale -total_nth_over; case: (Req_dec (over (size w) (fun j => v2R (nth d0 w j) ^ 2)) 0) => [->|h2].
  by rewrite Rmult_0_r /Rdiv Rinv_0 !Rmult_0_r.
by field; split=> //; lra.
Qed.
Lemma relE k : INR k * uu < 1 -> INR k * uu / (1 - INR k * uu) = relative k.
Proof.
move=> h; rewrite /relative; have e : IZR (2 ^ 53) = / uu by rewrite uu_val Rinv_inv.
have := uu_lt => hu; rewrite e; field; split; lra.
Qed.

(** ** One update of the weights *)
Section PStep.
Variables (n k : nat) (d : dmc) (p : nat -> R) (s : R) (l : nat -> double).
Let w := dm_w d.
Hypotheses (hsz : size w = n) (hn : few n) (hs : / 4 <= s <= 4).
Hypothesis hv : goods w.
Hypothesis hK : INR (k + 2 * n + 1) * uu <= / 2.
Hypothesis hI : forall j, (j < n)%N -> approx k (s * p j) (v2R (nth d0 w j)).
Hypothesis hT : tame_step n p (HLike l).
Let dd := DDisc w [::].
Let new := freshes (HLike l) w.
Let W := over n (weight n (HLike l) p).
Let W0 : 0 < W. Proof. by case: hT. Qed.
Let sW : 0 < s * W. Proof. apply: Rmult_lt_0_compat => //; lra. Qed.
Let snew : size new = n. Proof. by rewrite /new /freshes size_map size_iota hsz. Qed.
Let hF j : (j < n)%N -> [/\ good (fresh (HLike l) w j),
    approx (k + n + 1) (s * weight n (HLike l) p j) (v2R (fresh (HLike l) w j)) & v2R (fresh (HLike l) w j) <= bpow radix2 930].
Proof. exact: (@fresh_ok n k dd p s (HLike l) hsz hn hs hv hK hI hT j). Qed.
Let gnew : goods new.
Proof. by rewrite /new /freshes hsz; apply: goods_map => j /In_iota /hF []. Qed.
Let anew m : (m <= n)%N -> approx (k + n + 1) (s * over m (weight n (HLike l) p)) (total (take m new)).
Proof.
move=> hm; rewrite /new /freshes hsz -map_take (take_iota0 hm) total_seq -over_scale.
by apply: ap_over => j hj; have [] := hF (leq_trans hj hm).
Qed.
Let anew' : approx (k + n + 1) (s * W) (total new).
Proof. by have := anew (leqnn n); rewrite take_oversize ?snew. Qed.
Let tnew : 0 < total new <= bpow radix2 1022.
Proof.
split; first by case: (ap_inv sW anew').
rewrite /new /freshes hsz total_seq; apply: Rle_trans (_ : INR n * bpow radix2 930 <= _).
  by rewrite -{2}[n](size_iota 0); apply: rsum_le => j /In_iota /hF [].
by apply: Rle_trans (few_bpow _ hn) _; apply: bpow_le; lia.
Qed.
Lemma meas_ok : exists d' s1, [/\ m_update d new = Ok (true, d'), size (dm_w d') = n /\ goods (dm_w d'), / 4 <= s1 <= 4,
  (forall j, (j < n)%N -> approx (k + (n + 2)) (s1 * bayes n p (HLike l) j) (v2R (nth d0 (dm_w d') j))) &
  approx (n + 1) 1 (total (dm_w d')) /\
   exists ex, [/\ follows n ex (dm_c d'), ex n = 1 &
     forall m, (m <= n)%N -> approx (2 * (k + n + 1)) (over m (bayes n p (HLike l))) (ex m)]].
Proof.
have [d' [s1 [h1 [h2 h2'] h3 h4 [h5 _ _]]]] := @step_ok n k dd p s (HLike l) hsz hn hs hv hK hI hT.
have fit : fits (size (dd_v dd)) (HLike l) by move=> j; rewrite hsz => hj; case: hT => /(_ j hj) [].
have gf j : (j < size (dd_v dd))%N -> good (fresh (HLike l) (dd_v dd) j) by rewrite hsz => /hF [].
have hn' : few (size new) by rewrite snew.
have [c [c1 _ _]] := @set_okE dd new (etrans snew (esym hsz)) hn' gnew tnew.
rewrite (stepE fit gf) -/new c1 /= in h1; case: h1 => h1.
have [d2 [u1 u2 u3]] := @C81_update d new (etrans snew (esym hsz)) hn' gnew tnew.
have u4 := mupdE (etrans snew (esym hsz)) hn' gnew tnew.
rewrite u4 in u1; case: u1 => u1.
have ew : dm_w d2 = dd_v d' by rewrite -u1 -h1.
exists d2, s1; rewrite ew; split=> //; first by rewrite u4 u1.
split=> //; exists (share new); rewrite -snew; split=> //.
  by rewrite /share take_size /Rdiv Rinv_r //; case: tnew; lra.
move=> m hm; rewrite snew in hm *; rewrite mul2n -addnn.
have -> : over m (bayes n p (HLike l)) = (s * over m (weight n (HLike l) p)) / (s * W).
  rewrite (@over_ext _ _ (fun j => / W * weight n (HLike l) p j)); last by move=> i _; rewrite /bayes /Rdiv Rmult_comm.
  by rewrite over_scale; field; lra.
by apply: ap_div => //; exact: anew.
Qed.
Lemma meas_mapE : mapO (fun k => let! q := at_ w k in let! p := d_prob (l k) in d_weight (dmul q p)) (iota 0 (size w)) = Ok new.
Proof.
rewrite (@mapO_ok _ _ _ (fresh (HLike l) w)) // => j /In_iota hj.
rewrite (at_nth d0 hj) [obind (Ok _) _]/=; rewrite hsz in hj; have [gl _] : good (l j) /\ tame (v2R (l j) * p j) by case: hT => /(_ j hj).
rewrite prob_ok // [obind (Ok _) _]/=; apply: weight_ok; by case: (hF hj).
Qed.
End PStep.

(** ** Runs *)
Lemma scan_many_size n us i rest l : d_scan_many n us i rest = Ok l -> size l = size us.
Proof.
elim: us i rest l => [|u us IH] i rest l /=; first by case=> <-.
case: (d_scan _ _ _ _) => [j||] //=; case E: (d_scan_many _ _ _ _) => [l2||] //= -[<-] /=; by rewrite (IH _ _ _ E).
Qed.
Lemma ripley_size root us i : size (d_ripley root us i) = size us.
Proof. by elim: us i => [|u [|v us] IH] i //; have := IH i.+1; rewrite /= => ->. Qed.
Lemma samples_size root d us l : m_samples root d us = Ok l -> size l = size us.
Proof.
rewrite /m_samples; case: us => [|u us] //; case E: (d_scan_many _ _ _ _) => [l2||] //= /mapO_size ->.
by rewrite (scan_many_size E) ripley_size.
Qed.
Definition inv (n k : nat) (p : nat -> R) (d : dmc) : Prop :=
  [/\ size (dm_w d) = n, goods (dm_w d), over n p = 1 &
   exists s, / 4 <= s <= 4 /\ forall j, (j < n)%N -> approx k (s * p j) (v2R (nth d0 (dm_w d) j))].
(** the state after an update: besides, the sum is nearly 1 and the table is accurate *)
Definition tidy (n k : nat) (p : nat -> R) (d : dmc) : Prop :=
  [/\ inv n k p d, approx (n + 1) 1 (total (dm_w d)) &
   exists ex, [/\ follows n ex (dm_c d), ex n = 1 & forall m, (m <= n)%N -> approx (2 * k) (over m p) (ex m)]].
Lemma inv_weaken n k k' p d : (k <= k')%N -> inv n k p d -> inv n k' p d.
Proof. by move=> h [h1 h2 h3 [s [h4 h5]]]; split=> //; exists s; split=> // j /h5; exact: ap_weaken. Qed.
Lemma tidy_weaken n k k' p d : (k <= k')%N -> tidy n k p d -> tidy n k' p d.
Proof.
move=> h [h1 h2 [ex [h3 h4 h5]]]; split=> //; first exact: inv_weaken h1.
by exists ex; split=> // m /h5; apply: ap_weaken; rewrite leq_mul2l h orbT.
Qed.
Lemma set_tidy n : (0 < n)%N -> few n -> exists d, m_set n = Ok (true, d) /\ tidy n 1 (fun _ => / INR n) d.
Proof.
move=> n0 hn; have hN : 1 <= INR n by have := le_INR 1 n (elimT leP n0).
have [d [h1 h2 h3]] := C81_set n0 hn; exists d; split=> //.
have [[_ gq _] _] := uniform_near n0 hn; have [f e] := dnat_val hn.
have wE : dm_w d = nseq n (ddiv d1 (dnat n)).
  by move: h1; rewrite /m_set (@mapO_ok _ _ _ id) => [|x hx]; [case=> <- /=; rewrite map_id|rewrite (In_nseq hx); exact: weight_ok].
have gn : good (dnat n) by split; [exact: f|rewrite e; lra].
have p0 : 0 < v2R (dnat n) by rewrite e; lra.
have [hN2 _] := fewP hn.
have hi : normal (v2R d1 / v2R (dnat n)).
  rewrite v2R1 e /Rdiv Rmult_1_l; right; split.
    apply: Rle_trans (_ : / 4194304 <= _); last by apply: Rinv_le_contravar; lra.
    apply: Rle_trans (_ : bpow radix2 (- (22)) <= _); first by apply: bpow_le; lia.
    by rewrite bpow_opp -IZR_Zpower // -[(radix2 ^ 22)%Z]/4194304%Z; lra.
  apply: Rle_trans (_ : 1 <= _); first by rewrite -Rinv_1; apply: Rinv_le_contravar; lra.
  by rewrite -[1]/(bpow radix2 0); apply: bpow_le; lia.
have [_ e2] := div_rel good1 gn p0 hi; have a2 := ap_one (normal_ge0 hi) e2; rewrite v2R1 e /Rdiv Rmult_1_l in a2.
have hi0 : 0 <= / INR n by apply/Rlt_le/Rinv_0_lt_compat; lra.
have gw : goods (dm_w d) by rewrite wE => x hx; rewrite (In_nseq hx).
split; first split=> //.
- by rewrite over_const Rinv_r; lra.
- exists 1; split; first lra.
  by move=> j hj; rewrite wE nth_nseq_lt // Rmult_1_l.
- rewrite total_nth_over h2; have -> : 1 = over n (fun _ => / INR n) by rewrite over_const Rinv_r; lra.
  by apply: ap_over => j hj; rewrite wE nth_nseq_lt //; apply: ap_weaken a2; rewrite addn1.
- exists (fun k => INR k / INR n); split=> //; first by rewrite /Rdiv Rinv_r; lra.
  move=> m hm; rewrite over_const; apply: (@ap_weaken 0) => //; apply: ap_refl.
  by apply: Rmult_le_pos => //; exact: pos_INR.
Qed.
Lemma resample_tidy root us d n l d' : (0 < n)%N -> few n -> size (dm_w d) = n -> p_resample root us d = Ok (l, d') ->
  tidy n 1 (fun _ => / INR n) d'.
Proof.
move=> n0 hn hs; rewrite /p_resample; case E: (m_samples _ _ _) => [l2||] //=.
rewrite (samples_size E) size_map size_iota eqxx hs; have [d2 [-> h]] := set_tidy n0 hn.
by case=> _ <-.
Qed.
Lemma INR_leq a b : (a <= b)%N -> INR b * uu <= / 2 -> INR a * uu <= / 2.
Proof. by move=> h; apply: Rle_trans; apply: Rmult_le_compat_r; [have := uu_lt; lra|apply: le_INR; apply/leP]. Qed.
Lemma meas_tidy n k p d l (new := freshes (HLike l) (dm_w d)) : few n -> INR (k + 2 * n + 1) * uu <= / 2 -> inv n k p d ->
  tame_step n p (HLike l) ->
  [/\ mapO (fun k => let! q := at_ (dm_w d) k in let! p := d_prob (l k) in d_weight (dmul q p)) (iota 0 (size (dm_w d))) = Ok new &
   exists d', m_update d new = Ok (true, d') /\ tidy n (k + (n + 2)) (bayes n p (HLike l)) d'].
Proof.
move=> hn hK [h1 h2 h3 [s [h4 h5]]] hT; split; first exact: (meas_mapE h1 hn h4 h2 hK h5 hT).
have [d' [s1 [u1 [u2 u3] u4 u5 [u6 [ex [u7 u8 u9]]]]]] := meas_ok h1 hn h4 h2 hK h5 hT.
exists d'; split=> //; split=> //; first by split=> //; [apply: bayes_sum; case: hT|exists s1].
exists ex; split=> // m /u9; apply: ap_weaken; rewrite leq_mul2l; apply/orP; right.
by apply/leP; rewrite -!plusE; lia.
Qed.
Lemma freshes1 v : goods v -> freshes (HLike (fun _ => d1)) v = v.
Proof.
move=> hg; rewrite /freshes -[RHS](@mkseq_nth _ d0) /mkseq; apply/eq_in_map => j; rewrite mem_iota => hj.
by rewrite /= mul1 //; case: (goods_nth hg hj).
Qed.
Lemma bayes1 n p : over n p = 1 -> forall j, bayes n p (HLike (fun _ => d1)) j = p j.
Proof.
move=> h j; have e : forall i, weight n (HLike (fun _ => d1)) p i = p i by move=> i /=; rewrite v2R1 Rmult_1_l.
by rewrite /bayes (@over_ext _ _ p) // e h /Rdiv Rinv_1 Rmult_1_r.
Qed.
Lemma inv_ext n k p q d : (forall j, p j = q j) -> inv n k p d -> inv n k q d.
Proof.
move=> h [h1 h2 h3 [s [h4 h5]]]; split=> //; first by rewrite -h3; apply: over_ext => j _; rewrite h.
by exists s; split=> // j hj; rewrite -h; exact: h5.
Qed.
Lemma tidy_ext n k p q d : (forall j, p j = q j) -> tidy n k p d -> tidy n k q d.
Proof.
move=> h [h1 h2 [ex [h3 h4 h5]]]; split=> //; first exact: inv_ext h1.
by exists ex; split=> // m /h5; rewrite (@over_ext _ p q).
Qed.
Lemma sys_tidy n k p d : few n -> INR (k + 2 * n + 1) * uu <= / 2 -> inv n k p d -> (forall j, (j < n)%N -> tame (p j)) ->
  mapO d_weight (dm_w d) = Ok (dm_w d) /\
  exists d', m_update d (dm_w d) = Ok (true, d') /\ tidy n (k + (n + 2)) p d'.
Proof.
move=> hn hK hI hp; have [h1 h2 h3 _] := hI; split.
  by rewrite (@mapO_ok _ _ _ id) ?map_id // => x /h2; exact: weight_ok.
have b1 := bayes1 h3.
have hT : tame_step n p (HLike (fun _ => d1)).
  split=> /=.
  - by move=> j hj; rewrite v2R1 Rmult_1_l; split; [exact: good1|exact: hp].
  - rewrite (@over_ext _ _ p); first by rewrite h3; lra.
    by move=> i _; rewrite /= v2R1 Rmult_1_l.
  - by move=> j hj; rewrite b1; exact: hp.
have [_ [d' [u1 u2]]] := meas_tidy hn hK hI hT; rewrite freshes1 // in u1.
by exists d'; split=> //; exact: tidy_ext u2.
Qed.
Lemma unif_tame n j : (0 < n)%N -> few n -> (j < n)%N -> tame (/ INR n).
Proof.
move=> n0 hn _; have hN : 1 <= INR n by have := le_INR 1 n (elimT leP n0).
have [hN2 _] := fewP hn; right; split.
  apply: Rle_trans (_ : / 4194304 <= _); last by apply: Rinv_le_contravar; lra.
  apply: Rle_trans (_ : bpow radix2 (- (22)) <= _); first by apply: bpow_le; lia.
  by rewrite bpow_opp -IZR_Zpower // -[(radix2 ^ 22)%Z]/4194304%Z; lra.
apply: Rle_trans (_ : 1 <= _); first by rewrite -Rinv_1; apply: Rinv_le_contravar; lra.
by rewrite -[1]/(bpow radix2 0); apply: bpow_le; lia.
Qed.
Section Run.
Variables (sq : double -> double) (root : double -> nat -> double) (sc : scheme).
Lemma step_tidy n k p s f b o s' : (0 < n)%N -> (0 < k)%N -> few n -> INR (k + 2 * n + 1) * uu <= / 2 -> inv n k p (pf_d s) -> pf_tame n p f ->
  p_step sq root sc s f = Ok ((b, o), s') -> b = true /\ tidy n (k + (n + 2)) (pf_next n p f o) (pf_d s').
Proof.
move=> n0 k0 hn hK hI; have [hs hg h1 _] := hI; case: f => [us|l us] hT; rewrite /p_step.
  case E: (p_static _ _ _ _ _) => [[o1 d2]||] //=.
  have [q [hq hI2]] : exists q, pf_next n p (PSys us) o1 = q /\ inv n k q d2 /\ forall j, (j < n)%N -> tame (q j).
    exists (pf_next n p (PSys us) o1); split=> //; move: E; rewrite /p_static.
    case: sc => [T|T]; last by case=> <- <-.
    case: ifP => _; last by case=> <- <-.
    case E: (p_resample _ _ _) => [[l d3]||] //= -[<- <-] /=.
    have [h2 _ _] := resample_tidy n0 hn hs E; split; first exact: inv_weaken h2.
    by move=> j hj; exact: (unif_tame n0 hn hj).
  case: hI2 => hI2 hT2; have [-> [d' [e h]]] := sys_tidy hn hK hI2 hT2.
  by rewrite /= e /= => -[<- <- <-] /=; rewrite hq.
have hT' : tame_step n p (HLike l) by [].
have [-> [d' [e h]]] := meas_tidy hn hK hI hT'; rewrite /= e /=.
case E: (p_dynamic _ _ _ _ _) => [[o1 d2]||] //= -[<- <- <-]; split=> //=; move: E; rewrite /p_dynamic.
case: sc => [T|T]; first by case=> <- <-.
case: ifP => _; last by case=> <- <-.
case E: (p_resample _ _ _) => [[l1 d3]||] //= -[<- <-] /=.
have sd : size (dm_w d') = n by case: h => [[]].
by apply: tidy_weaken (resample_tidy n0 hn sd E); rewrite addnC ltn_addr // addn2.
Qed.
Lemma run_tidy n k p s fs os s' : (0 < n)%N -> (0 < k)%N -> few n -> INR (k + size fs * (n + 2) + n) * uu <= / 2 -> inv n k p (pf_d s) ->
  pf_tames n p fs os -> p_run sq root sc s fs = Ok (os, s') ->
  [/\ map fst os = nseq (size fs) true, inv n (k + size fs * (n + 2)) (pf_path n p fs os) (pf_d s') &
    fs <> [::] -> tidy n (k + size fs * (n + 2)) (pf_path n p fs os) (pf_d s')].
Proof.
move=> n0 k0 hn; elim: fs k p s os s' k0 => [|f fs IH] k p s os s' k0 hK hI.
  by move=> _ [<- <-]; rewrite /= addn0.
move=> hT /=; case E: (p_step _ _ _ _ _) => [[[b o] s1]||] //=; case E2: (p_run _ _ _ _ _) => [[os2 s2]||] //= -[eo es].
rewrite -eo in hT *; rewrite -es; case: hT => hT hT2.
have hK1 : INR (k + 2 * n + 1) * uu <= / 2.
  by apply: INR_leq hK; rewrite [size _]/= (mulSn (size fs)); move: (size fs * _)%N => X; apply/leP; rewrite -!plusE -!multE; lia.
have [hb ht] := step_tidy n0 k0 hn hK1 hI hT E; have [hI2 _ _] := ht.
have hK2 : INR (k + (n + 2) + size fs * (n + 2) + n) * uu <= / 2 by rewrite -[(k + _ + _)%N]addnA -mulSn.
have k1 : (0 < k + (n + 2))%N by rewrite ltn_addr.
have [u1 u2 u3] := IH _ _ _ _ _ k1 hK2 hI2 hT2 E2.
have ek : (k + (size fs).+1 * (n + 2) = k + (n + 2) + size fs * (n + 2))%N by rewrite -addnA -mulSn.
rewrite ek hb; split=> //=; first by rewrite u1.
move=> _; case: fs u3 E2 {IH hT2 hK hK2 ek u1 u2} => [|f2 fs] u3 E2; last exact: u3.
by case: E2 => <- <-; rewrite /= mul0n addn0.
Qed.
End Run.
(** weights relative to the exact ones *)
Lemma tidy_rel n k p d j : tidy n k p d -> (j < n)%N -> approx (2 * k + n + 1) (p j) (v2R (nth d0 (dm_w d) j)).
Proof.
move=> [[h1 h2 h3 [s [h4 h5]]] h6 _] hj.
have hs : approx k s (total (dm_w d)).
  rewrite total_nth_over h1 -[s]Rmult_1_r -h3 -over_scale; apply: ap_over => i; exact: h5.
have a1 : approx (k + (n + 1)) s 1 by apply: ap_trans hs (ap_sym h6).
have p0 : 0 <= p j by have [h7 _ _] := h5 j hj; move: h7; have := h4; nra.
have a2 : approx (k + (n + 1)) (p j) (s * p j).
  by rewrite -{1}[p j]Rmult_1_r Rmult_comm [s * _]Rmult_comm Rmult_comm; apply: ap_scale => //; apply: ap_sym.
have := ap_trans a2 (h5 j hj); have -> // : (k + (n + 1) + k = 2 * k + n + 1)%N.
by rewrite mul2n -addnn; rewrite -!plusE; lia.
Qed.
