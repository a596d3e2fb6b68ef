(** * Sums of doubles of either sign *)
From Coq Require Import ZArith Reals Lra Lia.
From Flocq Require Import Core.Core BinarySingleNaN Relative.
From mathcomp Require Import all_ssreflect.
From Verif Require Import Outcome ModelDouble SpecDouble ProofsDouble PropertiesDouble ModelDoubleHist SpecDoubleHist ProofsDoubleHist PropertiesDoubleHist
  ModelDoubleKF SpecDoubleKF ProofsDoubleKF ModelDoublePF SpecDoublePF ProofsDoublePF ModelDoubleMean SpecDoubleMean.
Set Implicit Arguments. Unset Strict Implicit. Unset Printing Implicit Defensive.
Local Open Scope R_scope.
Local Opaque d0 d1 dprec dlit dadd dsub dmul ddiv dle dlt bpow IZR.

Definition abs_total (l : seq double) : R := rsum [seq Rabs (v2R x) | x <- l].
Lemma sum_sig l c (k : nat) B : (forall x, List.In x l -> is_finite x = true /\ Rabs (v2R x) <= B) -> is_finite c = true ->
  Rabs (v2R c) <= 2 * INR k * B -> 0 <= B <= bpow radix2 950 -> INR (k + size l) <= 4194304 ->
  [/\ is_finite (foldl dadd c l) = true, Rabs (v2R (foldl dadd c l)) <= 2 * INR (k + size l) * B &
  Rabs (v2R (foldl dadd c l) - (v2R c + total l)) <= ((1 + uu) ^ size l - 1) * (Rabs (v2R c) + abs_total l)].
Proof.
elim: l c k => [|x l IH] c k hl fc hc hB hk.
  split=> //=; first by rewrite addn0.
  rewrite /total /abs_total /= !Rplus_0_r Rminus_diag_eq // Rabs_R0; lra.
have [fx bx] := hl x (or_introl erefl).
have hk0 : 0 <= INR k by exact: pos_INR.
have hk1 : INR k + 1 + INR (size l) <= 4194304 by move: hk; rewrite /= addnS -plusE S_INR plus_INR; lra.
have hs0 := pos_INR (size l).
have ht := Rabs_triang (v2R c) (v2R x).
have s1 : small (v2R c + v2R x).
  apply: Rle_trans ht _; apply: Rle_trans (_ : bpow radix2 23 * bpow radix2 950 <= _); last by rewrite -bpow_plus; apply: bpow_le; lia.
  have -> : bpow radix2 23 = 8388608 by rewrite -IZR_Zpower.
  by have : 2 * INR k * B <= 2 * 4194303 * B; [apply: Rmult_le_compat_r; lra|lra].
have [f1 v1] := addS fc fx s1; have [e ev he] := plus_rel c x; rewrite ev in v1.
have hu := uu_lt; have htu := uu_tiny.
have a1 : Rabs (v2R (dadd c x)) <= (Rabs (v2R c) + Rabs (v2R x)) * (1 + uu).
  rewrite v1 Rabs_mult; apply: Rmult_le_compat => //; try exact: Rabs_pos.
  by apply: Rle_trans (Rabs_triang _ _) _; rewrite Rabs_R1; lra.
have [||f2 hb2 h2] := IH (dadd c x) k.+1 (fun y hy => hl y (or_intror hy)) f1 _ hB.
- apply: Rle_trans a1 _; rewrite S_INR.
  apply: Rle_trans (_ : (2 * INR k * B + B) * (1 + uu) <= _); first by apply: Rmult_le_compat_r; lra.
  have : INR k * uu * B <= / 10 * B by apply: Rmult_le_compat_r; [lra|nra].
  by have : uu * B <= / 10 * B; [apply: Rmult_le_compat_r; lra|nra].
- by rewrite addSnnS.
rewrite -[foldl dadd c (x :: l)]/(foldl dadd (dadd c x) l); split=> //; first by rewrite /= -addSnnS.
rewrite total_cons -[abs_total (x :: l)]/(Rabs (v2R x) + abs_total l) -[size (x :: l)]/(size l).+1.
have p1 := pow_ge1 (size l); rewrite -[(1 + uu) ^ (size l).+1]/((1 + uu) * (1 + uu) ^ size l).
move: ((1 + uu) ^ size l) p1 h2 => P p1 h2.
have h3 : Rabs (v2R (dadd c x) - (v2R c + v2R x)) <= (Rabs (v2R c) + Rabs (v2R x)) * uu.
  have -> : v2R (dadd c x) - (v2R c + v2R x) = (v2R c + v2R x) * e by rewrite v1; ring.
  by rewrite Rabs_mult; apply: Rmult_le_compat => //; exact: Rabs_pos.
have -> : v2R (foldl dadd (dadd c x) l) - (v2R c + (v2R x + total l)) =
  (v2R (foldl dadd (dadd c x) l) - (v2R (dadd c x) + total l)) + (v2R (dadd c x) - (v2R c + v2R x)) by ring.
apply: Rle_trans (Rabs_triang _ _) _; apply: Rle_trans (Rplus_le_compat _ _ _ _ h2 h3) _.
have n1 : 0 <= abs_total l.
  rewrite /abs_total; elim: (l) => [|y m IHm] /=; first lra.
  by have := Rabs_pos (v2R y); lra.
apply: Rle_trans (_ : (P - 1) * ((Rabs (v2R c) + Rabs (v2R x)) * (1 + uu) + abs_total l) + (Rabs (v2R c) + Rabs (v2R x)) * uu <= _).
  by apply: Rplus_le_compat_r; apply: Rmult_le_compat_l; lra.
by have := Rmult_le_pos _ _ (Rlt_le _ _ (proj1 hu)) (Rmult_le_pos _ _ (Rle_trans _ _ _ Rle_0_1 p1) n1); nra.
Qed.

(** [t] is [r] after [k] roundings, up to [h] *)
Definition near_to (k : nat) (h r t : R) : Prop := exists th eta, [/\ t = r * th + eta, approx k 1 th & Rabs eta <= h].
Lemma near_to_err k h r t : INR k * uu < 1 -> near_to k h r t -> Rabs (t - r) <= Rabs r * relative k + h.
Proof.
move=> hk [th [eta [-> hth he]]]; have := ap_err hk hth; rewrite relE // Rmult_1_l => h1.
have -> : r * th + eta - r = r * (th - 1) + eta by ring.
apply: Rle_trans (Rabs_triang _ _) _; rewrite Rabs_mult; apply: Rplus_le_compat => //.
by apply: Rmult_le_compat_l => //; exact: Rabs_pos.
Qed.
Lemma relative1 k : INR k * uu < 1 -> 1 + relative k = / (1 - INR k * uu).
Proof. by move=> h; rewrite -relE //; field; lra. Qed.
Lemma relative_ge0 k : INR k * uu < 1 -> 0 <= relative k.
Proof.
move=> h; rewrite -relE //; have hu := uu_lt; have := pos_INR k => h0.
by apply: Rmult_le_pos; [nra|apply/Rlt_le/Rinv_0_lt_compat; lra].
Qed.
Lemma sum_near n (t : nat -> double) (r : nat -> R) k h B : few n -> INR (k + n) * uu <= / 2 -> 0 <= h -> 0 <= B <= bpow radix2 950 ->
  (forall i, (i < n)%N -> [/\ is_finite (t i) = true, Rabs (v2R (t i)) <= B & near_to k h (r i) (v2R (t i))]) ->
  [/\ is_finite (e_sum n t) = true, small (v2R (e_sum n t)) &
  Rabs (v2R (e_sum n t) - over n r) <= over n (fun i => Rabs (r i)) * relative (k + n) + 2 * INR n * h].
Proof.
move=> hn hk hh hB ht; have [n1 n2] := fewP hn.
set l := [seq t i | i <- iota 0 n]; have sl : size l = n by rewrite size_map size_iota.
have hl x : List.In x l -> is_finite x = true /\ Rabs (v2R x) <= B.
  move=> /List.in_map_iff [i [<- /In_iota hi]].
  by have [] := ht i hi.
have [|||f b0 e] := @sum_sig l d0 0 B hl _ _ hB.
- by case: good0.
- by rewrite v2R0 Rabs_R0 /=; lra.
- by rewrite add0n sl.
rewrite -/(e_sum n t) in f b0 e; split=> //.
  apply: Rle_trans b0 _; rewrite add0n sl; apply: Rle_trans (_ : bpow radix2 23 * bpow radix2 950 <= _); last by rewrite -bpow_plus; apply: bpow_le; lia.
  have -> : bpow radix2 23 = 8388608 by rewrite -IZR_Zpower.
  by apply: Rmult_le_compat; have := pos_INR n; lra.
move: e; rewrite v2R0 Rabs_R0 !Rplus_0_l sl.
have -> : total l = over n (fun i => v2R (t i)) by rewrite /total /over /l -map_comp.
have -> : abs_total l = over n (fun i => Rabs (v2R (t i))) by rewrite /abs_total /over /l -map_comp.
have kk : INR (k + n) * uu = INR k * uu + INR n * uu by rewrite -plusE plus_INR; ring.
have hu := uu_lt; have k0 := pos_INR k; have n0 := pos_INR n.
have ku : 0 <= INR k * uu by nra.
have hk1 : INR k * uu < 1 by lra.
have te i : (i < n)%N -> Rabs (v2R (t i) - r i) <= Rabs (r i) * relative k + h.
  by move=> hi; have [_ _ hi2] := ht i hi; exact: near_to_err hi2.
have A1 : Rabs (over n (fun i => v2R (t i)) - over n r) <= over n (fun i => Rabs (r i)) * relative k + INR n * h.
  have -> : over n (fun i => v2R (t i)) - over n r = over n (fun i => v2R (t i) - r i).
    by rewrite /Rminus over_add (@over_ext n (fun i => - r i) (fun i => -1 * r i)) ?over_scale; [ring|move=> i _; ring].
  apply: Rle_trans (_ : over n (fun i => Rabs (r i) * relative k + h) <= _); last first.
    by rewrite over_add over_const (@over_ext n (fun i => Rabs (r i) * relative k) (fun i => relative k * Rabs (r i))) ?over_scale; [lra|move=> i _; ring].
  apply: Rle_trans (over_le te).
  rewrite /over; elim: (iota 0 n) => [|i m IHm] /=; first by rewrite Rabs_R0; lra.
  by apply: Rle_trans (Rabs_triang _ _) _; lra.
have A2 : over n (fun i => Rabs (v2R (t i))) <= over n (fun i => Rabs (r i)) * (1 + relative k) + INR n * h.
  apply: Rle_trans (_ : over n (fun i => (1 + relative k) * Rabs (r i) + h) <= _); last first.
    by rewrite over_add over_const over_scale; lra.
  apply: over_le => i hi; have := te i hi; have := Rabs_triang (v2R (t i) - r i) (r i).
  by have -> : v2R (t i) - r i + r i = v2R (t i) by [ring]; lra.
have nu : INR n * uu < 1 by lra.
have P1 := pow_ge1 n; have P2 := pow_hi nu.
have A0 : 0 <= over n (fun i => Rabs (r i)).
  rewrite /over; elim: (iota 0 n) => [|i m IHm] /=; first lra.
  by have := Rabs_pos (r i); lra.
have R0 := relative_ge0 hk1.
have PW : (1 + uu) ^ n * (1 + relative k) <= 1 + relative (k + n).
  rewrite !relative1 //; last lra.
  apply: Rle_trans (_ : / (1 - INR n * uu) * / (1 - INR k * uu) <= _).
    by apply: Rmult_le_compat_r => //; apply/Rlt_le/Rinv_0_lt_compat; lra.
  by rewrite -Rinv_mult; apply: Rinv_le; rewrite ?kk; [lra|nra].
have P3 : (1 + uu) ^ n <= 2.
  by apply: Rle_trans P2 _; rewrite -[2]Rinv_inv; apply: Rinv_le; lra.
move: ((1 + uu) ^ n) (relative k) (relative (k + n)) P1 P3 PW R0 A1 A2 {P2} => P rk rn P1 P3 PW R0 A1 A2 e.
move: (over n (fun i => Rabs (r i))) A0 A1 A2 => A A0 A1 A2.
have -> : v2R (e_sum n t) - over n r = (v2R (e_sum n t) - over n (fun i => v2R (t i))) + (over n (fun i => v2R (t i)) - over n r) by ring.
apply: Rle_trans (Rabs_triang _ _) _; apply: Rle_trans (Rplus_le_compat _ _ _ _ e A1) _.
apply: Rle_trans (_ : (P - 1) * (A * (1 + rk) + INR n * h) + (A * rk + INR n * h) <= _).
  by apply: Rplus_le_compat_r; apply: Rmult_le_compat_l; lra.
have e1 : (P - 1) * (A * (1 + rk) + INR n * h) + (A * rk + INR n * h) = A * (P * (1 + rk) - 1) + P * (INR n * h) by ring.
rewrite e1; apply: Rplus_le_compat; first by apply: Rmult_le_compat_l => //; lra.
by rewrite Rmult_assoc; apply: Rmult_le_compat_r => //; nra.
Qed.

(** ** Products *)
Lemma mul_ex x y : is_finite x = true -> is_finite y = true -> small (v2R x * v2R y) -> is_finite (dmul x y) = true /\
  exists e eta, [/\ v2R (dmul x y) = v2R x * v2R y * (1 + e) + eta, Rabs e <= uu & Rabs eta <= ee].
Proof.
move=> fx fy h; have [f v] := mulS fx fy h; split=> //.
have [e [eta [h1 [h2 [_ h3]]]]] := @error_N_FLT radix2 (-1074) 53 ltac:(lia) (fun z => negb (Z.even z)) (v2R x * v2R y).
by exists e, eta; split=> //; rewrite v -h3.
Qed.
Lemma sub_ex x y : is_finite x = true -> is_finite y = true -> small (v2R x - v2R y) -> is_finite (dsub x y) = true /\
  exists2 e, v2R (dsub x y) = (v2R x - v2R y) * (1 + e) & Rabs e <= uu.
Proof.
move=> fx fy h; have [f v] := subS fx fy h; split=> //.
by have [e h1 h2] := minus_rel x y; exists e => //; rewrite v h1.
Qed.
Lemma div_one x : is_finite x = true -> small (v2R x) -> is_finite (ddiv x d1) = true /\ v2R (ddiv x d1) = v2R x.
Proof.
move=> fx h; have [||f v] := @divS x d1 fx.
- by rewrite v2R1; lra.
- by rewrite v2R1 /Rdiv Rinv_1 Rmult_1_r.
by split=> //; rewrite v v2R1 /Rdiv Rinv_1 Rmult_1_r rnd_id.
Qed.
Lemma ap_ratio k r v : approx k r v -> exists2 q, v = r * q & approx k 1 q.
Proof.
move=> h; have [a1 a2 a3] := h; case: (Rle_lt_or_eq_dec 0 r a1) => h0; first exact: ap_rel.
exists 1; last by apply: (@ap_weaken 0) => //; apply: ap_refl; lra.
by have := ap_ge0 h; have [p p1] := qq_pow k; rewrite -h0 in a3 *; nra.
Qed.
Lemma ee_le1 : ee <= / 1000000.
Proof. by have := ee_small; have := @IZR_le (2 ^ 20) (2 ^ 100) ltac:(lia); have := ee_u; have := uu_tiny; have := ee_gt0; lra. Qed.
Lemma two e : 2 * bpow radix2 e = bpow radix2 (e + 1).
Proof. by rewrite bpow_plus -[bpow radix2 1]/2; ring. Qed.
Lemma abs_mul a b c d : Rabs a <= c -> Rabs b <= d -> Rabs (a * b) <= c * d.
Proof. by move=> h1 h2; rewrite Rabs_mult; apply: Rmult_le_compat => //; exact: Rabs_pos. Qed.
Lemma abs_one e : Rabs e <= uu -> Rabs (1 + e) <= 2.
Proof. by move=> h; apply: Rle_trans (Rabs_triang _ _) _; rewrite Rabs_R1; have := uu_lt; lra. Qed.

Section Mean.
Variables (d : dmc) (x : nat -> nat -> double) (q : nat -> R) (k n : nat).
Hypotheses (hs : size (dm_w d) = n) (hn : few n) (hg : goods (dm_w d)) (hq : over n q = 1).
Hypotheses (hw : forall j, (j < n)%N -> approx k (q j) (v2R (nth d0 (dm_w d) j))) (hk : INR (k + n + 4) * uu <= / 2).
Let w j := nth d0 (dm_w d) j.
Let xr a j := v2R (x j a).
Lemma q_le j : (j < n)%N -> 0 <= q j <= 1.
Proof.
have h i : (i < n)%N -> 0 <= q i by move=> hi; have [] := hw hi.
by move=> hj; split; [exact: h|rewrite -hq; exact: over_le1].
Qed.
Lemma k_le : INR k * uu <= / 2.
Proof. by apply: (@INR_leq _ (k + n + 4)) => //; rewrite -addnA leq_addr. Qed.
Lemma w_le j : (j < n)%N -> good (w j) /\ v2R (w j) <= 2.
Proof.
move=> hj; have [a1 a2 a3] := hw hj; have [q0 q1] := q_le hj.
have g : good (w j) by apply: goods_nth => //; rewrite hs.
split=> //; have := qq_low k_le; case: g => _; rewrite -/(w j) in a3; nra.
Qed.
Lemma term_ok e a j : (0 <= e <= 900)%Z -> (j < n)%N -> sized e (x j a) ->
  [/\ is_finite (dmul (x j a) (w j)) = true, Rabs (v2R (dmul (x j a) (w j))) <= bpow radix2 950 &
      near_to (k + 1) ee (q j * xr a j) (v2R (dmul (x j a) (w j)))].
Proof.
move=> he hj [fx bx]; have [[fw w0] w2] := w_le hj.
have wa : Rabs (v2R (w j)) <= 2 by rewrite Rabs_pos_eq.
have bb : bpow radix2 e <= bpow radix2 900 by apply: bpow_le; lia.
have b1 : Rabs (v2R (x j a) * v2R (w j)) <= bpow radix2 901.
  have := abs_mul bx wa; rewrite Rmult_comm -[901%Z]/(900 + 1)%Z -two; lra.
have [|f [e1 [eta [v h1 h2]]]] := @mul_ex (x j a) (w j) fx fw; first exact: le_small b1.
have [r rv rh] := ap_ratio (hw hj); rewrite -/(w j) in rv.
split=> //.
  rewrite v; apply: Rle_trans (Rabs_triang _ _) _.
  have c1 := abs_mul b1 (abs_one h1); have := ee_le1; have : bpow radix2 902 <= bpow radix2 949 by apply: bpow_le; lia.
  rewrite -[950%Z]/(949 + 1)%Z -two; have -> : bpow radix2 902 = 2 * bpow radix2 901 by rewrite two.
  have : 1 <= bpow radix2 949 by rewrite -[1]/(bpow radix2 0); apply: bpow_le; lia.
  lra.
exists (r * (1 + e1)), eta; split=> //.
  by rewrite v rv /xr; ring.
by apply: ap1_mul => //; exact: one_ap.
Qed.
Lemma over_abs f : Rabs (over n f) <= over n (fun i => Rabs (f i)).
Proof.
rewrite /over; elim: (iota 0 n) => [|i m IHm] /=; first by rewrite Rabs_R0; lra.
by apply: Rle_trans (Rabs_triang _ _) _; lra.
Qed.
Lemma size_ge0 (y : nat -> R) : 0 <= size_of n q y.
Proof.
apply: Rle_trans (_ : over n (fun _ => 0) <= _); first by rewrite over_const; lra.
by apply: over_le => i hi; apply: Rmult_le_pos; [case: (q_le hi)|exact: Rabs_pos].
Qed.
Lemma size_le (y : nat -> R) b : (forall j, (j < n)%N -> Rabs (y j) <= b) -> size_of n q y <= b.
Proof.
move=> h; apply: Rle_trans (_ : over n (fun j => b * q j) <= _); last by rewrite over_scale hq; lra.
by apply: over_le => i hi; rewrite Rmult_comm; apply: Rmult_le_compat_r; [case: (q_le hi)|exact: h].
Qed.
Lemma mean_le (y : nat -> R) : Rabs (mean n q y) <= size_of n q y.
Proof.
apply: Rle_trans (over_abs _) _; apply: over_le => i hi.
by rewrite Rabs_mult [Rabs (q i)]Rabs_pos_eq; [lra|case: (q_le hi)].
Qed.
Lemma rel_le1 m : INR m * uu <= / 2 -> 0 <= relative m <= 1.
Proof.
move=> h; split; first by apply: relative_ge0; lra.
have : 1 + relative m <= 2; last lra.
by rewrite relative1; [rewrite -[2]Rinv_inv; apply: Rinv_le; lra|lra].
Qed.
Lemma tol_ok e (y : nat -> R) : (0 <= e)%Z -> (forall j, (j < n)%N -> Rabs (y j) <= bpow radix2 e) ->
  0 <= mean_tol n k q y <= 2 * bpow radix2 e.
Proof.
move=> he h; have s0 := size_ge0 y; have s1 := size_le h.
have [|r0 r1] := @rel_le1 (k + n + 1); first by apply: (@INR_leq _ (k + n + 4)) => //; rewrite leq_add2l.
have : 1 <= bpow radix2 e by rewrite -[1]/(bpow radix2 0); exact: bpow_le.
have [n1 _] := fewP hn; have n0 := pos_INR n.
have : 0 <= INR n * bpow radix2 (-1074) <= 1.
  rewrite ee_sub; have := ee_gt0; have := ee_u; have := uu_tiny; split; first nra.
  have : INR n * ee <= 4194304 * ee by apply: Rmult_le_compat_r; lra.
  lra.
rewrite /mean_tol; move: (bpow radix2 e) (bpow radix2 (-1074)) s1 => b z s1 hz hb.
have := Rmult_le_compat _ _ _ _ s0 r0 s1 r1; have := Rmult_le_pos _ _ s0 r0.
by lra.
Qed.
Lemma mean_ok e a : (0 <= e <= 900)%Z -> (forall j, (j < n)%N -> sized e (x j a)) ->
  sized (e + 2) (e_mean d x a) /\ Rabs (v2R (e_mean d x a) - mean n q (xr a)) <= mean_tol n k q (xr a).
Proof.
move=> he hx; rewrite /e_mean hs.
have hk1 : INR (k + 1 + n) * uu <= / 2 by apply: (@INR_leq _ (k + n + 4)) => //; rewrite addnAC leq_add2l.
have h0 := ee_gt0.
have [|||f fs h] := @sum_near n (fun i => dmul (x i a) (w i)) (fun i => q i * xr a i) (k + 1) ee (bpow radix2 950) hn hk1.
- lra.
- by split; [exact: bpow_ge_0|lra].
- by move=> i hi; exact: (term_ok he hi (hx i hi)).
have t1 : Rabs (v2R (e_sum n (fun i => dmul (x i a) (w i))) - mean n q (xr a)) <= mean_tol n k q (xr a).
  apply: Rle_trans h _; rewrite /mean_tol ee_sub addnAC.
  rewrite (@over_ext n (fun i => Rabs (q i * xr a i)) (fun i => q i * Rabs (xr a i))) -/(size_of n q (xr a)); first lra.
  by move=> i hi; rewrite Rabs_mult [Rabs (q i)]Rabs_pos_eq //; case: (q_le hi).
have hb j : (j < n)%N -> Rabs (xr a j) <= bpow radix2 e by move=> hj; case: (hx j hj).
have [l0 l1] := tol_ok (proj1 he) hb; have m1 := mean_le (xr a); have s1 := size_le hb.
have b1 : Rabs (v2R (e_sum n (fun i => dmul (x i a) (w i)))) <= bpow radix2 (e + 2).
  have -> : (e + 2 = e + 1 + 1)%Z by ring.
  rewrite -!two; have := Rabs_triang (v2R (e_sum n (fun i => dmul (x i a) (w i))) - mean n q (xr a)) (mean n q (xr a)).
  have := bpow_ge_0 radix2 e.
  by move: (v2R _) t1 => v t1 hb0; have -> : v - mean n q (xr a) + mean n q (xr a) = v by [ring]; lra.
have [f2 v2] := div_one f fs.
by rewrite /sized v2; split.
Qed.

(** ** Covariance *)
Lemma covar_shift (y z : nat -> R) my mz : over n (fun j => q j * ((y j - my) * (z j - mz))) =
  covar n q y z + (mean n q y - my) * (mean n q z - mz).
Proof.
set Y := mean n q y; set Z := mean n q z.
have oY : over n (fun j => q j * (y j - Y)) = 0.
  rewrite (@over_ext n _ (fun j => q j * y j + - Y * q j)) ?over_add ?over_scale; last by move=> i _; ring.
  by rewrite hq -/(mean n q y) -/Y; ring.
have oZ : over n (fun j => q j * (z j - Z)) = 0.
  rewrite (@over_ext n _ (fun j => q j * z j + - Z * q j)) ?over_add ?over_scale; last by move=> i _; ring.
  by rewrite hq -/(mean n q z) -/Z; ring.
rewrite (@over_ext n _ (fun j => q j * ((y j - Y) * (z j - Z)) + ((Z - mz) * (q j * (y j - Y)) + ((Y - my) * (q j * (z j - Z)) + (Y - my) * (Z - mz) * q j)))); last by move=> i _; ring.
by rewrite !over_add !over_scale oY oZ hq -/(covar n q y z); ring.
Qed.
Lemma over_ge0 f : (forall i, (i < n)%N -> 0 <= f i) -> 0 <= over n f.
Proof. by move=> h; apply: Rle_trans (_ : over n (fun _ => 0) <= _); [rewrite over_const; lra|exact: over_le]. Qed.
Lemma cauchy (y z : nat -> R) : over n (fun j => q j * (Rabs (y j) * Rabs (z j))) <=
  sqrt (over n (fun j => q j * (y j * y j))) * sqrt (over n (fun j => q j * (z j * z j))).
Proof.
set A := over n (fun j => q j * (y j * y j)); set B := over n (fun j => q j * (z j * z j)); set C := over n _.
have hA : 0 <= A by apply: over_ge0 => i hi; apply: Rmult_le_pos; [case: (q_le hi)|exact: Rle_0_sqr].
have hB : 0 <= B by apply: over_ge0 => i hi; apply: Rmult_le_pos; [case: (q_le hi)|exact: Rle_0_sqr].
have hC : 0 <= C by apply: over_ge0 => i hi; apply: Rmult_le_pos; [case: (q_le hi)|apply: Rmult_le_pos; exact: Rabs_pos].
have key s t : 0 <= s ^ 2 * A + (- (2 * s * t) * C + t ^ 2 * B).
  have -> : s ^ 2 * A + (- (2 * s * t) * C + t ^ 2 * B) = over n (fun j => q j * (s * Rabs (y j) - t * Rabs (z j)) ^ 2).
    rewrite -!over_scale -!over_add; apply: over_ext => i _.
    have e1 : y i * y i = Rabs (y i) * Rabs (y i) by rewrite -Rabs_mult Rabs_pos_eq //; exact: Rle_0_sqr.
    have e2 : z i * z i = Rabs (z i) * Rabs (z i) by rewrite -Rabs_mult Rabs_pos_eq //; exact: Rle_0_sqr.
    by rewrite e1 e2; ring.
  by apply: over_ge0 => i hi; apply: Rmult_le_pos; [case: (q_le hi)|rewrite -Rsqr_pow2; exact: Rle_0_sqr].
rewrite -sqrt_mult // -[C]sqrt_Rsqr //; apply: sqrt_le_1_alt; rewrite /Rsqr.
case: (Rle_lt_or_eq_dec 0 B hB) => h0.
  have := key B C; have -> : B ^ 2 * A + (- (2 * B * C) * C + C ^ 2 * B) = B * (A * B - C * C) by ring.
  by move=> h; apply: Rnot_lt_le => h1; have := Rmult_lt_0_compat _ _ h0 (Rgt_minus _ _ h1); rewrite /Rgt; nra.
case: (Rle_lt_or_eq_dec 0 C hC) => h1; last by rewrite -h1; nra.
have := key 1 ((A + 1) / (2 * C)); rewrite -h0.
have -> : 1 ^ 2 * A + (- (2 * 1 * ((A + 1) / (2 * C))) * C + ((A + 1) / (2 * C)) ^ 2 * 0) = - 1 by field; lra.
lra.
Qed.
Variables (a b : nat).
Hypotheses (ha : forall j, (j < n)%N -> sized 400 (x j a)) (hb : forall j, (j < n)%N -> sized 400 (x j b)).
Let ma := e_mean d x a.
Let mb := e_mean d x b.
Let term j := dmul (dsub (x j a) ma) (dmul (dsub (x j b) mb) (w j)).
Lemma diff_ok c m j : (j < n)%N -> sized 400 (x j c) -> sized 402 m -> is_finite (dsub (x j c) m) = true /\
  exists e, [/\ v2R (dsub (x j c) m) = (xr c j - v2R m) * (1 + e), Rabs e <= uu & Rabs (v2R (dsub (x j c) m)) <= bpow radix2 404].
Proof.
move=> hj [fx bx] [fm bm].
have b1 : Rabs (v2R (x j c) - v2R m) <= bpow radix2 403.
  apply: Rle_trans (Rabs_triang _ _) _; rewrite Rabs_Ropp -[403%Z]/(402 + 1)%Z -two.
  by have : bpow radix2 400 <= bpow radix2 402; [apply: bpow_le; lia|lra].
have [|f [e v he]] := @sub_ex (x j c) m fx fm; first exact: le_small b1.
split=> //; exists e; split=> //; rewrite v -[404%Z]/(403 + 1)%Z -two.
by have := abs_mul b1 (abs_one he); rewrite [_ * 2]Rmult_comm.
Qed.
Lemma cterm_ok j : (j < n)%N -> [/\ is_finite (term j) = true, Rabs (v2R (term j)) <= bpow radix2 950 &
  near_to (k + 4) (bpow radix2 (-660)) (q j * ((xr a j - v2R ma) * (xr b j - v2R mb))) (v2R (term j))].
Proof.
move=> hj; have hr : (0 <= 400 <= 900)%Z by [].
have [sa _] := mean_ok hr ha; have [sb _] := mean_ok hr hb.
have [f1 [e1 [v1 h1 b1]]] := diff_ok hj (ha hj) sa; have [f2 [e2 [v2 h2 b2]]] := diff_ok hj (hb hj) sb.
rewrite -/ma in f1 v1 b1; rewrite -/mb in f2 v2 b2.
have [[fw w0] w2] := w_le hj; have wa : Rabs (v2R (w j)) <= 2 by rewrite Rabs_pos_eq.
have B0 e : 0 <= bpow radix2 e by exact: bpow_ge_0.
have one e : (0 <= e)%Z -> 1 <= bpow radix2 e by move=> he; rewrite -[1]/(bpow radix2 0); exact: bpow_le.
have e0 := ee_gt0; have el := ee_le1.
have b3 : Rabs (v2R (dsub (x j b) mb) * v2R (w j)) <= bpow radix2 405.
  by have := abs_mul b2 wa; rewrite Rmult_comm -[405%Z]/(404 + 1)%Z -two; lra.
have [|f4 [e4 [t4 [v4 h4 g4]]]] := @mul_ex (dsub (x j b) mb) (w j) f2 fw; first exact: le_small b3.
have b4 : Rabs (v2R (dmul (dsub (x j b) mb) (w j))) <= bpow radix2 407.
  rewrite v4; apply: Rle_trans (Rabs_triang _ _) _; have c := abs_mul b3 (abs_one h4).
  rewrite -[407%Z]/(405 + 1 + 1)%Z -!two; have := one 405%Z ltac:(lia); lra.
have b5 := abs_mul b1 b4; rewrite -bpow_plus in b5.
have [|f6 [e6 [t6 [v6 h6 g6]]]] := @mul_ex (dsub (x j a) ma) (dmul (dsub (x j b) mb) (w j)) f1 f4; first exact: le_small b5.
have [r rv rh] := ap_ratio (hw hj); rewrite -/(w j) in rv.
split; first exact: f6.
  rewrite /term v6; apply: Rle_trans (Rabs_triang _ _) _; have c := abs_mul b5 (abs_one h6).
  have := one 949%Z ltac:(lia); have : bpow radix2 (404 + 407 + 1) <= bpow radix2 949 by apply: bpow_le; lia.
  by rewrite -[950%Z]/(949 + 1)%Z -!two; lra.
exists (r * (1 + e1) * (1 + e2) * (1 + e4) * (1 + e6)), (v2R (dsub (x j a) ma) * t4 * (1 + e6) + t6); split.
- by rewrite /term v6 v4 v1 v2 rv; ring.
- have -> : (k + 4 = k + 1 + 1 + 1 + 1)%N by rewrite -!addnA.
  by do 4! (apply: ap1_mul; last exact: one_ap); exact: rh.
apply: Rle_trans (Rabs_triang _ _) _.
have c1 := abs_mul (abs_mul b1 g4) (abs_one h6).
have c2 : bpow radix2 404 * ee = / 2 * bpow radix2 (-670).
  by rewrite -[(-670)%Z]/(404 + -1074)%Z bpow_plus /ee; ring.
rewrite c2 in c1.
have c3 : bpow radix2 (-670 + 1) <= bpow radix2 (-660) by apply: bpow_le; lia.
have c4 : ee <= / 2 * bpow radix2 (-670).
  by rewrite /ee; apply: Rmult_le_compat_l; [lra|apply: bpow_le; lia].
rewrite -two in c3; have := B0 (-670)%Z; lra.
Qed.
Lemma diffsum_ok : is_finite (e_diffsum d x a b) = true /\
  Rabs (v2R (e_diffsum d x a b) - covar n q (xr a) (xr b)) <=
    spread n k q (xr a) * spread n k q (xr b) * relative (k + n + 4) + mean_tol n k q (xr a) * mean_tol n k q (xr b) + INR n * bpow radix2 (-659).
Proof.
have hr : (0 <= 400 <= 900)%Z by []; have hr0 : (0 <= 400)%Z by [].
have [sa da] := mean_ok hr ha; have [sb db] := mean_ok hr hb.
have hk1 : INR (k + 4 + n) * uu <= / 2 by rewrite addnAC.
have p0 := bpow_ge_0 radix2 (-660).
have [|||f fs h] := @sum_near n term (fun j => q j * ((xr a j - v2R ma) * (xr b j - v2R mb))) (k + 4) (bpow radix2 (-660)) (bpow radix2 950) hn hk1.
- exact: p0.
- by split; [exact: bpow_ge_0|lra].
- by move=> i hi; exact: cterm_ok.
rewrite covar_shift in h; rewrite -/ma in da sa; rewrite -/mb in db sb.
set T := over n _ in h.
have hT : T <= spread n k q (xr a) * spread n k q (xr b).
  apply: Rle_trans (_ : over n (fun j => q j * (Rabs (xr a j - v2R ma) * Rabs (xr b j - v2R mb))) <= _).
    apply: over_le => i hi; rewrite !Rabs_mult [Rabs (q i)]Rabs_pos_eq; last by case: (q_le hi).
    lra.
  apply: Rle_trans (cauchy _ _) _.
  have sq (y : nat -> R) m : Rabs (v2R m - mean n q y) <= mean_tol n k q y ->
      sqrt (over n (fun j => q j * ((y j - v2R m) * (y j - v2R m)))) <= spread n k q y.
    move=> hm; apply: sqrt_le_1_alt; rewrite covar_shift; apply: Rplus_le_compat_l.
    by have := Rabs_le_inv _ _ hm; nra.
  by apply: Rmult_le_compat; [exact: sqrt_pos|exact: sqrt_pos|exact: sq da|exact: sq db].
have hd : Rabs ((mean n q (xr a) - v2R ma) * (mean n q (xr b) - v2R mb)) <= mean_tol n k q (xr a) * mean_tol n k q (xr b).
  by apply: abs_mul; rewrite Rabs_minus_sym.
have [r0 r1] := rel_le1 hk1.
have hfin : Rabs (v2R (e_sum n term) - covar n q (xr a) (xr b)) <=
    spread n k q (xr a) * spread n k q (xr b) * relative (k + n + 4) + mean_tol n k q (xr a) * mean_tol n k q (xr b) + INR n * bpow radix2 (-659).
  have -> : v2R (e_sum n term) - covar n q (xr a) (xr b) = (v2R (e_sum n term) - (covar n q (xr a) (xr b) + (mean n q (xr a) - v2R ma) * (mean n q (xr b) - v2R mb))) + (mean n q (xr a) - v2R ma) * (mean n q (xr b) - v2R mb) by ring.
  apply: Rle_trans (Rabs_triang _ _) _; apply: Rle_trans (Rplus_le_compat _ _ _ _ h hd) _.
  have -> : bpow radix2 (-659) = 2 * bpow radix2 (-660) by rewrite two.
  by rewrite -[(k + n + 4)%N]addnAC; have := Rmult_le_compat_r _ _ _ r0 hT; lra.
have e : e_diffsum d x a b = ddiv (e_sum n term) d1 by rewrite /e_diffsum hs.
by rewrite e; have [f2 v2] := div_one f fs; split=> //; rewrite v2.
Qed.
End Mean.

(** the elements of the diagonal are not negative *)
Lemma rnd_le0 r : r <= 0 -> rnd r <= 0.
Proof. by move=> h; rewrite -[0](round_0 radix2 (FLT_exp (-1074) 53) ZnearestE); exact: round_le. Qed.
Lemma rnd_sq D W : 0 <= W -> 0 <= D * rnd (D * W).
Proof.
move=> hW; case: (Rle_or_lt 0 D) => h; first by apply: Rmult_le_pos => //; apply: rnd_ge0; exact: Rmult_le_pos.
have : rnd (D * W) <= 0 by apply: rnd_le0; nra.
by move: (rnd _) => v hv; nra.
Qed.
Lemma diag_ge0 d x q k n a : size (dm_w d) = n -> few n -> goods (dm_w d) -> over n q = 1 ->
  (forall j, (j < n)%N -> approx k (q j) (v2R (nth d0 (dm_w d) j))) -> INR (k + n + 4) * uu <= / 2 ->
  (forall j, (j < n)%N -> sized 400 (x j a)) -> good (e_diffsum d x a a).
Proof.
move=> hs hn hg hq hw hk ha; have [f0 _] := diffsum_ok hs hn hg hq hw hk ha ha; split=> //.
have hr : (0 <= 400 <= 900)%Z by [].
have [sa _] := mean_ok hs hn hg hq hw hk hr ha.
set term := fun i => dmul (dsub (x i a) (e_mean d x a)) (dmul (dsub (x i a) (e_mean d x a)) (nth d0 (dm_w d) i)).
have e : e_diffsum d x a a = ddiv (e_sum n term) d1 by rewrite /e_diffsum hs.
have g i : (i < n)%N -> good (term i) /\ Rabs (v2R (term i)) <= bpow radix2 950.
  move=> hi; have [f1 [e1 [v1 h1 b1]]]   := diff_ok hs hi (ha i hi) sa; have [[fw w0] w2] := w_le hs hg hq hw hk hi.
  have [fc bc _] := cterm_ok hs hn hg hq hw hk ha ha hi.
  have wa : Rabs (v2R (nth d0 (dm_w d) i)) <= 2 by rewrite Rabs_pos_eq.
  have s1 := abs_mul b1 wa.
  have l1 : bpow radix2 404 * 2 = bpow radix2 405 by rewrite Rmult_comm two.
  rewrite l1 in s1; have [|f2 v2] := @mulS _ _ f1 fw; first exact: le_small s1.
  have b2 : Rabs (v2R (dmul (dsub (x i a) (e_mean d x a)) (nth d0 (dm_w d) i))) <= bpow radix2 405.
    by rewrite v2; apply: abs_round_le_generic => //; apply: generic_format_bpow; rewrite /FLT_exp; lia.
  have s2 := abs_mul b1 b2; rewrite -bpow_plus in s2.
  have [|f3 v3] := @mulS _ _ f1 f2; first exact: le_small s2.
  split; last exact: bc.
  by split; [exact: fc|rewrite /term v3 v2; apply: rnd_ge0; exact: rnd_sq].
have gl : goods [seq term i | i <- iota 0 n] by move=> y /List.in_map_iff [i [<- /In_iota hi]]; case: (g i hi).
have [n1 n2] := fewP hn.
have [|||||fe be _] := @sum_sig [seq term i | i <- iota 0 n] d0 0 (bpow radix2 950).
- by move=> y /List.in_map_iff [i [<- /In_iota hi]]; have [[h1 _] h2] := g i hi.
- by case: good0.
- by rewrite v2R0 Rabs_R0 /=; lra.
- by split; [exact: bpow_ge_0|lra].
- by rewrite add0n size_map size_iota.
have [[_ s0] _ _] := fold_err good0 gl fe; rewrite -/(e_sum n term) in fe s0 be.
have sm : small (v2R (e_sum n term)).
  apply: Rle_trans be _; rewrite add0n size_map size_iota; apply: Rle_trans (_ : bpow radix2 23 * bpow radix2 950 <= _); last by rewrite -bpow_plus; apply: bpow_le; lia.
  have -> : bpow radix2 23 = 8388608 by rewrite -IZR_Zpower.
  by apply: Rmult_le_compat_r; [exact: bpow_ge_0|lra].
by rewrite e; have [_ ->] := div_one fe sm.
Qed.
