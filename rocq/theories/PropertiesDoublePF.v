(** * C97-C99: the weights of the particle filter in double arithmetic *)
From Coq Require Import ZArith Reals Lra Lia.
From Flocq Require Import Core.Core BinarySingleNaN.
From mathcomp Require Import all_ssreflect.
From Verif Require Import Outcome ModelDouble SpecDouble ProofsDouble PropertiesDouble
  PropertiesDoubleBatch PropertiesDoubleRipley
  ModelDoubleHist SpecDoubleHist ProofsDoubleHist PropertiesDoubleHist ModelDoublePF SpecDoublePF ProofsDoublePF.
Set Implicit Arguments. Unset Strict Implicit. Unset Printing Implicit Defensive.
Local Open Scope R_scope.
Local Opaque d0 d1 dprec dlit dadd dsub dmul ddiv dle dlt bpow IZR.

(** multiplication is such a square *)
Lemma mul_squares : squares (fun x => dmul x x).
Proof.
move=> x gx h2; have [_ x0] := gx.
have hb : v2R x * v2R x <= bpow radix2 1000.
  apply: Rle_trans (_ : bpow radix2 2 <= _); last by apply: bpow_le; lia.
  by rewrite -IZR_Zpower // -[(radix2 ^ 2)%Z]/4%Z; nra.
have [g [e1 e2]] := mul_gen gx gx hb; split=> //.
have -> : v2R x ^ 2 = v2R x * v2R x by ring.
have sq0 : 0 <= v2R x * v2R x by nra.
have hu := uu_lt; have he := ee_gt0; rewrite uu52 ee_sub; apply: Rabs_le.
move: (v2R x * v2R x) sq0 e1 e2 => X X0 e1 e2; nra.
Qed.

(** ** C97: the effective sample size *)
Lemma small_k k n : few n -> (k <= 4 * n + 8)%N -> INR k * uu <= / 4.
Proof.
move=> hn h; have [h1 [_ h2]] := fewP hn; have hu := uu_tiny; have hu0 := uu_lt.
apply: Rle_trans (_ : INR (4 * n + 8) * uu <= _); first by apply: Rmult_le_compat_r; [lra|apply: le_INR; apply/leP].
by rewrite plus_INR mult_INR [INR 4]/= [INR 8]/=; lra.
Qed.
Lemma ess_pos n p : over n p = 1 -> (0 < n)%N -> 0 < ess n p.
Proof.
move=> h n0; rewrite ess1 //; apply: Rinv_0_lt_compat; have := sumsq_low h n0.
have : 1 <= INR n by have := le_INR 1 n (elimT leP n0).
by move: (INR n) (over _ _) => N Q; nra.
Qed.
(** The computed effective sample size is that of the weights given, up to [3n+6]
    roundings. *)
Theorem C97_neff sq d w (n := size w) (e := ess n (fun j => v2R (nth d0 w j))) : squares sq -> n = size (dm_w d) -> few n -> goods w ->
  0 < total w <= bpow radix2 1022 ->
  exists d', [/\ m_update d w = Ok (true, d'), good (p_neff sq (dm_w d')) &
    Rabs (v2R (p_neff sq (dm_w d')) - e) <= e * relative (3 * n + 6)].
Proof.
move=> hsq hs hn hg ht; have [t0 t1] := ht; rewrite /e /n -ess_exact // ess1; last exact: exact_sum.
have n0 : (0 < n)%N by rewrite /n; case: (w) t0 => //; rewrite /total /=; lra.
exists (DMC [seq ddiv x (d_sum w) | x <- w] (m_cum [seq ddiv x (d_sum w) | x <- w] d1)).
have u := mupdE hs hn hg ht; set ps := [seq ddiv x (d_sum w) | x <- w] in u *.
have sp : size ps = n by rewrite size_map.
have gp : goods ps by apply: goods_map => x hx; have [[]] := div_near hg hn (sum_fin hg hn t1) t0 hx.
have hl j : (j < n)%N -> loose (n + 1) (exact w j) (v2R (nth d0 ps j)).
  by move=> hj; rewrite (nth_map d0) //; exact: norm_loose.
have ek : (2 * (n + 1) + n + 4 = 3 * n + 6)%N by rewrite -!plusE -!multE; lia.
have hk4 : INR (3 * n + 6) * uu <= / 4 by apply: (small_k hn); apply/leP; rewrite -!plusE -!multE; lia.
have hK : INR (2 * (n + 1) + n + 4) * uu <= / 2 by rewrite ek; lra.
have [g a] := neff_ok hsq hn n0 sp gp (exact_sum t0) hl hK; rewrite ek in a.
have hk1 : INR (3 * n + 6) * uu < 1 by lra.
by split=> //; rewrite -(relE hk1); exact: ap_err.
Qed.
(** Resampling is decided as by the exact effective sample size, unless that is as
    close to the threshold as the rounding errors. *)
Theorem C97_decision sq root T us d w (n := size w) (e := ess n (fun j => v2R (nth d0 w j))) : squares sq -> n = size (dm_w d) ->
  few n -> goods w -> 0 < total w <= bpow radix2 1022 -> good T ->
  exists d', [/\ m_update d w = Ok (true, d'),
    e * (1 + relative (3 * n + 6)) < v2R T ->
      p_dynamic sq root (Threshold T) us d' = (let! r := p_resample root us d' in Ok (Some r.1, r.2)) &
    v2R T <= e * (1 - relative (3 * n + 6)) -> p_dynamic sq root (Threshold T) us d' = Ok (None, d')].
Proof.
move=> hsq hs hn hg ht [fT T0]; have [d' [h1 [f _] /Rabs_le_inv h3]] := C97_neff hsq hs hn hg ht.
exists d'; split=> //; rewrite /p_dynamic => h.
  have -> // : dlt (p_neff sq (dm_w d')) T by apply/dltP => //; move: h3; rewrite -/n -/e; lra.
case: dltP => // h4; move: h3; rewrite -/n -/e; lra.
Qed.

(** ** C98: any number of updates *)
Definition pf_roundings (m n : nat) : nat := (2 * (m * (n + 2)) + n + 3)%N.
Lemma start n s (p := exact (dm_w (pf_d s))) : size (dm_w (pf_d s)) = n -> goods (dm_w (pf_d s)) ->
  Rabs (total (dm_w (pf_d s)) - 1) <= / 4 -> (0 < n)%N /\ inv n 1 p (pf_d s).
Proof.
set w := dm_w _ in p *; move=> hs hg /Rabs_le_inv ht; split; first by rewrite -hs; case: (w) ht => //; rewrite /total /=; lra.
split=> //; first by rewrite -hs; apply: exact_sum; lra.
exists (total w); split; first lra.
move=> j hj; rewrite /p /exact; have -> : total w * (v2R (nth d0 w j) / total w) = v2R (nth d0 w j) by field; lra.
by apply: (@ap_weaken 0) => //; apply: ap_refl; have [] := goods_nth hg ((eq_ind_r (fun m => (j < m)%N) hj hs)).
Qed.
Lemma bits51 k : (Z.of_nat k <= 2 ^ 51)%Z -> INR k * uu <= / 4.
Proof.
move=> h; have h2 : INR k <= IZR (2 ^ 51) by rewrite INR_IZR_INZ; apply: IZR_le.
by rewrite -uu51; apply: Rmult_le_compat_r => //; have := uu_lt; lra.
Qed.
Section C98.
Variables (sq : double -> double) (root : double -> nat -> double) (sc : scheme) (s : dpf).
Let n := size (dm_w (pf_d s)).
Let p := exact (dm_w (pf_d s)).
(** After any updates, resampling or not, every weight is the exact one (the product of
    the likelihoods since the last resampling, normalised) up to [pf_roundings]; so is
    the table the next resampling will use. *)
Theorem C98_run fs os s' (m := size fs) : few n -> goods (dm_w (pf_d s)) -> Rabs (total (dm_w (pf_d s)) - 1) <= / 4 -> fs <> [::] ->
  pf_tames n p fs os -> (Z.of_nat (pf_roundings m n) <= 2 ^ 51)%Z -> p_run sq root sc s fs = Ok (os, s') ->
  let q := pf_path n p fs os in let r := relative (pf_roundings m n) in
  [/\ [seq o.1 | o <- os] = nseq m true, size (dm_w (pf_d s')) = n,
   (forall j, (j < n)%N -> good (nth d0 (dm_w (pf_d s')) j) /\ Rabs (v2R (nth d0 (dm_w (pf_d s')) j) - q j) <= q j * r) &
   (forall k, (k <= n)%N -> Rabs (v2R (nth d0 (dm_c (pf_d s')) k) - over k q) <= tol n + r)].
Proof.
move=> hn hg ht hne hT hZ hr q r; have hK := bits51 hZ; have [n0 hI] := start erefl hg ht; rewrite -/n -/p in n0 hI.
have hK2 : INR (1 + size fs * (n + 2) + n) * uu <= / 2.
  apply: (@INR_leq _ (pf_roundings m n)); last lra.
  by rewrite /pf_roundings -/m; move: (m * _)%N => X; apply/leP; rewrite -!plusE -!multE; lia.
have [h1 _ h2] := run_tidy (k := 1) n0 isT hn hK2 hI hT hr; have ht' := h2 hne; rewrite -/m -/q in ht'.
have [[z1 g1 o1 _] _ [ex [f1 e1 x1]]] := ht'.
have r0 : 0 <= r.
  rewrite /r -relE; last lra.
  have : 0 <= INR (pf_roundings m n) * uu by apply: Rmult_le_pos; [exact: pos_INR|have := uu_lt; lra].
  by move=> h; apply: Rmult_le_pos => //; apply/Rlt_le/Rinv_0_lt_compat; lra.
have q0 j : (j < n)%N -> 0 <= q j by move=> hj; case: (tidy_rel ht' hj).
split=> //.
- move=> j hj; split; first by apply: goods_nth => //; rewrite z1.
  rewrite /r -relE; last lra.
  apply: ap_err; first lra.
  have := tidy_rel ht' hj; apply: ap_weaken.
  by rewrite /pf_roundings; move: (m * _)%N => X; apply/leP; rewrite -!plusE -!multE; lia.
- move=> k hk; have [e2 e3 e4 e5] := f1; have [_ h4] := e4 k hk.
  have oq : 0 <= over k q <= 1.
    split; first by have := @over_le k (fun _ => 0) q; rewrite over_const Rmult_0_r; apply=> i hi; apply: q0; exact: leq_trans hi hk.
    rewrite -o1 /over -(subnKC hk) iotaD map_cat.
    have rc l1 l2 : rsum (l1 ++ l2) = rsum l1 + rsum l2 by elim: l1 => [|x l1 IH] /=; [lra|rewrite IH; lra].
    rewrite rc; suff : 0 <= rsum [seq q i | i <- iota (0 + k) (n - k)] by lra.
    have : forall i, List.In i (iota (0 + k) (n - k)) -> 0 <= q i.
      move=> i /(In_nth_ex 0%N) [v hv <-]; rewrite size_iota in hv; rewrite nth_iota //; apply: q0.
      by rewrite add0n -ltn_subRL.
    elim: (iota _ _) => [|i l IH] hl /=; first lra.
    have := hl i (or_introl erefl); have := IH (fun j hj => hl j (or_intror hj)); lra.
  have h5 : Rabs (ex k - over k q) <= r.
    apply: Rle_trans (_ : over k q * r <= _); last by nra.
    rewrite /r -relE; last lra.
    apply: ap_err; first lra.
    have := x1 k hk; apply: ap_weaken.
    by rewrite /pf_roundings; move: (m * _)%N => X; apply/leP; rewrite -!plusE -!multE; lia.
  have -> : v2R (nth d0 (dm_c (pf_d s')) k) - over k q = (v2R (nth d0 (dm_c (pf_d s')) k) - ex k) + (ex k - over k q) by ring.
  by apply: Rle_trans (Rabs_triang _ _) _; lra.
Qed.
(** A measurement update after any updates: the decision to resample is that of the
    exact effective sample size of the exact weights, unless it is too close to the
    threshold. *)
Definition neff_roundings (m n : nat) : nat := (4 * (m * (n + 2)) + 3 * n + 10)%N.
Section Decision.
Variables (fs : seq pupd) (os : seq (bool * option (seq nat))) (s1 : dpf) (l : nat -> double) (us : nat -> double) (T : double).
Let m := size fs.
Let q := pf_next n (pf_path n p fs os) (PMeas l us) None.
Let e := ess n q.
Let r := relative (neff_roundings m.+1 n).
Hypotheses (hsq : squares sq) (hn : few n) (hg : goods (dm_w (pf_d s))) (ht : Rabs (total (dm_w (pf_d s)) - 1) <= / 4).
Hypotheses (hT : pf_tames n p fs os) (hT1 : pf_tame n (pf_path n p fs os) (PMeas l us)).
Hypothesis hZ : (Z.of_nat (neff_roundings m.+1 n) <= 2 ^ 51)%Z.
Hypothesis hr : p_run sq root (Threshold T) s fs = Ok (os, s1).
Hypothesis gT : good T.
Let K := (1 + m.+1 * (n + 2))%N.
Let n0 : (0 < n)%N. Proof. by have [] := start erefl hg ht. Qed.
Let hK := bits51 hZ.
Lemma decide (new := freshes (HLike l) (dm_w (pf_d s1))) : [/\
  mapO (fun k => let! q := at_ (dm_w (pf_d s1)) k in let! p := d_prob (l k) in d_weight (dmul q p)) (iota 0 (size (dm_w (pf_d s1)))) = Ok new &
  exists d', [/\ m_update (pf_d s1) new = Ok (true, d'), tidy n K q d', is_finite (p_neff sq (dm_w d')) = true &
    Rabs (v2R (p_neff sq (dm_w d')) - e) <= e * r]].
Proof.
have hK2 : INR (1 + size fs * (n + 2) + n) * uu <= / 2.
  apply: (@INR_leq _ (neff_roundings m.+1 n)); last lra.
  by rewrite /neff_roundings -/m (mulSn m); move: (m * _)%N => X; apply/leP; rewrite -!plusE -!multE; lia.
have [_ hI] := start erefl hg ht; rewrite -/n -/p in hI.
have [_ hI1 _] := run_tidy (k := 1) n0 isT hn hK2 hI hT hr.
have hK3 : INR (1 + size fs * (n + 2) + 2 * n + 1) * uu <= / 2.
  apply: (@INR_leq _ (neff_roundings m.+1 n)); last lra.
  by rewrite /neff_roundings -/m (mulSn m); move: (m * _)%N => X; apply/leP; rewrite -!plusE -!multE; lia.
have [u1 [d' [u2 u3]]] := meas_tidy hn hK3 hI1 (hT1 : tame_step n _ (HLike l)); split=> //.
have u4 : tidy n K q d'.
  have ek : (K = 1 + size fs * (n + 2) + (n + 2))%N by rewrite /K (mulSn m) -/m; move: (m * _)%N => X; rewrite -!plusE; lia.
  by rewrite ek.
have [[z1 g1 o1 _] _ _] := u4.
have hl j : (j < n)%N -> loose (2 * K + n + 1) (q j) (v2R (nth d0 (dm_w d') j)).
  by move=> hj; apply: ap_loose; exact: tidy_rel u4 hj.
have ek : (2 * (2 * K + n + 1) + n + 4 = neff_roundings m.+1 n)%N.
  by rewrite /neff_roundings /K; move: (m.+1 * _)%N => X; rewrite -!plusE -!multE; lia.
have hK4 : INR (2 * (2 * K + n + 1) + n + 4) * uu <= / 2 by rewrite ek; lra.
have [[f _] a] := neff_ok hsq hn n0 z1 g1 o1 hl hK4; rewrite ek in a.
have hk1 : INR (neff_roundings m.+1 n) * uu < 1 by lra.
exists d'; split=> //; rewrite /e /r ess1 // -(relE hk1); exact: ap_err.
Qed.
Theorem C98_decision b o s2 : p_step sq root (Threshold T) s1 (PMeas l us) = Ok ((b, o), s2) ->
  (o = None -> v2R T <= e * (1 + r)) /\ (o <> None -> e * (1 - r) < v2R T).
Proof.
have [u1 [d' [u2 _ f /Rabs_le_inv u4]]] := decide; have [fT _] := gT; rewrite /p_step u1 /= u2 /=.
case: dltP => // h; last by case=> _ <- _; split=> // _; lra.
by case: (p_resample _ _ _) => [x||] //= -[_ <- _]; split=> // _; lra.
Qed.
(** away from the threshold the update succeeds; the particles copied by a resampling
    lie where the exact cumulative weights put the ordered draws *)
Theorem C98_keep : v2R T <= e * (1 - r) -> exists s2, p_step sq root (Threshold T) s1 (PMeas l us) = Ok ((true, None), s2).
Proof.
have [u1 [d' [u2 _ f /Rabs_le_inv u4]]] := decide; have [fT _] := gT; rewrite /p_step u1 /= u2 /= => hT'.
case: dltP => // h; first lra.
by exists (DPF d' (pf_t s1)).
Qed.
Theorem C98_resample : e * (1 + r) < v2R T -> roots root -> below1 root -> (forall i, draw32 (us i)) ->
  (Z.of_nat n * (2 * Z.of_nat n + 10) <= 2 ^ 21)%Z ->
  let t := tol n + 2 * INR n * / IZR (2 ^ 53) + r in
  exists ls s2, [/\ p_step sq root (Threshold T) s1 (PMeas l us) = Ok ((true, Some ls), s2), sorted leq ls &
    List.Forall2 (fun x j => (j < n)%N /\ over j q - t < x <= over j.+1 q + t) (ordered root [seq us i | i <- iota 0 n] 0) ls].
Proof.
move=> he hr1 hb hd hZ' t; have [u1 [d' [u2 u3 f /Rabs_le_inv u4]]] := decide; have [fT _] := gT; rewrite /p_step u1 /= u2 /=.
have -> : dlt (p_neff sq (dm_w d')) T by apply/dltP => //; lra.
have [[z1 g1 o1 [sc' [hsc hap]]] _ [ex [f1 e1 x1]]] := u3.
have ne : [seq us i | i <- iota 0 n] <> [::] by have := n0; case: (n).
have sz : size [seq us i | i <- iota 0 n] = n by rewrite size_map size_iota.
have hn' : few (size [seq us i | i <- iota 0 n]) by rewrite sz.
have hd' u : List.In u [seq us i | i <- iota 0 n] -> draw32 u by case/List.in_map_iff => i [<- _].
have hz' : (Z.of_nat (size [seq us i | i <- iota 0 n]) * (2 * Z.of_nat n + 10) <= 2 ^ 21)%Z by rewrite sz.
have [ls [k1 k2 k3]] := C83_particles32 z1 f1 e1 ne hn' hr1 hb hd' hz'; rewrite sz in k3.
have hls : size ls = n by rewrite (samples_size k1) sz.
have [d2 [m1 _]] := set_tidy n0 hn.
exists ls, (DPF d2 (pf_t s1)); split=> //; first by rewrite /p_resample z1 k1 /= hls eqxx m1.
have q0 j : (j < n)%N -> 0 <= q j.
  by move=> hj; case: (tidy_rel u3 hj).
have close k : (k <= n)%N -> Rabs (ex k - over k q) <= r.
  move=> hk; have oq : over k q <= 1.
    rewrite -o1 /over -(subnKC hk) iotaD map_cat.
    have rc l1 l2 : rsum (l1 ++ l2) = rsum l1 + rsum l2 by elim: l1 => [|x l1 IH] /=; [lra|rewrite IH; lra].
    rewrite rc; suff : 0 <= rsum [seq q i | i <- iota (0 + k) (n - k)] by lra.
    have : forall i, List.In i (iota (0 + k) (n - k)) -> 0 <= q i.
      move=> i /(In_nth_ex 0%N) [v hv <-]; rewrite size_iota in hv; rewrite nth_iota //; apply: q0.
      by rewrite add0n -ltn_subRL.
    elim: (iota _ _) => [|i l' IH] hl /=; first lra.
    have := hl i (or_introl erefl); have := IH (fun j hj => hl j (or_intror hj)); lra.
  have hk1 : INR (neff_roundings m.+1 n) * uu < 1 by lra.
  have r0 : 0 <= r.
    rewrite /r -(relE hk1); have : 0 <= INR (neff_roundings m.+1 n) * uu by apply: Rmult_le_pos; [exact: pos_INR|have := uu_lt; lra].
    by move=> h; apply: Rmult_le_pos => //; apply/Rlt_le/Rinv_0_lt_compat; lra.
  apply: Rle_trans (_ : over k q * r <= _); last by nra.
  rewrite /r -(relE hk1); apply: ap_err => //.
  have := x1 k hk; apply: ap_weaken.
  by rewrite /neff_roundings /K; move: (m.+1 * _)%N => X; apply/leP; rewrite -!plusE -!multE; lia.
elim: k3 => [|x j xs js [hj hx] _ IH]; constructor=> //; split=> //.
have /Rabs_le_inv c1 := close j (ltnW hj); have /Rabs_le_inv c2 := close j.+1 hj.
rewrite /t; move: hx; lra.
Qed.
End Decision.
End C98.

(** ** C99: likelihoods that underflow *)
Lemma zero_upd d w : size w = size (dm_w d) -> (0 < size w)%N -> goods w -> total w = 0 -> m_update d w = Ok (false, DMC w (dm_c d)).
Proof.
move=> hs n0 hg ht; rewrite /m_update -lt0n n0 hs eqxx [guard _]/= [obind (Ok _) _]/= /m_normalize.
suff -> : dlt d0 (d_sum w) = false by [].
have hz : (v2R d0 + total w) * (1 + uu) ^ size w = 0 by rewrite v2R0 ht; ring.
have f : is_finite (d_sum w) = true.
  by apply: fold_fin => //; [exact: good0|rewrite hz; exact: bpow_ge_0].
have [[_ s0] _ [_ s1]] := fold_err good0 hg f.
by rewrite hz -/(d_sum w) in s1; apply/dltP => //; rewrite v2R0; lra.
Qed.
Lemma total_zero w : (forall j, (j < size w)%N -> v2R (nth d0 w j) = 0) -> total w = 0.
Proof. by move=> h; rewrite total_nth_over (over_ext h) over_const; ring. Qed.
Section C99.
Variables (sq : double -> double) (root : double -> nat -> double).
Lemma zero_meas sc s l (n := size (dm_w (pf_d s))) : (0 < n)%N -> (forall j, (j < n)%N -> good (l j)) ->
  (forall j, (j < n)%N -> good (dmul (nth d0 (dm_w (pf_d s)) j) (l j)) /\ v2R (dmul (nth d0 (dm_w (pf_d s)) j) (l j)) = 0) ->
  exists d', [/\ forall us, p_step sq root sc s (PMeas l us) = Ok ((false, None), DPF d' (pf_t s)), gone n d' & dm_c d' = dm_c (pf_d s)].
Proof.
move=> n0 hl hz; set new := freshes (HLike l) (dm_w (pf_d s)).
have snew : size new = n by rewrite size_map size_iota.
have nE j : (j < n)%N -> nth d0 new j = dmul (nth d0 (dm_w (pf_d s)) j) (l j).
  by move=> hj; rewrite (nth_map 0%N) ?size_iota // nth_iota.
have gnew : goods new by move=> x /(In_nth_ex d0) [j hj <-]; rewrite snew in hj; rewrite nE //; case: (hz j hj).
have t0 : total new = 0 by apply: total_zero => j; rewrite snew => hj; rewrite nE //; case: (hz j hj).
exists (DMC new (dm_c (pf_d s))); split=> //; last by split=> // j hj; rewrite /= nE //; exact: hz.
move=> us; rewrite /p_step (@mapO_ok _ _ _ (fresh (HLike l) (dm_w (pf_d s)))) => [|j /In_iota hj]; last first.
  rewrite (at_nth d0 hj) [obind (Ok _) _]/= prob_ok; last exact: hl.
  by rewrite [obind (Ok _) _]/=; apply: weight_ok; case: (hz j hj).
by rewrite -/(freshes (HLike l) (dm_w (pf_d s))) -/new [obind (Ok _) _]/= zero_upd // snew.
Qed.
(** Positive likelihoods below half the smallest positive double: Update returns false,
    all weights are 0, the table still holds the weights of before. *)
Theorem C99_underflow sc s l (n := size (dm_w (pf_d s))) : (0 < n)%N -> goods (dm_w (pf_d s)) ->
  (forall j, (j < n)%N -> v2R (nth d0 (dm_w (pf_d s)) j) < / 2) ->
  (forall j, (j < n)%N -> good (l j) /\ v2R (l j) <= bpow radix2 (-1074)) ->
  exists d', [/\ forall us, p_step sq root sc s (PMeas l us) = Ok ((false, None), DPF d' (pf_t s)), gone n d' & dm_c d' = dm_c (pf_d s)].
Proof.
move=> n0 hg h2 hl; apply: zero_meas => // j hj; first by case: (hl j hj).
have [gl bl] := hl j hj; have gv : good (nth d0 (dm_w (pf_d s)) j) by exact: goods_nth.
have bl' : v2R (l j) <= bpow radix2 900 by apply: Rle_trans bl _; apply: bpow_le; lia.
have hj2 := h2 j hj; have v2 : v2R (nth d0 (dm_w (pf_d s)) j) <= 2 by lra.
have [p1 p2 p3 _ _] := prod_mod gv gl v2 bl'; split=> //; rewrite p3; apply: rnd_under.
case: gv => _ v0; case: gl => _ l0; split; first exact: Rmult_le_pos.
have -> : bpow radix2 (-1075) = / 2 * bpow radix2 (-1074).
  by rewrite -[(-1074)%Z]/(-1075 + 1)%Z bpow_S; lra.
have b0 := bpow_gt_0 radix2 (-1074).
apply: Rle_lt_trans (_ : v2R (nth d0 (dm_w (pf_d s)) j) * bpow radix2 (-1074) < _); first by apply: Rmult_le_compat_l.
by apply: Rmult_lt_compat_r.
Qed.
Lemma gone_step sc s n f : (0 < n)%N -> gone n (pf_d s) -> mild n f ->
  (forall us, f = PSys us -> p_static root sc us (pf_t s) (pf_d s) = Ok (None, pf_d s)) ->
  exists s', [/\ p_step sq root sc s f = Ok ((false, None), s'), gone n (pf_d s') & dm_c (pf_d s') = dm_c (pf_d s)].
Proof.
move=> n0 [hs hz]; have hg : goods (dm_w (pf_d s)).
  by move=> x /(In_nth_ex d0) [j hj <-]; rewrite hs in hj; case: (hz j hj).
case: f => [us|l us] hm hst.
  exists (DPF (DMC (dm_w (pf_d s)) (dm_c (pf_d s))) (pf_t s).+1); split=> //.
  rewrite /p_step (hst us erefl) /= (@mapO_ok _ _ _ id) => [|x /hg]; last exact: weight_ok.
  rewrite map_id /= zero_upd ?hs // total_zero // => j; rewrite hs => hj; by case: (hz j hj).
have [|j|j|d' [h1 h2 h3]] := @zero_meas sc s l; rewrite ?hs.
- exact: n0.
- by case/hm.
- move=> hj; have [gv vz] := hz j hj; have [gl bl] := hm j hj.
  have v2 : v2R (nth d0 (dm_w (pf_d s)) j) <= 2 by rewrite vz; lra.
  by have [p1 _ p3 _ _] := prod_mod gv gl v2 bl; rewrite p3 vz Rmult_0_l round_0.
by rewrite hs in h2; exists (DPF d' (pf_t s)); split=> //; exact: h1.
Qed.
(** With a threshold the filter never comes back: every later update returns false. *)
Theorem C99_forever T s n fs : (0 < n)%N -> gone n (pf_d s) -> (forall f, List.In f fs -> mild n f) ->
  exists s', [/\ p_run sq root (Threshold T) s fs = Ok (nseq (size fs) (false, None), s'), gone n (pf_d s') & dm_c (pf_d s') = dm_c (pf_d s)].
Proof.
move=> n0; elim: fs s => [|f fs IH] s hz hm; first by exists s.
have [|s1 [e1 z1 c1]] := gone_step (sc := Threshold T) n0 hz (hm f (or_introl erefl)); first by [].
have [s' [e2 z2 c2]] := IH s1 z1 (fun g hg => hm g (or_intror hg)).
exists s'; split=> //; last by rewrite c2.
by rewrite /= e1 /= e2.
Qed.
(** With a period it does, at the next static resampling: the particles are drawn from
    the table of before, as if the measurement had not been made. *)
Theorem C99_period k s n us l : (0 < n)%N -> few n -> gone n (pf_d s) -> (0 < pf_t s)%N -> (k %| pf_t s)%N ->
  m_samples root (pf_d s) [seq us i | i <- iota 0 n] = Ok l ->
  exists s', [/\ p_step sq root (Period k) s (PSys us) = Ok ((true, Some l), s'), pf_t s' = (pf_t s).+1 &
    forall j, (j < n)%N -> Rabs (v2R (nth d0 (dm_w (pf_d s')) j) - / INR n) <= / INR n * relative (3 * n + 7)].
Proof.
move=> n0 hn [hs _] t0 hk hl; rewrite /p_step /p_static -lt0n t0 (eqP hk : (pf_t s %% k = 0)%N) eqxx andTb.
have hsz : size l = n by rewrite (samples_size hl) size_map size_iota.
have [d2 [e2 u2]] := set_tidy n0 hn; have [i2 _ _] := u2.
rewrite /p_resample hs hl /= hsz eqxx e2 /=.
have hk4 : INR (3 * n + 7) * uu <= / 4 by apply: (small_k hn); apply/leP; rewrite -!plusE -!multE; lia.
have hK : INR (1 + 2 * n + 1) * uu <= / 2.
  by apply: (@INR_leq _ (3 * n + 7)); [apply/leP; rewrite -!plusE -!multE; lia|lra].
have [-> [d3 [e3 u3]]] := sys_tidy hn hK i2 (fun j hj => unif_tame n0 hn hj).
rewrite /= e3; exists (DPF d3 (pf_t s).+1); split=> // j hj.
have a := tidy_rel u3 hj; have hk1 : INR (3 * n + 7) * uu < 1 by lra.
rewrite -(relE hk1); apply: ap_err => //; apply: ap_weaken a.
by apply/leP; rewrite -!plusE -!multE; lia.
Qed.
(** Finding: a measurement of positive likelihood, the same for every particle, stops a
    filter with dynamic resampling for good; Bayes' rule leaves the weights as they are. *)
Theorem C99_collapse_refuted n T : (3 <= n)%N -> few n -> exists d l s',
  [/\ m_set n = Ok (true, d), forall j, (j < n)%N -> good (l j) /\ 0 < v2R (l j),
      forall us j, (j < n)%N -> pf_next n (exact (dm_w d)) (PMeas l us) None j = / INR n,
      forall us, p_step sq root (Threshold T) (DPF d 0) (PMeas l us) = Ok ((false, None), s') /\ gone n (pf_d s') &
      forall fs, (forall f, List.In f fs -> mild n f) ->
        exists s2, p_run sq root (Threshold T) s' fs = Ok (nseq (size fs) (false, None), s2)].
Proof.
move=> h3 hn; have n0 : (0 < n)%N by exact: leq_trans h3.
have [d [e1 e2]] := set_tidy n0 hn; have [gl vl] := least_val.
have hN : 3 <= INR n by have := le_INR 3 n (elimT leP h3); rewrite [INR 3]/=; lra.
have hi : 0 < / INR n <= / 3 by split; [apply: Rinv_0_lt_compat; lra|apply: Rinv_le_contravar; lra].
have [[hs gv _ _] _ _] := e2.
have wE : dm_w d = nseq n (ddiv d1 (dnat n)).
  have [[_ gq _] _] := uniform_near n0 hn.
  by move: e1; rewrite /m_set (@mapO_ok _ _ _ id) => [|x hx]; [case=> <- /=; rewrite map_id|rewrite (In_nseq hx); exact: weight_ok].
set x := ddiv d1 (dnat n) in wE.
have hx : 0 < v2R x < / 2.
  have a := tidy_rel e2 n0; rewrite wE nth_nseq_lt // in a.
  have hk : INR (2 * 1 + n + 1) * uu <= / 4 by apply: (small_k hn); apply/leP; rewrite -!plusE -!multE; lia.
  have [_ [_ hh]] := fewP hn; have hut := uu_tiny.
  have hk2 : INR (2 * 1 + n + 1) * uu <= / 10.
    have -> : (2 * 1 + n + 1 = n + 3)%N by rewrite -!plusE -!multE; lia.
    by rewrite plus_INR [INR 3]/=; lra.
  have q := pow_lo (2 * 1 + n + 1); rewrite -/qq in q; case: a => _ a1 a2.
  move: (qq ^ _) q a1 a2 => Q q a1 a2; clear -q a1 a2 hk2 hi; split; nra.
have [|j|j|d' [s1 s2 _]] := @C99_underflow (Threshold T) (DPF d 0) (fun _ => least) _ gv; rewrite /= ?hs.
- exact: n0.
- by move=> hj; rewrite wE nth_nseq_lt //; lra.
- by move=> _; split; [exact: gl|rewrite vl; lra].
rewrite /= hs in s2; exists d, (fun _ => least), (DPF d' 0); split=> //.
- by move=> j _; split; [exact: gl|rewrite vl; exact: bpow_gt_0].
- move=> us j hj; have hl : 0 < v2R least by rewrite vl; exact: bpow_gt_0.
  have tx : total (dm_w d) = INR n * v2R x by rewrite wE /total map_nseq rsum_nseq.
  have ex i : (i < n)%N -> exact (dm_w d) i = / INR n.
    by move=> hi'; rewrite /exact tx wE nth_nseq_lt //; field; lra.
  rewrite /pf_next ex // (@over_ext _ _ (fun _ => v2R least * / INR n)); last by move=> i hi'; rewrite ex.
  by rewrite over_const; field; lra.
- by move=> us; split; [exact: s1|exact: s2].
- by move=> fs hfs; have [s3 [r1 _ _]] := @C99_forever T (DPF d' 0) n fs n0 s2 hfs; exists s3.
Qed.
End C99.

(** ** C98: when the filter resamples *)
Definition is_sys (f : pupd) : bool := if f is PSys _ then true else false.
(** number of system updates before the update [i], counting from [t] *)
Definition clock (t : nat) (fs : seq pupd) (i : nat) : nat := (t + count is_sys (take i fs))%N.
(** Periodic resampling happens in the system updates whose number is a positive multiple
    of the period, and nowhere else; dynamic resampling never in a system update. *)
Theorem C98_schedule sq root sc s fs os s' : p_run sq root sc s fs = Ok (os, s') ->
  [/\ size os = size fs, pf_t s' = clock (pf_t s) fs (size fs) &
   forall i, (i < size fs)%N -> let c := clock (pf_t s) fs i in let o := nth (true, None) os i in
    match sc with
    | Period k => (o.2 != None) = is_sys (nth (PSys (fun _ => d0)) fs i) && (0 < c)%N && (k %| c)%N
    | Threshold _ => is_sys (nth (PSys (fun _ => d0)) fs i) -> o.2 = None
    end].
Proof.
elim: fs s os s' => [|f fs ih] s os s' /=.
  by case=> <- <-; split=> //; rewrite /clock /= addn0.
case E: (p_step sq root sc s f) => [[o s1]||] //=.
case F: (p_run sq root sc s1 fs) => [[os1 s2]||] //= [<- <-].
have [h1 h2 h3] := ih _ _ _ F.
have [t1 ho] : pf_t s1 = (pf_t s + is_sys f)%N /\
    match sc with
    | Period k => (o.2 != None) = is_sys f && (0 < pf_t s)%N && (k %| pf_t s)%N
    | Threshold _ => is_sys f -> o.2 = None
    end.
  case: f E => [us|l us] /=.
    rewrite /p_static; case: sc {ih F h3} => [k|T].
      rewrite [(_ %% _ == 0)%N]/(_ %| _)%N lt0n andbC; case: ifP => hc.
        case: (p_resample _ _ _) => [r||] //=; case: (mapO _ _) => [w||] //=; case: (m_update _ _) => [q||] //= [<- <-].
        by rewrite addn1; split=> //=; rewrite hc.
      by rewrite /=; case: (mapO _ _) => [w||] //=; case: (m_update _ _) => [q||] //= [<- <-]; rewrite addn1; split=> //=; rewrite hc.
    by rewrite /=; case: (mapO _ _) => [w||] //=; case: (m_update _ _) => [q||] //= [<- <-]; rewrite addn1.
  case: (mapO _ _) => [w||] //=; case: (m_update _ _) => [q||] //=; case: ifP => _; last by case=> <- <-; rewrite addn0; case: (sc).
  rewrite /p_dynamic; case: sc {ih F h3} => [k|T] /=; first by case=> <- <-; rewrite addn0.
  case: ifP => _; last by case=> <- <-; rewrite addn0.
  by case: (p_resample _ _ _) => [r||] //= [<- <-]; rewrite addn0.
split; first by rewrite /= h1.
  by rewrite h2 /clock /= t1 addnA.
case=> [|i] /= hi; first by rewrite /clock /= addn0.
by have := h3 i hi; rewrite /clock /= t1 addnA.
Qed.

(** ** Examples: two particles *)
Definition half_root (u : double) (k : nat) : double := u.
Definition sqm (x : double) : double := dmul x x.
Definition pair : dpf := DPF (DMC [:: one_half; one_half] (m_cum [:: one_half; one_half] d1)) 0.
Definition outs (T : double) (fs : seq pupd) : seq (bool * option (seq nat)) :=
  if p_run sqm half_root (Threshold T) pair fs is Ok (os, _) then os else [::].
Definition tilt (j : nat) : double := if j == 0%N then threeq else quarter.
Definition halves (i : nat) : double := if i == 0%N then quarter else threeq.
(** weights 3/4 and 1/4: effective size 1.6 *)
Example C97_runs : outs (dlit 3 (-1)) [:: PMeas tilt halves] = [:: (true, None)] /\
  outs (dlit 7 (-2)) [:: PMeas tilt halves] = [:: (true, Some [:: 0; 0]%N)] /\
  outs (dlit 7 (-2)) [:: PSys halves; PMeas tilt (fun _ => dlit 15 (-4))] = [:: (true, None); (true, Some [:: 1; 1]%N)].
Proof. by repeat split; vm_compute. Qed.
Example C98_schedule_example (fs := [:: PSys halves; PMeas tilt halves; PSys halves; PSys halves; PSys halves]) :
  (if p_run sqm half_root (Period 2) pair fs is Ok (os, s) then ([seq o.2 != None | o <- os], pf_t s) else ([::], 0%N)) =
  ([:: false; false; false; true; false], 4%N).
Proof. by vm_compute. Qed.
Lemma few2 : few 2. Proof. by rewrite /few /=; lia. Qed.
Lemma one_le_bpow e : (0 <= e)%Z -> 1 <= bpow radix2 e.
Proof. by move=> h; rewrite -[1]/(bpow radix2 0); exact: bpow_le. Qed.
Example C97_example : exists d', [/\ m_update (pf_d pair) [:: threeq; quarter] = Ok (true, d'),
  Rabs (v2R (p_neff sqm (dm_w d')) - 8 / 5) <= 8 / 5 * relative 12 &
  p_dynamic sqm half_root (Threshold d1) (fun _ => d1) d' = Ok (None, d')].
Proof.
have [[gq vq] [gt vt] _] := lits.
have gw : goods [:: threeq; quarter] by move=> x /= [<-|[<-|//]].
have tw : total [:: threeq; quarter] = 1 by rewrite /total /= vt vq; lra.
have es : ess 2 (fun j => v2R (nth d0 [:: threeq; quarter] j)) = 8 / 5.
  by rewrite /ess /over /= vt vq; field.
have tt : 0 < total [:: threeq; quarter] <= bpow radix2 1022.
  by rewrite tw; split; [lra|exact: one_le_bpow].
have [d' [h1 h2 h3]] := @C97_neff sqm (pf_d pair) [:: threeq; quarter] mul_squares erefl few2 gw tt.
have [d2 [k1 _ k3]] := @C97_decision sqm half_root d1 (fun _ => d1) (pf_d pair) [:: threeq; quarter] mul_squares erefl few2 gw tt good1.
rewrite [size _]/= es in h3 k3; rewrite h1 in k1; case: k1 => k1; rewrite -k1 in k3.
exists d'; split=> //; apply: k3; rewrite v2R1.
have r : relative (3 * 2 + 6) <= / 100.
  rewrite -relE; last by have := uu_lt; rewrite [INR _]/=; lra.
  have hu := uu_lt; have ht := uu_tiny; rewrite [INR _]/=.
  set k := _ + _; have -> : k = 12 by rewrite /k; lra.
  by apply: (Rmult_le_reg_r (1 - 12 * uu)); [lra|rewrite /Rdiv Rmult_assoc Rinv_l; lra].
lra.
Qed.
Lemma pair_ok : [/\ goods (dm_w (pf_d pair)), total (dm_w (pf_d pair)) = 1 & forall j, (j < 2)%N -> exact (dm_w (pf_d pair)) j = / 2].
Proof.
have [_ _ [gh vh]] := lits; have tw : total (dm_w (pf_d pair)) = 1 by rewrite /total /= vh; lra.
split=> //; first by move=> x /= [<-|[<-|//]].
by move=> j; rewrite /exact tw; case: j => [|[|j]] //= _; rewrite vh; lra.
Qed.
Lemma tame_mid r : / 100 <= r <= 1 -> tame r.
Proof.
move=> [h1 h2]; right; split; last by have := @one_le_bpow 900 ltac:(lia); lra.
apply: Rle_trans (_ : bpow radix2 (- (7)) <= _); first by apply: bpow_le; lia.
by rewrite bpow_opp -IZR_Zpower // -[(radix2 ^ 7)%Z]/128%Z; lra.
Qed.
Lemma pair_over : over 2 (fun i => v2R (tilt i) * exact (dm_w (pf_d pair)) i) = / 2.
Proof. by have [[gq vq] [gt vt] _] := lits; have [_ _ e] := pair_ok; rewrite /over /= !e // /tilt /= vt vq; lra. Qed.
Lemma pair_tame us : pf_tame 2 (exact (dm_w (pf_d pair))) (PMeas tilt us).
Proof.
have [[gq vq] [gt vt] _] := lits; have [_ _ e] := pair_ok; split; rewrite ?pair_over; [|lra|].
  move=> j hj; rewrite e //; case: j hj => [|[|j]] // _; rewrite /tilt /= ?vt ?vq; split=> //; apply: tame_mid; lra.
move=> j hj; rewrite e //; case: j hj => [|[|j]] // _; rewrite /tilt /= ?vt ?vq; apply: tame_mid; lra.
Qed.
Example C98_example : exists os s', [/\ p_run sqm half_root (Threshold (dlit 3 (-1))) pair [:: PSys halves; PMeas tilt halves] = Ok (os, s') &
  Rabs (v2R (nth d0 (dm_w (pf_d s')) 0) - 3 / 4) <= 3 / 4 * relative 21].
Proof.
have [hg ht he] := pair_ok; set fs := [:: PSys _; _]; set T := Threshold _.
case E: (p_run sqm half_root T pair fs) => [[os s']||]; last 2 first.
- by have : (if p_run sqm half_root T pair fs is Ok (os, _) then true else false) by [vm_compute]; rewrite E.
- by have : (if p_run sqm half_root T pair fs is Ok (os, _) then true else false) by [vm_compute]; rewrite E.
have eo : os = [:: (true, None); (true, None)].
  have : outs (dlit 3 (-1)) fs = [:: (true, None); (true, None)] by vm_compute.
  by rewrite /outs -/T E.
exists os, s'; split; first exact: erefl.
have tm : pf_tames 2 (exact (dm_w (pf_d pair))) fs os.
  rewrite eo; split; last by split; [exact: pair_tame|exact: I].
  by move=> j hj; rewrite (he j hj); apply: tame_mid; lra.
have hfs : fs <> [::] by [].
have [||_ _ h _] := @C98_run sqm half_root T pair fs os s' few2 hg _ hfs tm _ E.
- by rewrite ht; apply: Rabs_le; lra.
- by rewrite /pf_roundings /=; lia.
have [_ h0] := h 0%N (erefl : (0 < 2)%N); have [_ [_ vt] _] := lits.
have eq : pf_path 2 (exact (dm_w (pf_d pair))) fs os 0 = 3 / 4.
  rewrite eo; change (v2R threeq * exact (dm_w (pf_d pair)) 0 / over 2 (fun i => v2R (tilt i) * exact (dm_w (pf_d pair)) i) = 3 / 4).
  by rewrite pair_over (he 0%N erefl) vt; field.
by move: h0; rewrite eq => h0; exact: h0.
Qed.
Lemma pair_ess us : ess 2 (pf_next 2 (exact (dm_w (pf_d pair))) (PMeas tilt us) None) = 8 / 5.
Proof.
have [[gq vq] [gt vt] _] := lits; have [_ _ he] := pair_ok.
have e j : (j < 2)%N -> pf_next 2 (exact (dm_w (pf_d pair))) (PMeas tilt us) None j = v2R (tilt j).
  by move=> hj; rewrite /pf_next pair_over (he j hj); field.
rewrite /ess (over_ext e) (@over_ext 2 (fun j => pf_next 2 (exact (dm_w (pf_d pair))) (PMeas tilt us) None j ^ 2) (fun j => v2R (tilt j) ^ 2)); last by move=> j hj; rewrite (e j hj).
by rewrite /over /= vt vq; field.
Qed.
Lemma pair_rel : relative (neff_roundings 1 2) <= / 100.
Proof.
have ht := uu_tiny; have hu := uu_lt; have e : INR (neff_roundings 1 2) = 32 by rewrite INR_IZR_INZ.
rewrite -relE e; last lra.
by apply: (Rmult_le_reg_r (1 - 32 * uu)); [lra|rewrite /Rdiv Rmult_assoc Rinv_l; lra].
Qed.
Lemma pair_total : Rabs (total (dm_w (pf_d pair)) - 1) <= / 4.
Proof. by have [_ ht _] := pair_ok; rewrite ht; apply: Rabs_le; lra. Qed.
Lemma pair_few : (Z.of_nat (neff_roundings 1 2) <= 2 ^ 51)%Z.
Proof. by rewrite /neff_roundings /=; lia. Qed.
Example C98_keep_example : exists s2, p_step sqm half_root (Threshold d1) pair (PMeas tilt halves) = Ok ((true, None), s2).
Proof.
have [hg ht he] := pair_ok.
have h := @C98_keep sqm half_root pair [::] [::] pair tilt halves d1 mul_squares few2 hg pair_total I (pair_tame halves) pair_few erefl good1.
apply: h; rewrite v2R1; change (1 <= ess 2 (pf_next 2 (exact (dm_w (pf_d pair))) (PMeas tilt halves) None) * (1 - relative (neff_roundings 1 2))).
by rewrite pair_ess; have := pair_rel; lra.
Qed.
Lemma two_val : good (dlit 2 0) /\ v2R (dlit 2 0) = 2.
Proof.
have [|f v] := @v2R_SF (dlit 2 0) false 4503599627370496 (-51); first by vm_compute.
Local Transparent bpow IZR.
have e : v2R (dlit 2 0) = 2 by rewrite v /F2R /=; lra.
by split; [split; [exact: f|rewrite e; lra]|exact: e].
Qed.
Local Opaque bpow IZR.
Example C98_resample_example us : (forall i, draw32 (us i)) -> exists ls s2,
  p_step sqm some_root (Threshold (dlit 2 0)) pair (PMeas tilt us) = Ok ((true, Some ls), s2) /\ sorted leq ls.
Proof.
move=> hus; have [hg ht he] := pair_ok; have [g2 v2] := two_val.
have h := @C98_resample sqm some_root pair [::] [::] pair tilt us (dlit 2 0) mul_squares few2 hg pair_total I (pair_tame us) pair_few erefl g2.
have [||ls [s2 [h1 h2 _]]] := h _ roots_exist some_below1 hus.
- rewrite v2; change (ess 2 (pf_next 2 (exact (dm_w (pf_d pair))) (PMeas tilt us) None) * (1 + relative (neff_roundings 1 2)) < 2).
  by rewrite pair_ess; have := pair_rel; lra.
- by rewrite /=; lia.
by exists ls, s2; split; [exact: h1|exact: h2].
Qed.
(** Four particles, and a sensor whose likelihoods are [2^-1074]: every weight becomes 0,
    the later updates fail although their likelihoods are harmless. *)
Definition four : dpf := DPF (DMC (nseq 4 quarter) (m_cum (nseq 4 quarter) d1)) 0.
Definition faint : pupd := PMeas (fun _ => least) halves.
Example C99_runs : (if p_run sqm half_root (Threshold (dlit 2 0)) four [:: PMeas tilt halves; faint; PSys halves; PMeas tilt halves] is Ok (os, _)
  then os else [::]) = [:: (true, None); (false, None); (false, None); (false, None)].
Proof. by vm_compute. Qed.
Example C99_example us : exists d', p_step sqm half_root (Threshold d1) four (PMeas (fun _ => least) us) = Ok ((false, None), DPF d' 0) /\
  exists s', p_run sqm half_root (Threshold d1) (DPF d' 0) [:: PMeas tilt halves; PSys halves] = Ok ([:: (false, None); (false, None)], s').
Proof.
have [[gq vq] [gt vt] _] := lits; have [gl vl] := least_val.
have gf : goods (dm_w (pf_d four)) by move=> x /= [<-|[<-|[<-|[<-|//]]]].
have hw j : (j < 4)%N -> v2R (nth d0 (dm_w (pf_d four)) j) < / 2.
  by case: j => [|[|[|[|j]]]] //= _; rewrite vq; lra.
have hl j : (j < 4)%N -> good least /\ v2R least <= bpow radix2 (-1074) by move=> _; split; [exact: gl|rewrite vl; lra].
have [d' [h1 h2 _]] := @C99_underflow sqm half_root (Threshold d1) four (fun _ => least) (erefl : (0 < 4)%N) gf hw hl.
exists d'; split; first exact: h1.
have [|s' [h3 _ _]] := @C99_forever sqm half_root d1 (DPF d' 0) 4 [:: PMeas tilt halves; PSys halves] erefl h2.
- move=> f /= [<-|[<-|//]] //= j _; have h : 1 <= bpow radix2 900 by exact: one_le_bpow.
  by rewrite /tilt; case: (j == 0%N); split; rewrite ?vt ?vq //; lra.
by exists s'; exact: h3.
Qed.
(** With periodic resampling the filter starts again at the next such step. *)
Example C99_period_example (s := DPF (DMC [:: d0; d0] (dm_c (pf_d pair))) 2) : exists s',
  p_step sqm half_root (Period 2) s (PSys halves) = Ok ((true, Some [:: 0; 1]%N), s') /\
  Rabs (v2R (nth d0 (dm_w (pf_d s')) 1) - / 2) <= / 2 * relative 13.
Proof.
have hg : gone 2 (pf_d s).
  by split=> // j; case: j => [|[|j]] //= _; split; [exact: good0|exact: v2R0|exact: good0|exact: v2R0].
have hm : m_samples half_root (pf_d s) [seq halves i | i <- iota 0 2] = Ok [:: 0; 1]%N by vm_compute.
have [s' [h1 _ h2]] := @C99_period sqm half_root 2 s 2 halves _ erefl few2 hg erefl erefl hm.
by exists s'; split; [exact: h1|exact: h2].
Qed.
Print Assumptions C97_neff.
Print Assumptions C97_decision.
Print Assumptions C98_run.
Print Assumptions C98_decision.
Print Assumptions C98_keep.
Print Assumptions C98_resample.
Print Assumptions C98_schedule.
Print Assumptions C99_underflow.
Print Assumptions C99_forever.
Print Assumptions C99_period.
Print Assumptions C99_collapse_refuted.
