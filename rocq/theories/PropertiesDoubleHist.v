(** * C84, C85: the histogram filter in double arithmetic *)
From Coq Require Import ZArith Reals Lra Lia.
From Flocq Require Import Core.Core BinarySingleNaN.
From mathcomp Require Import all_ssreflect.
From Verif Require Import Outcome ModelDouble SpecDouble ProofsDouble PropertiesDouble
  ModelDoubleHist SpecDoubleHist ProofsDoubleHist.
Set Implicit Arguments. Unset Strict Implicit. Unset Printing Implicit Defensive.
Local Open Scope R_scope.
Local Opaque d0 d1 dprec dlit dadd dsub dmul ddiv dle dlt bpow IZR.

Lemma In_iota i n : List.In i (iota 0 n) <-> (i < n)%N.
Proof.
split=> [h|h]; last by rewrite -[i](nth_iota 0 0 h); apply: nth_In; rewrite size_iota.
by have [k hk <-] := In_nth_ex 0%N h; rewrite size_iota in hk; rewrite nth_iota.
Qed.
Lemma set_okE d v : size v = size (dd_v d) -> few (size v) -> goods v -> 0 < total v <= bpow radix2 1022 ->
  exists c, [/\ d_set_all d v = Ok (true, DDisc [seq ddiv x (d_sum v) | x <- v] c),
    follows (size v) (share v) c & nth d0 c (size v) = d1].
Proof.
move=> hs hn hg ht; have [hF hN] := norm_ok hn hg ht; have [h0 h1] := ht.
set ps := [seq ddiv x (d_sum v) | x <- v] in hF hN *; have hsz : size ps = size v by rewrite size_map.
have n0 : (0 < size v)%N by case: (v) h0 => //; rewrite /total /=; lra.
have hr : rsum [seq v2R x / total v | x <- v] = 1 by rewrite total_map /Rdiv Rinv_r //; lra.
have [hc hfol hl] := cum_ok n0 hn hF hsz hr; clear hr.
set c := set_nth d0 _ _ _ in hc hfol hl.
exists c; split; last exact: hl.
  by rewrite /d_set_all hs eqxx [guard _]/= [obind (Ok _) _]/= hN /= hc.
by clear hc hN hl; case: hfol => e1 e2 e3 e4; split=> // k hk; rewrite -rsum_share; exact: e3.
Qed.
Lemma goods_map (A : Type) (f : A -> double) l : (forall x, List.In x l -> good (f x)) -> goods [seq f x | x <- l].
Proof. by move=> h x /List.in_map_iff [y [<- hy]]; exact: h. Qed.
Lemma total_seq (A : Type) (f : A -> double) l : total [seq f x | x <- l] = rsum [seq v2R (f x) | x <- l].
Proof. by rewrite /total -map_comp. Qed.
Lemma total_nth_over v : total v = over (size v) (fun i => v2R (nth d0 v i)).
Proof.
by rewrite /total /over -{1}[v](@mkseq_nth _ d0) /mkseq -map_comp.
Qed.
Lemma over_ext n f g : (forall i, (i < n)%N -> f i = g i) -> over n f = over n g.
Proof. by move=> h; congr rsum; apply/eq_in_map => i; rewrite mem_iota => hi; exact: h. Qed.
Lemma rsum_scale (A : Type) (f : A -> R) c l : rsum [seq c * f x | x <- l] = c * rsum [seq f x | x <- l].
Proof. by elim: l => [|x l IH] /=; [ring|rewrite IH; ring]. Qed.
Lemma over_scale n c f : over n (fun i => c * f i) = c * over n f.
Proof. exact: rsum_scale. Qed.
Lemma ap_over k n f g : (forall i, (i < n)%N -> approx k (f i) (g i)) -> approx k (over n f) (over n g).
Proof. by move=> h; apply: ap_rsum => i /In_iota; exact: h. Qed.
Lemma take_iota0 k n : (k <= n)%N -> take k (iota 0 n) = iota 0 k.
Proof. by move=> h; rewrite take_iota (minn_idPl h). Qed.
Lemma bayes_sum n p f : 0 < over n (weight n f p) -> over n (bayes n p f) = 1.
Proof.
move=> h; rewrite (@over_ext _ _ (fun j => / over n (weight n f p) * weight n f p j)).
  by rewrite over_scale Rinv_l //; lra.
by move=> i _; rewrite /bayes /Rdiv Rmult_comm.
Qed.

Lemma tame_approx k s T x : tame T -> approx k (s * T) x -> / 4 <= s <= 4 -> / 2 <= qq ^ k ->
  x = 0 \/ bpow radix2 (-1003) <= x <= bpow radix2 903.
Proof.
move=> hT [h0 h1 h2] hs hq; have [q0 q1] := qq_pow k.
case: hT => [e|[t1 t2]].
  left; rewrite e Rmult_0_r in h1 h2; rewrite Rmult_0_l in h1.
  by apply: Rle_antisym => //; apply: (Rmult_le_reg_r (qq ^ k)) => //; rewrite Rmult_0_l.
have b0 := bpow_gt_0 radix2 (-1000); right; split.
  have -> : bpow radix2 (-1003) = / 4 * bpow radix2 (-1000) * / 2.
    rewrite Rmult_comm -Rmult_assoc -Rinv_mult; have -> : 2 * 4 = bpow radix2 3 by rewrite -[bpow _ _]/8; lra.
    by rewrite -bpow_opp -bpow_plus.
  apply: Rle_trans h1; apply: Rmult_le_compat => //; [apply: Rmult_le_pos; lra|lra|].
  by apply: Rmult_le_compat; lra.
have x0 : 0 <= x by apply: Rle_trans h1; apply: Rmult_le_pos; lra.
have h3 : x * / 2 <= 4 * bpow radix2 900.
  apply: Rle_trans (_ : x * qq ^ k <= _); first by apply: Rmult_le_compat_l.
  by apply: Rle_trans h2 _; apply: Rmult_le_compat; lra.
have -> : bpow radix2 903 = bpow radix2 3 * bpow radix2 900 by rewrite -bpow_plus.
rewrite -[bpow radix2 3]/8; lra.
Qed.
Lemma big_normal x : x = 0 \/ bpow radix2 (-1003) <= x <= bpow radix2 903 -> normal x.
Proof.
case=> [->|[h1 h2]]; [by left|right].
have := @bpow_le radix2 (-1022) (-1003) ltac:(lia); have := @bpow_le radix2 903 1000 ltac:(lia).
move: (bpow radix2 (-1022)) (bpow radix2 1000) => a b; lra.
Qed.

(** ** The vector handed to ProbabilitiesSet *)
Definition fresh (f : hupd) (v : seq double) (j : nat) : double :=
  match f with
  | HTrans a => d_sum [seq dmul (a j i) (nth d0 v i) | i <- iota 0 (size v)]
  | HLike l => dmul (nth d0 v j) (l j)
  end.
Definition freshes (f : hupd) (v : seq double) : seq double := [seq fresh f v j | j <- iota 0 (size v)].
Definition fits (n : nat) (f : hupd) : Prop :=
  match f with
  | HTrans a => forall j i, (j < n)%N -> (i < n)%N -> good (a j i)
  | HLike l => forall j, (j < n)%N -> good (l j)
  end.
Lemma predictE a v j : (forall i, (i < size v)%N -> good (a j i)) ->
  h_predict a v j = Ok (d_sum [seq dmul (a j i) (nth d0 v i) | i <- iota 0 (size v)]).
Proof.
rewrite /h_predict /d_sum => h; have hl i : List.In i (iota 0 (size v)) -> (i < size v)%N by move/In_iota.
elim: (iota 0 (size v)) {1 2}d0 hl => [|i l IH] c hl //=.
have hi := hl i (or_introl erefl); rewrite prob_ok; last exact: h.
rewrite [obind (Ok _) _]/= (at_nth d0 hi) [obind (Ok _) _]/=; apply: IH => k hk; apply: hl; by right.
Qed.
Lemma stepE f d : fits (size (dd_v d)) f -> (forall j, (j < size (dd_v d))%N -> good (fresh f (dd_v d) j)) ->
  h_step d f = let! r := d_set_all d (freshes f (dd_v d)) in Ok (true, r.2).
Proof.
set v := dd_v d => hf hg; rewrite /h_step.
have e : (match f with HTrans a => h_sys a d | HLike l => h_meas l d end) =
  let! r := d_set_all d (freshes f v) in Ok r.2.
  case: f hf hg => [a|l] hf hg.
    rewrite /h_sys (@mapO_ok _ _ _ (fresh (HTrans a) v)) // => j /In_iota hj.
    by rewrite predictE ?[obind (Ok _) _]/=; [exact/prob_ok/hg|move=> i; exact: hf].
  rewrite /h_meas (@mapO_ok _ _ _ (fresh (HLike l) v)) // => j /In_iota hj.
  rewrite (at_nth d0 hj) [obind (Ok _) _]/= prob_ok ?[obind (Ok _) _]/=; last exact: hf.
  exact/prob_ok/hg.
by rewrite e; case: (d_set_all _ _).
Qed.

(** ** One update *)
Lemma bpow_S e : bpow radix2 (e + 1) = 2 * bpow radix2 e.
Proof. by rewrite Zplus_comm bpow_plus. Qed.
Lemma prod_ok k s T x y : good x -> good y -> tame T -> / 4 <= s <= 4 -> / 2 <= qq ^ k ->
  approx k (s * T) (v2R x * v2R y) ->
  [/\ good (dmul x y), approx (k + 1) (s * T) (v2R (dmul x y)) & v2R (dmul x y) <= bpow radix2 904].
Proof.
move=> gx gy hT hs hq ha; have hb := tame_approx hT ha hs hq; have hN := big_normal hb.
have [g e] := mul_rel gx gy hN; have a1 := ap_one (normal_ge0 hN) e; split=> //.
  exact: ap_trans ha a1.
have hu := uu_lt; have h0 := normal_ge0 hN; case: e => _ e; rewrite -[904%Z]/(903 + 1)%Z bpow_S; apply: Rle_trans e _.
move: (v2R x * v2R y) h0 (bpow_ge_0 radix2 903) hb; clear=> P h0.
by move: (bpow radix2 903) => B b0 [->|[_ h]]; have hu := uu_lt; nra.
Qed.
Lemma rsum_le (A : Type) (f : A -> R) l b : (forall x, List.In x l -> f x <= b) -> rsum [seq f x | x <- l] <= INR (size l) * b.
Proof.
elim: l => [|x l IH] h; first by rewrite /=; lra.
rewrite [size _]/= S_INR /=; have := h x (or_introl erefl); have := IH (fun y hy => h y (or_intror hy)); lra.
Qed.
Lemma few_bpow n e : few n -> INR n * bpow radix2 e <= bpow radix2 (22 + e).
Proof.
move=> hn; rewrite bpow_plus; apply: Rmult_le_compat_r; first exact: bpow_ge_0.
by rewrite -IZR_Zpower // INR_IZR_INZ; apply: IZR_le.
Qed.
Section Step.
Variables (n k : nat) (d : ddisc) (p : nat -> R) (s : R) (f : hupd).
Let v := dd_v d.
Hypotheses (hsz : size v = n) (hn : few n) (hs : / 4 <= s <= 4).
Hypothesis hv : goods v.
Hypothesis hK : INR (k + 2 * n + 1) * uu <= / 2.
Hypothesis hI : forall j, (j < n)%N -> approx k (s * p j) (v2R (nth d0 v j)).
Hypothesis hT : tame_step n p f.
Let hq m : (m <= k + 2 * n + 1)%N -> / 2 <= qq ^ m.
Proof.
move=> h; apply: qq_low; apply: Rle_trans hK; apply: Rmult_le_compat_r; first by have := uu_lt; lra.
by apply: le_INR; apply/leP.
Qed.
Let hk0 : (k <= k + 2 * n + 1)%N. Proof. by rewrite -addnA leq_addr. Qed.
Lemma fresh_ok j : (j < n)%N ->
  [/\ good (fresh f v j), approx (k + n + 1) (s * weight n f p j) (v2R (fresh f v j)) & v2R (fresh f v j) <= bpow radix2 930].
Proof.
move=> hj; case: hT => + _ _; case: f => [a|l] ha /=.
  have hm i : List.In i (iota 0 n) -> [/\ good (dmul (a j i) (nth d0 v i)),
      approx (k + 1) (s * (v2R (a j i) * p i)) (v2R (dmul (a j i) (nth d0 v i))) & v2R (dmul (a j i) (nth d0 v i)) <= bpow radix2 904].
    move/In_iota=> hi; have [g t] := ha j i hj hi; apply: (prod_ok g _ t hs (hq hk0)); first by apply: goods_nth; rewrite ?hsz.
    have -> : s * (v2R (a j i) * p i) = v2R (a j i) * (s * p i) by ring.
    by apply: ap_scale; [case: g|exact: hI].
  rewrite hsz; set ms := [seq _ | i <- _].
  have gm : goods ms by apply: goods_map => i /hm [].
  have sm : size ms = n by rewrite size_map size_iota.
  have tm : total ms <= bpow radix2 926.
    rewrite total_seq; apply: Rle_trans (_ : INR n * bpow radix2 904 <= _); last exact: few_bpow.
    by rewrite -{2}[n](size_iota 0); apply: rsum_le => i /hm [].
  have fm : is_finite (d_sum ms) = true.
    by apply: sum_fin => //; [rewrite sm|apply: Rle_trans tm _; apply: bpow_le; lia].
  have am := ap_sum gm fm; rewrite sm in am.
  have gs : good (d_sum ms) by split; [exact: fm|exact: ap_ge0 am].
  split=> //.
    have -> : (k + n + 1 = k + 1 + n)%N by rewrite addnAC.
    apply: ap_trans am; rewrite total_seq /over -rsum_scale; apply: ap_rsum => i /hm [] //.
  have h2 : / 2 <= qq ^ n by apply: hq; rewrite mul2n -addnn -!addnA [(n + (n + 1))%N]addnC addnA leq_addl.
  have -> : bpow radix2 930 = 8 * (2 * bpow radix2 926) by rewrite -bpow_S -[8]/(bpow radix2 3) -bpow_plus.
  have b0 := bpow_ge_0 radix2 926; case: gs => _ gs; case: am => _ _ am.
  have : v2R (d_sum ms) * / 2 <= bpow radix2 926.
    by apply: Rle_trans tm; apply: Rle_trans am; apply: Rmult_le_compat_l.
  clear -b0 gs; move: (bpow _ _) b0 (v2R _) gs => b b0 x gs; lra.
have [g t] := ha j hj.
have gv : good (nth d0 v j) by apply: goods_nth; rewrite ?hsz.
have [|g1 a1 b1] := prod_ok gv g t hs (hq hk0).
  have -> : s * (v2R (l j) * p j) = v2R (l j) * (s * p j) by ring.
  by rewrite [v2R (nth _ _ _) * _]Rmult_comm; apply: ap_scale; [case: g|exact: hI].
split=> //; last by apply: Rle_trans b1 _; apply: bpow_le; lia.
by apply: ap_weaken a1; rewrite leq_add2r leq_addr.
Qed.
Let W := over n (weight n f p).
Let W0 : 0 < W. Proof. by case: hT. Qed.
Let new := freshes f v.
Let snew : size new = n. Proof. by rewrite /new /freshes size_map size_iota hsz. Qed.
Let gnew : goods new.
Proof. by rewrite /new /freshes hsz; apply: goods_map => j /In_iota /fresh_ok []. Qed.
Let anew m : (m <= n)%N -> approx (k + n + 1) (s * over m (weight n f p)) (total (take m new)).
Proof.
move=> hm; rewrite /new /freshes hsz -map_take (take_iota0 hm) total_seq -over_scale.
by apply: ap_over => j hj; have [] := fresh_ok (leq_trans hj hm).
Qed.
Let anew' : approx (k + n + 1) (s * W) (total new).
Proof. by have := anew (leqnn n); rewrite take_oversize ?snew. Qed.
Let sW : 0 < s * W. Proof. apply: Rmult_lt_0_compat => //; lra. Qed.
Let tnew : 0 < total new <= bpow radix2 1022.
Proof.
split; first by case: (ap_inv sW anew').
rewrite /new /freshes hsz total_seq; apply: Rle_trans (_ : INR n * bpow radix2 930 <= _).
  by rewrite -{2}[n](size_iota 0); apply: rsum_le => j /In_iota /fresh_ok [].
by apply: Rle_trans (few_bpow _ hn) _; apply: bpow_le; lia.
Qed.
Let fnew : is_finite (d_sum new) = true.
Proof. by apply: sum_fin => //; [rewrite snew|case: tnew]. Qed.
Let S := v2R (d_sum new).
Let aS : approx n (total new) S.
Proof. by rewrite -snew; exact: ap_sum. Qed.
Let S0 : 0 < S. Proof. by case: (ap_inv (proj1 tnew) aS). Qed.
Let gS : good (d_sum new). Proof. by split=> //; exact: Rlt_le S0. Qed.
Let s' := s * W / S.
Let as' : approx (k + 2 * n + 1) 1 s'.
Proof.
apply: ap_sym; rewrite /s'; have -> : 1 = S / S by field; lra.
have -> : (k + 2 * n + 1 = k + n + 1 + n + 0)%N by rewrite mul2n -addnn addn0 addnA -!addnA [(n + 1)%N]addnC.
apply: ap_div; [exact: ap_trans anew' aS|apply: ap_refl; lra|exact: S0].
Qed.
Let hs' : / 4 <= s' <= 4.
Proof. by case: as' => _ h1 h2; have := hq (leqnn _); move: (qq ^ _) h1 h2 => q h1 h2 h3; split; nra. Qed.
Let p' := bayes n p f.
Let quot j : (j < n)%N -> let x := ddiv (nth d0 new j) (d_sum new) in
  [/\ good x, approx (k + (n + 2)) (s' * p' j) (v2R x) & approx 1 (v2R (nth d0 new j) / S) (v2R x)].
Proof.
move=> hj x; have e : nth d0 new j = fresh f v j by rewrite /new /freshes hsz (nth_map 0%N) ?size_iota // nth_iota.
have [g1 a1 _] := fresh_ok hj.
have a2 : approx (k + n + 1) (s' * p' j) (v2R (nth d0 new j) / S).
  rewrite e; have -> : s' * p' j = / S * (s * weight n f p j) by rewrite /s' /p' /bayes -/W; field; lra.
  rewrite /Rdiv [v2R _ * _]Rmult_comm; apply: ap_scale a1; exact/Rlt_le/Rinv_0_lt_compat.
have hN : normal (v2R (nth d0 new j) / S).
  apply: big_normal; apply: (tame_approx _ a2 hs'); first by case: hT => _ _; apply.
  by apply: hq; rewrite mul2n -addnn leq_add2r leq_add2l leq_addr.
rewrite -e in g1; have [g3 e3] := div_rel g1 gS S0 hN; have a3 := ap_one (normal_ge0 hN) e3.
by split=> //; have := ap_trans a2 a3; rewrite -!addnA.
Qed.
Lemma step_ok : exists d' s1, [/\ h_step d f = Ok (true, d'), size (dd_v d') = n /\ goods (dd_v d'), / 4 <= s1 <= 4,
  (forall j, (j < n)%N -> approx (k + (n + 2)) (s1 * bayes n p f j) (v2R (nth d0 (dd_v d') j))) &
  [/\ approx (n + 1) 1 (total (dd_v d')), nth d0 (dd_c d') n = d1 &
   exists ex, follows n ex (dd_c d') /\ forall m, (m <= n)%N -> approx (2 * (k + n + 1)) (over m (bayes n p f)) (ex m)]].
Proof.
have [c [c1 c2 c3]] := set_okE (etrans snew (esym hsz)) (eq_ind_r few hn snew) gnew tnew.
set ps := [seq ddiv x (d_sum new) | x <- new] in c1; rewrite snew in c2 c3.
have sps : size ps = n by rewrite size_map.
have nps j : (j < n)%N -> nth d0 ps j = ddiv (nth d0 new j) (d_sum new) by move=> hj; rewrite (nth_map d0) ?snew.
exists (DDisc ps c), s'; split.
- rewrite stepE; first by rewrite -/v -/new c1.
    by rewrite -/v hsz; case: hT => + _ _; case: f => [a|l] h /=; [move=> j i hj hi; case: (h j i hj hi)|move=> j hj; case: (h j hj)].
  by move=> j; rewrite -/v hsz => /fresh_ok [].
- split; first exact: sps.
  by move=> x /(In_nth_ex d0) [j hj <-]; rewrite sps in hj; rewrite nps //; case: (quot hj).
- exact: hs'.
- by move=> j hj /=; rewrite nps //; case: (quot hj).
- split; [|exact: c3|exists (share new); split; first exact: c2].
  + rewrite /= total_nth_over sps.
    apply: (@ap_trans _ _ _ (over n (fun j => v2R (nth d0 new j) / S))); last first.
      by apply: ap_over => j hj; rewrite nps //; case: (quot hj).
    rewrite (@over_ext _ _ (fun j => / S * v2R (nth d0 new j))); last by move=> i _; rewrite /Rdiv Rmult_comm.
    rewrite over_scale -{2}snew -total_nth_over; have -> : 1 = / S * S by field; lra.
    by apply: ap_scale; [exact/Rlt_le/Rinv_0_lt_compat|exact: ap_sym].
  + move=> m hm; rewrite mul2n -addnn.
    have -> : over m (bayes n p f) = (s * over m (weight n f p)) / (s * W).
      rewrite (@over_ext _ _ (fun j => / W * weight n f p j)); last by move=> i _; rewrite /bayes /Rdiv Rmult_comm.
      by rewrite over_scale; field; lra.
    by apply: ap_div => //; exact: anew.
Qed.
End Step.

(** ** Any number of updates *)
Definition fin n k (q : nat -> R) (d : ddisc) : Prop :=
  [/\ over n q = 1, approx (n + 1) 1 (total (dd_v d)), nth d0 (dd_c d) n = d1 &
   exists ex, follows n ex (dd_c d) /\ forall m, (m <= n)%N -> approx (2 * k) (over m q) (ex m)].
Lemma run_ok n fs d p k s : size (dd_v d) = n -> few n -> / 4 <= s <= 4 -> goods (dd_v d) ->
  INR (k + size fs * (n + 2) + n) * uu <= / 2 ->
  (forall j, (j < n)%N -> approx k (s * p j) (v2R (nth d0 (dd_v d) j))) -> tame_run n p fs ->
  exists d' s', [/\ h_run d fs = Ok (nseq (size fs) true, d'), size (dd_v d') = n /\ goods (dd_v d'), / 4 <= s' <= 4,
   (forall j, (j < n)%N -> approx (k + size fs * (n + 2)) (s' * bayes_run n p fs j) (v2R (nth d0 (dd_v d') j))) &
   (fs <> [::] -> fin n (k + size fs * (n + 2)) (bayes_run n p fs) d')].
Proof.
move=> hsz hn; elim: fs d p k s hsz => [|f fs IH] d p k s hsz hs hg hK hI; first by exists d, s; split; rewrite //= addn0.
move=> [hT hR]; have hK1 : INR (k + 2 * n + 1) * uu <= / 2.
  apply: Rle_trans hK; apply: Rmult_le_compat_r; first by have := uu_lt; lra.
  by apply: le_INR; rewrite [size _]/= (mulSn (size fs)); move: (size fs * _)%N => X; rewrite -!plusE -!multE; lia.
have [d1 [s1 [e1 [z1 g1] h1 i1 [t1 l1 [ex [f1 x1]]]]]] := step_ok hsz hn hs hg hK1 hI hT.
have hK2 : INR (k + (n + 2) + size fs * (n + 2) + n) * uu <= / 2 by rewrite -[(k + _ + _)%N]addnA -mulSn.
have [d' [s' [e2 z2 h2 i2 l2]]] := IH d1 _ _ s1 z1 h1 g1 hK2 i1 hR.
have ek : (k + size (f :: fs) * (n + 2) = k + (n + 2) + size fs * (n + 2))%N by rewrite -addnA -mulSn.
exists d', s'; split=> //.
- by rewrite /h_run [runO _ _ _]/= e1 [obind (Ok _) _]/= -/h_run e2.
- by rewrite ek.
- move=> _; rewrite ek; case: fs l2 e2 {IH hR i2 hK hK2 ek} => [|f2 fs] l2 e2; last exact: l2.
  case: e2 => <-; rewrite /= mul0n addn0; split=> //; first by apply: bayes_sum; case: hT.
  exists ex; split=> // m hm; apply: ap_weaken (x1 m hm).
  by rewrite leq_mul2l /= addnA leq_add2l.
Qed.

(** Every posterior probability is Bayes' posterior up to [roundings m n] relative
    roundings; so is the table used for sampling.  No cancellation: the bound grows
    linearly with the number of updates, whatever the models. *)
Theorem C84_accuracy d fs (n := size (dd_v d)) (m := size fs) (p := exact (dd_v d)) :
  few n -> goods (dd_v d) -> Rabs (total (dd_v d) - 1) <= / 4 -> fs <> [::] -> tame_run n p fs ->
  (Z.of_nat (roundings m n) <= 2 ^ 51)%Z ->
  exists d', [/\ h_run d fs = Ok (nseq m true, d'), size (dd_v d') = n,
    (forall j, (j < n)%N -> good (nth d0 (dd_v d') j) /\
       Rabs (v2R (nth d0 (dd_v d') j) - bayes_run n p fs j) <= bayes_run n p fs j * relative (roundings m n)),
    (forall k, (k <= n)%N -> Rabs (v2R (nth d0 (dd_c d') k) - over k (bayes_run n p fs)) <= tol n + relative (roundings m n)) &
    exists ex, follows n ex (dd_c d') /\ nth d0 (dd_c d') n = d1].
Proof.
move=> hn hg /Rabs_le_inv ht hne hT hK.
have hK1 : INR (roundings m n) * uu <= / 4.
  have : INR (roundings m n) <= IZR (2 ^ 51) by rewrite INR_IZR_INZ; apply: IZR_le.
  have e : IZR (2 ^ 51) * uu = / 4 by exact: uu51.
  by move=> h; rewrite -e; apply: Rmult_le_compat_r => //; have := uu_lt; lra.
have hK2 : INR (0 + m * (n + 2) + n) * uu <= / 2.
  apply: Rle_trans (_ : INR (roundings m n) * uu <= _); last lra.
  apply: Rmult_le_compat_r; first by have := uu_lt; lra.
  by apply: le_INR; rewrite /roundings; move: (m * _)%N => X; rewrite -!plusE -!multE; lia.
have hs : / 4 <= total (dd_v d) <= 4 by lra.
have hI j : (j < n)%N -> approx 0 (total (dd_v d) * p j) (v2R (nth d0 (dd_v d) j)).
  move=> hj; rewrite /p /exact; have -> : total (dd_v d) * (v2R (nth d0 (dd_v d) j) / total (dd_v d)) = v2R (nth d0 (dd_v d) j).
    by field; lra.
  by apply: ap_refl; have [] := goods_nth hg hj.
have [d' [s' [e1 [z1 g1] h1 i1 l1]]] := run_ok erefl hn hs hg hK2 hI hT.
have [o1 t1 c1 [ex [f1 x1]]] := l1 hne; rewrite add0n in i1 x1.
have k1 : INR (roundings m n) * uu < 1 by lra.
have er : relative (roundings m n) = INR (roundings m n) * uu / (1 - INR (roundings m n) * uu).
  have p0 : 0 < IZR (2 ^ 53) by apply: IZR_lt.
  have hr : INR (roundings m n) < IZR (2 ^ 53).
    by apply: (Rmult_lt_reg_r (/ IZR (2 ^ 53))); [exact: Rinv_0_lt_compat|rewrite Rinv_r -?uu_val; lra].
  by rewrite /relative uu_val; field; split; lra.
have r0 : 0 <= relative (roundings m n).
  rewrite er; have : 0 <= INR (roundings m n) * uu by apply: Rmult_le_pos; [exact: pos_INR|have := uu_lt; lra].
  by move=> h; apply: Rmult_le_pos => //; apply/Rlt_le/Rinv_0_lt_compat; lra.
have as' : approx (m * (n + 2) + (n + 1)) s' 1.
  apply: (@ap_trans _ _ _ (total (dd_v d'))); last exact: ap_sym.
  have -> : s' = over n (fun j => s' * bayes_run n p fs j) by rewrite over_scale o1; lra.
  by rewrite total_nth_over z1; apply: ap_over.
exists d'; split=> //.
- move=> j hj; split; first by apply: goods_nth => //; rewrite z1.
  rewrite er; apply: ap_err => //.
  have q0 : 0 <= bayes_run n p fs j.
    case: (i1 j hj) => q _ _; apply: (Rmult_le_reg_l s'); [lra|rewrite Rmult_0_r; exact: q].
  have -> : (roundings m n = m * (n + 2) + (n + 1) + m * (n + 2))%N.
    by rewrite /roundings; move: (m * _)%N => X; rewrite -!plusE -!multE; lia.
  apply: ap_trans (i1 j hj); apply: ap_sym.
  by rewrite -{2}[bayes_run n p fs j]Rmult_1_l ![_ * bayes_run n p fs j]Rmult_comm; apply: ap_scale.
- move=> k hk; have [_ _ f3 _] := f1; have [_ f4] := f3 k hk.
  have ax : approx (roundings m n) (over k (bayes_run n p fs)) (ex k).
    by apply: ap_weaken (x1 k hk); rewrite /roundings -addnA leq_addr.
  have q1 : over k (bayes_run n p fs) <= 1.
    have hq i : (i < n)%N -> 0 <= bayes_run n p fs i.
      by move=> hi; case: (i1 i hi) => q _ _; apply: (Rmult_le_reg_l s'); [lra|rewrite Rmult_0_r; exact: q].
    rewrite -o1 /over -(take_iota0 hk) map_take; apply: rsum_take_le => r /List.in_map_iff [i [<- /In_iota]]; exact: hq.
  have := ap_err k1 ax; rewrite -er => a2.
  have -> : v2R (nth d0 (dd_c d') k) - over k (bayes_run n p fs) =
    (v2R (nth d0 (dd_c d') k) - ex k) + (ex k - over k (bayes_run n p fs)) by ring.
  apply: Rle_trans (Rabs_triang _ _) _; apply: Rplus_le_compat f4 _; apply: Rle_trans a2 _.
  by have := Rmult_le_compat_r _ _ _ r0 q1; lra.
- by exists ex; split.
Qed.

(** ** Underflow *)
Lemma prod_mod x y : good x -> good y -> v2R x <= 2 -> v2R y <= bpow radix2 900 ->
  [/\ good (dmul x y), good (dmul y x), v2R (dmul x y) = round radix2 (FLT_exp (-1074) 53) ZnearestE (v2R x * v2R y),
      v2R (dmul y x) = v2R (dmul x y) & v2R (dmul x y) <= bpow radix2 901].
Proof.
move=> gx gy hx hy; have [_ x0] := gx; have [_ y0] := gy.
have h1 : v2R x * v2R y <= bpow radix2 901 by rewrite -[901%Z]/(900 + 1)%Z bpow_S; apply: Rmult_le_compat.
have h2 : v2R x * v2R y <= bpow radix2 1000 by apply: Rle_trans h1 _; apply: bpow_le; lia.
have [g e] := mulE gx gy h2; have [g' e'] := mulE gy gx ltac:(rewrite Rmult_comm; exact: h2); rewrite Rmult_comm in e'.
split=> //; first by rewrite e e'.
by rewrite e; apply: round_le_generic => //; apply: generic_format_bpow; rewrite /FLT_exp; lia.
Qed.
Lemma fresh_mod n f v : size v = n -> few n -> goods v -> (forall j, (j < n)%N -> v2R (nth d0 v j) <= 1) -> moderate n f ->
  forall j, (j < n)%N -> [/\ good (fresh f v j), v2R (fresh f v j) <= bpow radix2 930 &
    match f with
    | HTrans a => forall i, (i < n)%N -> round radix2 (FLT_exp (-1074) 53) ZnearestE (v2R (a j i) * v2R (nth d0 v i)) <= v2R (fresh f v j)
    | HLike l => v2R (fresh f v j) = round radix2 (FLT_exp (-1074) 53) ZnearestE (v2R (l j) * v2R (nth d0 v j))
    end].
Proof.
move=> hs hn hg h1; case: f => [a|l] hm j hj /=.
  have hp i : List.In i (iota 0 n) -> [/\ good (dmul (a j i) (nth d0 v i)), v2R (dmul (a j i) (nth d0 v i)) <= bpow radix2 901 &
      v2R (dmul (a j i) (nth d0 v i)) = round radix2 (FLT_exp (-1074) 53) ZnearestE (v2R (a j i) * v2R (nth d0 v i))].
    move/In_iota=> hi; have [ga ba] := hm j i hj hi; have gv : good (nth d0 v i) by apply: goods_nth; rewrite ?hs.
    have v2 : v2R (nth d0 v i) <= 2 by have := h1 i hi; lra.
    have [p1 p2 p3 p4 p5] := prod_mod gv ga v2 ba.
    by split=> //; rewrite p4 // p3 Rmult_comm.
  rewrite hs; set ms := [seq _ | i <- _].
  have gm : goods ms by apply: goods_map => i /hp [].
  have sm : size ms = n by rewrite size_map size_iota.
  have tm : total ms <= bpow radix2 923.
    rewrite total_seq; apply: Rle_trans (_ : INR n * bpow radix2 901 <= _); last exact: few_bpow.
    by rewrite -{2}[n](size_iota 0); apply: rsum_le => i /hp [].
  have fm : is_finite (d_sum ms) = true.
    by apply: sum_fin => //; [rewrite sm|apply: Rle_trans tm _; apply: bpow_le; lia].
  have [gs _ [_ s2]] := fold_err good0 gm fm; rewrite -/(d_sum ms) v2R0 Rplus_0_l in gs s2.
  split=> //.
    have [_ ha] := fewP hn; have hp2 : (1 + uu) ^ size ms <= 2.
      rewrite sm; apply: Rle_trans (pow_hi _) _; first lra.
      by rewrite -[2]Rinv_inv; apply: Rinv_le_contravar; lra.
    apply: Rle_trans s2 _; apply: Rle_trans (_ : bpow radix2 923 * 2 <= _).
      by apply: Rmult_le_compat => //; [exact: total_ge0|have := pow_ge1 (size ms); lra].
    by rewrite Rmult_comm -bpow_S; apply: bpow_le; lia.
  move=> i hi; have hin : List.In i (iota 0 n) by apply/In_iota.
  have [_ _ <-] := hp i hin; apply: (fold_mem good0 gm fm); apply/List.in_map_iff; by exists i.
have [gl bl] := hm j hj; have gv : good (nth d0 v j) by apply: goods_nth; rewrite ?hs.
have v2 : v2R (nth d0 v j) <= 2 by have := h1 j hj; lra.
have [p1 p2 p3 p4 p5] := prod_mod gv gl v2 bl.
by split=> //; [apply: Rle_trans p5 _; apply: bpow_le; lia|rewrite p3 Rmult_comm].
Qed.
Lemma mod_fits n f : moderate n f -> fits n f.
Proof. by case: f => [a|l] h /=; [move=> j i hj hi; case: (h j i hj hi)|move=> j hj; case: (h j hj)]. Qed.
Lemma near_total n rs ps : few n -> size ps = n -> List.Forall2 (near n) rs ps -> rsum rs = 1 -> Rabs (total ps - 1) <= tol n.
Proof.
move=> hn hs hf hr; have [_ _ [h1 h2]] := near_sum hf; rewrite hs hr !Rmult_1_l in h1 h2.
have [l1 l2] := lo_ge hn; have [i1 i2] := hi_le hn; have [hN [ha0 ha]] := fewP hn; have hu := uu_lt.
have he : INR n * ee <= / 100 * uu.
  apply: Rle_trans (_ : 4194304 * / IZR (2 ^ 100) <= _).
    by apply: Rmult_le_compat => //; [exact: pos_INR|have := ee_gt0; lra|exact: ee_small].
  exact: tiny.
by apply: Rabs_le; rewrite /tol -uu_val Rmult_plus_distr_r Rmult_assoc; lra.
Qed.

(** As long as one product does not underflow, the update leaves a proper
    distribution and a proper table. *)
Theorem C85_alive d f (n := size (dd_v d)) : few n -> goods (dd_v d) -> (forall j, (j < n)%N -> shown d j <= 1) ->
  moderate n f -> visible n f (shown d) ->
  exists d', [/\ h_step d f = Ok (true, d'), size (dd_v d') = n,
    (forall j, (j < n)%N -> good (nth d0 (dd_v d') j) /\ shown d' j <= 1) /\ Rabs (total (dd_v d') - 1) <= tol n &
    (exists ex, follows n ex (dd_c d')) /\ nth d0 (dd_c d') n = d1].
Proof.
move=> hn hg h1 hm hv; have hF := fresh_mod erefl hn hg h1 hm.
set new := freshes f (dd_v d).
have snew : size new = n by rewrite size_map size_iota.
have gnew : goods new by apply: goods_map => j /In_iota /hF [].
have nnew j : (j < n)%N -> nth d0 new j = fresh f (dd_v d) j by move=> hj; rewrite (nth_map 0%N) ?size_iota // nth_iota.
have tnew : 0 < total new <= bpow radix2 1022.
  split.
    have hb := bpow_gt_0 radix2 (-1074).
    have [j hj h] : exists2 j, (j < n)%N & bpow radix2 (-1074) <= v2R (fresh f (dd_v d) j).
      clear -hF hv; case: f hF hv => [a|l] hF /=.
        move=> [j [i [hj hi h]]]; exists j => //; have [_ _ hh] := hF j hj; apply: Rle_trans (hh i hi); exact: rnd_over.
      by move=> [j [hj h]]; exists j => //; have [_ _ ->] := hF j hj; exact: rnd_over.
    rewrite -nnew // in h; apply: Rlt_le_trans hb _; apply: Rle_trans h _; apply: total_nth => //; by rewrite snew.
  rewrite /new /freshes total_seq -/n; apply: Rle_trans (_ : INR n * bpow radix2 930 <= _).
    by rewrite -{2}[n](size_iota 0); apply: rsum_le => j /In_iota /hF [].
  by apply: Rle_trans (few_bpow _ hn) _; apply: bpow_le; lia.
have hn' : few (size new) by rewrite snew.
have [c [c1 c2 c3]] := set_okE (snew : size new = size (dd_v d)) hn' gnew tnew.
have [nF _] := norm_ok hn' gnew tnew.
set ps := [seq ddiv x (d_sum new) | x <- new] in c1 nF *; rewrite snew in c2 c3 nF.
have sps : size ps = n by rewrite size_map.
exists (DDisc ps c); split; [|exact: sps|split|].
- rewrite stepE; first by rewrite -/new c1.
    exact: mod_fits.
  by move=> j /hF [].
- move=> j hj; have [t0 t1] := tnew; have hin : List.In (nth d0 new j) new by apply: nth_In; rewrite snew.
  have [[_ g _] b] := div_near gnew hn' (sum_fin gnew hn' t1) t0 hin.
  by rewrite /shown /= (nth_map d0) ?snew.
- apply: (near_total hn sps nF); rewrite total_map /Rdiv Rinv_r //; case: tnew => t0 _; lra.
- by split; [exists (share new)|].
Qed.

Lemma zero_step d f (n := size (dd_v d)) : fits n f ->
  (forall j, (j < n)%N -> good (fresh f (dd_v d) j) /\ v2R (fresh f (dd_v d) j) = 0) ->
  exists d', h_step d f = Ok (true, d') /\ all_zero n d' /\ dd_c d' = dd_c d.
Proof.
move=> hf hz; set new := freshes f (dd_v d); have snew : size new = n by rewrite size_map size_iota.
have gnew : goods new by apply: goods_map => j /In_iota /hz [].
have t0 : total new = 0.
  rewrite /new /freshes total_seq -/n; have : forall j, List.In j (iota 0 n) -> v2R (fresh f (dd_v d) j) = 0 by move=> j /In_iota /hz [].
  by elim: (iota 0 n) => [|j l IH] h //=; rewrite h ?IH; [lra|move=> i hi; apply: h; right|left].
exists (DDisc new (dd_c d)); split; first by rewrite stepE ?(C79_zero (snew : size new = size (dd_v d))) // => j /hz [].
split=> //; split=> // j hj; rewrite /shown /= /new /freshes (nth_map 0%N) ?size_iota // nth_iota //; exact: hz.
Qed.
(** Products below half the smallest positive double vanish: all probabilities
    become 0, the table keeps the old distribution, Update returns true. *)
Theorem C85_underflow d l (n := size (dd_v d)) : goods (dd_v d) -> (forall j, (j < n)%N -> shown d j < / 2) ->
  (forall j, (j < n)%N -> good (l j) /\ v2R (l j) <= bpow radix2 (-1074)) ->
  exists d', h_step d (HLike l) = Ok (true, d') /\ all_zero n d' /\ dd_c d' = dd_c d.
Proof.
move=> hg h2 hl; apply: zero_step => [j /hl [] //|j hj]; have [gl bl] := hl j hj.
have gv : good (nth d0 (dd_v d) j) by exact: goods_nth.
have bl' : v2R (l j) <= bpow radix2 900 by apply: Rle_trans bl _; apply: bpow_le; lia.
have hj2 := h2 j hj; rewrite /shown in hj2.
have v2 : v2R (nth d0 (dd_v d) j) <= 2 by lra.
have [p1 p2 p3 _ _] := prod_mod gv gl v2 bl'; split=> //; rewrite /= p3; apply: rnd_under.
case: gv => _ v0; case: gl => _ l0; split; first exact: Rmult_le_pos.
have -> : bpow radix2 (-1075) = / 2 * bpow radix2 (-1074).
  by rewrite -[(-1074)%Z]/(-1075 + 1)%Z bpow_S; lra.
have b0 := bpow_gt_0 radix2 (-1074).
apply: Rle_lt_trans (_ : v2R (nth d0 (dd_v d) j) * bpow radix2 (-1074) < _); first by apply: Rmult_le_compat_l.
by apply: Rmult_lt_compat_r.
Qed.
(** and no later update brings the filter back *)
Theorem C85_forever n d fs : few n -> all_zero n d -> (forall f, List.In f fs -> moderate n f) ->
  exists d', h_run d fs = Ok (nseq (size fs) true, d') /\ all_zero n d' /\ dd_c d' = dd_c d.
Proof.
move=> hn; elim: fs d => [|f fs IH] d hz hm; first by exists d.
have [hs hz'] := hz; have hmf := hm f (or_introl erefl); have hg : goods (dd_v d).
  by move=> x /(In_nth_ex d0) [j hj <-]; case: (hz' j); rewrite -?hs.
have h1 j : (j < n)%N -> shown d j <= 1 by move=> hj; have [_ ->] := hz' j hj; lra.
have hF := fresh_mod hs hn hg h1 hmf.
have [|j|d1 [e1 [z1 c1]]] := @zero_step d f; rewrite ?hs; first exact: mod_fits.
  move=> hj; have [g _ e] := hF j hj; split=> //.
  case: f hmf hF g e {hm} => [a|l] hmf hF g e; last by rewrite e; have [_] := hz' j hj; rewrite /shown => ->; rewrite Rmult_0_r round_0.
  rewrite /= hs; set ms := [seq _ | i <- _].
  have hp i : List.In i (iota 0 n) -> good (dmul (a j i) (nth d0 (dd_v d) i)) /\ v2R (dmul (a j i) (nth d0 (dd_v d) i)) = 0.
    move/In_iota=> hi; have [ga ba] := hmf j i hj hi; have [gv vz] := hz' i hi; rewrite /shown in vz.
    have v2 : v2R (nth d0 (dd_v d) i) <= 2 by lra.
    have [p1 p2 p3 p4 _] := prod_mod gv ga v2 ba.
    by rewrite p4 p3 vz Rmult_0_l round_0.
  have gm : goods ms by apply: goods_map => i /hp [].
  have tm : total ms = 0.
    rewrite total_seq; elim: (iota 0 n) hp => [|i l IHl] h //=; have [_ ->] := h i (or_introl erefl).
    by rewrite IHl; [lra|move=> k hk; apply: h; right].
  have [fm _] : good (d_sum ms) by rewrite /= hs in g.
  by have [[_ s0] _ [_ s2]] := fold_err good0 gm fm; rewrite -/(d_sum ms) v2R0 tm Rplus_0_l Rmult_0_l in s0 s2; apply: Rle_antisym.
rewrite hs in z1; have [d' [e2 [z2 c2]]] := IH d1 z1 (fun g hg' => hm g (or_intror hg')).
exists d'; split; last by split=> //; rewrite c2.
by rewrite /h_run [runO _ _ _]/= e1 [obind (Ok _) _]/= -/h_run e2.
Qed.

(** Finding: a measurement of positive likelihood, the same for every state, wipes out
    the uniform distribution for good; Bayes' rule leaves it as it is. *)
Lemma nth_nseq_lt n j (x : double) : (j < n)%N -> nth d0 (nseq n x) j = x.
Proof. by move=> h; rewrite nth_nseq h. Qed.
Definition least : double := dlit 1 (-1074).
Lemma least_val : good least /\ v2R least = bpow radix2 (-1074).
Proof.
have [|f v] := @v2R_SF least false 1 (-1074); first by vm_compute.
have e : v2R least = bpow radix2 (-1074) by rewrite v /F2R /= Rmult_1_l.
by split=> //; split; [exact: f|rewrite e; exact: bpow_ge_0].
Qed.
Theorem C85_collapse_refuted n : (3 <= n)%N -> few n -> exists d l d',
  [/\ d_new n = Ok d, forall j, (j < n)%N -> good (l j) /\ 0 < v2R (l j),
      forall j, (j < n)%N -> bayes n (exact (dd_v d)) (HLike l) j = / INR n,
      h_step d (HLike l) = Ok (true, d') /\ all_zero n d' &
      forall fs, (forall f, List.In f fs -> moderate n f) ->
        exists d2, h_run d' fs = Ok (nseq (size fs) true, d2) /\ all_zero n d2].
Proof.
move=> h3 hn; have n0 : (0 < n)%N by exact: leq_trans h3.
have [d [e1 e2 [g /Rabs_le_inv b] _ _]] := C79_new n0 hn; have [gl vl] := least_val.
have hN : 3 <= INR n by have := le_INR 3 n (elimT leP h3); rewrite /=; lra.
have hi : 0 < / INR n <= / 3 by split; [apply: Rinv_0_lt_compat; lra|apply: Rinv_le_contravar; lra].
set x := ddiv d1 (dnat n) in e2 g b.
have hx : 0 < v2R x < / 2.
  have [hF _] := fewP hn; have hu := uu_lt; have hb : bpow radix2 (-1074) <= / 1000 * uu.
    by have := tiny_sub; move: (bpow _ _) => t; lra.
  rewrite -uu_val in b; have hun : 0 <= INR n * uu <= / 1000.
    by have [_ h] := fewP hn; lra.
  have eb : / INR n * ((INR n + 2) * uu) = uu + 2 * (/ INR n * uu) by field; lra.
  rewrite eb in b.
  have : / INR n * uu <= / 3 * uu by apply: Rmult_le_compat_r; lra.
  have : / 5000000 <= / INR n by apply: Rinv_le_contravar; lra.
  move: (bpow _ _) b hb hu uu_tiny => t b hb hu ut; clear -b hb hu hi ut => q1 q2; split; lra.
have sv : size (dd_v d) = n by rewrite e2 size_nseq.
have gv : goods (dd_v d) by move=> y hy; rewrite e2 in hy; rewrite (In_nseq hy).
have [|j|d' [s1 [s2 _]]] := C85_underflow (l := fun _ => least) gv; rewrite ?sv.
- by move=> j hj; rewrite /shown e2 nth_nseq_lt //; lra.
- by move=> _; split; [exact: gl|rewrite vl; lra].
rewrite sv in s2; exists d, (fun _ => least), d'; split=> //.
- by move=> j _; split; [exact: gl|rewrite vl; exact: bpow_gt_0].
- move=> j hj; have hl : 0 < v2R least by rewrite vl; exact: bpow_gt_0.
  have tx : total (dd_v d) = INR n * v2R x.
    by rewrite e2 /total map_nseq rsum_nseq.
  have ex i : (i < n)%N -> exact (dd_v d) i = / INR n.
    by move=> hi'; rewrite /exact tx e2 nth_nseq_lt //; field; lra.
  rewrite /bayes /weight ex // (@over_ext _ _ (fun _ => v2R least * / INR n)); last by move=> i hi'; rewrite ex.
  have -> : over n (fun _ => v2R least * / INR n) = INR n * (v2R least * / INR n).
    by rewrite /over; move: (_ * _) => r; elim: (n) 0%N => [|m IH] k; [rewrite /=; lra|rewrite S_INR [iota _ _]/= [rsum _]/= IH; lra].
  by field; lra.
- by move=> fs hfs; have [d2 [r1 [r2 _]]] := C85_forever hn s2 hfs; exists d2.
Qed.

(** ** Examples: two states, a prediction and a measurement *)
Definition quarter : double := dlit 1 (-2).
Definition threeq : double := dlit 3 (-2).
Definition one_half : double := dlit 1 (-1).
Definition pair2 : ddisc := DDisc [:: one_half; one_half] [::].
Definition turn (j i : nat) : double := if j == i then threeq else quarter.
Definition seen (j : nat) : double := if j == 0%N then one_half else quarter.
Lemma lits : [/\ good quarter /\ v2R quarter = / 4, good threeq /\ v2R threeq = 3 / 4 & good one_half /\ v2R one_half = / 2].
Proof.
have [|f1 v1] := @v2R_SF quarter false 4503599627370496 (-54); first by vm_compute.
have [|f2 v2] := @v2R_SF threeq false 6755399441055744 (-53); first by vm_compute.
have [|f3 v3] := @v2R_SF one_half false 4503599627370496 (-53); first by vm_compute.
Local Transparent bpow IZR.
have e1 : v2R quarter = / 4 by rewrite v1 /F2R /=; lra.
have e2 : v2R threeq = 3 / 4 by rewrite v2 /F2R /=; lra.
have e3 : v2R one_half = / 2 by rewrite v3 /F2R /=; lra.
by split; split=> //; split; rewrite ?f1 ?f2 ?f3 ?e1 ?e2 ?e3 //; lra.
Qed.
Local Opaque bpow IZR.
Lemma tame_mid r : / 16 <= r <= 1 -> tame r.
Proof.
move=> h; right; have := @bpow_le radix2 (-1000) (-4) ltac:(lia); have := @bpow_le radix2 0 900 ltac:(lia).
rewrite -[bpow radix2 (-4)]/(/ 16) -[bpow radix2 0]/1; move: (bpow _ _) (bpow _ _) => a b; lra.
Qed.
Example C84_example : exists d', [/\ h_run pair2 [:: HTrans turn; HLike seen] = Ok ([:: true; true], d') &
  Rabs (v2R (nth d0 (dd_v d') 0) - 2 / 3) <= 2 / 3 * relative 19].
Proof.
have [[gq vq] [gt vt] [gh vh]] := lits; have hu := uu_lt.
have tt : total (dd_v pair2) = 1 by rewrite /total /= vh; lra.
have p0 j : (j < 2)%N -> exact (dd_v pair2) j = / 2 by rewrite /exact tt; case: j => [|[|j]] //= _; rewrite vh; lra.
have b0 : bayes 2 (exact (dd_v pair2)) (HTrans turn) 0 = / 2 by rewrite /bayes /over /= /over /= !p0 // /turn /= vt vq; field.
have b1 : bayes 2 (exact (dd_v pair2)) (HTrans turn) 1 = / 2 by rewrite /bayes /over /= /over /= !p0 // /turn /= vt vq; field.
have few2 : few 2 by rewrite /few /=; lia.
have gp : goods (dd_v pair2) by move=> x /= [<-|[<-|//]].
have tr : tame_run 2 (exact (dd_v pair2)) [:: HTrans turn; HLike seen].
  have good_turn j i : good (turn j i) by rewrite /turn; case: eqP.
  have good_seen j : good (seen j) by rewrite /seen; case: eqP.
  split; [split|split=> //; split].
  - move=> j i hj hi; split=> //; rewrite p0 // /turn; case: eqP => _; rewrite ?vt ?vq; apply: tame_mid; lra.
  - by rewrite /over /= /over /= !p0 // /turn /= vt vq; lra.
  - by case=> [|[|j]] // _; rewrite ?b0 ?b1; apply: tame_mid; lra.
  - by case=> [|[|j]] // _; split=> //; rewrite ?b0 ?b1 /seen /= ?vh ?vq; apply: tame_mid; lra.
  - by move: (bayes 2 _ _) b0 b1 => q b0 b1; rewrite /over /= b0 b1 /seen /= vh vq; lra.
  - by move: (bayes 2 _ _) b0 b1 => q b0 b1; case=> [|[|j]] // _; rewrite /bayes /over /= b0 b1 /seen /= vh vq; apply: tame_mid; lra.
have [|//||d' [h1 _ h2 _ _]] := @C84_accuracy pair2 _ few2 gp _ _ tr.
- by rewrite tt Rminus_eq_0 Rabs_R0; lra.
- by rewrite /roundings /=; lia.
exists d'; split; first exact: h1.
have [_] := h2 0%N isT; have -> : bayes_run (size (dd_v pair2)) (exact (dd_v pair2)) [:: HTrans turn; HLike seen] 0 = 2 / 3.
  rewrite /bayes_run [foldl _ _ _]/=; move: (bayes 2 _ (HTrans turn)) b0 b1 => q b0 b1.
  by rewrite /bayes /over /= b0 b1 /seen /= vh vq; field.
exact.
Qed.
Example C85_alive_example : exists d', h_step pair2 (HLike seen) = Ok (true, d') /\ Rabs (total (dd_v d') - 1) <= tol 2.
Proof.
have [[gq vq] [gt vt] [gh vh]] := lits.
have few2 : few 2 by rewrite /few /=; lia.
have gp : goods (dd_v pair2) by move=> x /= [<-|[<-|//]].
have s1 j : (j < 2)%N -> shown pair2 j = / 2 by case: j => [|[|j]] //= _; rewrite /shown /= vh.
have hb := @bpow_le radix2 0 900 ltac:(lia); rewrite -[bpow radix2 0]/1 in hb.
have hm : moderate 2 (HLike seen).
  by move=> j hj; rewrite /seen; case: eqP => _; split=> //; rewrite ?vh ?vq; move: (bpow _ _) hb => b; lra.
have hv : visible 2 (HLike seen) (shown pair2).
  exists 0%N; split=> //; rewrite s1 // /seen /= vh; have := @bpow_le radix2 (-1074) (-4) ltac:(lia).
  by rewrite -[bpow radix2 (-4)]/(/ 16); move: (bpow _ _) => b; lra.
have [|d' [h1 _ [_ h2] _]] := @C85_alive pair2 _ few2 gp _ hm hv; first by move=> j hj; rewrite s1 //; lra.
exists d'; split; [exact: h1|exact: h2].
Qed.
Example C85_forever_example : exists d l d' d2,
  [/\ d_new 4 = Ok d, h_step d (HLike l) = Ok (true, d'), h_run d' [:: HTrans turn; HLike seen] = Ok ([:: true; true], d2) & all_zero 4 d2].
Proof.
have [[gq vq] [gt vt] [gh vh]] := lits; have few4 : few 4 by rewrite /few /=; lia.
have hb := @bpow_le radix2 0 900 ltac:(lia); rewrite -[bpow radix2 0]/1 in hb.
have [d [l [d' [h1 h2 h3 [h4 h5] h6]]]] := C85_collapse_refuted (isT : (3 <= 4)%N) few4.
have [|d2 [h7 h8]] := h6 [:: HTrans turn; HLike seen]; last first.
  exists d, l, d', d2; split; [exact: h1|exact: h4|exact: h7|exact: h8].
clear -gq vq gt vt gh vh hb => f; case=> [<-|[<-|[]]].
  by move=> j i _ _; rewrite /turn; case: eqP => _; split=> //; rewrite ?vt ?vq; move: (bpow _ _) hb => b; lra.
by move=> j _; rewrite /seen; case: eqP => _; split=> //; rewrite ?vh ?vq; move: (bpow _ _) hb => b; lra.
Qed.
Print Assumptions C84_accuracy.
Print Assumptions C85_alive.
Print Assumptions C85_underflow.
Print Assumptions C85_forever.
Print Assumptions C85_collapse_refuted.
