(** * Proofs: combined updates of the particle weights in doubles (C110) *)
From Coq Require Import ZArith Reals Lra Lia.
From Flocq Require Import Core.Core BinarySingleNaN.
From mathcomp Require Import all_ssreflect.
From Verif Require Import Outcome ModelDouble SpecDouble ProofsDouble PropertiesDouble
  ModelDoubleHist SpecDoubleHist ProofsDoubleHist PropertiesDoubleHist ModelDoublePF SpecDoublePF ProofsDoublePF
  ModelDoubleKF SpecDoubleKF ProofsDoubleKF ModelDoubleProp SpecDoubleProp.
Set Implicit Arguments. Unset Strict Implicit. Unset Printing Implicit Defensive.
Local Open Scope R_scope.
Local Opaque d0 d1 dprec dlit dadd dsub dmul ddiv dle dlt bpow IZR.

Lemma ap_mul k l a b c d : approx k a b -> approx l c d -> approx (k + l) (a * c) (b * d).
Proof.
move=> h1 h2; have [a0 _ _] := h1; have [c0 _ _] := h2; have b0 := ap_ge0 h1.
apply: (@ap_trans _ _ _ (b * c)); last exact: ap_scale.
by rewrite Rmult_comm [b * c]Rmult_comm; exact: ap_scale.
Qed.

Lemma mid_ge0 r : mid r -> 0 <= r.
Proof. by case=> [->|[h _]]; [lra|have := bpow_gt_0 radix2 (-990); lra]. Qed.

Lemma mid_near k r v : mid r -> approx k r v -> / 2 <= qq ^ k ->
  v = 0 \/ bpow radix2 (-991) <= v <= bpow radix2 891.
Proof.
move=> hm hv hq; have v0 := ap_ge0 hv; have [q0 q1] := qq_pow k; case: hv => r0 h1 h2.
have e1 : bpow radix2 (-990) = 2 * bpow radix2 (-991) by rewrite -[2]/(bpow radix2 1) -bpow_plus.
have e2 : bpow radix2 891 = 2 * bpow radix2 890 by rewrite -[2]/(bpow radix2 1) -bpow_plus.
case: hm => [e|[m1 m2]]; [left|right].
  by apply: Rle_antisym => //; apply: (Rmult_le_reg_r (qq ^ k)) => //; rewrite Rmult_0_l -e.
have h3 : r * / 2 <= r * qq ^ k by apply: Rmult_le_compat_l.
have h4 : v * / 2 <= v * qq ^ k by apply: Rmult_le_compat_l.
split; lra.
Qed.

Lemma mid_tame k r v : mid r -> approx k r v -> / 2 <= qq ^ k -> tame v.
Proof.
move=> hm hv hq; case: (mid_near hm hv hq) => [->|[h1 h2]]; [by left|right].
have := @bpow_le radix2 (-1000) (-991) ltac:(lia); have := @bpow_le radix2 891 900 ltac:(lia); lra.
Qed.

Lemma mid_rng k r v : mid r -> approx k r v -> / 2 <= qq ^ k -> rng (-1022) 1000 v.
Proof.
move=> hm hv hq; have v0 := ap_ge0 hv; case: (mid_near hm hv hq) => [->|[h1 h2]]; [by left|right].
rewrite Rabs_pos_eq //.
have := @bpow_le radix2 (-1022) (-991) ltac:(lia); have := @bpow_le radix2 891 1000 ltac:(lia); lra.
Qed.

Lemma rng_small r : rng (-1022) 1000 r -> small r.
Proof.
case=> [->|[_ h]] //; rewrite /small Rabs_R0; exact: bpow_ge_0.
Qed.

Lemma deq0 x : is_finite x = true -> deq x d0 = true <-> v2R x = 0.
Proof.
move=> fx; have f0 : is_finite d0 = true by case: good0.
rewrite /deq (Beqb_correct 53 1024 x d0 fx f0) -/(v2R x) -/(v2R d0) v2R0.
by case: Req_bool_spec.
Qed.

(** ** The factor *)
Lemma factor_ok l f g : good l -> good f -> good g ->
  (v2R g <> 0 -> mid (v2R f / v2R g) /\ mid (v2R l * (v2R f / v2R g))) ->
  exists L, [/\ c_factor l f g = Ok L, good L & approx 2 (importance (v2R l) (v2R f) (v2R g)) (v2R L)].
Proof.
move=> gl gf gg hm; rewrite /c_factor (prob_ok gl) (prob_ok gg) [obind (Ok _) _]/=.
have [fg g0] := gg; have [fl l0] := gl; have [ff f0] := gf.
rewrite /importance; case: Req_EM_T => [e|ne].
  have -> : deq g d0 = true by apply/deq0.
  exists d0; split; [by []|exact: good0|rewrite v2R0; apply: (@ap_weaken 0) => //; apply: ap_refl; lra].
have -> : deq g d0 = false by apply/negbTE/negP => /(deq0 fg).
rewrite [~~ false]/= (prob_ok gf) [obind (Ok _) _]/=.
have [m1 m2] := hm ne.
have q1 : / 2 <= qq ^ 1 by apply: qqk.
have q0 : / 2 <= qq ^ 0 by rewrite /=; lra.
have r0 : 0 <= v2R f / v2R g := mid_ge0 m1.
have g1 := mid_rng m1 (ap_refl r0) q0.
have [f1 e1] := divS ff ne (rng_small g1).
have a1 : approx 1 (v2R f / v2R g) (v2R (ddiv f g)) by rewrite e1; apply: rel_ap => //; exact: rnd_relS.
have gr : good (ddiv f g) by split=> //; exact: ap_ge0 a1.
rewrite (prob_ok gr) [obind (Ok _) _]/=.
have a2 : approx 1 (v2R l * (v2R f / v2R g)) (v2R l * v2R (ddiv f g)) := ap_scale l0 a1.
have g2 := mid_rng m2 a2 q1.
have [f2 e2] := mulS fl f1 (rng_small g2).
have a3 : approx 1 (v2R l * v2R (ddiv f g)) (v2R (dmul l (ddiv f g))).
  by rewrite e2; apply: rel_ap; [exact: ap_ge0 a2|exact: rnd_relS].
have gL : good (dmul l (ddiv f g)) by split=> //; exact: ap_ge0 a3.
exists (dmul l (ddiv f g)); split; [exact: prob_ok|by []|exact: ap_trans a2 a3].
Qed.

(** ** Exact weights with nearly the same factors *)
Section Near.
Variables (n : nat).
Definition near (a : nat) (p q : nat -> R) : Prop :=
  [/\ over n p = 1, over n q = 1 & exists2 c, 0 < c & forall j, (j < n)%N -> approx a (c * p j) (q j)].
Lemma near_ap a p q j : near a p q -> (j < n)%N -> approx (a + a) (p j) (q j).
Proof.
move=> [h1 h2 [c c0 h]] hj.
have h3 : approx a c 1 by rewrite -h2 -[c]Rmult_1_r -h1 -over_scale; apply: ap_over => i; exact: h.
have p0 : 0 <= p j by have [h4 _ _] := h j hj; apply: (Rmult_le_reg_l c) => //; rewrite Rmult_0_r.
apply: ap_trans (h j hj); rewrite -{1}[p j]Rmult_1_r [c * _]Rmult_comm; apply: ap_scale => //; exact: ap_sym.
Qed.
Lemma near_weaken a b p q : (a <= b)%N -> near a p q -> near b p q.
Proof. by move=> h [h1 h2 [c c0 h3]]; split=> //; exists c => // j /h3; exact: ap_weaken. Qed.
Lemma near_ext a p p' q : (forall j, (j < n)%N -> p j = p' j) -> near a p q -> near a p' q.
Proof.
move=> e [h1 h2 [c c0 h3]]; split=> //; first by rewrite -h1; apply: over_ext => i /e.
by exists c => // j hj; rewrite -e //; exact: h3.
Qed.
Lemma even_sum : (0 < n)%N -> over n (even n) = 1.
Proof.
move=> n0; rewrite /even over_const Rinv_r //; apply: not_0_INR => e; by rewrite e in n0.
Qed.
Lemma near_refl p : over n p = 1 -> (forall j, (j < n)%N -> 0 <= p j) -> near 0 p p.
Proof. by move=> h h0; split=> //; exists 1; [lra|move=> j hj; rewrite Rmult_1_l; apply: ap_refl; exact: h0]. Qed.
Lemma near_drawn a p q o : (0 < n)%N -> near a p q -> near a (drawn n p o) (drawn n q o).
Proof.
move=> n0; case: o => [l|] //= _; apply: (@near_weaken 0) => //; apply: near_refl; first exact: even_sum.
by move=> j _; apply/Rlt_le/Rinv_0_lt_compat/lt_0_INR/ltP.
Qed.
Lemma reweigh_sum t p : 0 < over n (fun i => t i * p i) -> over n (reweigh n t p) = 1.
Proof.
move=> h; rewrite (@over_ext _ _ (fun j => / over n (fun i => t i * p i) * (t j * p j))).
  by rewrite over_scale Rinv_l //; lra.
by move=> i _; rewrite /reweigh /Rdiv Rmult_comm.
Qed.
Lemma near_rew a b p q t u (W := over n (fun i => t i * p i)) (V := over n (fun i => u i * q i)) :
  near a p q -> (forall j, (j < n)%N -> approx b (t j) (u j)) -> 0 < W ->
  0 < V /\ near (a + b) (reweigh n t p) (reweigh n u q).
Proof.
move=> [h1 h2 [c c0 h]] ht W0.
have hp j : (j < n)%N -> approx (a + b) (c * (t j * p j)) (u j * q j).
  move=> hj; have -> : c * (t j * p j) = (c * p j) * t j by ring.
  rewrite [u j * _]Rmult_comm; exact: ap_mul (h j hj) (ht j hj).
have hs : approx (a + b) (c * W) V by rewrite /W -over_scale; exact: ap_over.
have cW : 0 < c * W by exact: Rmult_lt_0_compat.
have [V0 _] := ap_inv cW hs; split=> //; split; [exact: reweigh_sum|exact: reweigh_sum|].
have iV : 0 < / V by exact: Rinv_0_lt_compat.
exists (c * W * / V); first exact: Rmult_lt_0_compat.
move=> j hj; rewrite /reweigh -/W -/V.
have -> : c * W * / V * (t j * p j / W) = / V * (c * (t j * p j)) by field; lra.
by rewrite /Rdiv [X in approx _ _ X]Rmult_comm; apply: ap_scale; [lra|exact: hp].
Qed.
End Near.

(** ** One update *)
Section Step.
Variables (sq : double -> double) (root : double -> nat -> double) (sc : scheme) (n : nat).
Hypotheses (n0 : (0 < n)%N) (hn : few n).

Lemma low a b : (a <= b)%N -> INR b * uu <= / 2 -> / 2 <= qq ^ a.
Proof. by move=> h hb; apply: qq_low; exact: INR_leq hb. Qed.

Lemma meas_tame a b p q t (l : nat -> double) us : near n a p q -> / 2 <= qq ^ (2 * (a + b)) ->
  (forall j, (j < n)%N -> good (l j) /\ approx b (t j) (v2R (l j))) ->
  (forall j, (j < n)%N -> mid (t j * p j)) -> 0 < over n (fun i => t i * p i) ->
  (forall j, (j < n)%N -> mid (reweigh n t p j)) ->
  pf_tame n q (PMeas l us) /\ near n (a + b) (reweigh n t p) (reweigh n (fun j => v2R (l j)) q).
Proof.
move=> hN hq hl hm W0 hr.
have [V0 hN2] := near_rew hN (fun j hj => (hl j hj).2) W0; split=> //; split=> //.
  move=> j hj; have [g e] := hl j hj; split=> //.
  have h1 := ap_mul e (near_ap hN hj); apply: mid_tame (hm j hj) h1 _.
  apply: Rle_trans hq _.
  set X := (b + (a + a))%N; have -> : (2 * (a + b) = Nat.add X b)%N by rewrite /X -!plusE -!multE; lia.
  rewrite pow_add; have [x0 x1] := qq_pow X; have [y0 y1] := qq_pow b.
  by rewrite -[X in _ <= X]Rmult_1_r; apply: Rmult_le_compat_l; lra.
move=> j hj; apply: mid_tame (hr j hj) (near_ap hN2 hj) _.
by have -> : (a + b + (a + b) = 2 * (a + b))%N by rewrite mul2n -addnn.
Qed.

Lemma sys_tame a p q us : near n a p q -> / 2 <= qq ^ (a + a) -> (forall j, (j < n)%N -> mid (p j)) -> pf_tame n q (PSys us).
Proof. by move=> hN hq hm j hj; exact: mid_tame (hm j hj) (near_ap hN hj) hq. Qed.

Lemma nextS q us o : pf_next n q (PSys us) o = drawn n q o. Proof. by case: o. Qed.
Lemma nextM q l us o : pf_next n q (PMeas l us) o = drawn n (reweigh n (fun j => v2R (l j)) q) o. Proof. by case: o. Qed.

Lemma rew1 p j : over n p = 1 -> reweigh n (fun _ => 1) p j = p j.
Proof.
move=> h; rewrite /reweigh (@over_ext _ _ p); last by move=> i _; rewrite Rmult_1_l.
by rewrite h; field.
Qed.

Lemma cstep_ok k a p q s u b o s' : (0 < k)%N -> INR (k + 2 * (n + 2) + n + 2 * (a + 2)) * uu <= / 2 ->
  inv n k q (pf_d s) -> near n a p q -> c_mid n p u o -> c_step sq root sc s u = Ok ((b, o), s') ->
  b = true /\ exists2 q', tidy n (k + 2 * (n + 2)) q' (pf_d s') & near n (a + 2) (c_next n p u o) q'.
Proof.
move=> k0 hB hI hN [hu hm W0 hr].
have hK : INR (k + 2 * n + 1) * uu <= / 2 by apply: INR_leq hB; apply/leP; rewrite -!plusE -!multE; lia.
have hq2 : / 2 <= qq ^ (2 * (a + 2)) by apply: low hB; apply/leP; rewrite -!plusE -!multE; lia.
have hq1 : / 2 <= qq ^ (2 * (a + 0)) by apply: low hB; apply/leP; rewrite -!plusE -!multE; lia.
have hq0 : / 2 <= qq ^ (a + a) by apply: low hB; apply/leP; rewrite -!plusE -!multE; lia.
have kk : (k + (n + 2) <= k + 2 * (n + 2))%N by rewrite leq_add2l mul2n -addnn leq_addr.
case: u hu hm W0 hr => [[us|l us]|us0 l f g us] hu hm W0 hr; rewrite /c_step.
- case E: (p_step _ _ _ _ _) => [[[b1 o1] s1]||] //= -[eb eo es]; rewrite -{}eb -{}es; rewrite -eo in hm W0 hr *.
  have hT := sys_tame us hN hq0 (fun j hj => (hm j hj).1).
  have [-> ht] := step_tidy n0 k0 hn hK hI hT E; split=> //.
  rewrite nextS in ht; exists (drawn n q o1); first exact: tidy_weaken ht.
  have hD := near_drawn o1 n0 hN; apply: (@near_weaken _ a); first exact: leq_addr.
  apply: near_ext hD => j _; rewrite /c_next /= rew1 //.
  by have [h _ _] := near_drawn o1 n0 hN.
- case E: (p_step _ _ _ _ _) => [[[b1 o1] s1]||] //= -[eb eo es]; rewrite -{}eb -{}es; rewrite -eo in hm W0 hr *.
  have hl j : (j < n)%N -> good (l j) /\ approx 0 (v2R (l j)) (v2R (l j)).
    by move=> hj; have h := hu j hj; split=> //; apply: ap_refl; case: h.
  have [hT hN2] := meas_tame us hN hq1 hl (fun j hj => (hm j hj).2) W0 hr.
  have [-> ht] := step_tidy n0 k0 hn hK hI hT E; split=> //.
  rewrite nextM in ht; exists (drawn n (reweigh n (fun j => v2R (l j)) q) o1); first exact: tidy_weaken ht.
  by apply: (@near_weaken _ (a + 0)); [rewrite leq_add2l|exact: near_drawn].
case E: (p_step _ _ _ _ _) => [[[b1 o1] s1]||] //=.
have hT := sys_tame us0 hN hq0 (fun j hj => (hm j hj).1).
have [-> ht] := step_tidy n0 k0 hn hK hI hT E; rewrite nextS in ht.
have [hI1 _ _] := ht; have [sz _ _ _] := hI1.
pose L j := if c_factor (l j) (f j) (g j) is Ok x then x else d0.
have hL j : (j < n)%N -> c_factor (l j) (f j) (g j) = Ok (L j) /\
    (good (L j) /\ approx 2 (importance (v2R (l j)) (v2R (f j)) (v2R (g j))) (v2R (L j))).
  by move=> hj; have [g1 g2 g3 g4] := hu j hj; have [x [e1 e2 e3]] := factor_ok g1 g2 g3 g4; rewrite /L e1.
have -> : mapO (fun k => let! q := at_ (dm_w (pf_d s1)) k in let! p := c_factor (l k) (f k) (g k) in d_weight (dmul q p))
    (iota 0 (size (dm_w (pf_d s1)))) =
  mapO (fun k => let! q := at_ (dm_w (pf_d s1)) k in let! p := d_prob (L k) in d_weight (dmul q p))
    (iota 0 (size (dm_w (pf_d s1)))).
  have : forall i, List.In i (iota 0 (size (dm_w (pf_d s1)))) -> (i < n)%N by move=> i /In_iota; rewrite sz.
  elim: (iota _ _) => [|i r IH] // hi; rewrite [mapO _ _]/= [in RHS]/= IH; last by move=> j hj; apply: hi; right.
  by have [-> [gL _]] := hL i (hi i (or_introl erefl)); rewrite prob_ok.
move=> H.
have [o2 [eo [b2 E2]]] : exists o2, o = (o1, o2) /\ exists b2, p_step sq root sc s1 (PMeas L us) = Ok ((b2, o2), s') /\ b = b2.
  move: H; rewrite /p_step; case: (mapO _ _) => [w||] //=; case: (m_update _ _) => [[b3 d3]||] //=.
  case: b3 => //=; last by case=> <- <- <-; exists None; split=> //; exists false.
  by case: (p_dynamic _ _ _ _ _) => [[o3 d4]||] //= -[<- <- <-]; exists o3; split=> //; exists true.
case: E2 => E2 ->; rewrite eo in hm W0 hr *.
have hN1 := near_drawn o1 n0 hN.
have [hT2 hN2] := meas_tame us hN1 hq2 (fun j hj => (hL j hj).2) (fun j hj => (hm j hj).2) W0 hr.
have hK1 : INR (k + (n + 2) + 2 * n + 1) * uu <= / 2.
  by apply: INR_leq hB; apply/leP; rewrite -!plusE -!multE; lia.
have k1 : (0 < k + (n + 2))%N by rewrite ltn_addr.
have [-> ht2] := step_tidy n0 k1 hn hK1 hI1 hT2 E2; split=> //.
rewrite nextM in ht2; exists (drawn n (reweigh n (fun j => v2R (L j)) (drawn n q o1)) o2).
  by rewrite mul2n -addnn addnA.
exact: near_drawn.
Qed.

Lemma crun_ok k a p q s us os s' : (0 < k)%N ->
  INR (k + 2 * (size us * (n + 2)) + n + 2 * (a + 2 * size us)) * uu <= / 2 ->
  inv n k q (pf_d s) -> near n a p q -> c_mids n p us os -> c_run sq root sc s us = Ok (os, s') ->
  map fst os = nseq (size us) true /\
  exists2 q', inv n (k + 2 * (size us * (n + 2))) q' (pf_d s') /\
     (us <> [::] -> tidy n (k + 2 * (size us * (n + 2))) q' (pf_d s')) &
   near n (a + 2 * size us) (c_path n p us os) q'.
Proof.
elim: us k a p q s os s' => [|u us IH] k a p q s os s' k0 hB hI hN.
  by move=> _ [<- <-]; split=> //; exists q; rewrite /= ?mul0n ?muln0 ?addn0.
move=> hM /=; case E: (c_step _ _ _ _ _) => [[[b o] s1]||] //=; case E2: (c_run _ _ _ _ _) => [[os2 s2]||] //= -[eo es].
rewrite -eo in hM *; rewrite -es; case: hM => hM hM2.
have hB1 : INR (k + 2 * (n + 2) + n + 2 * (a + 2)) * uu <= / 2.
  by apply: INR_leq hB; rewrite [size _]/= (mulSn (size us)); move: (size us * _)%N => X; apply/leP; rewrite -!plusE -!multE; lia.
have [-> [q1 ht hN1]] := cstep_ok k0 hB1 hI hN hM E; have [hI1 _ _] := ht.
have k1 : (0 < k + 2 * (n + 2))%N by rewrite ltn_addr.
have ek : (k + 2 * ((size us).+1 * (n + 2)) = k + 2 * (n + 2) + 2 * (size us * (n + 2)))%N by rewrite (mulSn (size us)) mulnDr addnA.
have ea : (a + 2 * (size us).+1 = a + 2 + 2 * size us)%N by rewrite mulnS addnA.
have hB2 : INR (k + 2 * (n + 2) + 2 * (size us * (n + 2)) + n + 2 * (a + 2 + 2 * size us)) * uu <= / 2.
  by move: hB; rewrite [size _]/= ek ea.
have [e1 [q2 [u2 u3] u4]] := IH _ _ _ _ _ _ _ k1 hB2 hI1 hN1 hM2 E2.
rewrite ek ea; split; first by rewrite /= e1.
case: us u2 u3 u4 E2 {IH hM2 hB hB2 ek ea e1} => [|v us] u2 u3 u4 E2; last first.
  by exists q2 => //; split=> // _; exact: u3.
by case: E2 => <- <-; exists q1; rewrite /= ?mul0n ?muln0 ?addn0.
Qed.
End Step.
