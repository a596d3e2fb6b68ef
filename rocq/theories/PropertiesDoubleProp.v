(** * C110: combined updates of the particle filter in doubles: likelihood, system model, proposal *)
From Coq Require Import ZArith Reals Lra Lia.
From Flocq Require Import Core.Core BinarySingleNaN.
From mathcomp Require Import all_ssreflect.
From Verif Require Import Outcome ModelDouble SpecDouble ProofsDouble PropertiesDouble
  ModelDoubleHist SpecDoubleHist ProofsDoubleHist PropertiesDoubleHist ModelDoublePF SpecDoublePF ProofsDoublePF PropertiesDoublePF
  ModelDoubleKF SpecDoubleKF ProofsDoubleKF ModelDoubleUni ProofsDoubleUni ModelDoubleProp SpecDoubleProp ProofsDoubleProp.
Set Implicit Arguments. Unset Strict Implicit. Unset Printing Implicit Defensive.
Local Open Scope R_scope.

(** the doubles of the findings *)
Definition tiny : double := dlit 1 (-1000).
Definition huge : double := dlit 1 100.
Lemma sign1 : Bsign d1 = false. Proof. by vm_compute. Qed.

Local Opaque d0 d1 dprec dlit dadd dsub dmul ddiv dle dlt bpow IZR.

(** the factor of one particle: two roundings *)
Theorem C110_factor l f g (t := importance (v2R l) (v2R f) (v2R g)) : good l -> good f -> good g ->
  (v2R g <> 0 -> mid (v2R f / v2R g) /\ mid (v2R l * (v2R f / v2R g))) ->
  exists L, [/\ c_factor l f g = Ok L, good L & Rabs (v2R L - t) <= t * relative 2].
Proof.
move=> gl gf gg hm; have [L [h1 h2 h3]] := factor_ok gl gf gg hm; exists L; split=> //.
have hu := uu_lt; have ht := uu_tiny.
have hb : INR 2 * uu < 1 by rewrite [INR 2]/=; lra.
by rewrite -ProofsDoublePF.relE //; exact: ap_err h3.
Qed.

(** Any run of system, measurement and combined updates: every update succeeds, every weight is
    the exact one (likelihood times system density over proposal density since the last
    resampling, normalised) up to [c_roundings], and so is the table of the next resampling. *)
Theorem C110_run sq root sc s us os s' (n := size (dm_w (pf_d s))) (p := exact (dm_w (pf_d s))) (m := size us)
    (q := c_path n p us os) (r := relative (c_roundings m n)) :
  few n -> goods (dm_w (pf_d s)) -> Rabs (total (dm_w (pf_d s)) - 1) <= / 4 -> us <> [::] ->
  c_mids n p us os -> (Z.of_nat (c_roundings m n) <= 2 ^ 51)%Z -> c_run sq root sc s us = Ok (os, s') ->
  [/\ [seq o.1 | o <- os] = nseq m true, size (dm_w (pf_d s')) = n,
   (forall j, (j < n)%N -> good (nth d0 (dm_w (pf_d s')) j) /\ Rabs (v2R (nth d0 (dm_w (pf_d s')) j) - q j) <= q j * r) &
   (forall k, (k <= n)%N -> good (nth d0 (dm_c (pf_d s')) k) /\
      Rabs (v2R (nth d0 (dm_c (pf_d s')) k) - over k q) <= tol n + over k q * r)].
Proof.
move=> hn hg ht hne hM hZ hr; have hK := bits51 hZ; have [n0 hI] := start erefl hg ht; rewrite -/n -/p in n0 hI.
have hB : INR (1 + 2 * (size us * (n + 2)) + n + 2 * (0 + 2 * size us)) * uu <= / 2.
  apply: (@INR_leq _ (c_roundings m n)); last lra.
  rewrite /c_roundings -/m !mulnDr; move: (m * n)%N => X; apply/leP; rewrite -!plusE -!multE; lia.
have hN : near n 0 p p.
  have [_ _ o1 [c [hc hp]]] := hI; apply: near_refl => // j hj; have [h _ _] := hp j hj.
  by apply: (Rmult_le_reg_l c); [lra|rewrite Rmult_0_r].
have [h1 [q1 [_ h2] h3]] := crun_ok (k := 1) n0 hn isT hB hI hN hM hr; have ht' := h2 hne; rewrite -/m -/q in ht' h3.
have [[z1 g1 o1 _] _ [ex [[e0 e1 e2 e3] _ x1]]] := ht'.
have hw k v w : (k <= c_roundings m n)%N -> approx k v w -> Rabs (w - v) <= v * r.
  move=> hk ha; rewrite /r -ProofsDoublePF.relE; last lra.
  by apply: ap_err; [lra|exact: ap_weaken ha].
split=> //.
- move=> j hj; split; first by apply: goods_nth => //; rewrite z1.
  have a1 := ap_trans (near_ap h3 hj) (tidy_rel ht' hj); apply: hw a1.
  by rewrite /c_roundings !mulnDr; move: (m * n)%N => X; apply/leP; rewrite -!plusE -!multE; lia.
move=> k hk; have [h4 h5] := e2 k hk; split=> //.
have a1 : approx (0 + 2 * m + (0 + 2 * m)) (over k q) (over k q1).
  by apply: ap_over => i hi; apply: near_ap h3 _; exact: leq_trans hi hk.
have h6 : Rabs (ex k - over k q) <= over k q * r.
  apply: hw (ap_trans a1 (x1 k hk)).
  by rewrite /c_roundings !mulnDr; move: (m * n)%N => X; apply/leP; rewrite -!plusE -!multE; lia.
have -> : v2R (nth d0 (dm_c (pf_d s')) k) - over k q = (v2R (nth d0 (dm_c (pf_d s')) k) - ex k) + (ex k - over k q) by ring.
by apply: Rle_trans (Rabs_triang _ _) _; lra.
Qed.

(** ** The proposal is the system model: the factor is the likelihood, without rounding *)
Lemma div_self (x : double) : is_finite x = true -> v2R x <> 0 -> ddiv x x = d1.
Proof.
move=> f h; have := Bdiv_correct 53 1024 prec53 emax1024 mode_NE x x h; rewrite -/(ddiv x x) -!/(v2R _).
have -> : v2R x / v2R x = 1 by field.
have [f1 _] := good1.
have e : round radix2 (SpecFloat.fexp 53 1024) (round_mode mode_NE) 1 = 1.
  by rewrite -v2R1; apply: round_generic; exact: fmt.
rewrite e Rlt_bool_true; last by rewrite Rabs_R1 -[1]/(bpow radix2 0); exact: bpow_lt.
move=> [h1 [h2 h3]]; have f2 : is_finite (ddiv x x) = true by rewrite h2.
apply: B2R_Bsign_inj => //; first by rewrite -!/(v2R _) v2R1.
have nn : is_nan (ddiv x x) = false by move: f2; case: (ddiv x x).
rewrite (h3 nn).
by rewrite sign1; case: (Bsign x).
Qed.

Theorem C110_same l f : good f -> v2R f <> 0 -> c_factor l f f = d_prob l.
Proof.
move=> gf nf; have [ff _] := gf; rewrite /c_factor; case E: (d_prob l) => [l'||] //=.
have fl : is_finite l' = true /\ d_prob l' = Ok l'.
  move: E; rewrite /d_prob; case: ifP => // h [<-]; rewrite h; by case/andP: h.
rewrite (prob_ok gf) [obind (Ok _) _]/=.
have -> : deq f d0 = false by apply/negbTE/negP => /(deq0 ff).
by rewrite [~~ false]/= (div_self ff nf) (prob_ok good1) [obind (Ok _) _]/= mul1 //; case: fl.
Qed.

(** so a combined update is the two updates of the bootstrap filter, bit for bit *)
Theorem C110_bootstrap sq root sc s us0 l f us : (forall j, good (f j) /\ v2R (f j) <> 0) ->
  c_step sq root sc s (Both us0 l f f us) =
  let! r := p_step sq root sc s (PSys us0) in
  if r.1.1 then let! q := p_step sq root sc r.2 (PMeas l us) in Ok ((q.1.1, (r.1.2, q.1.2)), q.2)
  else Ok ((false, (r.1.2, None)), r.2).
Proof.
move=> hf; rewrite /c_step; case: (p_step _ _ _ _ _) => [[[b o] s1]||] //=; case: b => //.
have -> : mapO (fun k => let! q := at_ (dm_w (pf_d s1)) k in let! p := c_factor (l k) (f k) (f k) in d_weight (dmul q p))
    (iota 0 (size (dm_w (pf_d s1)))) =
  mapO (fun k => let! q := at_ (dm_w (pf_d s1)) k in let! p := d_prob (l k) in d_weight (dmul q p))
    (iota 0 (size (dm_w (pf_d s1)))).
  elim: (iota _ _) => [|i r IH] //; rewrite [mapO _ _]/= [in RHS]/= IH.
  by have [h1 h2] := hf i; rewrite (C110_same _ h1 h2).
case: (mapO _ _) => [w||] //=; case: (m_update _ _) => [[b3 d3]||] //=; case: b3 => //=.
by case: (p_dynamic _ _ _ _ _) => [[o3 d4]||].
Qed.

(** expected: with the system model as proposal a particle keeps its share.  Found: where the
    density of the transition is 0 in doubles the factor is 0, whatever the likelihood *)
Theorem C110_lost_refuted l f : good l -> good f -> v2R f = 0 -> c_factor l f f = Ok d0.
Proof.
move=> gl gf e; have [ff _] := gf; rewrite /c_factor (prob_ok gl) (prob_ok gf) [obind (Ok _) _]/=.
by have -> : deq f d0 = true by apply/deq0.
Qed.

(** expected: a factor of moderate size is computed.  Found: the quotient is formed first, and
    if it overflows the assertion of [Probability] ends the program *)
Theorem C110_overflow l f g : good l -> good f -> good g -> v2R g <> 0 -> is_finite (ddiv f g) = false -> c_factor l f g = Abort.
Proof.
move=> gl gf gg ne h; have [fg _] := gg; rewrite /c_factor (prob_ok gl) (prob_ok gg) [obind (Ok _) _]/=.
have -> : deq g d0 = false by apply/negbTE/negP => /(deq0 fg).
by rewrite [~~ false]/= (prob_ok gf) [obind (Ok _) _]/= /d_prob h.
Qed.
Lemma tiny_val : good tiny /\ v2R tiny = bpow radix2 (-1000).
Proof.
have [f e] := @lit_val 1 (-1000) ltac:(lia) ltac:(lia); rewrite Rmult_1_l in e.
by split=> //; split=> //; rewrite /tiny e; exact: bpow_ge_0.
Qed.
Lemma huge_val : good huge /\ v2R huge = bpow radix2 100.
Proof.
have [f e] := @lit_val 1 100 ltac:(lia) ltac:(lia); rewrite Rmult_1_l in e.
by split=> //; split=> //; rewrite /huge e; exact: bpow_ge_0.
Qed.
Theorem C110_overflow_refuted sq root sc s us0 us o s1 (c := fun d : double => fun _ : nat => d) :
  p_step sq root sc s (PSys us0) = Ok ((true, o), s1) -> (0 < size (dm_w (pf_d s1)))%N ->
  c_step sq root sc s (Both us0 (c tiny) (c huge) (c tiny) us) = Abort /\
  forall j, importance (v2R (c tiny j)) (v2R (c huge j)) (v2R (c tiny j)) = bpow radix2 100.
Proof.
have [gt vt] := tiny_val; have [gh vh] := huge_val; have b0 := bpow_gt_0 radix2 (-1000).
have nt : v2R tiny <> 0 by rewrite vt; lra.
move=> E h0; split.
  rewrite /c_step E /= /c; case: (dm_w _) h0 => [|w ws] // _.
move=> j; rewrite /c /importance; case: Req_EM_T => [e|ne]; [by case: nt|rewrite [is_left _]/= vh vt; field; lra].
Qed.

(** ** A case: two particles, likelihood and system density 3/4 and 1/4, proposal 1/4 and 3/4 *)
Definition tilt' (j : nat) : double := if j == 0%N then quarter else threeq.
Definition both : seq cupd := [:: Both halves tilt tilt tilt' halves].
Lemma both_gain j : (j < 2)%N -> c_gain (Both halves tilt tilt tilt' halves) j = if j == 0%N then 9 / 4 else / 12.
Proof.
have [[gq vq] [gt vt] _] := lits.
case: j => [|[|j]] // _; rewrite /c_gain /importance /tilt /tilt' /=;
  case: Req_EM_T => h; rewrite /=; (try by move: h; rewrite ?vq ?vt; lra); rewrite vq vt; field.
Qed.
Lemma near1_mid r : / 100 <= r <= 100 -> mid r.
Proof.
move=> [h1 h2]; right; split.
  apply: Rle_trans (_ : bpow radix2 (- (7)) <= _); first by apply: bpow_le; lia.
  by rewrite bpow_opp -IZR_Zpower // -[(radix2 ^ 7)%Z]/128%Z; lra.
apply: Rle_trans (_ : bpow radix2 7 <= _); last by apply: bpow_le; lia.
by rewrite -IZR_Zpower // -[(radix2 ^ 7)%Z]/128%Z; lra.
Qed.
Theorem C110_case : exists os s', [/\ c_run sqm half_root (Period 5) pair both = Ok (os, s'), os = [:: (true, (None, None))],
  c_mids 2 (exact (dm_w (pf_d pair))) both os, c_path 2 (exact (dm_w (pf_d pair))) both os 0 = 27 / 28 &
  Rabs (v2R (nth d0 (dm_w (pf_d s')) 0) - 27 / 28) <= 27 / 28 * relative 25].
Proof.
have [hg ht he] := PropertiesDoublePF.pair_ok; have [[gq vq] [gt vt] _] := lits; set T := Period 5.
have V : (if c_run sqm half_root T pair both is Ok (os, _) then os else [::]) = [:: (true, (None, None))] by vm_compute.
move: V; case E: (c_run sqm half_root T pair both) => [[os s']||] V; [|discriminate V|discriminate V].
have eo : os = [:: (true, (None, None))] := V.
have eW : over 2 (fun i => c_gain (Both halves tilt tilt tilt' halves) i * exact (dm_w (pf_d pair)) i) = 7 / 6.
  by rewrite (@over_ext 2 _ (fun j => (if j == 0%N then 9 / 4 else / 12) * / 2)); [rewrite /over /=; lra|move=> i hi; rewrite (both_gain hi) (he i hi)].
have er j : (j < 2)%N -> reweigh 2 (c_gain (Both halves tilt tilt tilt' halves)) (exact (dm_w (pf_d pair))) j = if j == 0%N then 27 / 28 else / 28.
  by move=> hj; rewrite /reweigh eW (both_gain hj) (he j hj); case: (j == 0%N); lra.
have hM : c_mids 2 (exact (dm_w (pf_d pair))) both os.
  rewrite eo; split; last exact: I.
  split.
  - move=> j hj; have [gj gj'] : good (tilt j) /\ good (tilt' j) by rewrite /tilt /tilt'; case: (j == 0%N); [exact: (conj gt gq)|exact: (conj gq gt)].
    split; [exact: gj|exact: gj|exact: gj'|move=> _].
    have [[-> ->]|[-> ->]] : (v2R (tilt j) = 3 / 4 /\ v2R (tilt' j) = / 4) \/ (v2R (tilt j) = / 4 /\ v2R (tilt' j) = 3 / 4).
      by rewrite /tilt /tilt'; case: (j == 0%N); [left; exact: (conj vt vq)|right; exact: (conj vq vt)].
      by split; apply: near1_mid; lra.
    by split; apply: near1_mid; lra.
  - move=> j hj; split; first by rewrite (he j hj); apply: near1_mid; lra.
    by rewrite [drawn _ _ _]/= (both_gain hj) (he j hj); case: (j == 0%N); apply: near1_mid; lra.
  - by rewrite [drawn _ _ _]/= eW; lra.
  - by move=> j hj; rewrite [drawn _ _ _]/= (er j hj); case: (j == 0%N); apply: near1_mid; lra.
have eq : c_path 2 (exact (dm_w (pf_d pair))) both os 0 = 27 / 28.
  by rewrite eo [c_path _ _ _ _]/= /c_next [drawn _ _ _]/= (er 0%N isT).
have hne : both <> [::] by [].
have ht' : Rabs (total (dm_w (pf_d pair)) - 1) <= / 4 by rewrite ht; apply: Rabs_le; lra.
have hz : (Z.of_nat (c_roundings (size both) 2) <= 2 ^ 51)%Z by rewrite /c_roundings /=; lia.
have [_ _ h _] := @C110_run sqm half_root T pair both os s' few2 hg ht' hne hM hz E.
have [_ h0] := h 0%N (erefl : (0 < 2)%N).
exists os, s'; split; [exact: erefl|exact: eo|exact: hM|exact: eq|].
by rewrite -eq; exact: h0.
Qed.

Print Assumptions C110_factor.
Print Assumptions C110_run.
Print Assumptions C110_same.
Print Assumptions C110_bootstrap.
Print Assumptions C110_lost_refuted.
Print Assumptions C110_overflow.
Print Assumptions C110_overflow_refuted.
Print Assumptions C110_case.
