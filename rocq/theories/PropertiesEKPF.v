(** * Extended Kalman particle filter: C41 *)
From mathcomp Require Import all_ssreflect all_algebra zify ring.
From Verif Require Import Outcome OrdLra SpecProb ModelTables ProofsTables ModelMatrix ModelDiscretePdf ModelMCPdf SpecMCPdf ProofsMCPdf
  ModelMoments ModelFilter ProofsFilter ModelKalman ModelProposal ModelEKPF SpecEKPF.
Set Implicit Arguments. Unset Strict Implicit. Unset Printing Implicit Defensive.
Import Order.TTheory GRing.Theory Num.Theory.
Local Open Scope ring_scope.

Section Resample.
Variables (R : realFieldType) (n : nat) (root : R -> nat -> R).
Notation vecn := 'cV[R]_n.
Notation part := (vecn * R)%type.
Implicit Types (p : ekpriv R n) (d : mcpdf R vecn).

(** all buffers have one entry per particle *)
Definition fits p d : Prop :=
  [/\ ek_num p = size (mc_los d), size (ek_cov p) = size (mc_los d), size (ek_tmp p) = size (mc_los d)
    & size (ek_res p) = size (mc_los d)].

Lemma before_pick A (a0 : A) (l : seq A) ks : all (fun k => k < size l)%N ks ->
  mapO (ek_before l) (map S ks) = Ok (picked a0 l ks).
Proof. by elim: ks => [//|k ks IH] /= /andP [h1 h2]; rewrite /ek_before (at_nth a0 h1) /= IH. Qed.
Lemma overwrite_full A (old new : seq A) : size old = size new -> overwrite old new = Ok new.
Proof. by move=> e; rewrite /overwrite e ltnn -e drop_size cats0. Qed.

Lemma picked_weights ks (j : part) (l : seq part) : all (fun k => k < size l)%N ks ->
  weights (picked j l ks) = picked 0 (weights l) ks.
Proof.
elim: ks => [//|k ks IH] /= /andP [h1 h2]; rewrite -/(weights _) IH //; congr (_ :: _).
by rewrite /weights (nth_map j).
Qed.

Hypothesis root01 : forall u k, 0 < u <= 1 -> (0 < k)%N -> 0 < root u k <= 1.

(** ** C41: every copy keeps the weight of its original (all are divided by their
    sum afterwards), and gets its covariance.  Copy [i] is made from the
    [u_i]-quantile for Ripley's ordered draws [u]. *)
Theorem C41_resample p t d junk : mc_valid d -> fits p d -> (forall i, 0 < ek_us p i <= 1) ->
  exists pos p' d', let N := size (mc_los d) in let u := ripley root [seq ek_us p i | i <- iota 0 N] 0 in
    [/\ ek_resample root (p, t, d) = Ok (true, (p', t, d')),
        mc_valid d' /\ fits p' d',
        [/\ size pos = N, sorted leq pos &
            forall i, (i < N)%N -> quantile (weights (mc_los d)) (nth 0 u i) (nth 0%N pos i)],
        mc_los d' = normalised (picked junk (mc_los d) pos) &
        ek_cov p' = picked 0 (ek_cov p) pos].
Proof.
move=> hv [f1 f2 f3 f4] hu; set N := size (mc_los d).
have hN : (0 < N)%N by exact: mc_valid_nonempty hv.
set us := [seq ek_us p i | i <- iota 0 N].
have hus : all (fun u => 0 < u <= 1) us by apply/allP => x /mapP [i _ ->].
have hsz : size us = N by rewrite size_map size_iota.
have [[hl ht] _ _] := hv.
case: (scan_many_quantiles root01 hl ht hus) => ks [h1 h2 h3 h4].
rewrite hsz in h2 h4.
have hb : all (fun k => k < N)%N ks.
  by apply/(all_nthP 0%N) => i; rewrite h2 => /h4 []; rewrite size_weights.
have hpos : 0 < total (weights (picked junk (mc_los d) ks)).
  rewrite picked_weights //.
  have hge : nonneg (picked 0 (weights (mc_los d)) ks).
    by apply/allP => x /mapP [k _ ->]; case: (ltnP k (size (weights (mc_los d)))) => hk; [apply/(allP hl)/mem_nth|rewrite nth_default].
  rewrite lt_def total_ge0 // andbT; apply/eqP => h0.
  have := total_eq0 hge h0; case: ks h2 h4 {h1 h3 hb hge h0} => [|k ks] h2 h4.
    by move: hN; rewrite -h2.
  by case/andP=> /eqP e _; have := quantile_pos (h4 0%N hN); rewrite /= e ltxx.
have hsp : size (picked junk (mc_los d) ks) = N by rewrite size_map h2.
have hge : nonneg (weights (picked junk (mc_los d) ks)).
  rewrite picked_weights //; apply/allP => x /mapP [k hk ->].
  by apply/(allP hl)/mem_nth; rewrite size_weights (allP hb).
exists ks, (EK (ek_fp p) (picked 0 (ek_cov p) ks) (picked 0 (ek_cov p) ks) (ek_num p) (mc_los d) (picked junk (mc_los d) ks)
   (ek_bold p) (ek_new p) (ek_smp p) (ek_dyn p) (ek_period p) (ek_thr p) (fun i => ek_us p (N + i)%N) (ek_zs p)).
exists (MC (normalised (picked junk (mc_los d) ks)) (cum_loop 0 (weights (normalised (picked junk (mc_los d) ks)))) 1).
split=> //=; last 1 first.
- split; first by apply: valid_build; apply: normalised_distr.
  by split=> //=; rewrite ?f1 !size_map ?h2.
rewrite f1 ltnn gtn_eqF //= -/N -/us (mc_cumE hv); rewrite size_weights -/N in h1; rewrite h1 /=.
rewrite (before_pick junk) //= (before_pick (0 : 'M_n)) ?f2 //=.
rewrite !overwrite_full ?size_map ?f3 ?f4 ?h2 //=.
by rewrite mc_updWE //; exact: mc_valid_sized.
Qed.
(** When the step resamples: dynamically if the effective sample size lies below the
    threshold, statically at every multiple of the period after time 0; otherwise
    particles and covariances stay. *)
Definition resampled_or_same (junk : part) (due : bool) p d p' d' : Prop :=
  if due then exists pos, [/\ sorted leq pos,
      forall i, (i < size (mc_los d))%N -> quantile (weights (mc_los d))
        (nth 0 (ripley root [seq ek_us p i | i <- iota 0 (size (mc_los d))] 0) i) (nth 0%N pos i),
      mc_los d' = normalised (picked junk (mc_los d) pos) & ek_cov p' = picked 0 (ek_cov p) pos]
  else d' = d /\ ek_cov p' = ek_cov p /\ ek_us p' = ek_us p.
Lemma weights_sq_pos (ws : seq R) : distribution ws -> 0 < total [seq w ^+ 2 | w <- ws].
Proof.
move=> [hn ht]; have hg : nonneg [seq w ^+ 2 | w <- ws] by apply/allP => x /mapP [w _ ->]; exact: sqr_ge0.
rewrite lt_def total_ge0 // andbT; apply/eqP => h0; have hz := total_eq0 hg h0.
have := oner_neq0 R; rewrite -ht => /eqP; apply; rewrite /total; apply: big1_seq => w /andP [_ hw].
have := allP hz (w ^+ 2) (map_f _ hw); by rewrite sqrf_eq0 => /eqP.
Qed.
Theorem C41_dynamic p t d junk : mc_valid d -> fits p d -> (forall i, 0 < ek_us p i <= 1) ->
  exists p' d', ek_dynamic root (p, t, d) = Ok (true, (p', t, d')) /\
    resampled_or_same junk (ek_dyn p && ((total [seq w ^+ 2 | w <- weights (mc_los d)])^-1 < ek_thr p)) p d p' d'.
Proof.
move=> hv hf hu; rewrite /ek_dynamic; case e: (ek_dyn p); last by exists p, d.
have hs : sum_loop [seq x.2 ^+ 2 | x <- mc_los d] = total [seq w ^+ 2 | w <- weights (mc_los d)].
  by rewrite sum_loopE /weights -map_comp.
have hd : distribution (weights (mc_los d)) by case: hv.
rewrite [~~ true]/=; cbv iota zeta; rewrite hs (gt_eqF (weights_sq_pos hd)) [~~ _]/= !andTb div1r; case: ifP => h; last by eexists _, d; split; [reflexivity|].
set p' := EK _ _ _ _ _ _ _ _ _ _ _ _ _ _.
have hf' : fits p' d by case: hf.
have [pos [p2 [d2 [h1 _ [_ h2 h3] h4 h5]]]] := @C41_resample p' t d junk hv hf' hu.
by exists p2, d2; split; [exact: h1|exists pos].
Qed.
Theorem C41_static p t d junk : mc_valid d -> fits p d -> (forall i, 0 < ek_us p i <= 1) ->
  exists p' d', ek_static root (p, t, d) = Ok (true, (p', t, d')) /\
    resampled_or_same junk [&& ~~ ek_dyn p, (`|ek_period p|%N %| t)%N & (0 < t)%N] p d p' d'.
Proof.
move=> hv hf hu; rewrite /ek_static lt0n; case: ifP => h; last by exists p, d.
have [pos [p2 [d2 [h1 _ [_ h2 h3] h4 h5]]]] := @C41_resample p t d junk hv hf hu.
by exists p2, d2; split; [exact: h1|exists pos].
Qed.
End Resample.

Section Mass.
Variables (R : realFieldType) (n : nat) (root : R -> nat -> R).
Notation vecn := 'cV[R]_n.
Notation part := (vecn * R)%type.
Implicit Types (p : ekpriv R n) (d : mcpdf R vecn).

Lemma mass_cons k j pos (w : R) ws : mass (j :: pos) (w :: ws) k = (if j == k then w else 0) + mass pos ws k.
Proof. by rewrite /mass big_cons /=; case: ifP => // _; rewrite add0r. Qed.
Lemma mass_picked (c : R) ws pos k : mass pos [seq x / c | x <- picked 0 ws pos] k = (count_mem k pos)%:R * nth 0 ws k / c.
Proof.
elim: pos => [|j pos IH]; first by rewrite /mass big_nil !mul0r.
rewrite [picked _ _ _]/= mass_cons IH /=; case: eqP => [->|_]; last by rewrite add0r.
by rewrite natrD !mulrDl mul1r.
Qed.
Lemma total_picked (ws : seq R) N pos : all (fun k => k < N)%N pos ->
  total (picked 0 ws pos) = \sum_(0 <= k < N) (count_mem k pos)%:R * nth 0 ws k.
Proof.
elim: pos => [_|j pos IH] /=; first by rewrite total_nil big1 // => k _; rewrite mul0r.
case/andP=> hj /IH e; rewrite total_cons e.
under [RHS]eq_bigr do rewrite natrD mulrDl.
rewrite big_split /=; congr (_ + _).
rewrite (bigD1_seq j) ?iota_uniq ?mem_index_iota //= eqxx mul1r big1 ?addr0 // => i hi.
by rewrite eq_sym (negbTE hi) mul0r.
Qed.

Hypothesis root01 : forall u k, 0 < u <= 1 -> (0 < k)%N -> 0 < root u k <= 1.

(** The weight counts twice: once in the number of copies and once in the weight
    of each.  If the draws are spread so that particle [k] is copied exactly
    [N * w_k] times, its copies end up with [w_k^2 / sum w^2] instead of [w_k];
    this is right only if all particles that count have the same weight. *)
Theorem C41_double_refuted p t d junk : mc_valid d -> fits p d -> (forall i, 0 < ek_us p i <= 1) ->
  exists pos p' d', let N := size (mc_los d) in let w := nth 0 (weights (mc_los d)) in
    let m := mass pos (weights (mc_los d')) in
    [/\ ek_resample root (p, t, d) = Ok (true, (p', t, d')),
        mc_los d' = normalised (picked junk (mc_los d) pos),
        forall k, m k = (count_mem k pos)%:R * w k / \sum_(0 <= j < N) (count_mem j pos)%:R * w j &
        (forall k, (k < N)%N -> (count_mem k pos)%:R = N%:R * w k) ->
        (forall k, (k < N)%N -> m k = w k ^+ 2 / \sum_(0 <= j < N) w j ^+ 2) /\
        ((forall k, (k < N)%N -> m k = w k) -> forall i j, (i < N)%N -> (j < N)%N -> 0 < w i -> 0 < w j -> w i = w j)].
Proof.
move=> hv hf hu; have [pos [p' [d' [h1 _ [h2 h3 h4] h5 _]]]] := C41_resample root01 t junk hv hf hu.
exists pos, p', d' => N w m; rewrite -/N in h2 h4.
have hb : all (fun k => k < N)%N pos.
  by apply/(all_nthP 0%N) => i; rewrite h2 => /h4 []; rewrite size_weights.
have hm k : m k = (count_mem k pos)%:R * w k / \sum_(0 <= j < N) (count_mem j pos)%:R * w j.
  rewrite /m h5 /normalised /weights -map_comp -(total_picked (weights (mc_los d)) hb) -mass_picked.
  by congr mass; rewrite -(picked_weights junk) // /weights -[RHS]map_comp; apply: eq_map.
split=> //; move=> hc; have hN : (0 < N)%N by exact: mc_valid_nonempty hv.
have hN0 : N%:R != 0 :> R by rewrite pnatr_eq0 -lt0n.
have hs : \sum_(0 <= j < N) (count_mem j pos)%:R * w j = N%:R * \sum_(0 <= j < N) w j ^+ 2.
  rewrite big_distrr /=; apply: eq_big_nat => j /andP [_ hj]; by rewrite hc // expr2 mulrA.
have hm2 k : (k < N)%N -> m k = w k ^+ 2 / \sum_(0 <= j < N) w j ^+ 2.
  by move=> hk; rewrite hm hs hc // -(mulrA N%:R) -expr2 invfM mulrACA mulfV // mul1r.
split=> // he i j hi hj pi pj.
have key k : (k < N)%N -> 0 < w k -> w k = \sum_(0 <= j < N) w j ^+ 2.
  move=> hk pk; have := he k hk; rewrite hm2 // expr2.
  set S := \sum_(_ <= _ < _) _.
  have hS : S != 0 by apply: contraTneq (pk) => e0; move: (he k hk); rewrite hm2 // -/S e0 invr0 mulr0 => <-; rewrite ltxx.
  move/(canRL (mulfVK hS)); move/(canRL (mulKf (lt0r_neq0 pk))).
  by rewrite mulKf ?lt0r_neq0.
by rewrite (key i) // (key j).
Qed.
End Mass.

(** ** Draw 0: with [pow(0,1/k) = 0] the sample before the first one is read *)
Section Zero.
Variables (R : realFieldType) (n : nat) (root : R -> nat -> R).
Hypothesis root0 : forall k, root 0 k = 0.
Lemma ripley0 us i : (0 < size us)%N -> nth 0 us 0 = 0 -> exists r, ripley root us i = 0 :: r.
Proof.
case: us => [//|u [|v us]] _ /= ->; first by exists [::]; rewrite root0.
by rewrite root0 mul0r; eexists.
Qed.
Theorem C41_zero_draw_refuted p t (d : mcpdf R 'cV[R]_n) r : mc_valid d -> ek_us p 0 = 0 ->
  ek_resample root (p, t, d) <> Ok r.
Proof.
move=> hv h0; rewrite /ek_resample; case: ifP => // hg.
have hN : (0 < size (mc_los d))%N by exact: mc_valid_nonempty hv.
have [||l ->] := @ripley0 [seq ek_us p i | i <- iota 0 (size (mc_los d))] 0.
- by rewrite size_map size_iota.
- by case: (size _) hN => //= k _.
have [us hc] : exists us, mc_cum d = 0 :: us by rewrite (mc_cumE hv); case: (weights _) => [|w ws]; eexists.
rewrite hc /= ltxx /=; case: (scan_many _ _ _ _) => [ks||] //=.
Qed.
End Zero.

(** ** What an accepted list does to the particle set *)
Section Lists.
Variables (R : realFieldType) (T : Type).
Implicit Type d : mcpdf R T.
Lemma updW_out d l b d' : mc_updW d l = Ok (b, d') ->
  [/\ size l = size (mc_los d), size (mc_los d') = size (mc_los d), mc_sized d -> mc_sized d',
      mc_los d' = (if b then normalised l else l) & b = (0 < total (weights l)) || (size l == 0%N)].
Proof.
rewrite /mc_updW /guard; case: eqP => //= hl; rewrite -hl; case: eqP => [/size0nil e|h0] /=.
  case=> <- <-; rewrite e orbT; split=> //; first by rewrite -hl e.
  by apply: size0nil; rewrite -hl e.
rewrite orbF /mc_normalize /mc_sum_update /= sum_loopE -/(weights l); case ht: (0 < total (weights l)) => /=; last first.
  by case=> <- <-; split=> //= hs; rewrite /mc_sized /= hs hl.
case hm: (mapO _ _) => [los||] //=; rewrite /mc_cum_update /=; case: ifP => //= hsz [<- <-] /=.
have e : los = normalised l.
  rewrite /normalised; move: (total (weights l)) hm => c; elim: l los {hl h0 ht hsz} => [|x l IH] los /=; first by case=> <-.
  by rewrite /guard; case: ifP => //= _; case: (mapO _ l) IH => [l'||] //= IH [<-]; rewrite (IH l').
have hs : size los = size l by rewrite e size_map.
split=> //.
rewrite /mc_sized /= size_cat size_drop size_cum size_map => hd; rewrite hd hs -hl subnn addn0 //.
Qed.
End Lists.

(** ** Examples: four particles with weights 1/4, 3/4, 0, 0; the draws copy
    particle 0 once and particle 1 three times *)
Section Examples.
Let RQ := [realFieldType of rat].
Notation Q := RQ.
Let q (a b : nat) : Q := a%:R / b%:R.
Variables (a b c e : 'cV[Q]_1) (A B C E : 'M[Q]_1).
Let d0 : mcpdf Q 'cV[Q]_1 := MC [:: (a, q 1 4); (b, q 3 4); (c, 0); (e, 0)] [:: 0; q 1 4; 1; 1; 1] 1.
Let covs : seq 'M[Q]_1 := [:: A; B; C; E].
Variable fp0 : fpd Q 1.
Let start (u0 : Q) : ekpriv Q 1 :=
  EK fp0 covs covs 4 (mc_los d0) (mc_los d0) (mc_los d0) (mc_los d0) 0 false 1 0 (fun i => if i is 0%N then u0 else 1)
     (fun _ _ => 0).
Let root (u : Q) (k : nat) : Q := u.
Let p0 := start (q 1 4).
Let ex_cum : cum_loop 0 (weights (mc_los d0)) = mc_cum d0.
Proof. by apply/eqP; vm_compute. Qed.
Let ex_valid : mc_valid d0.
Proof.
split; [split|rewrite -ex_cum; exact: cum_prefix|reflexivity].
  by vm_compute.
by apply/eqP; rewrite /total /weights /= !big_cons big_nil; vm_compute.
Qed.
Example C41_example : mc_valid d0 /\ fits p0 d0 /\ (forall i, 0 < ek_us p0 i <= 1) /\
  (forall u k, 0 < u <= 1 -> (0 < k)%N -> 0 < root u k <= 1).
Proof. by split; [exact: ex_valid|split; [|split; [case|]]]. Qed.
(** the particles after the resampling, their weights and their covariances *)
Example C41_after_example : exists p' d', [/\ ek_resample root (p0, 0%N, d0) = Ok (true, (p', 0%N, d')),
  map fst (mc_los d') = [:: a; b; b; b], weights (mc_los d') == [:: q 1 10; q 3 10; q 3 10; q 3 10] &
  ek_cov p' = [:: A; B; B; B]].
Proof.
have hs : scan_many 4 (ripley root [seq ek_us p0 i | i <- iota 0 4] 0) 0 (mc_cum d0) = Ok [:: 1; 2; 2; 2]%N by vm_compute.
set l := [:: (a, q 1 4); (b, q 3 4); (b, q 3 4); (b, q 3 4)].
have hu : mc_updW d0 l = Ok (true, MC (normalised l) (cum_loop 0 (weights (normalised l))) 1).
  apply: mc_updWE; [reflexivity|reflexivity|by vm_compute|].
  by rewrite /total /weights /= !big_cons big_nil; vm_compute.
eexists; exists (MC (normalised l) (cum_loop 0 (weights (normalised l))) 1); split; [|reflexivity| |].
- rewrite /ek_resample; cbv beta zeta; have -> : size (mc_los d0) = 4%N by [].
  rewrite hs; transitivity (let! r := mc_updW d0 l in Ok (r.1, (EK fp0 [:: A; B; B; B] [:: A; B; B; B] 4 (mc_los d0) l
    (mc_los d0) (mc_los d0) 0 false 1 0 (fun i => ek_us p0 (4 + i)%N) (fun _ _ => 0), 0%N, r.2))); first reflexivity.
  rewrite hu; reflexivity.
- by rewrite /weights /normalised /= /total /weights /= !big_cons big_nil; vm_compute.
reflexivity.
Qed.
(** particle 1 should have 3/4 *)
Example C41_double_example :
  (mass [:: 0; 1; 1; 1]%N [:: q 1 10; q 3 10; q 3 10; q 3 10] 1 == q 9 10) && (q 9 10 != q 3 4).
Proof. rewrite /mass [zip _ _]/= !big_cons big_nil; vm_compute; reflexivity. Qed.
Example C41_zero_example : (forall k, root 0 k = 0) /\ ek_us (start 0) 0 = 0 /\ mc_valid d0.
Proof. split; [reflexivity|split; [reflexivity|exact: ex_valid]]. Qed.
End Examples.

Print Assumptions C41_resample.
Print Assumptions C41_double_refuted.
Print Assumptions C41_zero_draw_refuted.
Print Assumptions C41_dynamic.
Print Assumptions C41_static.
