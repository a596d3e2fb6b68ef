(** * Lemmas about the particle smoother *)
From mathcomp Require Import all_ssreflect all_algebra.
From mathcomp Require Import ring zify.
From Verif Require Import OrdLra Outcome SpecProb ModelTables ProofsTables ModelMCPdf SpecMCPdf ProofsMCPdf ModelModels ModelFilter ProofsFilter
  ModelParticle SpecParticle ProofsParticle ModelKalman ModelSmoother SpecSmoother.
Set Implicit Arguments. Unset Strict Implicit. Unset Printing Implicit Defensive.
Import Order.TTheory GRing.Theory Num.Theory.
Local Open Scope ring_scope.

Lemma mapO_guard A B (P : A -> bool) (g : A -> B) (l : seq A) :
  mapO (fun x => guard (P x) ;; Ok (g x)) l = if all P l then Ok (map g l) else Abort.
Proof. by elim: l => //= x l ->; case: (P x) => //=; case: all. Qed.

Section PS.
Variables (R : realFieldType) (T Rnd : Type).
Notation part := (T * R)%type.
Notation psys := (psys R T Rnd).
Variables (sm : psys) (u : option T) (f : T -> T -> R) (q0 : part).
Hypothesis hf : forall y, dens sm y u (f y).
Implicit Types (fs os ns : seq part) (gamma : seq R).

Lemma ps_rowE y fs j g0 gamma : (j + size fs <= size gamma)%N ->
  exists gamma', [/\ ps_row sm u y fs j g0 gamma = Ok ([seq f y x.1 | x <- fs], gamma'), size gamma' = size gamma &
    forall k, nth 0 gamma' k = if (j <= k < j + size fs)%N then g0 + \sum_(z <- take (k - j).+1 fs) z.2 * f y z.1 else nth 0 gamma k].
Proof.
elim: fs j g0 gamma => [|x fs IH] j g0 gamma /= hj.
  by exists gamma; split=> // k; rewrite addn0; case: andP => // -[h1 h2]; move: (leq_trans h2 h1); rewrite ltnn.
have [-> h0] := dens_query x.1 (hf y); rewrite /= /mkProb h0 /=.
have lj : (j < size gamma)%N by lia.
rewrite (put_set_nth 0 _ lj) /=.
have sz : size (set_nth 0 gamma j (g0 + x.2 * f y x.1)) = size gamma by rewrite size_set_nth; apply/maxn_idPr.
have [|gamma' [-> s' n']] := IH j.+1 (g0 + x.2 * f y x.1) (set_nth 0 gamma j (g0 + x.2 * f y x.1)); first by rewrite sz; lia.
exists gamma'; split=> //=; first by rewrite s' sz.
move=> k; rewrite n' nth_set_nth /=; case: (ltngtP j k) => hk /=.
- rewrite addSnnS; case: ifP => // _; have -> : (k - j = (k - j.+1).+1)%N by lia.
  by rewrite big_cons addrA.
- by [].
- by rewrite -hk subnn take0 big_seq1 ifT //; lia.
Qed.

Lemma ps_row_oob y fs j g0 gamma : (j <= size gamma < j + size fs)%N -> ps_row sm u y fs j g0 gamma = UB.
Proof.
elim: fs j g0 gamma => [|x fs IH] j g0 gamma /= hj; first by lia.
have [-> h0] := dens_query x.1 (hf y); rewrite /= /mkProb h0 /=.
case: (ltnP j (size gamma)) => lj; last by rewrite put_UB.
rewrite (put_set_nth 0 _ lj) /= IH // size_set_nth (maxn_idPr lj); lia.
Qed.

Lemma ps_tableE os fs gamma : (size fs <= size gamma)%N ->
  exists gamma', [/\ ps_table sm u os fs gamma = Ok ([seq [seq f o.1 x.1 | x <- fs] | o <- os], gamma'), size gamma' = size gamma &
    forall k, nth 0 gamma' k = if (k < size fs)%N && (0 < size os)%N then \sum_(z <- take k.+1 fs) z.2 * f (last q0 os).1 z.1 else nth 0 gamma k].
Proof.
elim: os gamma => [|o os IH] gamma /= hs; first by exists gamma; split=> // k; rewrite andbF.
have [|g1 [-> s1 n1]] := @ps_rowE o.1 fs 0 0 gamma; first by rewrite add0n.
rewrite /=; have [|g2 [-> s2 n2]] := IH g1; first by rewrite s1.
exists g2; split=> //=; first by rewrite s2.
move=> k; rewrite n2 n1 /= add0n subn0 andbT add0r; case: (k < _)%N => //=.
by case: (os).
Qed.

Lemma ps_deltaE (prob : seq (seq R)) gamma i os j d : (j + size os <= size gamma)%N -> (i < size prob)%N ->
  (forall k, nth 0 gamma k != 0 -> (k < size (nth [::] prob i))%N) ->
  ps_delta prob gamma i os j d =
  Ok (d + \sum_(k < size os) (nth q0 os k).2 * nth 0 (nth [::] prob i) (j + k) / nth 0 gamma (j + k)).
Proof.
elim: os j d => [|o os IH] j d /= hj hi hk; first by rewrite big_ord0 addr0.
have lj : (j < size gamma)%N by lia.
have hj' : (j.+1 + size os <= size gamma)%N by lia.
rewrite (at_nth 0 lj) /= big_ord_recl /= addn0.
have e : \sum_(k < size os) (nth q0 os k).2 * nth 0 (nth [::] prob i) (j.+1 + k) / nth 0 gamma (j.+1 + k) =
    \sum_(k < size os) (nth q0 os k).2 * nth 0 (nth [::] prob i) (j + bump 0 k) / nth 0 gamma (j + bump 0 k).
  by apply: eq_bigr => k _; rewrite /bump add1n addSnnS.
case: ifP => [hg|/negbFE/eqP hg].
  by rewrite (at_nth [::] hi) /= (at_nth 0 (hk _ hg)) /= IH // e addrA.
by rewrite IH // e hg invr0 mulr0 add0r.
Qed.

Lemma ps_weightsE (prob : seq (seq R)) gamma os ns i (D : nat -> R) :
  (forall k, (k < size ns)%N -> ps_delta prob gamma (i + k) os 0 0 = Ok (D (i + k)%N)) ->
  ps_weights prob gamma os ns i = Ok [seq (nth q0 ns k).2 * D (i + k)%N | k <- iota 0 (size ns)].
Proof.
elim: ns i => [|x ns IH] i h //=.
have := h 0%N isT; rewrite addn0 => -> /=; rewrite IH /=; last by move=> k hk; rewrite addSnnS; exact: h.
congr (Ok (_ :: _)); rewrite -[1%N]addn0 iotaDl -map_comp; apply: eq_map => k /=.
by rewrite add1n addSnnS.
Qed.

Lemma ps_computeE os fs : (0 < size fs <= size os)%N ->
  (let! t := ps_table sm u os fs (nseq (size os) 0) in ps_weights t.1 t.2 os fs 0) =
  Ok [seq swapped_weight q0 f fs os i | i <- iota 0 (size fs)].
Proof.
move=> /andP[h0 hs]; have [|g [-> sg ng]] := @ps_tableE os fs (nseq (size os) 0); first by rewrite size_nseq.
rewrite [t in t = _]/=.
have ho : (0 < size os)%N by lia.
have {}ng k : nth 0 g k = if (k < size fs)%N then \sum_(z <- take k.+1 fs) z.2 * f (last q0 os).1 z.1 else 0.
  by rewrite ng ho andbT nth_nseq; case: ifP => //; case: ifP.
rewrite size_nseq in sg.
pose D i := \sum_(k < size os) (nth q0 os k).2 * nth 0 (nth [::] [seq [seq f o.1 x.1 | x <- fs] | o <- os] i) k / nth 0 g k.
rewrite (@ps_weightsE _ _ _ _ 0 D) => [|k hk]; last first.
  rewrite add0n ps_deltaE ?add0r //.
  - by rewrite add0n sg.
  - by rewrite size_map; lia.
  - by move=> j; rewrite ng (nth_map q0) ?size_map; [case: ltnP => //; rewrite eqxx|lia].
congr Ok; apply/eq_in_map => i; rewrite mem_iota add0n => /andP[_ hi].
rewrite /swapped_weight /D; congr (_ * _); have mi : minn (size os) (size fs) = size fs by lia.
pose F k : R := (nth q0 os k).2 * nth 0 (nth [::] [seq [seq f o.1 x.1 | x <- fs] | o <- os] i) k / nth 0 g k.
rewrite mi [RHS]big_mkord -(big_mkord xpredT F) (@big_cat_nat _ _ _ (size fs)) //= [X in _ + X]big_nat_cond [X in _ + X]big1 ?addr0; last first.
  by move=> k /andP[/andP[hk _] _]; rewrite /F ng ltnNge hk /= invr0 mulr0.
rewrite big_mkord; apply: eq_bigr => k _; rewrite /F ng ltn_ord (nth_map q0); last by lia.
by rewrite (nth_map q0).
Qed.

(** division by the total and the list update *)
Lemma ps_finish t0 post fs (w : seq R) : size w = size fs -> mc_sized post -> nonneg w -> 0 < total w ->
  let tot := foldl (fun acc x => acc + x) t0 w in
  (guard (tot != 0) ;;
   let! ns := mapO (fun q : part * R => guard (0 <= q.2 / tot) ;; Ok (q.1.1, q.2 / tot)) (zip fs w) in
   let! r := mc_setW q0 post ns in Ok r.2) =
  if 0 < t0 + total w then
    let l := normalised [seq (q.1.1, q.2) | q <- zip fs w] in Ok (MC l (cum_loop 0 (weights l)) 1)
  else Abort.
Proof.
move=> hw hs hn ht tot; have et : tot = t0 + total w.
  rewrite /tot /total; clear tot hw hn ht; elim: w t0 => [|x l IH] t0 /=; first by rewrite big_nil addr0.
  by rewrite IH big_cons addrA.
rewrite mapO_guard; set l := [seq (q.1.1, q.2) | q <- zip fs w].
have wl : weights l = w.
  rewrite /weights -map_comp -[RHS](unzip2_zip (s := fs) (t := w)) ?hw //.
rewrite et -et; case: ltrgtP => ht0 /=.
- have -> : all (fun q : part * R => 0 <= q.2 / tot) (zip fs w).
    have : all (fun x => 0 <= x) (unzip2 (zip fs w)) by rewrite unzip2_zip ?hw.
    by rewrite all_map; apply: sub_all => q /= hq; rewrite divr_ge0 // ltW.
  rewrite /=; set l' := map _ _.
  have wl' : weights l' = [seq x / tot | x <- w] by rewrite /l' /weights -map_comp -[in RHS]wl /l /weights -!map_comp.
  have tl' : total (weights l') = total w / tot by rewrite wl' /total big_map mulr_suml.
  have el : normalised l' = normalised l.
    rewrite /normalised /l' /l -!map_comp tl' wl; apply: eq_map => q /=; congr (_, _).
    by rewrite invf_div mulrA divfK ?gt_eqF.
  rewrite mc_setWE //=; first by rewrite el.
    by rewrite /nonneg wl' all_map; apply: sub_all hn => x /= hx; rewrite divr_ge0 // ltW.
  by rewrite tl' divr_gt0.
- have -> // : all (fun q : part * R => 0 <= q.2 / tot) (zip fs w) = false.
  apply/negP => ha; have : total w <= 0; last by rewrite leNgt ht.
  have : all (fun x => 0 <= x / tot) (unzip2 (zip fs w)) by rewrite all_map.
  rewrite unzip2_zip ?hw // => {}ha; rewrite -oppr_ge0 /total -sumrN big_seq; apply: sumr_ge0 => x hx; rewrite oppr_ge0.
  move: (allP ha x hx); rewrite ler_ndivl_mulr // mul0r //.
- by [].
Qed.

Lemma zip_swapped fs os :
  [seq (q.1.1, q.2) | q <- zip fs [seq swapped_weight q0 f fs os i | i <- iota 0 (size fs)]] = swapped_smoothed q0 f fs os.
Proof.
rewrite /swapped_smoothed -{1}(mkseq_nth q0 fs) /mkseq; move: (swapped_weight _ _ _ _) => w.
by elim: (iota 0 (size fs)) => //= k l ->.
Qed.
Lemma weights_swapped fs os :
  weights (swapped_smoothed q0 f fs os) = [seq swapped_weight q0 f fs os i | i <- iota 0 (size fs)].
Proof. by rewrite /weights /swapped_smoothed -map_comp. Qed.
Lemma values_swapped fs os : values (swapped_smoothed q0 f fs os) = values fs.
Proof. by rewrite /values /swapped_smoothed -map_comp -[in RHS](mkseq_nth q0 fs) /mkseq -[RHS]map_comp; apply: eq_map. Qed.
Lemma dens_ge0 y x : 0 <= f y x.
Proof. by have [] := dens_query x (hf y). Qed.
Lemma swapped_ge0 fs os : nonneg (weights fs) -> nonneg (weights os) ->
  nonneg (weights (swapped_smoothed q0 f fs os)).
Proof.
move=> h1 h2; have n1 l i : nonneg (weights l) -> (i < size l)%N -> 0 <= (nth q0 l i).2.
  by move=> h hi; have := all_nthP 0 h i; rewrite size_map (nth_map q0) //; apply.
rewrite weights_swapped /nonneg all_map; apply/allP => i; rewrite mem_iota add0n => /andP[_ hi] /=.
apply: mulr_ge0; first exact: n1.
rewrite big_mkord; apply: sumr_ge0 => -[j hj] _ /=; have [ho hs] : (j < size os /\ j < size fs)%N by move: hj; rewrite leq_min => /andP.
apply: divr_ge0; first by apply: mulr_ge0; [exact: n1|exact: dens_ge0].
rewrite (big_nth q0) big_mkord; apply: sumr_ge0 => -[k hk] _ /=; apply: mulr_ge0; last exact: dens_ge0.
move: hk; rewrite size_take => hk; rewrite nth_take; last by move: hk; case: ifP; lia.
by apply: n1 => //; move: hk; case: ifP; lia.
Qed.

Lemma ps_sysE t0 post filt : mc_sized post -> nonneg (weights (mc_los filt)) -> nonneg (weights (mc_los post)) ->
  (0 < size (mc_los filt) <= size (mc_los post))%N ->
  let l := swapped_smoothed q0 f (mc_los filt) (mc_los post) in 0 < total (weights l) ->
  ps_sys t0 q0 sm u post filt =
  if 0 < t0 + total (weights l) then Ok (MC (normalised l) (cum_loop 0 (weights (normalised l))) 1) else Abort.
Proof.
move=> hs h1 h2 hsz l ht; have := ps_computeE hsz; rewrite /ps_sys.
case: (ps_table _ _ _ _ _) => //= -[t g] /= ->.
rewrite [t in t = _]/= ps_finish //.
- by rewrite zip_swapped -weights_swapped.
- by rewrite size_map size_iota.
- by have := swapped_ge0 h1 h2; rewrite weights_swapped.
- by move: ht; rewrite /l weights_swapped.
Qed.
Lemma ps_sys_oob t0 post filt : (0 < size (mc_los post) < size (mc_los filt))%N ->
  ps_sys t0 q0 sm u post filt = UB.
Proof.
rewrite /ps_sys; case: (mc_los post) => //= o os hs.
by rewrite ps_row_oob //= size_nseq.
Qed.
End PS.
