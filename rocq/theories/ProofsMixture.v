(** * Proofs about mixtures *)
From mathcomp Require Import all_ssreflect all_algebra.
From mathcomp Require Import ring zify.
From Verif Require Import OrdLra Outcome SpecProb ModelTables ProofsTables
  ModelDiscretePdf SpecDiscretePdf ProofsDiscretePdf ModelMixture SpecMixture.
Set Implicit Arguments. Unset Strict Implicit. Unset Printing Implicit Defensive.
Import Order.TTheory GRing.Theory Num.Theory.
Local Open Scope ring_scope.

Section Mix.
Variables (R : realFieldType) (eps : R) (C : Type).
Implicit Types (m : mix R C) (w : seq R).

Definition normed w : seq R := [seq x / total w | x <- w].
Lemma size_normed w : size (normed w) = size w. Proof. exact: size_map. Qed.
Lemma normed1 w : total w = 1 -> normed w = w.
Proof. by move=> h; rewrite /normed h -[RHS]map_id; apply: eq_map => x /=; rewrite divr1. Qed.

Lemma mx_cumE n cs w c : 0 <= eps -> size w = n -> size c = n.+1 -> total w = 1 ->
  mx_cum_update eps (Mix n cs w c : mix R C) = Ok (Mix n cs w (cum_loop 0 w)).
Proof.
move=> he hw hc ht; rewrite /mx_cum_update /= hw hc !ltnn /= take_oversize ?hw //.
rewrite drop_oversize ?hc // cats0 (at_nth 0) ?size_cum ?hw //= nth_cum ?hw //.
rewrite add0r take_oversize ?hw // ht /guard (_ : _ && _ = true) /=; last by apply/andP; lra.
by rewrite -hw set_last_cum.
Qed.
Lemma mx_cum_bad n cs w c : size w = n -> size c = n.+1 -> ~~ (1 - eps <= total w <= 1 + eps) ->
  mx_cum_update eps (Mix n cs w c : mix R C) = Abort.
Proof.
move=> hw hc ht; rewrite /mx_cum_update /= hw hc !ltnn /= take_oversize ?hw //.
rewrite drop_oversize ?hc // cats0 (at_nth 0) ?size_cum ?hw //= nth_cum ?hw //.
by rewrite add0r take_oversize ?hw // /guard (negbTE ht).
Qed.
Lemma mx_cum_tol n cs w c : size w = n -> size c = n.+1 -> 1 - eps <= total w <= 1 + eps ->
  mx_cum_update eps (Mix n cs w c : mix R C) = Ok (Mix n cs w (set_nth 0 (cum_loop 0 w) n 1)).
Proof.
move=> hw hc ht; rewrite /mx_cum_update /= hw hc !ltnn /= take_oversize ?hw //.
rewrite drop_oversize ?hc // cats0 (at_nth 0) ?size_cum ?hw //= nth_cum ?hw //.
by rewrite add0r take_oversize ?hw // /guard ht /= (put_set_nth 0) // size_cum hw.
Qed.

Lemma mx_finishE n cs w c : 0 <= eps -> size w = n -> size c = n.+1 -> nonneg w -> 0 < total w ->
  mx_finish eps (Mix n cs w c : mix R C) = Ok (true, Mix n cs (normed w) (cum_loop 0 (normed w))).
Proof.
move=> he hw hc hn ht; rewrite /mx_finish /mx_normalize /= hw ltnn take_oversize ?hw //.
rewrite sum_loopE ht (@mapO_eq_ok _ _ _ (fun x => x / total w)) /=; last first.
  move=> x hx; have hx0 : 0 <= x := allP hn x hx.
  by rewrite /mkProb /guard divr_ge0 // ltW.
rewrite drop_oversize ?hw // cats0 mx_cumE // ?size_map //.
by rewrite total_map_div divff // gt_eqF.
Qed.
Lemma mx_finish0 n cs w c : size w = n -> ~~ (0 < total w) ->
  mx_finish eps (Mix n cs w c : mix R C) = Ok (false, Mix n cs w c).
Proof.
move=> hw ht; rewrite /mx_finish /mx_normalize /= hw ltnn take_oversize ?hw //.
by rewrite sum_loopE (negbTE ht).
Qed.
Lemma normed_distr w : nonneg w -> 0 < total w -> distribution (normed w).
Proof. exact: normalized_distribution. Qed.
Lemma mix_validI n (cs : seq C) w : size cs = n -> size w = n -> (0 < n)%N -> distribution w ->
  mix_valid (Mix n cs w (cum_loop 0 w)).
Proof. by move=> h1 h2 h3 h4; split=> //; [split; rewrite //= size_cum h2|exact: cum_prefix]. Qed.
Lemma mix_validE m : mix_valid m ->
  m = Mix (mx_n m) (mx_comps m) (mx_w m) (cum_loop 0 (mx_w m)).
Proof. by case: m => n cs w c [_ _ _ /prefix_cum /= ->]. Qed.

(** WeightsSet *)
Lemma mx_setsE n cs w c v : 0 <= eps -> (0 < n)%N -> size c = n.+1 -> size v = n -> nonneg v ->
  0 < total v ->
  mx_sets eps (Mix n cs w c : mix R C) v = Ok (true, Mix n cs (normed v) (cum_loop 0 (normed v))).
Proof.
move=> he hn hc hv hv0 ht; rewrite /mx_sets /mx_init /guard -/(nonneg v) hv0 /= -lt0n hn /= hv eqxx /=.
exact: mx_finishE.
Qed.

(** WeightSet on at least two components *)
Lemma mx_setE m k a : 0 <= eps -> mix_valid m -> (1 < mx_n m)%N -> (k < mx_n m)%N -> 0 <= a <= 1 ->
  exists w, [/\ mx_set eps m k a = Ok (true, Mix (mx_n m) (mx_comps m) w (cum_loop 0 w)),
    size w = mx_n m, distribution w &
    forall i, (i < mx_n m)%N -> nth 0 w i = rescaled (mx_w m) k a i].
Proof.
case: m => n cs w0 c he [[/= hcs hws hcu] hn0 hd hp] hn hk ha.
pose d := DPdf n w0 c.
have hv : dp_valid d by [].
have h := dp_setE he hv hn hk ha; have [h1 h2] := set_result_distr hv hn hk ha.
exists (set_result d k a); split=> //; last by move=> i hi; rewrite set_result_nth.
case/andP: (ha) => ha0 ha1.
move: h; rewrite /dp_set /mx_set /mx_weight_get /mx_init /guard ha0 ha1 /= ltz_nat hk -lt0n hn0 /= gtn_eqF //.
case: (at_ w0 k) => //= old; case: (if _ then _ else _) => //= w1.
case hp1: (put_ w1 k a) => [w2||] //= h.
case: (obind_Ok h) => d2 h3 [e]; subst d2.
have ew : w2 = set_result d k a.
  case: (obind_Ok h3) => x _ {}h3; case: (obind_Ok h3) => y _ {}h3.
  by case: (obind_Ok h3) => z _ [].
by rewrite ew mx_cumE //; case: h2.
Qed.
Lemma mx_set_one cs (x0 x1 x2 a : R) : 0 <= eps -> 0 <= a <= 1 ->
  mx_set eps (Mix 1 cs [:: x0] [:: x1; x2] : mix R C) 0 a =
  if 1 - eps <= a then Ok (true, Mix 1 cs [:: a] [:: 0; 1]) else Abort.
Proof.
move=> he /andP [h0 h1]; rewrite /mx_set /guard h0 h1 /=; case: ifP => h.
  by rewrite mx_cum_tol // total_seq1; apply/andP; lra.
by rewrite mx_cum_bad // total_seq1 h.
Qed.

(** AddComponent *)
Lemma vresize_grow (s : seq R) : vresize (size s).+1 s = rcons s 0.
Proof. by rewrite /vresize take_oversize // subSnn /= cats1. Qed.
Lemma put_rcons A (s : seq A) x y : put_ (rcons s x) (size s) y = Ok (rcons s y).
Proof. by elim: s => //= z s ->. Qed.
Lemma at_rcons A (s : seq A) x : at_ (rcons s x) (size s) = Ok x.
Proof. by elim: s. Qed.
Definition added w a := rcons [seq x * (1 - a) | x <- w] a.
Lemma size_added w a : size (added w a) = (size w).+1. Proof. by rewrite size_rcons size_map. Qed.
Lemma total_added w a : total (added w a) = total w * (1 - a) + a.
Proof. by rewrite total_rcons total_map_mul. Qed.
Lemma nonneg_map_mul w k : nonneg w -> 0 <= k -> nonneg [seq x * k | x <- w].
Proof. by move=> h hk; rewrite /nonneg all_map; apply/allP => x /(allP h) hx; exact: mulr_ge0. Qed.
Lemma nonneg_added w a : nonneg w -> 0 <= a <= 1 -> nonneg (added w a).
Proof.
move=> hw /andP [h0 h1]; rewrite /nonneg all_rcons h0; apply: nonneg_map_mul => //; lra.
Qed.

Lemma mx_add_bodyE n cs w c x a : 0 <= eps < 1 -> size cs = n -> size w = n -> size c = n.+1 ->
  (0 < n)%N -> nonneg w -> 1 - eps <= total w <= 1 -> 0 <= a <= 1 ->
  mx_add_body eps (Mix n cs w c : mix R C) x a =
  Ok (true, Mix n.+1 (rcons cs x) (normed (added w a)) (cum_loop 0 (normed (added w a)))).
Proof.
move=> /andP [he he1] hcs hw hc hn hnn /andP [ht1 ht2] /andP [ha0 ha1].
have htol : 1 - eps <= total (added w a) <= 1.
  rewrite total_added; apply/andP; split.
    have : 0 <= (total w - (1 - eps)) * (1 - a) by apply: mulr_ge0; lra.
    have : 0 <= eps * a by apply: mulr_ge0; lra.
    lra.
  have : 0 <= (1 - total w) * (1 - a) by apply: mulr_ge0; lra.
  lra.
rewrite /mx_add_body /= -hc vresize_grow /mx_lengths /guard /= !size_rcons hcs hw hc !eqxx /=.
rewrite /mx_set /mx_init /mx_weight_get /guard /= ha0 ha1 ltnSn eqSS (gtn_eqF hn) /=.
have -> : at_ (rcons w 0) n = Ok 0 by rewrite -hw at_rcons.
rewrite /= eq_sym oner_eq0 /= subr0 divr1.
rewrite (@mapO_eq_ok _ _ _ (fun x => x * (1 - a))) /=; last first.
  move=> y; rewrite mem_rcons inE => /orP [/eqP ->|/(allP hnn) hy]; rewrite /mkProb /guard.
    by rewrite mul0r lexx.
  by rewrite mulr_ge0 //; lra.
have -> : put_ [seq x0 * (1 - a) | x0 <- rcons w 0] n a = Ok (added w a).
  by rewrite map_rcons -hw -(size_map (fun x => x * (1 - a)) w) put_rcons.
rewrite /= mx_cum_tol ?size_added ?size_map ?size_rcons ?hc ?hw //; last by apply/andP; lra.
rewrite /= mx_finishE ?size_added ?hw //; last by lra.
  by rewrite size_set_nth size_cum size_added hw; apply/maxn_idPr; lia.
by apply: nonneg_added => //; apply/andP.
Qed.
Lemma mx_add_big n cs w c x a : size cs = n -> size w = n -> size c = n.+1 ->
  ~~ (0 <= a <= 1) -> (0 < n)%N -> mx_add eps (Mix n cs w c : mix R C) x a = Abort.
Proof.
move=> hcs hw hc ha hn; rewrite /mx_add /guard /= gtn_eqF //=; case h0: (0 <= a) => //=.
rewrite /mx_add_body /mx_lengths /guard /= -hc vresize_grow !size_rcons hcs hw hc !eqxx /=.
by rewrite /mx_set /guard h0 /= ltnSn; move: ha; rewrite h0 /= => /negbTE ->.
Qed.
Lemma mx_add_empty x a : 0 <= eps -> 0 <= a ->
  mx_add eps (Mix 0 [::] [::] [:: 0] : mix R C) x a = Ok (true, Mix 1 [:: x] [:: 1] [:: 0; 1]).
Proof.
move=> he ha; rewrite /mx_add /guard ha /=.
have -> : (if a != 1 then mx_add_body eps (Mix 0 [::] [::] [:: 0] : mix R C) x 1
           else mx_add_body eps (Mix 0 [::] [::] [:: 0] : mix R C) x a) =
          mx_add_body eps (Mix 0 [::] [::] [:: 0] : mix R C) x 1 by case: eqP => // ->.
rewrite /mx_add_body /mx_lengths /guard /= mx_set_one //; last by apply/andP; lra.
rewrite (_ : 1 - eps <= 1); last by lra.
have ht : total [:: 1 : R] = 1 by rewrite total_seq1.
rewrite /= mx_finishE ?ht ?ltr01 //; last by rewrite /nonneg /= ler01.
by rewrite normed1 //= add0r.
Qed.
Lemma mx_add0E n cs w c x : 0 <= eps -> size cs = n -> size w = n -> size c = n.+1 ->
  (0 < n)%N -> nonneg w -> 0 < total w ->
  mx_add0 eps (Mix n cs w c : mix R C) x =
  Ok (true, Mix n.+1 (rcons cs x) (normed (rcons w 0)) (cum_loop 0 (normed (rcons w 0)))).
Proof.
move=> he hcs hw hc hn hnn ht; rewrite /mx_add0 /mx_lengths /guard /= gtn_eqF //=.
rewrite !size_rcons hcs hw hc !eqxx /= mx_finishE ?size_rcons ?hw ?hc //.
  by rewrite /nonneg all_rcons lexx.
by rewrite total_rcons addr0.
Qed.

(** DeleteComponent *)
Lemma size_verase A (s : seq A) i : (i < size s)%N -> size (verase i s) = (size s).-1.
Proof. by move=> h; rewrite size_cat size_drop size_takel; lia. Qed.
Lemma total_verase w i : (i < size w)%N -> total (verase i w) = total w - nth 0 w i.
Proof.
move=> h; rewrite total_cat -(total_take_drop i.+1 w) total_takeS; ring.
Qed.
Lemma nonneg_verase w i : nonneg w -> nonneg (verase i w).
Proof. by move=> h; apply/nonneg_cat; split; [exact: nonneg_take|exact: nonneg_drop]. Qed.
Lemma size_vresize k (s : seq R) : size (vresize k s) = k.
Proof. by rewrite size_cat size_nseq size_take; case: ltnP; lia. Qed.

Lemma mx_del_start m i : mix_sized m -> (i < mx_n m)%N ->
  mx_del eps m i = let n := (mx_n m).-1 in
    let m1 := Mix n (verase i (mx_comps m)) (verase i (mx_w m)) (vresize n.+1 (mx_cum m)) in
    if n == 0%N then Ok (true, m1) else mx_finish eps m1.
Proof.
move=> [h1 h2 h3] hi; rewrite /mx_del /mx_lengths /mx_init /guard h1 h2 h3 !eqxx /=.
rewrite -lt0n (leq_ltn_trans _ hi) //= hi /= size_vresize !size_verase ?h1 ?h2 // !eqxx /=.
by [].
Qed.
Lemma mx_del_range m i : mix_sized m -> (mx_n m <= i)%N -> mx_del eps m i = Abort.
Proof.
move=> [h1 h2 h3] hi; rewrite /mx_del /mx_lengths /mx_init /guard h1 h2 h3 !eqxx /=.
by case: (mx_n m != 0)%N => //=; rewrite ltnNge hi.
Qed.
Lemma mx_delE m i : 0 <= eps -> mix_sized m -> nonneg (mx_w m) -> (1 < mx_n m)%N ->
  (i < mx_n m)%N -> nth 0 (mx_w m) i < total (mx_w m) ->
  let w := normed (verase i (mx_w m)) in
  mx_del eps m i = Ok (true, Mix (mx_n m).-1 (verase i (mx_comps m)) w (cum_loop 0 w)).
Proof.
move=> he hs hnn hn hi ht w; rewrite mx_del_start //; case: (hs) => h1 h2 h3.
rewrite /= (_ : ((mx_n m).-1 == 0)%N = false); last by lia.
rewrite mx_finishE ?size_vresize ?size_verase ?h2 //; first exact: nonneg_verase.
by rewrite total_verase ?h2 //; lra.
Qed.
Lemma mx_del_all m i : mix_sized m -> nonneg (mx_w m) -> (1 < mx_n m)%N ->
  (i < mx_n m)%N -> nth 0 (mx_w m) i = total (mx_w m) ->
  mx_del eps m i = Ok (false, Mix (mx_n m).-1 (verase i (mx_comps m)) (nseq (mx_n m).-1 0)
                              (vresize (mx_n m) (mx_cum m))).
Proof.
move=> hs hnn hn hi ht; rewrite mx_del_start //; case: (hs) => h1 h2 h3.
rewrite /= (_ : ((mx_n m).-1 == 0)%N = false); last by lia.
have h0 : ~~ (0 < total (verase i (mx_w m))) by rewrite total_verase ?h2 // ht subrr ltxx.
rewrite mx_finish0 ?size_verase ?h2 // (nonneg_sum0 (nonneg_verase i hnn) h0) size_verase ?h2 //.
by rewrite prednK // (leq_ltn_trans _ hi).
Qed.
Lemma mx_del_only m : mix_sized m -> mx_n m = 1%N -> nth 0 (mx_cum m) 0 = 0 ->
  mx_del eps m 0 = Ok (true, Mix 0 [::] [::] [:: 0]).
Proof.
move=> hs hn h0; rewrite mx_del_start ?hn //; case: hs => h1 h2 h3; rewrite hn in h1 h2 h3.
case: m hn h0 h1 h2 h3 => n [|x []] //= [|y []] //= [|z [|t []]] //= _ h _ _ _.
by rewrite /vresize /verase /= h.
Qed.

(** history *)
Definition mix_ok m := [\/ mix_valid m, mix_near eps m | mix_empty m].

Lemma mix_ok_sized m : mix_ok m -> mix_sized m.
Proof. by case=> [[]|[c [a [-> _]]]|->]. Qed.
Lemma mix_ok_tot m : 0 <= eps < 1 -> mix_ok m -> (0 < mx_n m)%N ->
  nonneg (mx_w m) /\ 1 - eps <= total (mx_w m) <= 1.
Proof.
move=> /andP [he he1]; case=> [[_ _ [h1 h2] _] _|[c [a [-> /andP [h1 h2]]]] _|->] //.
  by split=> //; rewrite h2; apply/andP; lra.
split; last by rewrite total_seq1 h1.
rewrite /nonneg /= andbT; lra.
Qed.
Lemma finish_ok n cs w c m' : 0 <= eps -> size cs = n -> size w = n -> size c = n.+1 ->
  nonneg w -> mx_finish eps (Mix n cs w c : mix R C) = Ok (true, m') -> mix_valid m'.
Proof.
move=> he h1 h2 h3 h4; case ht: (0 < total w); last by rewrite mx_finish0 ?ht.
rewrite mx_finishE // => -[<-]; apply: mix_validI; rewrite ?size_normed //.
  by case: w h2 ht {h4} => [|x w] <- //; rewrite total_nil ltxx.
exact: normed_distr.
Qed.

Lemma one_valid c : mix_valid (Mix 1 [:: c] [:: 1] [:: 0; 1] : mix R C).
Proof.
have -> : [:: 0; 1] = cum_loop 0 [:: 1 : R] by rewrite /= add0r.
by apply: mix_validI => //; split; rewrite ?total_seq1 // /nonneg /= ler01.
Qed.
Lemma mx_step_strong m o m' : 0 <= eps < 1 -> mix_ok m -> mx_step eps m o = Ok (true, m') ->
  [\/ mix_valid m', (exists i a, o = MSet C i a) /\ mix_near eps m' | mix_empty m'].
Proof.
move=> hee hok; case/andP: (hee) => he he1; have [hs1 hs2 hs3] := mix_ok_sized hok.
case: o => [i a|v|c|c a|i] /=.
- case ha: (0 <= a <= 1); last first.
    rewrite /mx_set /mx_init /guard; case h0: (0 <= a) => //=; case: (mx_n m != 0%N) => //=; case: (i < mx_n m)%N => //=.
    by move: ha; rewrite h0 /= => ->.
  case: (ltnP i (mx_n m)) => hi; last first.
    rewrite /mx_set /mx_init /guard; case h0: (0 <= a) => //=; case: (mx_n m != 0%N) => //=; by rewrite ltnNge hi.
  case: (ltnP 1 (mx_n m)) => hn.
    have hv : mix_valid m by case: hok => // [[x [y [e _]]]|e]; move: hn; rewrite e.
    case: (mx_setE he hv hn hi ha) => w [-> h1 h2 _] [<-]; constructor 1; apply: mix_validI => //.
    by case: hv.
  have e1 : mx_n m = 1%N by lia.
  have ei : i = 0%N by lia.
  rewrite ei; case: m e1 {hok hi hn} hs1 hs2 hs3 => n cs w c /= ->.
  case: cs => [|x []] //; case: w => [|y []] //; case: c => [|z [|t []]] // _ _ _.
  rewrite mx_set_one //; case: ifP => // h [<-]; constructor 2; split; [by exists 0%N, a|exists x, a; split=> //].
  by rewrite h; case/andP: ha.
- rewrite /mx_sets /mx_init /guard; case hv: (all _ v) => //=; case: (mx_n m != 0%N) => //=; case: eqP => //= hsz.
  by move=> h; constructor 1; apply: finish_ok h.
- case: (posnP (mx_n m)) => hn.
    have hm : mix_empty m by case: hok => // [[_]|[x [y [e _]]]]; [rewrite hn|move: hn; rewrite e].
    rewrite hm /mx_add0 /= mx_add_empty ?ler01 // => -[<-]; constructor 1; exact: one_valid.
  have [h1 /andP [h2 h3]] := mix_ok_tot hee hok hn.
  case: m hs1 hs2 hs3 hn h1 h2 h3 {hok} => n cs w cu /= hs1 hs2 hs3 hn h1 h2 h3.
  rewrite mx_add0E //; last by lra.
  move=> [<-]; constructor 1; apply: mix_validI; rewrite ?size_normed ?size_rcons ?hs1 ?hs2 //.
  apply: normed_distr; first by rewrite /nonneg all_rcons lexx.
  by rewrite total_rcons; lra.
- case: (posnP (mx_n m)) => hn.
    have hm : mix_empty m by case: hok => // [[_]|[x [y [e _]]]]; [rewrite hn|move: hn; rewrite e].
    rewrite hm; case h0: (0 <= a); last by rewrite /mx_add /guard h0.
    rewrite mx_add_empty // => -[<-]; constructor 1; exact: one_valid.
  have [h1 h2] := mix_ok_tot hee hok hn.
  case: m hs1 hs2 hs3 hn h1 h2 {hok} => n cs w cu /= hs1 hs2 hs3 hn h1 h2.
  case ha: (0 <= a <= 1); last by rewrite mx_add_big ?ha.
  rewrite /mx_add /guard; case/andP: (ha) => -> _ /=; rewrite gtn_eqF //= mx_add_bodyE // => -[<-].
  constructor 1; apply: mix_validI; rewrite ?size_normed ?size_added ?size_rcons ?hs1 ?hs2 //.
  apply: normed_distr; first exact: nonneg_added.
  rewrite total_added; case/andP: h2 => h2 h3; case/andP: ha => ha0 ha1.
  have : 0 <= (total w - (1 - eps)) * (1 - a) by apply: mulr_ge0; lra.
  have : 0 <= eps * a by apply: mulr_ge0; lra.
  by lra.
case: (ltnP i (mx_n m)) => hi; last by rewrite mx_del_range.
have hn : (0 < mx_n m)%N by apply: leq_ltn_trans hi.
have [h1 h2] := mix_ok_tot hee hok hn.
rewrite mx_del_start //=; case: eqP => h0.
  case=> <-; constructor 3; have e1 : mx_n m = 1%N by lia.
  have ei : i = 0%N by lia.
  have hc0 : nth 0 (mx_cum m) 0 = 0.
    by case: hok => [[_ _ _ /prefix_first]|[x [y [-> _]]]|->].
  have := mx_del_only (mix_ok_sized hok) e1 hc0.
  by rewrite ei mx_del_start ?e1 //= /mix_empty => -[-> -> ->].
move=> h; constructor 1; apply: finish_ok h; rewrite ?size_vresize ?size_verase ?hs1 ?hs2 //; exact: nonneg_verase.
Qed.

Lemma mx_step_ok m o m' : 0 <= eps < 1 -> mix_ok m -> mx_step eps m o = Ok (true, m') -> mix_ok m'.
Proof. by move=> he h /(mx_step_strong he h) [?|[_ ?]|?]; [constructor 1|constructor 2|constructor 3]. Qed.

Lemma mx_buildE (cs : seq C) : 0 <= eps -> (0 < size cs)%N ->
  mx_build eps cs = Ok (Mix (size cs) cs (nseq (size cs) (size cs)%:R^-1)
                            (cum_loop 0 (nseq (size cs) (size cs)%:R^-1))).
Proof.
move=> he hn; have [h1 h2] := uniform_distribution R hn.
rewrite /mx_build; case: cs hn h1 h2 => // c cs; set l := c :: cs => hn h1 h2.
have hn0 : (size l)%:R != 0 :> R by rewrite pnatr_eq0.
have gen (s : seq C) : mapO (fun _ : C => divProb 1 (size l)%:R) s = Ok (nseq (size s) ((size l)%:R^-1 : R)).
  have e : divProb 1 (size l)%:R = Ok ((size l)%:R^-1 : R).
    by rewrite /divProb (negbTE hn0) /mkProb /guard div1r invr_ge0 ler0n.
  by elim: s => //= x r ->; rewrite e.
rewrite gen.
rewrite [obind _ _]/=; exact: mx_cumE (size_nseq _ _) (size_nseq _ _) h2.
Qed.

(** reading all components *)
Lemma mapO_map A B D (f : B -> outcome D) (g : A -> B) s : mapO f (map g s) = mapO (fun x => f (g x)) s.
Proof. by elim: s => //= x s ->. Qed.
Lemma mapO_eq A B (f g : A -> outcome B) s : (forall x, f x = g x) -> mapO f s = mapO g s.
Proof. by move=> h; elim: s => //= x s ->; rewrite h. Qed.
Lemma mapO_iota2 A B D (f : A -> B -> D) s t n : size s = n -> size t = n ->
  mapO (fun i => let! a := at_ s i in let! b := at_ t i in Ok (f a b)) (iota 0 n)
  = Ok [seq f p.1 p.2 | p <- zip s t].
Proof.
elim: s t n => [|x s IH] [|y t] n <- //= [h].
by rewrite (iotaDl 1 0) mapO_map /= IH.
Qed.
Lemma mapO_iota A (s : seq A) n : size s = n -> mapO (at_ s) (iota 0 n) = Ok s.
Proof.
elim: s n => [|x s IH] n <- //=; rewrite (iotaDl 1 0) mapO_map.
by rewrite (@mapO_eq _ _ _ (at_ s)) // IH.
Qed.

(** strict argmax: the first maximum *)
Lemma argmax_first (B : Type) (f : nat -> B) l (best : B) (p : R) (i : nat) :
  let r := foldl (fun (acc : B * R * nat) (v : R) =>
            let '(best, p, i) := acc in
            if p < v then (f i, v, i.+1) else (best, p, i.+1)) (best, p, i) l in
  (r.1 = (best, p) /\ (forall j, (j < size l)%N -> nth 0 l j <= p)) \/
  (exists2 k, (k < size l)%N & [/\ r.1 = (f (i + k)%N, nth 0 l k), p < nth 0 l k,
     (forall j, (j < size l)%N -> nth 0 l j <= nth 0 l k) &
     forall j, (j < k)%N -> nth 0 l j < nth 0 l k]).
Proof.
elim: l best p i => [|x l IH] best p i /=; first by left.
case: ltP => hx.
  case: (IH (f i) x i.+1) => [[hr hj]|[k hk [hr hp hj hf]]]; right.
    exists 0%N => //; split; rewrite ?addn0 //.
    by move=> [|j] //= h; apply: hj.
  exists k.+1 => //; split; rewrite ?addnS -?addSn //=; first by lra.
    by move=> [|j] //= h; [lra | apply: hj].
  by move=> [|j] //= h; apply: hf.
case: (IH best p i.+1) => [[hr hj]|[k hk [hr hp hj hf]]]; [left|right].
  by split=> // -[|j] //= h; apply: hj.
exists k.+1 => //; split; rewrite ?addnS -?addSn //=.
  by move=> [|j] //= h; [lra | apply: hj].
by move=> [|j] //= h; [lra | apply: hf].
Qed.
End Mix.
