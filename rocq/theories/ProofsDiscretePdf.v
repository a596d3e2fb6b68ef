(** * Proofs about the [DiscretePdf] model *)
From mathcomp Require Import all_ssreflect all_algebra.
From mathcomp Require Import ring zify.
From Verif Require Import OrdLra Outcome SpecProb ModelTables ProofsTables
  ModelDiscretePdf SpecDiscretePdf.
Set Implicit Arguments. Unset Strict Implicit. Unset Printing Implicit Defensive.
Import Order.TTheory GRing.Theory Num.Theory.
Local Open Scope ring_scope.

Section DiscretePdf.
Variable R : realFieldType.
Variable eps : R.
Variable root : R -> nat -> R.
Implicit Types (d : dpdf R) (v l : seq R).

Lemma cum_updateE n v : 0 <= eps -> size v = n -> total v = 1 ->
  dp_cum_update eps n v = Ok (DPdf n v (cum_loop 0 v)).
Proof.
move=> he <- ht; rewrite /dp_cum_update (at_nth 0) ?size_cum //= nth_cum // take_size add0r ht.
by rewrite /guard (_ : _ && _) /= ?set_last_cum //; lra.
Qed.
Lemma cum_update_abort n v : size v = n -> ~~ (1 - eps <= total v <= 1 + eps) ->
  dp_cum_update eps n v = Abort.
Proof.
move=> <- h; rewrite /dp_cum_update (at_nth 0) ?size_cum //= nth_cum // take_size add0r.
by rewrite /guard (negbTE h).
Qed.
Lemma cum_update_valid n v : size v = n -> distribution v ->
  dp_valid (DPdf n v (cum_loop 0 v)).
Proof. by move=> h hd; split=> //; exact: cum_prefix. Qed.

Lemma mapO_const A B (l : seq A) (x : B) : mapO (fun _ => Ok x) l = Ok (nseq (size l) x).
Proof. by elim: l => //= a l ->. Qed.
Lemma nonneg_nseq n (x : R) : 0 <= x -> nonneg (nseq n x).
Proof. by move=> h; rewrite /nonneg all_nseq h orbT. Qed.

Lemma dp_newE n : 0 <= eps -> (0 < n)%N ->
  dp_new eps n = Ok (DPdf n (nseq n n%:R^-1) (cum_loop 0 (nseq n n%:R^-1))).
Proof.
move=> he hn; have hn0 : n%:R != 0 :> R by rewrite pnatr_eq0 -lt0n.
rewrite /dp_new /divProb (negbTE hn0) /mkProb /guard (_ : 0 <= 1 / n%:R) /=; last first.
  by rewrite div1r invr_ge0 ler0n.
rewrite mapO_const size_iota /= div1r cum_updateE ?size_nseq //.
by rewrite total_nseq divff.
Qed.
Lemma uniform_distribution n : (0 < n)%N -> distribution (nseq n (n%:R^-1 : R)).
Proof.
move=> hn; split; first by apply: nonneg_nseq; rewrite invr_ge0 ler0n.
by rewrite total_nseq divff // pnatr_eq0 -lt0n.
Qed.
Lemma dp_new0 : 0 <= eps -> eps < 1 -> dp_new eps 0 = Abort.
Proof. by move=> h0 h1; rewrite /dp_new /= cum_update_abort // total_nil; apply/negP; lra. Qed.

(** ProbabilitiesSet *)
Lemma normalizeE v : nonneg v -> 0 < total v ->
  dp_normalize v = Ok (true, [seq x / total v | x <- v]).
Proof.
move=> hv ht; rewrite /dp_normalize sum_loopE ht.
rewrite (@mapO_eq_ok _ _ _ (fun x => x / total v)) //= => x hx.
rewrite /mkProb /guard divr_ge0 //; [by move/allP: hv => /(_ x hx) | exact: ltW].
Qed.
Lemma normalized_distribution v : nonneg v -> 0 < total v ->
  distribution [seq x / total v | x <- v].
Proof.
move=> hv ht; split; last by rewrite total_map_div divff // gt_eqF.
apply/allP=> y /mapP [x hx ->]; rewrite divr_ge0 //; [by move/allP: hv => /(_ x hx) | exact: ltW].
Qed.
Lemma dp_setsE d v : 0 <= eps -> nonneg v -> size v = dp_n d -> 0 < total v ->
  dp_sets eps d v = Ok (true, DPdf (dp_n d) [seq x / total v | x <- v]
                                (cum_loop 0 [seq x / total v | x <- v])).
Proof.
move=> he hv hs ht; rewrite /dp_sets /guard hv hs eqxx /= normalizeE //=.
rewrite cum_updateE ?size_map //.
by rewrite total_map_div divff // gt_eqF.
Qed.
Lemma dp_sets_zero d v : nonneg v -> size v = dp_n d -> ~~ (0 < total v) ->
  dp_sets eps d v = Ok (false, DPdf (dp_n d) v (dp_cum d)).
Proof.
move=> hv hs ht; rewrite /dp_sets /guard hv hs eqxx /= /dp_normalize sum_loopE.
by rewrite (negbTE ht).
Qed.
Lemma dp_sets_abort d v : ~ (nonneg v /\ size v = dp_n d) -> dp_sets eps d v = Abort.
Proof.
rewrite /dp_sets /guard => h; case: allP => //= hv; case: eqP => //= hs.
by case: h; split=> //; apply/allP.
Qed.

(** ProbabilitySet *)
Lemma nth_eq1_others l k : distribution l -> (k < size l)%N -> nth 0 l k = 1 ->
  forall i, i != k -> nth 0 l i = 0.
Proof.
move=> [hl ht] hk h1 i hi.
have hge := nonneg_nth i hl.
suff : nth 0 l i + nth 0 l k <= total l by lra.
have haux : forall a b, (a < b)%N -> nth 0 l a + nth 0 l b <= total l.
  move=> a b hab; rewrite -(total_take_drop b.+1) total_takeS.
  have h2 := total_take_mono hl hab; rewrite total_takeS in h2.
  have h3 := total_ge0 (nonneg_take a hl); have h4 := total_ge0 (nonneg_drop b.+1 hl); lra.
case: (ltngtP i k) hi => // h _; [exact: haux | rewrite addrC; exact: haux].
Qed.

Lemma total_set_nth l k (a : R) : (k < size l)%N ->
  total (set_nth 0 l k a) = total l - nth 0 l k + a.
Proof.
elim: l k => [|x l IH] [|k] //= hk; rewrite !total_cons; first by ring.
by rewrite IH //; lra.
Qed.

Definition set_result d k a : seq R :=
  set_nth 0 (if nth 0 (dp_vals d) k != 1
             then [seq v * ((1 - a) / (1 - nth 0 (dp_vals d) k)) | v <- dp_vals d]
             else nseq (size (dp_vals d)) ((1 - a) / (dp_n d).-1%:R)) k a.

Lemma set_result_distr d k a : dp_valid d -> (1 < dp_n d)%N -> (k < dp_n d)%N ->
  0 <= a <= 1 -> size (set_result d k a) = dp_n d /\ distribution (set_result d k a).
Proof.
move=> [hs [hl ht] _] hn hk ha.
have hk' : (k < size (dp_vals d))%N by rewrite hs.
have hold := nth_le_total k hl; rewrite ht in hold.
have hold0 := nonneg_nth k hl.
rewrite /set_result.
set w := (if _ then _ else _).
have hw : size w = dp_n d by rewrite /w; case: ifP; rewrite ?size_map ?size_nseq.
have hwk : (k < size w)%N by rewrite hw.
split; first by rewrite size_set_nth hw; apply/maxn_idPr.
split.
  apply/(all_nthP 0) => i; rewrite size_set_nth (maxn_idPr hwk) => hi.
  rewrite nth_set_nth /=; case: eqP => _; first by lra.
  rewrite /w; case: eqP => /= h1; last first.
    rewrite (nth_map 0); last by rewrite hs -hw.
    have := nonneg_nth i hl => h2.
    apply: mulr_ge0 => //; apply: divr_ge0; lra.
  rewrite nth_nseq; case: ifP => // _; apply: divr_ge0; [lra | exact: ler0n].
rewrite total_set_nth // /w; case: eqP => /= h1.
  rewrite total_nseq nth_nseq hk' hs.
  have hn1 : (dp_n d).-1%:R != 0 :> R by rewrite pnatr_eq0; lia.
  have -> : (dp_n d)%:R = (dp_n d).-1%:R + 1 :> R.
    by rewrite -{1}(prednK (ltnW hn)) -addn1 natrD.
  by field.
rewrite total_map_mul ht (nth_map 0) //.
have : 1 - nth 0 (dp_vals d) k != 0 by apply/eqP=> h; apply: h1; lra.
by move=> ?; rnorm; field.
Qed.

Lemma dp_setE d k a : 0 <= eps -> dp_valid d -> (1 < dp_n d)%N -> (k < dp_n d)%N ->
  0 <= a <= 1 ->
  dp_set eps d k%:Z a = Ok (true, DPdf (dp_n d) (set_result d k a) (cum_loop 0 (set_result d k a))).
Proof.
move=> he hv hn hk ha; case: (hv) => hs [hl ht] hc.
have [hrs hrd] := set_result_distr hv hn hk ha.
case/andP: ha => ha0 ha1.
rewrite /dp_set /guard ha0 ha1 /= ltz_nat hk /= (at_nth 0) ?hs //=.
have hold := nth_le_total k hl; rewrite ht in hold.
have hold0 := nonneg_nth k hl.
rewrite (_ : (if _ then _ else _) = Ok (if nth 0 (dp_vals d) k != 1
             then [seq v * ((1 - a) / (1 - nth 0 (dp_vals d) k)) | v <- dp_vals d]
             else nseq (size (dp_vals d)) ((1 - a) / (dp_n d).-1%:R))); last first.
  case: eqP => /= h1.
    have hn1 : (dp_n d).-1%:R != 0 :> R by rewrite pnatr_eq0; lia.
    rewrite /divProb (negbTE hn1) /mkProb /guard divr_ge0 /= ?ler0n ?mapO_const //.
    by lra.
  rewrite (@mapO_eq_ok _ _ _ (fun x : R => x * ((1 - a) / (1 - nth 0 (dp_vals d) k)))) // => x hx.
  rewrite /mkProb /guard mulr_ge0 //; first by move/allP: hl => /(_ x hx).
  by apply: divr_ge0; lra.
rewrite /= (put_set_nth 0) /=; last first.
  by case: eqP => _ /=; rewrite ?size_nseq ?size_map hs.
by rewrite -/(set_result d k a) cum_updateE //; case: hrd.
Qed.

Lemma set_result_nth d k a i : size (dp_vals d) = dp_n d -> (k < dp_n d)%N -> (i < dp_n d)%N ->
  nth 0 (set_result d k a) i = rescaled (dp_vals d) k a i.
Proof.
move=> hs hk hi; rewrite /set_result /rescaled nth_set_nth /=; case: eqP => // _.
case: eqP => /= h1; first by rewrite nth_nseq hs hi.
by rewrite (nth_map 0) // hs.
Qed.

Lemma dp_set_abort d st a : dp_valid d ->
  ~ (0 <= st < (dp_n d)%:Z /\ 0 <= a <= 1 /\ (1 < dp_n d)%N) -> dp_set eps d st a = Abort.
Proof.
move=> [hs [hl ht] hc] hno; rewrite /dp_set /guard.
case ha0: (0 <= a) => //=; case hst: (_ && _) => //=; case ha1: (a <= 1) => //=.
have hn : dp_n d = 1%N.
  case: (ltnP 1 (dp_n d)) => h; first by case: hno; rewrite ?ha0 ?ha1.
  move: hst; lia.
have hst0 : `|st|%N = 0%N by move: hst; rewrite hn; lia.
rewrite hst0; case: (dp_vals d) hs ht => [|x [|y r]]; rewrite hn // => _.
rewrite total_seq1 => -> /=.
by rewrite eqxx /= /divProb eqxx.
Qed.

Lemma dp_set_Ok_inv d st a b d' : dp_valid d -> dp_set eps d st a = Ok (b, d') ->
  [/\ b = true, exists2 k, st = k%:Z & (k < dp_n d)%N, 0 <= a <= 1 & (1 < dp_n d)%N].
Proof.
move=> hv h.
case hst: (0 <= st < (dp_n d)%:Z); last first.
  by rewrite dp_set_abort // hst in h; intuition.
case ha: (0 <= a <= 1); last by rewrite dp_set_abort // ha in h; intuition.
case: (ltnP 1 (dp_n d)) => hn; last first.
  by rewrite dp_set_abort // in h => -[_ [_]]; lia.
split=> //.
  move: h; rewrite /dp_set; do 3 case: (guard _) => //= _.
  case: (at_ _ _) => //= o; case: (if _ then _ else _) => //= v1.
  by case: (put_ _ _ _) => //= v2; case: (dp_cum_update _ _ _) => //= d2 [<-].
by case: st hst {h} => k; [move=> h; exists k; move: h; lia | lia].
Qed.

(** history *)
Lemma dp_step_valid d o d' : 0 <= eps -> dp_valid d -> dp_step eps d o = Ok (true, d') ->
  dp_valid d' /\ dp_n d' = dp_n d.
Proof.
move=> he hv; case: o => [st a|v] /=.
  move=> h; case: (dp_set_Ok_inv hv h) => _ [k hk1 hk2] ha hn.
  move: h; rewrite hk1 dp_setE // => -[<-] /=; split=> //.
  by have [h1 h2] := set_result_distr hv hn hk2 ha; exact: cum_update_valid.
case hnn: (all (fun x => 0 <= x) v); last first.
  by rewrite dp_sets_abort // /nonneg hnn => -[].
case: (size v =P dp_n d) => hs; last by rewrite dp_sets_abort // => -[].
case ht: (0 < total v); last by rewrite dp_sets_zero // ht.
rewrite dp_setsE // => -[<-] /=; split=> //.
apply: cum_update_valid; rewrite ?size_map //; exact: normalized_distribution.
Qed.

Lemma dp_run_valid n ops d0 fl d : 0 <= eps -> dp_new eps n = Ok d0 -> (0 < n)%N ->
  runO (@dp_step R eps) d0 ops = Ok (fl, d) -> all id fl -> dp_valid d /\ dp_n d = n.
Proof.
move=> he h0 hn hrun hfl.
apply: (runO_inv (I := fun d => dp_valid d /\ dp_n d = n)) hrun hfl; last first.
  move: h0; rewrite dp_newE // => -[<-]; split=> //.
  by apply: cum_update_valid; rewrite ?size_nseq //; exact: uniform_distribution.
by move=> s o s' [hv <-] /dp_step_valid; apply.
Qed.

(** sampling *)
Lemma valid_cum d : dp_valid d -> dp_cum d = cum_loop 0 (dp_vals d).
Proof. by case=> _ _ /prefix_cum. Qed.

Lemma dp_sample1E d u : dp_valid d -> 0 < u <= 1 ->
  exists k, dp_sample1 d DEFAULT u = Ok (Some k%:Z) /\ quantile (dp_vals d) u k.
Proof.
move=> hv /andP [h0 h1]; have hc := valid_cum hv; case: hv => hs [hl ht] _.
have h1' : u <= total (dp_vals d) by rewrite ht.
case: (scan_quantile h0 h1') => k [hk hq]; exists k; split=> //.
rewrite /dp_sample1 hc -hs hk /=; do 2 congr Ok || congr Some.
by rewrite -addn1 PoszD addrK.
Qed.

Lemma dp_sample1_zero d u : dp_valid d -> u <= 0 -> dp_sample1 d DEFAULT u = Ok (Some (-1)).
Proof.
move=> hv hu; rewrite /dp_sample1 (valid_cum hv).
case: (dp_vals d) => [|x l]; rewrite /= ltNge hu //=.
Qed.

Hypothesis root01 : forall u k, 0 < u <= 1 -> (0 < k)%N -> 0 < root u k <= 1.

Lemma dp_ripleyE d us : dp_valid d -> us != [::] -> all (fun u => 0 < u <= 1) us ->
  exists ks : seq nat,
    [/\ dp_samples root d RIPLEY us = Ok (Some [seq k%:Z | k <- ks]), size ks = size us,
        forall i, (i < size us)%N ->
          quantile (dp_vals d) (nth 0 (ripley root us 0) i) (nth 0%N ks i)
      & sorted leq ks].
Proof.
move=> hv hus hall; have hc := valid_cum hv; case: (hv) => hs [hl ht] _.
case: (scan_many_quantiles root01 hl ht hall) => ks [h1 h2 h3 h4]; exists ks; split=> //.
rewrite /dp_samples; case: us hus {hall} h1 h2 h4 => // u us _ h1 _ _.
rewrite hc -hs h1 /= -map_comp; congr (Ok (Some _)); apply: eq_map => k /=.
by rewrite -addn1 PoszD addrK.
Qed.

(** argmax *)
Lemma argmax_fold l (best : int) (p : R) (i : nat) :
  let r := foldl (fun (acc : int * R * nat) (v : R) =>
            let '(best, p, i) := acc in
            if p <= v then (i%:Z, v, i.+1) else (best, p, i.+1)) (best, p, i) l in
  [/\ p <= r.1.2, (forall j, (j < size l)%N -> nth 0 l j <= r.1.2) &
      (r.1 = (best, p) /\ (forall j, (j < size l)%N -> nth 0 l j < p)) \/
      (exists2 k, (k < size l)%N & [/\ r.1 = ((i + k)%N%:Z, nth 0 l k) &
          forall j, (k < j)%N -> (j < size l)%N -> nth 0 l j < nth 0 l k])].
Proof.
elim: l best p i => [|x l IH] best p i /=; first by split=> //; left.
case: (leP p x) => hx.
  case: (IH i%:Z x i.+1) => h1 h2 h3; split; first by lra.
    by move=> [|j] //= hj; apply: h2.
  right; case: h3 => [[hr hj]|[k hk [hr hj]]].
    exists 0%N => //; split; first by rewrite addn0.
    by move=> [|j] //= _ hj'; apply: hj.
  by exists k.+1 => //; split; [rewrite addnS -addSn|move=> [|j] //= ? ?; exact: hj].
case: (IH best p i.+1) => h1 h2 h3; split=> //.
  by move=> [|j] //= hj; [lra | apply: h2].
case: h3 => [[hr hj]|[k hk [hr hj]]]; [left|right].
  by split=> // -[|j] //= hj'; apply: hj.
by exists k.+1 => //; split; [rewrite addnS -addSn|move=> [|j] //= ? ?; exact: hj].
Qed.

Lemma dp_argmaxE d : nonneg (dp_vals d) -> (0 < size (dp_vals d))%N ->
  exists k, [/\ dp_argmax d = k%:Z, (k < size (dp_vals d))%N,
    (forall j, (j < size (dp_vals d))%N -> nth 0 (dp_vals d) j <= nth 0 (dp_vals d) k)
    & forall j, (k < j)%N -> (j < size (dp_vals d))%N -> nth 0 (dp_vals d) j < nth 0 (dp_vals d) k].
Proof.
move=> hl hs; case: (argmax_fold (dp_vals d) (-1) 0 0%N) => h1 h2.
rewrite -/(dp_argmax d) => -[[_ h]|[k hk [hr hj]]].
  by have := h 0%N hs; have := nonneg_nth 0%N hl; lra.
exists k; rewrite /dp_argmax hr /= add0n; split=> // j hj'.
by have := h2 j hj'; rewrite hr.
Qed.
End DiscretePdf.
