(** * C13-C18: properties of particle sets ([MCPdf]) *)
From mathcomp Require Import all_ssreflect all_algebra.
From mathcomp Require Import ring zify.
From Verif Require Import OrdLra Outcome SpecProb ModelTables ProofsTables
  ModelDiscretePdf ProofsDiscretePdf ModelMCPdf SpecMCPdf ProofsMCPdf.
Set Implicit Arguments. Unset Strict Implicit. Unset Printing Implicit Defensive.
Import Order.TTheory GRing.Theory Num.Theory.
Local Open Scope ring_scope.

Section Properties.
Variables (R : realFieldType) (T : Type).
Implicit Types (d : mcpdf R T) (l : seq (T * R)) (vs : seq T) (junk : T * R).

(** C13 *)
Theorem C13_set_weighted junk d l : mc_sized d -> nonneg (weights l) ->
  exists b d', mc_setW junk d l = Ok (b, d') /\ (b <-> 0 < total (weights l)) /\
    (b -> [/\ mc_valid d', size (mc_los d') = size l &
      forall i v w, at_ l i = Ok (v, w) -> mc_get d' i = Ok (v, w / total (weights l))]).
Proof.
move=> hs hn; case ht: (0 < total (weights l)).
  exists true; rewrite mc_setWE //; eexists; split; [by []|split=> // _; split].
  - by apply: valid_build; exact: normalised_distr.
  - by rewrite /= size_normalised.
  move=> i v w h; have [hi e] := at_Ok (v, w) h; rewrite /mc_get /= size_normalised hi /=.
  by rewrite (at_nth (v, w)) ?size_normalised // (nth_map (v, w)) // -e.
by exists false; eexists; rewrite mc_setW_zero ?ht.
Qed.
Theorem C13_update_weighted d l : mc_sized d -> nonneg (weights l) ->
  size l = size (mc_los d) -> (0 < size l)%N ->
  exists b d', mc_updW d l = Ok (b, d') /\ (b <-> 0 < total (weights l)) /\
    (b -> [/\ mc_valid d', size (mc_los d') = size l &
      forall i v w, at_ l i = Ok (v, w) -> mc_get d' i = Ok (v, w / total (weights l))]).
Proof.
move=> hs hn hl h0; case ht: (0 < total (weights l)).
  exists true; rewrite mc_updWE //; eexists; split; [by []|split=> // _; split].
  - by apply: valid_build; exact: normalised_distr.
  - by rewrite /= size_normalised.
  move=> i v w h; have [hi e] := at_Ok (v, w) h; rewrite /mc_get /= size_normalised hi /=.
  by rewrite (at_nth (v, w)) ?size_normalised // (nth_map (v, w)) // -e.
by exists false; eexists; rewrite mc_updW_zero ?ht.
Qed.
Theorem C13_update_wrong_length d l : size l <> size (mc_los d) -> mc_updW d l = Abort.
Proof. exact: mc_updW_abort. Qed.

(** C14 *)
Theorem C14_set_unweighted junk d vs : mc_sized d -> (0 < size vs)%N ->
  exists d', [/\ mc_setU junk d vs = Ok (true, d'), mc_valid d', size (mc_los d') = size vs &
    forall i v, at_ vs i = Ok v -> mc_get d' i = Ok (v, (size vs)%:R^-1)].
Proof.
move=> hs h0; rewrite mc_setUE //; eexists; split; first by [].
- by apply: valid_build; exact: equal_distr.
- by rewrite size_map.
move=> i v h; have [hi e] := at_Ok v h; rewrite /mc_get /= size_map hi /=.
by rewrite (at_nth (v, 0)) ?size_map // (nth_map v) // -e.
Qed.
Theorem C14_update_unweighted d vs : mc_sized d -> size vs = size (mc_los d) -> (0 < size vs)%N ->
  exists d', [/\ mc_updU d vs = Ok (true, d'), mc_valid d', size (mc_los d') = size vs &
    forall i v, at_ vs i = Ok v -> mc_get d' i = Ok (v, (size vs)%:R^-1)].
Proof.
move=> hs hv h0; rewrite mc_updUE //; eexists; split; first by [].
- by apply: valid_build; exact: equal_distr.
- by rewrite size_map.
move=> i v h; have [hi e] := at_Ok v h; rewrite /mc_get /= size_map hi /=.
by rewrite (at_nth (v, 0)) ?size_map // (nth_map v) // -e.
Qed.
Theorem C14_update_wrong_length_silent_refuted d vs : size vs <> size (mc_los d) ->
  mc_updU d vs = Ok (true, d).
Proof. by move=> h; rewrite /mc_updU (introF eqP h). Qed.

(** C15: [init] is the call that initialises the set *)
Theorem C15_history_valid junk n init ops d0 fl d :
  (exists l, init = SetW l) \/ (exists v, init = SetU _ v) ->
  mc_step junk (mc_new junk n) init = Ok (true, d0) ->
  runO (mc_step junk) d0 ops = Ok (fl, d) -> all id fl ->
  mc_valid d \/ mc_los d = [::].
Proof.
move=> hi h0 hr hall.
have h : mc_ok d0.
  by apply: mc_first_ok h0; [exact: mc_new_sized | case: hi => -[x ->]].
case: (runO_inv (fun s o s' => @mc_step_ok R T junk s o s') h hr hall); first by left.
by case=> h1 _; right.
Qed.
Theorem C15_table_shape d : mc_valid d ->
  [/\ size (mc_cum d) = (size (mc_los d)).+1, nth 0 (mc_cum d) 0 = 0,
      nth 0 (mc_cum d) (size (mc_los d)) = 1 & nondecreasing (mc_cum d)].
Proof.
move=> hv; case: (hv) => -[hn ht] hp _; split.
- by rewrite (mc_valid_sized hv).
- exact: prefix_first hp.
- by rewrite -(size_weights (mc_los d)) (prefix_last hp).
- exact: prefix_nondec hn hp.
Qed.
(** Whatever the arguments and results, and including [NumSamplesSet], the two
    arrays keep matching sizes. *)
Theorem C15_sizes_always_match junk n (ops : seq (mc_op R T + nat)) fl d :
  runO (fun s o => match o with
                   | inl o => mc_step junk s o
                   | inr m => Ok (true, mc_resize junk m s)
                   end) (mc_new junk n) ops = Ok (fl, d) ->
  mc_sized d.
Proof.
apply: runO_inv_any (mc_new_sized junk n) => s o b s' hs.
case: o => [o|m]; last by case=> _ <-; case: (resize_sized junk m hs).
have hnorm l c t d' b' : size c = (size l).+1 -> mc_normalize (MC l c t) = Ok (b', d') -> mc_sized d'.
  move=> hc; case: b' => h; last first.
    move: h; case ht: (0 < total (weights l)); last by rewrite mc_normalize_zero ?ht // => -[<-].
    rewrite /mc_normalize /mc_sum_update /= sum_loopE ht /= => h.
    by case: (obind_Ok h) => x _ {}h; case: (obind_Ok h).
  have [h1 h2] := normalize_true_nonneg h; move: h; rewrite mc_normalizeE // => -[<-].
  by apply: mc_valid_sized; apply: valid_build; exact: normalised_distr.
case: o => [l|v|l|v] /=.
- by apply: hnorm; have [h1 h2] := resize_sized junk (size l) hs; rewrite h1 h2.
- rewrite mc_setUE // => -[_ <-]; rewrite /mc_sized /= size_map.
  by case: (cum_prefix (weights (equally_weighted R v))) => ->; rewrite size_map size_map.
- case: (size l =P size (mc_los s)) => hl; last by rewrite mc_updW_abort.
  rewrite /mc_updW /guard hl eqxx /=; case: eqP => _ /=; first by case=> _ <-.
  by apply: hnorm; rewrite hs hl.
case: (size v =P size (mc_los s)) => hv; last first.
  by rewrite /mc_updU (introF eqP hv) => -[_ <-].
case: v hv => [|x v] hv; first by rewrite /mc_updU -hv eqxx.
rewrite mc_updUE // => -[_ <-].
by apply: mc_valid_sized; apply: valid_build; exact: equal_distr.
Qed.

(** C16: finding *)
Theorem C16_failed_update_not_atomic_refuted d l : mc_valid d -> nonneg (weights l) ->
  size l = size (mc_los d) -> total (weights l) = 0 ->
  exists d', [/\ mc_updW d l = Ok (false, d'), mc_los d' = l, mc_cum d' = mc_cum d &
    forall u, 0 < u <= 1 -> exists k v, [/\ at_ l k = Ok (v, 0),
      mc_sample1 d' DEFAULT u = Ok (Some v) & quantile (weights (mc_los d)) u k]].
Proof.
move=> hv hn hl ht; have h0 := mc_valid_nonempty hv.
rewrite mc_updW_zero ?ht ?ltxx ?hl //; eexists; split=> // u /andP [hu0 hu1].
have hw : weights l = nseq (size l) 0 by rewrite -(size_weights l); apply: nonneg_sum0 => //; rewrite ht ltxx.
have hc := mc_cumE hv; case: (hv) => -[hln htt] _ _.
have h1' : u <= total (weights (mc_los d)) by rewrite htt.
case: (scan_quantile hu0 h1') => k [hk hq].
have hks : (k < size l)%N by case: hq; rewrite size_weights hl.
case: (at_lt hks) => -[v w] hx; exists k, v.
have -> : 0 = w.
  have := at_Ok (v, w) hx => -[_ e]; have : nth 0 (weights l) k = w by rewrite (nth_map (v, w)) // -e.
  by rewrite hw nth_nseq hks.
split=> //; rewrite /mc_sample1 /= hl hc -(size_weights (mc_los d)) hk /=.
by rewrite hx.
Qed.

(** C17 *)
Theorem C17_resize_size junk m d : mc_sized d ->
  size (mc_los (mc_resize junk m d)) = m /\ mc_sized (mc_resize junk m d).
Proof. by move=> h; have [h1 h2] := resize_sized junk m h. Qed.
Theorem C17_grow_keeps junk m d : (size (mc_los d) <= m)%N ->
  forall i x, at_ (mc_los d) i = Ok x -> at_ (mc_los (mc_resize junk m d)) i = Ok x.
Proof.
move=> hm i x h; have [hi e] := at_Ok x h; rewrite /mc_resize; case: ltnP => h' /=.
  by rewrite (at_nth x) ?size_cat ?nth_cat ?hi -?e // ltn_addr.
by rewrite (eqP (_ : (_ - _ == 0)%N)) ?drop0 // subn_eq0.
Qed.
Theorem C17_shrink_drops_front_refuted junk m d : mc_valid d -> (m < size (mc_los d))%N ->
  let d' := mc_resize junk m d in
  [/\ (forall i, (i < m)%N -> at_ (mc_los d') i = at_ (mc_los d) (size (mc_los d) - m + i)),
      total (weights (mc_los d')) = 1 - total (take (size (mc_los d) - m) (weights (mc_los d))) &
      nth 0 (mc_cum d') 0 = total (take (size (mc_los d) - m) (weights (mc_los d)))].
Proof.
move=> hv hm; rewrite /mc_resize ltnNge ltnW //=; split.
- by move=> i hi; rewrite at_drop.
- case: hv => -[_ <-] _ _; rewrite /weights map_drop.
  rewrite -{2}(cat_take_drop (size (mc_los d) - m)%N (map snd (mc_los d))) total_cat.
  by rewrite addrC addKr.
by case: hv => _ [h1 h2] _; rewrite nth_drop addn0 h2 // size_weights leq_subr.
Qed.

(** C18 *)
Theorem C18_sample_is_existing d u : mc_valid d -> 0 < u <= 1 ->
  exists k v w, [/\ at_ (mc_los d) k = Ok (v, w), mc_sample1 d DEFAULT u = Ok (Some v), 0 < w
    & nth 0 (mc_cum d) k < u <= nth 0 (mc_cum d) k.+1].
Proof.
move=> hv hu; case: (mc_sample1E hv hu) => k [[v w] [h1 h2 h3]]; exists k, v, w; split=> //.
  have [hk e] := at_Ok (v, w) h1; have := quantile_pos h3.
  by rewrite (nth_map (v, w)) // -e.
case: hv => _ [_ hp] _; case: h3; rewrite size_weights => hk [ha hb].
by rewrite !hp ?size_weights ?ha // ltnW.
Qed.
Theorem C18_ripley_batch (root : R -> nat -> R) d us :
  (forall u k, 0 < u <= 1 -> (0 < k)%N -> 0 < root u k <= 1) ->
  mc_valid d -> us != [::] -> all (fun u => 0 < u <= 1) us ->
  exists ks : seq nat, exists xs : seq T,
    [/\ mc_samples root d RIPLEY us = Ok (Some xs), size xs = size us, size ks = size us,
        sorted leq ks &
        forall i, (i < size us)%N ->
          quantile (weights (mc_los d)) (nth 0 (ripley root us 0) i) (nth 0%N ks i) /\
          exists v w, [/\ at_ xs i = Ok v, at_ (mc_los d) (nth 0%N ks i) = Ok (v, w) & 0 < w]].
Proof.
move=> hr hv hus hall; case: (mc_ripleyE hr hv hus hall) => ks [xs [h1 h2 h3 h4 h5]].
exists ks, xs; split=> //; first by rewrite (mapO_size h4).
move=> i hi; have hq := h5 i hi; split=> //.
have hk : (nth 0 ks i < size (mc_los d))%N by case: hq; rewrite size_weights.
case: (at_lt hk) => -[v w] hx; exists v, w; split=> //; last first.
  by have [_ e] := at_Ok (v, w) hx; have := quantile_pos hq; rewrite (nth_map (v, w)) // -e.
move: hi hx; rewrite -h2 {h1 h2 h3 h5 hk hq}.
elim: ks xs h4 i => [|k ks IH] xs //= h [|i] hi /= hx.
  by rewrite hx /= in h; case: (obind_Ok h) => r hr' [<-].
case: (obind_Ok h) => y hy {}h; case: (obind_Ok h) => r hr' [<-] /=; exact: IH hr' _ _ hx.
Qed.
Theorem C18_zero_draw_refuted d : mc_valid d -> mc_sample1 d DEFAULT 0 = UB.
Proof. by move=> h; apply: mc_sample1_zero. Qed.
Theorem C18_default_batch (root : R -> nat -> R) d us :
  mc_valid d -> all (fun u => 0 < u <= 1) us ->
  exists xs, [/\ mc_samples root d DEFAULT us = Ok (Some xs), size xs = size us &
    forall i u, at_ us i = Ok u -> exists v, at_ xs i = Ok v /\ mc_sample1 d DEFAULT u = Ok (Some v)].
Proof.
move=> hv; elim: us => [|u us IH] /=; first by move=> _; exists [::].
case/andP=> hu /IH [xs [h1 h2 h3]]; case: (mc_sample1E hv hu) => k [x [_ hx _]].
exists (x.1 :: xs); split=> /=.
- move: hx; rewrite /mc_sample1; case: (scan _ _ _ _) => //= r.
  case: (mc_before _ _) => //= y [->].
  by move: h1; rewrite /mc_samples; case: (mapO _ us) => //= l [->].
- by rewrite h2.
by move=> [|i] w //=; [move=> [<-]; exists x.1 | exact: h3].
Qed.
End Properties.

Print Assumptions C13_set_weighted.
Print Assumptions C13_update_weighted.
Print Assumptions C13_update_wrong_length.
Print Assumptions C14_set_unweighted.
Print Assumptions C14_update_unweighted.
Print Assumptions C14_update_wrong_length_silent_refuted.
Print Assumptions C15_history_valid.
Print Assumptions C15_table_shape.
Print Assumptions C15_sizes_always_match.
Print Assumptions C16_failed_update_not_atomic_refuted.
Print Assumptions C17_resize_size.
Print Assumptions C17_grow_keeps.
Print Assumptions C17_shrink_drops_front_refuted.
Print Assumptions C18_sample_is_existing.
Print Assumptions C18_ripley_batch.
Print Assumptions C18_zero_draw_refuted.
Print Assumptions C18_default_batch.

(** ** Concrete cases *)
Section Examples.
Let q (a b : nat) : rat := a%:R / b%:R.
Notation Q := [realFieldType of rat].
Let junk : nat * rat := (7%N, q 5 1).
Let l3 : seq (nat * rat) := [:: (10%N, q 1 1); (20%N, q 2 1); (30%N, q 1 1)].
Let l0 : seq (nat * rat) := [:: (10%N, 0); (20%N, 0); (30%N, 0)].
Let d3 : mcpdf Q nat := match mc_setW junk (mc_new (R := Q) junk 1) l3 with
  | Ok (_, d) => d | _ => mc_new (R := Q) junk 0 end.
Example C13_C15_example :
  match runO (mc_step junk) (mc_new (R := Q) junk 1)
        [:: SetW l3; UpdU _ [:: 1%N; 2%N; 3%N]; UpdW l3; SetU _ [:: 4%N; 5%N]] with
  | Ok (fl, d) => all id fl && (mc_los d == [:: (4%N, q 1 2); (5%N, q 1 2)])
                  && (mc_cum d == [:: 0; q 1 2; 1])
  | _ => false end.
Proof. by vm_compute. Qed.
Example C13_values_example :
  (mc_los d3 == [:: (10%N, q 1 4); (20%N, q 1 2); (30%N, q 1 4)]) &&
  (mc_cum d3 == [:: 0; q 1 4; q 3 4; 1]).
Proof. by vm_compute. Qed.
Example C18_valid_example : mc_valid d3.
Proof.
have h : nonneg (weights l3) by vm_compute.
case: (C13_set_weighted junk (mc_new_sized junk 1) h) => b [d [hd [hb hv]]].
have hp : 0 < total (weights l3) by rewrite /total unlock; vm_compute.
have ht : b by apply/hb.
have [h1 _ _] := hv ht.
by rewrite /d3 hd; exact: h1.
Qed.
Example C16_example :
  match mc_updW d3 l0 with
  | Ok (b, d) => ~~ b && (mc_los d == l0) && (mc_cum d == mc_cum d3)
                 && match mc_sample1 d DEFAULT (q 1 2) with Ok (Some x) => x == 20%N | _ => false end
  | _ => false end.
Proof. by vm_compute. Qed.
Example C17_example :
  (mc_los (mc_resize junk 2 d3) == [:: (20%N, q 1 2); (30%N, q 1 4)]) &&
  (mc_cum (mc_resize junk 2 d3) == [:: q 1 4; q 3 4; 1]) &&
  (mc_los (mc_resize junk 4 d3) == mc_los d3 ++ [:: junk]).
Proof. by vm_compute. Qed.
Let root (u : rat) (k : nat) : rat := if k is 0 then u else (u + k.-1%:R) / k%:R.
Example C18_example :
  match mc_samples root d3 RIPLEY [:: q 1 8; q 1 8; q 1 2], mc_sample1 d3 DEFAULT (q 3 4) with
  | Ok (Some xs), Ok (Some x) => (xs == [:: 10%N; 20%N; 30%N]) && (x == 20%N)
  | _, _ => false end.
Proof. by vm_compute. Qed.
End Examples.
