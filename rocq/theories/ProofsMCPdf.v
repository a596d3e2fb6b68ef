(** * Proofs about particle sets *)
From mathcomp Require Import all_ssreflect all_algebra.
From mathcomp Require Import ring zify.
From Verif Require Import OrdLra Outcome SpecProb ModelTables ProofsTables
  ModelDiscretePdf ProofsDiscretePdf ModelMCPdf SpecMCPdf.
Set Implicit Arguments. Unset Strict Implicit. Unset Printing Implicit Defensive.
Import Order.TTheory GRing.Theory Num.Theory.
Local Open Scope ring_scope.

Section MC.
Variables (R : realFieldType) (T : Type).
Variable root : R -> nat -> R.
Implicit Types (d : mcpdf R T) (l : seq (T * R)) (vs : seq T) (junk : T * R).

Lemma size_weights l : size (weights l) = size l. Proof. exact: size_map. Qed.
Lemma size_normalised l : size (normalised l) = size l. Proof. exact: size_map. Qed.
Lemma weights_normalised l : weights (normalised l) = [seq w / total (weights l) | w <- weights l].
Proof. by rewrite /weights /normalised -!map_comp. Qed.
Lemma values_normalised l : values (normalised l) = values l.
Proof. by rewrite /values /normalised -!map_comp. Qed.
Lemma normalised_distr l : nonneg (weights l) -> 0 < total (weights l) ->
  distribution (weights (normalised l)).
Proof. by move=> h1 h2; rewrite weights_normalised; exact: normalized_distribution. Qed.
Lemma weights_equal vs : weights (equally_weighted R vs) = nseq (size vs) (size vs)%:R^-1.
Proof.
rewrite /equally_weighted; move: (size vs)%:R^-1 => c.
by elim: vs => //= x vs; rewrite /weights /= => ->.
Qed.
Lemma values_equal vs : values (equally_weighted R vs) = vs.
Proof. by rewrite /equally_weighted /values -map_comp /comp /= map_id. Qed.
Lemma equal_distr vs : (0 < size vs)%N -> distribution (weights (equally_weighted R vs)).
Proof. by move=> h; rewrite weights_equal; exact: uniform_distribution. Qed.

Lemma mc_valid_sized d : mc_valid d -> mc_sized d.
Proof. by case=> _ [h _] _; rewrite /mc_sized h size_weights. Qed.
Lemma mc_ok_sized d : mc_ok d -> mc_sized d.
Proof. by case=> [/mc_valid_sized //|[h1 [h2 _]]]; rewrite /mc_sized h1 h2. Qed.
Lemma mc_valid_nonempty d : mc_valid d -> (0 < size (mc_los d))%N.
Proof.
case=> [[_ ht] _ _]; case: (mc_los d) ht => //=; rewrite total_nil => h.
by have := oner_neq0 R; rewrite -h eqxx.
Qed.
Lemma valid_build l : distribution (weights l) -> mc_valid (MC l (cum_loop 0 (weights l)) 1).
Proof. by move=> h; split=> //; exact: cum_prefix. Qed.

Lemma mc_cum_updateE l c : size c = (size l).+1 ->
  mc_cum_update (MC l c 1) = Ok (MC l (cum_loop 0 (weights l)) 1).
Proof.
move=> h; rewrite /mc_cum_update /= h ltnn drop_oversize ?h // cats0.
congr (Ok (MC _ (cum_loop 0 _) 1)); apply: eq_map => x /=; by rewrite divr1.
Qed.

Lemma mapO_fun A B (f : A -> outcome B) (g : A -> B) (P : A -> Prop) (s : seq A) :
  (forall x, P x -> f x = Ok (g x)) -> (forall x, List.In x s -> P x) -> mapO f s = Ok (map g s).
Proof. by move=> h1 h2; apply: mapO_ok => x /h2 /h1. Qed.

Lemma nonneg_In l x : nonneg (weights l) -> List.In x l -> 0 <= x.2.
Proof.
elim: l => //= y l IH; rewrite /weights /= => /nonneg_cons [h1 h2] [<- //|]; exact: IH.
Qed.

Lemma mc_normalizeE l c s : size c = (size l).+1 -> nonneg (weights l) -> 0 < total (weights l) ->
  mc_normalize (MC l c s) = Ok (true, MC (normalised l) (cum_loop 0 (weights (normalised l))) 1).
Proof.
move=> hc hn ht; rewrite /mc_normalize /mc_sum_update /= sum_loopE ht /=.
rewrite (@mapO_ok _ _ _ (fun x : T * R => (x.1, x.2 / total (weights l)))) /=; last first.
  move=> x hx; rewrite /guard divr_ge0 //; last exact: ltW.
  exact: nonneg_In hx.
by rewrite -/(normalised l) mc_cum_updateE // size_normalised.
Qed.
Lemma mc_normalize_zero d : ~~ (0 < total (weights (mc_los d))) -> mc_normalize d = Ok (false, d).
Proof. by move=> h; rewrite /mc_normalize /mc_sum_update sum_loopE (negbTE h). Qed.

Lemma resize_sized junk m d : mc_sized d ->
  mc_sized (mc_resize junk m d) /\ size (mc_los (mc_resize junk m d)) = m.
Proof.
rewrite /mc_sized /mc_resize => h; case: ltnP => hm /=.
  rewrite !size_cat !size_nseq h; lia.
rewrite !size_drop h; lia.
Qed.
Lemma resize_sum junk m d : mc_sum (mc_resize junk m d) = mc_sum d.
Proof. by rewrite /mc_resize; case: ifP. Qed.

Lemma mc_setWE junk d l : mc_sized d -> nonneg (weights l) -> 0 < total (weights l) ->
  mc_setW junk d l = Ok (true, MC (normalised l) (cum_loop 0 (weights (normalised l))) 1).
Proof.
move=> hs hn ht; have [h1 h2] := resize_sized junk (size l) hs.
by rewrite /mc_setW mc_normalizeE // h1 h2.
Qed.
Lemma mc_setW_zero junk d l : ~~ (0 < total (weights l)) ->
  mc_setW junk d l = Ok (false, MC l (mc_cum (mc_resize junk (size l) d)) (mc_sum d)).
Proof. by move=> ht; rewrite /mc_setW mc_normalize_zero //= resize_sum. Qed.
Lemma mc_updWE d l : mc_sized d -> size l = size (mc_los d) -> nonneg (weights l) ->
  0 < total (weights l) ->
  mc_updW d l = Ok (true, MC (normalised l) (cum_loop 0 (weights (normalised l))) 1).
Proof.
move=> hs hl hn ht; rewrite /mc_updW /guard hl eqxx /=; case: eqP => h0.
  by move: ht; case: (l) hl; rewrite ?h0 // total_nil ltxx.
by rewrite mc_normalizeE // hs hl.
Qed.
Lemma mc_updW_zero d l : size l = size (mc_los d) -> (0 < size l)%N -> ~~ (0 < total (weights l)) ->
  mc_updW d l = Ok (false, MC l (mc_cum d) (mc_sum d)).
Proof.
move=> hl h0 ht; rewrite /mc_updW /guard hl eqxx /= -hl -lt0n h0.
by rewrite mc_normalize_zero.
Qed.
Lemma mc_updW_abort d l : size l <> size (mc_los d) -> mc_updW d l = Abort.
Proof. by rewrite /mc_updW /guard => /eqP /negbTE ->. Qed.
Lemma equaliseE d vs : size (mc_cum d) = (size vs).+1 ->
  mc_equalise d vs = Ok (MC (equally_weighted R vs) (cum_loop 0 (weights (equally_weighted R vs))) 1).
Proof.
move=> h; rewrite /mc_equalise mc_cum_updateE ?size_map // /equally_weighted.
by do 2 congr Ok || congr MC; rewrite ?div1r.
Qed.
Lemma mc_setUE junk d vs : mc_sized d ->
  mc_setU junk d vs = Ok (true, MC (equally_weighted R vs) (cum_loop 0 (weights (equally_weighted R vs))) 1).
Proof.
move=> hs; have [h1 h2] := resize_sized junk (size vs) hs.
by rewrite /mc_setU equaliseE //= h1 h2.
Qed.
Lemma mc_updUE d vs : mc_sized d -> size vs = size (mc_los d) -> (0 < size vs)%N ->
  mc_updU d vs = Ok (true, MC (equally_weighted R vs) (cum_loop 0 (weights (equally_weighted R vs))) 1).
Proof.
move=> hs hv h0; rewrite /mc_updU hv eqxx /guard -hv -lt0n h0 /=.
by rewrite equaliseE //= hs hv.
Qed.

(** negative weights always abort or fail: success implies non-negativity *)
Lemma normalize_true_nonneg l c s d' : mc_normalize (MC l c s) = Ok (true, d') ->
  nonneg (weights l) /\ 0 < total (weights l).
Proof.
rewrite /mc_normalize /mc_sum_update /= sum_loopE; case ht: (0 < _) => //=.
move=> h; split; last by [].
case: (obind_Ok h) => los hm _ {h}; move: ht hm.
rewrite -/(weights l); move: (total (weights l)) => t ht hm.
elim: l los hm => //= x l IH los h; case: (obind_Ok h) => y hy h2; case: (obind_Ok h2) => los' hl _.
rewrite /weights /=; apply/nonneg_cons; split; last exact: IH hl.
by case: (obind_Ok hy) => u /guard_Ok; rewrite pmulr_lge0 // invr_gt0.
Qed.

Lemma mc_step_ok junk d o d' : mc_ok d -> mc_step junk d o = Ok (true, d') -> mc_ok d'.
Proof.
move=> hok; have hs := mc_ok_sized hok; case: o => [l|v|l|v] /=.
- move=> h; have [h1 h2] := normalize_true_nonneg h; move: h; rewrite mc_setWE // => -[<-].
  by left; apply: valid_build; exact: normalised_distr.
- rewrite mc_setUE // => -[<-]; case: v => [|x v]; first by right.
  by left; apply: valid_build; exact: equal_distr.
- case: (size l =P size (mc_los d)) => hl; last by rewrite mc_updW_abort.
  rewrite /mc_updW /guard hl eqxx /=; case: eqP => h0 /=; first by case=> <-.
  move=> h; have [h1 h2] := normalize_true_nonneg h; move: h; rewrite mc_normalizeE ?hs ?hl // => -[<-].
  by left; apply: valid_build; exact: normalised_distr.
- case: (size v =P size (mc_los d)) => hv; last first.
    by rewrite /mc_updU (introF eqP hv) => -[<-].
  case: v hv => [|x v] hv; first by rewrite /mc_updU -hv eqxx.
  by rewrite mc_updUE // => -[<-]; left; apply: valid_build; exact: equal_distr.
Qed.

Lemma mc_first_ok junk d o d' : mc_sized d -> (if o is (UpdW _ | UpdU _) then false else true) ->
  mc_step junk d o = Ok (true, d') -> mc_ok d'.
Proof.
move=> hs; case: o => [l|v|l|v] //= _.
- move=> h; have [h1 h2] := normalize_true_nonneg h; move: h; rewrite mc_setWE // => -[<-].
  by left; apply: valid_build; exact: normalised_distr.
- rewrite mc_setUE // => -[<-]; case: v => [|x v]; first by right.
  by left; apply: valid_build; exact: equal_distr.
Qed.

Lemma mc_new_sized junk n : mc_sized (mc_new junk n).
Proof. by rewrite /mc_sized /= !size_nseq. Qed.

(** sampling *)
Lemma mc_cumE d : mc_valid d -> mc_cum d = cum_loop 0 (weights (mc_los d)).
Proof. by case=> _ /prefix_cum. Qed.

Lemma mc_before_ok d k (x0 : T * R) : (k < size (mc_los d))%N ->
  mc_before d k.+1 = Ok (nth x0 (mc_los d) k).1.
Proof. by move=> h; rewrite /= (at_nth x0). Qed.

Lemma mc_sample1E d u : mc_valid d -> 0 < u <= 1 ->
  exists k x, [/\ at_ (mc_los d) k = Ok x, mc_sample1 d DEFAULT u = Ok (Some x.1)
                & quantile (weights (mc_los d)) u k].
Proof.
move=> hv /andP [h0 h1]; have hc := mc_cumE hv; case: hv => -[hl ht] _ _.
have h1' : u <= total (weights (mc_los d)) by rewrite ht.
case: (scan_quantile h0 h1') => k [hk hq].
have hks : (k < size (mc_los d))%N by case: hq; rewrite size_weights.
case: (at_lt hks) => x hx.
exists k, x; split=> //.
by rewrite /mc_sample1 hc -(size_weights (mc_los d)) hk /= hx.
Qed.
Lemma mc_sample1_zero d u : mc_valid d -> u <= 0 -> mc_sample1 d DEFAULT u = UB.
Proof.
move=> hv hu; rewrite /mc_sample1 (mc_cumE hv).
by case: (mc_los d) => [|x l]; rewrite /= ltNge hu.
Qed.
Lemma mc_scan_short d u : size (mc_cum d) = (size (mc_los d)).+1 ->
  all (fun c => c < u) (mc_cum d) -> mc_sample1 d DEFAULT u = UB.
Proof.
move=> hs ha; rewrite /mc_sample1 scan_UB ?hs //; apply/hasPn => x /(allP ha).
by rewrite -ltNge.
Qed.

Hypothesis root01 : forall u k, 0 < u <= 1 -> (0 < k)%N -> 0 < root u k <= 1.

Lemma mc_ripleyE d us : mc_valid d -> us != [::] -> all (fun u => 0 < u <= 1) us ->
  exists ks : seq nat, exists xs : seq T,
    [/\ mc_samples root d RIPLEY us = Ok (Some xs), size ks = size us, sorted leq ks,
        mapO (fun k => let! x := at_ (mc_los d) k in Ok x.1) ks = Ok xs &
        forall i, (i < size us)%N ->
          quantile (weights (mc_los d)) (nth 0 (ripley root us 0) i) (nth 0%N ks i)].
Proof.
move=> hv hus hall; have hc := mc_cumE hv; case: (hv) => -[hl ht] _ _.
case: (scan_many_quantiles root01 hl ht hall) => ks [h1 h2 h3 h4].
have hx : exists xs, mapO (fun k => let! x := at_ (mc_los d) k in Ok x.1) ks = Ok xs.
  have hb : all (fun k => k < size (mc_los d))%N ks.
    apply/(all_nthP 0%N) => i; rewrite h2 => /h4 [].
    by rewrite size_weights.
  elim: ks hb {h1 h2 h3 h4} => [|k ks IH] /=; first by exists [::].
  case/andP=> /at_lt [x ->] /IH [xs ->] /=; by exists (x.1 :: xs).
case: hx => xs hx; exists ks, xs; split=> //.
rewrite /mc_samples; case: us hus {hall} h1 h2 h4 => // u us _ h1 _ _.
rewrite hc -(size_weights (mc_los d)) h1 /=.
have -> : mapO (mc_before d) (map S ks) = mapO (fun k => let! x := at_ (mc_los d) k in Ok x.1) ks.
  by elim: (ks) => //= k ks' ->.
by rewrite hx.
Qed.
End MC.
