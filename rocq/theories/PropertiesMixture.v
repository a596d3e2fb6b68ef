(** * C21-C26: properties of mixtures *)
From mathcomp Require Import all_ssreflect all_algebra.
From mathcomp Require Import ring zify.
From Verif Require Import OrdLra Outcome SpecProb ModelTables ProofsTables
  ModelDiscretePdf SpecDiscretePdf ProofsDiscretePdf ModelMCPdf SpecMCPdf ProofsMoments
  ModelMixture SpecMixture ProofsMixture.
Set Implicit Arguments. Unset Strict Implicit. Unset Printing Implicit Defensive.
Import Order.TTheory GRing.Theory Num.Theory.
Local Open Scope ring_scope.

Section Properties.
Variables (R : realFieldType) (eps : R) (C : Type).
Implicit Types (m : mix R C).

(** C21 *)
Theorem C21_history_valid (m0 : mix R C) ops fl m : 0 <= eps < 1 ->
  m0 = mx_new R C \/ (exists cs, mx_build eps cs = Ok m0) ->
  runO (@mx_step R eps C) m0 ops = Ok (fl, m) -> all id fl ->
  [\/ mix_valid m, mix_near eps m | mix_empty m].
Proof.
move=> he h0 hr hall.
have h : mix_ok eps m0.
  case: h0 => [->|[cs]]; first by constructor 3.
  case: cs => // c cs; rewrite mx_buildE //; last by case/andP: he.
  move=> [<-]; constructor 1; apply: mix_validI => //; first by rewrite /= size_nseq.
  by split; case: (uniform_distribution R (ltn0Sn (size cs))).
exact: (runO_inv (fun s o s' => @mx_step_ok R eps C s o s' he) h hr hall).
Qed.
(** without [WeightSet] the weights are exact *)
Theorem C21_history_exact (m0 : mix R C) ops fl m : 0 <= eps < 1 ->
  m0 = mx_new R C \/ (exists cs, mx_build eps cs = Ok m0) ->
  all (fun o => if o is MSet _ _ then false else true) ops ->
  runO (@mx_step R eps C) m0 ops = Ok (fl, m) -> all id fl ->
  mix_valid m \/ mix_empty m.
Proof.
move=> he h0 ho hr hall.
have h : mix_valid m0 \/ mix_empty m0.
  case: h0 => [->|[cs]]; first by right.
  case: cs => // c cs; rewrite mx_buildE //; last by case/andP: he.
  move=> [<-]; left; apply: mix_validI => //; first by rewrite /= size_nseq.
  by split; case: (uniform_distribution R (ltn0Sn (size cs))).
elim: ops m0 fl ho hr hall h {h0} => [|o ops IH] m0 fl /=; first by move=> _ [_ <-].
move=> /andP [ho hos] hr.
case: (obind_Ok hr) => -[b m1] h1 {}hr; case: (obind_Ok hr) => -[fl2 m2] h2 [<- e] /= /andP [hb hall] h.
subst m2; apply: (IH _ _ hos h2 hall); move: hb h1 => /= -> h1.
have hok : mix_ok eps m0 by case: h; [constructor 1|constructor 3].
case: (mx_step_strong he hok h1) => [?|[[i [a e]] _]|?]; [by left| |by right].
by move: ho; rewrite e.
Qed.
(** [WeightSet] on a one-component mixture stores any weight the assert
    tolerates, so the weights need not sum to 1 *)
Theorem C21_weightset_single_inexact_refuted (c : C) (x a : R) : 0 <= eps ->
  1 - eps <= a <= 1 -> 0 <= a ->
  mx_set eps (Mix 1 [:: c] [:: x] [:: 0; 1]) 0 a = Ok (true, Mix 1 [:: c] [:: a] [:: 0; 1]) /\
  total [:: a] = a.
Proof. by move=> he /andP [h1 h2] h0; rewrite mx_set_one ?h1 ?h0 // total_seq1. Qed.
Theorem C21_weights_set_invalid m v : (0 < mx_n m)%N -> size v = mx_n m -> nonneg v ->
  total v = 0 -> exists m', mx_sets eps m v = Ok (false, m') /\ mx_w m' = v.
Proof.
move=> hn hv hv0 ht; eexists; rewrite /mx_sets /mx_init /guard -/(nonneg v) hv0 /= -lt0n hn /= hv eqxx /=.
by rewrite mx_finish0 // ht ltxx.
Qed.
Theorem C21_weights_set m v : 0 <= eps -> mix_sized m -> (0 < mx_n m)%N -> size v = mx_n m ->
  nonneg v -> 0 < total v ->
  exists m', [/\ mx_sets eps m v = Ok (true, m'), mix_valid m', mx_comps m' = mx_comps m &
    mx_w m' = [seq x / total v | x <- v]].
Proof.
case: m => n cs w c he [/= h1 h2 h3] hn hv hv0 ht; rewrite mx_setsE //; eexists; split=> //.
by apply: mix_validI; rewrite ?size_normed //; exact: normed_distr.
Qed.
(** [WeightSet] on two or more components: the others keep their ratios *)
Theorem C21_weight_set m k a : 0 <= eps -> mix_valid m -> (1 < mx_n m)%N -> (k < mx_n m)%N ->
  0 <= a <= 1 ->
  exists m', [/\ mx_set eps m k a = Ok (true, m'), mix_valid m', mx_comps m' = mx_comps m &
    forall i, (i < mx_n m)%N -> nth 0 (mx_w m') i =
      if i == k then a
      else if nth 0 (mx_w m) k == 1 then (1 - a) / (mx_n m).-1%:R
      else nth 0 (mx_w m) i * (1 - a) / (1 - nth 0 (mx_w m) k)].
Proof.
move=> he hv hn hk ha; have [w [h1 h2 h3 h4]] := mx_setE he hv hn hk ha.
have [[hc hw _] h0 _ _] := hv.
exists (Mix (mx_n m) (mx_comps m) w (cum_loop 0 w)); split=> //; first exact: mix_validI.
by move=> i hi; rewrite h4 // /rescaled hw mulrA.
Qed.

(** C22 *)
Theorem C22_add_first (c : C) (a : R) : 0 <= eps -> 0 <= a ->
  mx_add eps (mx_new R C) c a = Ok (true, Mix 1 [:: c] [:: 1] [:: 0; 1]) /\
  mx_add0 eps (mx_new R C) c = Ok (true, Mix 1 [:: c] [:: 1] [:: 0; 1]).
Proof. by move=> he ha; rewrite /mx_add0 /= (mx_add_empty c he ha) (mx_add_empty c he (@ler01 _)). Qed.
Theorem C22_add_weighted m (c : C) (a : R) : 0 <= eps < 1 -> mix_valid m -> 0 <= a <= 1 ->
  exists m', [/\ mx_add eps m c a = Ok (true, m'), mix_valid m',
    mx_comps m' = rcons (mx_comps m) c &
    mx_w m' = rcons [seq x * (1 - a) | x <- mx_w m] a].
Proof.
move=> he hv ha; case: (hv) => [[h1 h2 h3] hn [hnn ht] _].
have htol : 1 - eps <= total (mx_w m) <= 1 by rewrite ht; apply/andP; lra.
have e1 : total (added (mx_w m) a) = 1 by rewrite total_added ht; ring.
have := mx_add_bodyE c he h1 h2 h3 hn hnn htol ha.
have -> : Mix (mx_n m) (mx_comps m) (mx_w m) (mx_cum m) = m by case: (m).
rewrite normed1 // => e; exists (Mix (mx_n m).+1 (rcons (mx_comps m) c) (added (mx_w m) a)
  (cum_loop 0 (added (mx_w m) a))); split=> //.
  by rewrite /mx_add /guard (gtn_eqF hn) /=; case/andP: ha => -> _.
apply: mix_validI; rewrite ?size_rcons ?size_map ?h1 ?h2 //.
by split=> //; exact: nonneg_added.
Qed.
Theorem C22_add_plain m (c : C) : 0 <= eps -> mix_valid m ->
  exists m', [/\ mx_add0 eps m c = Ok (true, m'), mix_valid m',
    mx_comps m' = rcons (mx_comps m) c & mx_w m' = rcons (mx_w m) 0].
Proof.
move=> he hv; case: (hv) => [[h1 h2 h3] hn [hnn ht] _].
have := mx_add0E c he h1 h2 h3 hn hnn.
have -> : Mix (mx_n m) (mx_comps m) (mx_w m) (mx_cum m) = m by case: (m).
rewrite normed1 ?total_rcons ?ht ?addr0 // => -> ; rewrite ?ltr01 //; eexists; split=> //.
apply: mix_validI; rewrite ?size_rcons ?h1 ?h2 //.
by split; rewrite ?total_rcons ?ht ?addr0 // /nonneg all_rcons lexx.
Qed.
Theorem C22_add_out_of_range m (c : C) (a : R) : mix_valid m -> ~~ (0 <= a <= 1) ->
  mx_add eps m c a = Abort.
Proof.
move=> [[h1 h2 h3] hn _ _] ha; have := mx_add_big eps c h1 h2 h3 ha hn.
by have -> : Mix (mx_n m) (mx_comps m) (mx_w m) (mx_cum m) = m by case: (m).
Qed.

(** C23 *)
Theorem C23_delete m i : 0 <= eps -> mix_valid m -> (i < mx_n m)%N -> nth 0 (mx_w m) i < 1 ->
  exists m', [/\ mx_del eps m i = Ok (true, m'), mix_valid m',
    mx_comps m' = without i (mx_comps m) &
    mx_w m' = without i [seq x / (1 - nth 0 (mx_w m) i) | x <- mx_w m]].
Proof.
move=> he [hs hn [hnn ht] _] hi hlt; case: (hs) => h1 h2 h3.
have h12 : (1 < mx_n m)%N.
  rewrite ltnNge; apply/negP=> hn1; move: hlt ht; have e : mx_n m = 1%N by lia.
  by rewrite e in hi h2; case: (mx_w m) h2 => [|y []] //= _; case: i hi => //= _ ht; rewrite total_seq1; lra.
rewrite mx_delE ?ht //; eexists; split; [by []| |by []|].
  apply: mix_validI; rewrite ?size_normed ?size_verase ?h1 ?h2 //; first by lia.
  apply: normed_distr; [exact: nonneg_verase | rewrite total_verase ?h2 // ht; lra].
by rewrite /= /normed total_verase ?h2 // ht /without /verase map_cat map_take map_drop.
Qed.
Theorem C23_delete_all_weight_refuted m i : mix_valid m -> (1 < mx_n m)%N -> (i < mx_n m)%N ->
  nth 0 (mx_w m) i = 1 ->
  exists m', [/\ mx_del eps m i = Ok (false, m'), mx_comps m' = without i (mx_comps m),
    mx_n m' = (mx_n m).-1 & mx_w m' = nseq (mx_n m).-1 0].
Proof.
move=> [hs hn [hnn ht] _] h1 hi hw; rewrite mx_del_all ?ht //.
by eexists.
Qed.
Theorem C23_delete_only m : mix_valid m -> mx_n m = 1%N ->
  mx_del eps m 0 = Ok (true, mx_new R C).
Proof. by move=> [hs hn hd hp] h1; rewrite mx_del_only // (prefix_first hp). Qed.
Theorem C23_delete_out_of_range m i : mix_valid m -> (mx_n m <= i)%N -> mx_del eps m i = Abort.
Proof. by move=> [hs _ _ _]; exact: mx_del_range. Qed.

(** C24 *)
Section Density.
Variables (T : Type) (dens : C -> T -> R).
Definition mixed m x : R := \sum_(p <- zip (mx_comps m) (mx_w m)) p.2 * dens p.1 x.
Lemma map_zipC (A B D : Type) (f : A -> B -> D) (s : seq A) (t : seq B) :
  [seq f p.1 p.2 | p <- zip s t] = [seq f p.2 p.1 | p <- zip t s].
Proof. by elim: s t => [|x s IH] [|y t] //=; rewrite IH. Qed.
Theorem C24_density m x : mix_valid m -> mx_dens dens m x = Ok (mixed m x).
Proof.
move=> [[h1 h2 _] hn _ _]; rewrite /mx_dens /mx_init /guard -lt0n hn /=.
rewrite (@mapO_iota2 R C R (fun w c => w * dens c x)) //= sum_loopE /total.
by rewrite (map_zipC (fun w c => w * dens c x)) big_map.
Qed.
Lemma In_zip1 (A B : Type) (s : seq A) (t : seq B) p : List.In p (zip s t) -> List.In p.1 s.
Proof. by elim: s t => [|a s IH] [|b t] //= [<-|h]; [left|right; exact: IH h]. Qed.
Theorem C24_density_bounds m x lo hi : mix_valid m ->
  (forall c, List.In c (mx_comps m) -> lo <= dens c x <= hi) ->
  exists p, mx_dens dens m x = Ok p /\ lo <= p <= hi.
Proof.
move=> hv h; exists (mixed m x); split; first exact: C24_density.
case: (hv) => [[h1 h2 _] hn hd _].
apply: (@weighted_bounds R C (zip (mx_comps m) (mx_w m)) (fun c => dens c x)).
  by rewrite /weights -/unzip2 unzip2_zip // h1 h2.
by move=> p /In_zip1; exact: h.
Qed.
Theorem C24_density_mass m (dom : seq T) : mix_valid m ->
  (forall c, List.In c (mx_comps m) -> total [seq dens c x | x <- dom] = 1) ->
  exists ps, mapO (mx_dens dens m) dom = Ok ps /\ total ps = 1.
Proof.
move=> hv h; exists [seq mixed m x | x <- dom]; split.
  by elim: (dom) => //= x s ->; rewrite C24_density.
case: (hv) => [[h1 h2 _] hn [hd ht] _].
rewrite /total big_map /mixed exchange_big /=.
under eq_bigr do rewrite -mulr_sumr.
have -> : \sum_(i <- zip (mx_comps m) (mx_w m)) i.2 * (\sum_(x <- dom) dens i.1 x)
  = \sum_(i <- zip (mx_comps m) (mx_w m)) i.2.
  apply: eq_big_In => p /In_zip1 /h; rewrite /total big_map => ->; exact: mulr1.
by rewrite -(big_map snd xpredT id) /= -/unzip2 unzip2_zip ?h1 ?h2.
Qed.
End Density.
Theorem C24_mean (V : lmodType R) (mean : C -> V) m : mix_valid m ->
  mx_mean mean m = Ok (\sum_(p <- zip (mx_comps m) (mx_w m)) p.2 *: mean p.1).
Proof.
move=> [[h1 h2 _] hn _ _]; rewrite /mx_mean /mx_init /guard -lt0n hn /=.
rewrite (@mapO_iota2 R C V (fun w c => w *: mean c)) //=.
rewrite (map_zipC (fun w c => w *: mean c)).
have := @foldl_sum V V id; rewrite /= => ->.
by rewrite add0r big_map.
Qed.
(** integer-valued mixtures: the "expected value" is the first most probable
    state; components with different numbers of states abort *)
Theorem C24_most_probable_state (states : C -> nat) (dens : C -> nat -> R) m c0 :
  mix_valid m -> at_ (mx_comps m) 0 = Ok c0 -> (0 < states c0)%N ->
  (forall c, List.In c (mx_comps m) -> states c = states c0) ->
  (forall c j, List.In c (mx_comps m) -> 0 <= dens c j) ->
  exists k, [/\ mx_state states dens m = Ok k, (k < states c0)%N,
    (forall j, (j < states c0)%N -> mixed dens m j <= mixed dens m k) &
    (forall j, (j < k)%N -> mixed dens m j < mixed dens m k)].
Proof.
move=> hv h0 hs hall hd; case: (hv) => [[h1 h2 _] hn hdist _].
rewrite /mx_state /mx_init /guard -lt0n hn /= h0 /= mapO_iota //=.
have -> : all (fun c => states c == states c0) (mx_comps m).
  by elim: (mx_comps m) hall => //= c s IH h; rewrite h ?eqxx; [apply: IH => *; apply: h; right|left].
have -> : mapO (mx_dens dens m) (iota 0 (states c0)) = Ok [seq mixed dens m j | j <- iota 0 (states c0)].
  by elim: (iota _ _) => //= x s ->; rewrite C24_density.
set l := [seq _ | _ <- _].
have sl : size l = states c0 by rewrite size_map size_iota.
have nl j : (j < states c0)%N -> nth 0 l j = mixed dens m j.
  by move=> hj; rewrite (nth_map 0%N) ?size_iota // nth_iota.
case: (@argmax_first R nat id l 0%N (-1) 0%N) => [[_ h]|[k hk [hr _ hj hf]]].
  have := h 0%N; rewrite sl nl // => /(_ hs) hlt.
  exfalso; suff hge : 0 <= mixed dens m 0%N by have := le_trans hge hlt; rewrite oppr_ge0 ler10.
  case: hdist => hnn _; rewrite /mixed.
  have : forall p, List.In p (zip (mx_comps m) (mx_w m)) -> 0 <= p.2 * dens p.1 0%N.
    move=> p hp; apply: mulr_ge0; last by apply: hd; exact: In_zip1 hp.
    by elim: (mx_comps m) (mx_w m) hnn hp => [|a s IH] [|b t] //= /andP [hb ht] [<-|/IH] //; apply.
  elim: (zip _ _) => [|p s IH] hp; first by rewrite big_nil.
  rewrite big_cons addr_ge0 //; [by apply: hp; left|by apply: IH => q hq; apply: hp; right].
rewrite sl in hk hj; exists k; split=> //.
- rewrite /= /guard; congr Ok; move: hr; set f := foldl _ _ _; move=> hr.
  by rewrite -[RHS]/((0 + k)%N, nth 0 l k).1 -hr.
- by move=> j hj'; rewrite -!nl //; exact: hj.
by move=> j hj'; rewrite -!nl //; [exact: hf|exact: ltn_trans hj' hk].
Qed.
Theorem C24_state_mismatch (states : C -> nat) (dens : C -> nat -> R) m c0 :
  mix_valid m -> at_ (mx_comps m) 0 = Ok c0 ->
  (exists c, List.In c (mx_comps m) /\ states c <> states c0) ->
  mx_state states dens m = Abort.
Proof.
move=> [[h1 _ _] hn _ _] h0 [c [hc hne]].
rewrite /mx_state /mx_init /guard -lt0n hn /= h0 /= mapO_iota //= /guard (_ : all _ _ = false) //.
apply/negbTE; elim: (mx_comps m) hc => //= x s IH [->|/IH h]; first by rewrite (introF eqP hne).
by rewrite negb_and h orbT.
Qed.

(** C25 *)
Theorem C25_most_probable m : mix_valid m ->
  exists k : nat, [/\ mx_argmax m = Ok k%:Z, (k < mx_n m)%N,
    (forall j, nth 0 (mx_w m) j <= nth 0 (mx_w m) k) &
    (forall j, (j < k)%N -> nth 0 (mx_w m) j < nth 0 (mx_w m) k)].
Proof.
move=> [[_ hw _] hn [hnn ht] _]; rewrite /mx_argmax /mx_init /guard -lt0n hn /=.
rewrite take_oversize ?hw //.
case: (@argmax_first R int (fun i => i%:Z) (mx_w m) (-1) 0 0%N) => [[_ h]|[k hk [hr hp hj hf]]].
  have e : all (fun x => x == 0) (mx_w m).
    apply/(all_nthP 0) => i hi; rewrite eq_le h //=; exact: nonneg_nth.
  suff : total (mx_w m) = 0 by rewrite ht => /eqP; rewrite oner_eq0.
  by elim: (mx_w m) e => [|x s IH] /=; rewrite ?total_nil // total_cons => /andP [/eqP -> /IH ->]; rewrite addr0.
exists k; split=> //.
- by rewrite hr.
- by rewrite -hw.
move=> j; case: (ltnP j (size (mx_w m))) => [/hj //|hj2]; rewrite nth_default //; lra.
Qed.
Theorem C25_all_zero (cs : seq C) n c : (0 < n)%N -> mx_argmax (Mix n cs (nseq n 0) c : mix R C) = Ok (-1).
Proof.
move=> hn; rewrite /mx_argmax /mx_init /guard /= -lt0n hn /= take_oversize ?size_nseq //.
case: (@argmax_first R int (fun i => i%:Z) (nseq n 0) (-1) 0 0%N) => [[-> _]|[k hk [hr hp _ _]]] //.
by move: hp; rewrite nth_nseq; case: ifP; rewrite ltxx.
Qed.

(** C26 *)
Section Sampling.
Variables (T Rnd : Type) (csample : C -> sample_mthd -> Rnd -> outcome (option T)).
Variable root : R -> nat -> R.
Hypothesis root_pos : forall u k, 0 < u <= 1 -> (0 < k)%N -> 0 < root u k <= 1.
Theorem C26_sample_single m dflt u r : mix_valid m -> 0 < u <= 1 ->
  exists k c, [/\ quantile (mx_w m) u k, 0 < nth 0 (mx_w m) k, at_ (mx_comps m) k = Ok c &
    mx_sample1 csample m DEFAULT dflt u r =
      (let! o := csample c DEFAULT r in Ok (Some (odflt dflt o)))].
Proof.
move=> hv /andP [h0 h1]; rewrite (mix_validE hv); case: hv => [[hc hw _] hn [_ ht] _].
have hu : u <= total (mx_w m) by rewrite ht.
have [k [hs hq]] := scan_quantile h0 hu.
have hk : (k < size (mx_comps m))%N by case: hq; rewrite hc hw.
case e: (at_ (mx_comps m) k) => [c||]; [|by move: (at_lt hk); rewrite e=> -[]..].
exists k, c; split=> //; first exact: quantile_pos hq.
rewrite /mx_sample1 /mx_init /guard /= -lt0n hn -hw /= hs /= e /=.
by case: (csample c DEFAULT r) => // -[].
Qed.
Theorem C26_other_methods m meth dflt u r : mix_valid m -> meth <> DEFAULT ->
  mx_sample1 csample m meth dflt u r = Ok None.
Proof. by move=> [_ hn _ _]; rewrite /mx_sample1 /mx_init /guard -lt0n hn; case: meth. Qed.
(** a draw of exactly 0 reads [componentPdfs[-1]] *)
Theorem C26_zero_draw_UB_refuted m dflt r : mix_valid m ->
  mx_sample1 csample m DEFAULT dflt 0 r = UB.
Proof.
move=> hv; rewrite (mix_validE hv); case: hv => [_ hn _ _].
rewrite /mx_sample1 /mx_init /guard /= -lt0n hn /=.
by case: (mx_w m) => [|w l]; rewrite [cum_loop _ _]/= ?(scan_zero _ _ (lexx 0)).

Qed.
(** RIPLEY batch: sorted quantile components, each asked for a RIPLEY sample;
    a refusal is ignored *)
Theorem C26_ripley_batch m dflt us rs : mix_valid m -> us <> [::] ->
  all (fun u => 0 < u <= 1) us ->
  exists ks, [/\ size ks = size us, sorted leq ks,
    (forall i, (i < size us)%N -> quantile (mx_w m) (nth 0 (ripley root us 0) i) (nth 0%N ks i)) &
    mx_samples root csample m RIPLEY dflt us rs =
      (let! xs := mapO (fun kr => let! c := at_ (mx_comps m) kr.1 in
                                  let! o := csample c RIPLEY kr.2 in Ok (odflt dflt o)) (zip ks rs) in
       Ok (Some xs))].
Proof.
move=> hv hne hall; rewrite (mix_validE hv); case: hv => [[hc hw _] hn [hnn ht] _].
have [ks [h1 h2 h3 h4]] := scan_many_quantiles root_pos hnn ht hall.
exists ks; split=> //; rewrite /mx_samples /mx_init /guard /= -lt0n hn /= -hw h1.
case: us hne {hall h1 h2 h4} => //= _ _ _.
suff -> : mapO (fun ir : nat * Rnd => mx_delegate csample (Mix (size (mx_w m)) (mx_comps m) (mx_w m)
     (cum_loop 0 (mx_w m))) RIPLEY dflt ir.1 ir.2) (zip [seq k.+1 | k <- ks] rs) =
  mapO (fun kr : nat * Rnd => let! c := at_ (mx_comps m) kr.1 in
        let! o := csample c RIPLEY kr.2 in Ok (odflt dflt o)) (zip ks rs) by [].
elim: ks rs {h3} => [|k ks IH] [|r rs] //=; rewrite IH.
case: (at_ (mx_comps m) k) => //= c; case: (csample c RIPLEY r) => //= -[].
Qed.
Theorem C26_ripley_ignores_failure_refuted m dflt us rs : mix_valid m -> us <> [::] ->
  all (fun u => 0 < u <= 1) us -> size rs = size us ->
  (forall c r, csample c RIPLEY r = Ok None) ->
  mx_samples root csample m RIPLEY dflt us rs = Ok (Some (nseq (size us) dflt)).
Proof.
move=> hv hne hall hrs hc; have [ks [h1 h2 h3 ->]] := C26_ripley_batch dflt rs hv hne hall.
have hk k : k \in ks -> (k < size (mx_comps m))%N.
  move=> /(nthP 0%N) [i hi <-]; case: (h3 i); first by rewrite -h1.
  by case: hv => [[-> <- _] _ _ _].
rewrite -h1; rewrite -h1 in hrs; elim: ks rs hrs hk {h1 h2 h3} => [|k ks IH] [|r rs] //= [h] hk.
case e: (at_ (mx_comps m) k) => [c||]; [|by move: (at_lt (hk k (mem_head _ _))); rewrite e=> -[]..].
rewrite /= hc /=.
have := IH rs h (fun j hj => hk j (mem_behead (s:=k::ks) hj)).
by case: (mapO _ _) => //= xs [->].
Qed.
Theorem C26_default_batch m dflt us rs : mix_valid m -> all (fun u => 0 < u <= 1) us ->
  mx_samples root csample m DEFAULT dflt us rs =
  (let! xs := mapO (fun ur => mx_sample1 csample m DEFAULT dflt ur.1 ur.2) (zip us rs) in
   Ok (Some (pmap id xs))).
Proof.
move=> hv hall; case: (hv) => [_ hn _ _]; rewrite /mx_samples /mx_init /guard -lt0n hn /=.
set f := (fun ur : R * Rnd => _ : outcome T).
suff -> : mapO (fun ur : R * Rnd => mx_sample1 csample m DEFAULT dflt ur.1 ur.2) (zip us rs) =
  (let! l := mapO f (zip us rs) in Ok (map Some l)).
  case: (mapO f _) => //= l; rewrite (_ : pmap id (map Some l) = l) //; by elim: l => //= x l ->.
elim: us rs hall => [|u us IH] [|r rs] //= /andP [_ ha].
rewrite IH // {1}/mx_sample1 /mx_init /guard -lt0n hn /= {2}/f /=.
case: (scan _ _ _ _) => //= s; case: (mx_delegate _ _ _ _ _ _) => //= x.
by case: (mapO f _).
Qed.
End Sampling.
End Properties.

(** with [DiscretePdf] components the RIPLEY batch "succeeds" without sampling *)
Theorem C26_ripley_discrete_refuted (R : realFieldType) root (m : mix R (dpdf R)) dflt us rs :
  (forall u k, 0 < u <= 1 -> (0 < k)%N -> 0 < root u k <= 1) ->
  mix_valid m -> us <> [::] -> all (fun u => 0 < u <= 1) us -> size rs = size us ->
  mx_samples root (fun d meth u => dp_sample1 d meth u) m RIPLEY dflt us rs
  = Ok (Some (nseq (size us) dflt)).
Proof. by move=> hr hv hne hall hs; apply: C26_ripley_ignores_failure_refuted. Qed.

Print Assumptions C21_history_valid.
Print Assumptions C21_history_exact.
Print Assumptions C21_weightset_single_inexact_refuted.
Print Assumptions C21_weights_set_invalid.
Print Assumptions C21_weights_set.
Print Assumptions C21_weight_set.
Print Assumptions C22_add_first.
Print Assumptions C22_add_weighted.
Print Assumptions C22_add_plain.
Print Assumptions C22_add_out_of_range.
Print Assumptions C23_delete.
Print Assumptions C23_delete_all_weight_refuted.
Print Assumptions C23_delete_only.
Print Assumptions C23_delete_out_of_range.
Print Assumptions C24_density.
Print Assumptions C24_density_bounds.
Print Assumptions C24_density_mass.
Print Assumptions C24_mean.
Print Assumptions C24_most_probable_state.
Print Assumptions C24_state_mismatch.
Print Assumptions C25_most_probable.
Print Assumptions C25_all_zero.
Print Assumptions C26_sample_single.
Print Assumptions C26_other_methods.
Print Assumptions C26_zero_draw_UB_refuted.
Print Assumptions C26_ripley_batch.
Print Assumptions C26_ripley_ignores_failure_refuted.
Print Assumptions C26_default_batch.
Print Assumptions C26_ripley_discrete_refuted.

(** ** Concrete cases *)
Section Examples.
Let q (a b : nat) : rat := a%:R / b%:R.
Notation Q := [realFieldType of rat].
Let eps : rat := q 1 100.
Let m2 : mix Q nat := Mix 2 [:: 5%N; 8%N] [:: q 1 4; q 3 4] [:: 0; q 1 4; 1].
Example C21_valid_example : mix_valid m2.
Proof.
have -> : m2 = Mix 2 [:: 5%N; 8%N] [:: q 1 4; q 3 4] (cum_loop 0 [:: q 1 4; q 3 4]).
  by rewrite /m2; congr Mix; apply/eqP; vm_compute.
apply: mix_validI => //; split; first by vm_compute.
by apply/eqP; rewrite /total unlock; vm_compute.
Qed.
Example C21_example :
  match runO (@mx_step Q eps nat) (mx_new Q nat)
        [:: MAdd 5%N (q 1 3); MAdd 6%N (q 1 2); MAdd0 Q 7%N; MSet nat 2 (q 1 2); MDel Q nat 0;
            MSets nat [:: q 1 1; q 3 1]] with
  | Ok (fl, m) => all id fl && (mx_w m == [:: q 1 4; q 3 4]) && (mx_comps m == [:: 6%N; 7%N])
                  && (mx_cum m == [:: 0; q 1 4; 1])
  | _ => false end.
Proof. by vm_compute. Qed.
Example C21_near_example :
  match runO (@mx_step Q eps nat) (mx_new Q nat) [:: MAdd 5%N 1; MSet nat 0 (q 199 200)] with
  | Ok (fl, m) => all id fl && (mx_w m == [:: q 199 200]) | _ => false end.
Proof. by vm_compute. Qed.
Example C22_example :
  match mx_add eps m2 9%N (q 1 5) with
  | Ok (b, m) => b && (mx_w m == [:: q 1 5; q 3 5; q 1 5]) | _ => false end.
Proof. by vm_compute. Qed.
Example C23_example :
  match mx_del eps m2 0, mx_del eps (Mix 2 [:: 5%N; 8%N] [:: 0; 1] [:: 0; 0; 1] : mix Q nat) 1 with
  | Ok (b, m), Ok (b', m') => [&& b, mx_w m == [:: 1], ~~ b' & mx_w m' == [:: 0]]
  | _, _ => false end.
Proof. by vm_compute. Qed.
Let dens (c x : nat) : rat := if c == 5%N then (if x == 0%N then q 1 2 else q 1 4) else q 1 3.
Example C24_example :
  match mx_dens dens m2 0%N, mx_state (fun _ => 3%N) dens m2 with
  | Ok p, Ok k => (p == q 3 8) && (k == 0%N) | _, _ => false end.
Proof. by vm_compute. Qed.
Example C24_mass_example :
  exists ps, mapO (mx_dens dens m2) [:: 0%N; 1%N; 2%N] = Ok ps /\ total ps = 1.
Proof.
apply: C24_density_mass; first exact: C21_valid_example.
by move=> c [<-|[<-|//]]; apply/eqP; rewrite /total unlock; vm_compute.
Qed.
Example C25_example :
  match mx_argmax (Mix 3 [:: 5%N; 8%N; 9%N] [:: q 1 5; q 2 5; q 2 5] [:: 0; q 1 5; q 3 5; 1] : mix Q nat) with
  | Ok k => k == 1 | _ => false end.
Proof. by vm_compute. Qed.
Let csample (c : nat) (meth : sample_mthd) (r : nat) : outcome (option nat) :=
  if meth is DEFAULT then Ok (Some (c + r)%N) else Ok None.
Let root (u : rat) (k : nat) : rat := if k is 0 then u else (u + k.-1%:R) / k%:R.
Example C26_example :
  match mx_sample1 csample m2 DEFAULT 0%N (q 1 3) 100%N,
        mx_samples root csample m2 RIPLEY 0%N [:: q 1 3; q 1 2] [:: 1%N; 2%N] with
  | Ok (Some x), Ok (Some xs) => (x == 108%N) && (xs == [:: 0%N; 0%N]) | _, _ => false end.
Proof. by vm_compute. Qed.
End Examples.
