(** * C27-C30: properties of the histogram filter *)
From mathcomp Require Import all_ssreflect all_algebra.
From mathcomp Require Import ring zify.
From Verif Require Import OrdLra Outcome SpecProb ModelTables ProofsTables SpecBayes
  ModelDiscretePdf SpecDiscretePdf ProofsDiscretePdf ModelModels ModelFilter ProofsFilter
  ModelHistogram SpecHistogram ProofsHistogram.
Set Implicit Arguments. Unset Strict Implicit. Unset Printing Implicit Defensive.
Import Order.TTheory GRing.Theory Num.Theory.
Local Open Scope ring_scope.

Section Properties.
Variables (R : realFieldType) (eps : R) (Z : Type).
Hypothesis eps0 : 0 <= eps.
Notation hfilter := (heap (dpdf R) * filt (seq R))%type.
Notation hcall := (call (hsys R) (hmeas R Z) int Z).
Implicit Types (hf : hfilter) (d : dpdf R) (c : hcall).

Lemma holds_good hf d : holds hf d <-> is_good (dp_n d) hf d.
Proof. by split=> [[h1 h2 h3]|[h1 [h2 _ h3]]]; split. Qed.
Lemma get_probs d j : dp_valid d -> (j < dp_n d)%N -> dp_get d j%:Z = Ok (probs d j).
Proof. by move=> [hs _ _] hj; rewrite /dp_get /guard /= ltz_nat hj /= (at_nth 0) ?hs. Qed.

(** C29, the general statement *)
Theorem C29_joint_posterior (cs : seq hcall) hf d fss : holds hf d ->
  List.Forall2 (@stands_for R Z (dp_n d)) cs fss ->
  evidence (dp_n d) (probs d) (flatten fss) != 0 ->
  exists hf' d', [/\ runO (@hf_call R eps Z) hf cs = Ok (nseq (size cs) true, hf'), holds hf' d',
    dp_n d' = dp_n d &
    forall j, (j < dp_n d)%N -> dp_get d' j%:Z =
      Ok (joint (dp_n d) (probs d) (flatten fss) j / evidence (dp_n d) (probs d) (flatten fss))].
Proof.
move=> /holds_good hg hc hev; have [hf' [d' [h1 h2 h3]]] := hf_run_pushed eps0 hg hc hev.
case: (h2) => [h4 [h5 h6 h7]].
exists hf', d'; split=> //; first by apply/holds_good; rewrite h6.
move=> j hj; rewrite get_probs ?h6 //; congr Ok; exact: pushed_final h3 hj.
Qed.

Lemma one_call c hf d fs : holds hf d -> stands_for (dp_n d) c fs ->
  evidence (dp_n d) (probs d) fs != 0 ->
  exists hf' d', [/\ hf_call eps hf c = Ok (true, hf'), holds hf' d', dp_n d' = dp_n d &
    forall j, (j < dp_n d)%N -> dp_get d' j%:Z =
      Ok (joint (dp_n d) (probs d) fs j / evidence (dp_n d) (probs d) fs)].
Proof.
move=> hh hc hev.
have h2 : List.Forall2 (@stands_for R Z (dp_n d)) [:: c] [:: fs] by constructor.
have := C29_joint_posterior hh h2; rewrite /= cats0 => /(_ hev) [hf' [d' [h3 h4 h5 h6]]].
exists hf', d'; split=> //.
by move: h3 => /=; case: (hf_call eps hf c) => //= -[b x] /= [-> ->].
Qed.

(** C27 *)
Theorem C27_construction (h : heap (dpdf R)) p d : h_get h p = Ok d -> dp_valid d ->
  exists hf, hf_new eps h p = Ok hf /\ holds hf d.
Proof.
move=> hp hv; rewrite /hf_new /f_new hp /= /dp_copy; case: (hv) => hs [hn ht] hc.
rewrite cum_updateE //=; eexists; split; first by [].
split=> //; rewrite /f_post /h_get /=.
by rewrite (at_nth None) ?size_rcons // nth_rcons ltnn eqxx /= -(valid_cum hv); case: (d).
Qed.
Lemma sum_probs d : dp_valid d -> \sum_(i <- iota 0 (dp_n d)) probs d i = 1.
Proof.
move=> [hs [_ ht] _]; rewrite -total_iota -ht; congr total.
apply: (@eq_from_nth _ 0); first by rewrite size_map size_iota hs.
by move=> i; rewrite size_map size_iota => hi; rewrite (nth_map 0%N) ?size_iota // nth_iota.
Qed.
Theorem C27_prediction hf d (m : hsys R) (u : option int) a c : holds hf d ->
  c = (if u is Some v then Update_su (hmeas R Z) Z (Some m) v else Update_s (hmeas R Z) int Z (Some m)) ->
  sys_table (dp_n d) m u a -> stochastic (dp_n d) a ->
  exists hf' d', [/\ hf_call eps hf c = Ok (true, hf'), holds hf' d', dp_n d' = dp_n d &
    forall j, (j < dp_n d)%N -> dp_get d' j%:Z = Ok (\sum_(i <- iota 0 (dp_n d)) a j i * probs d i)].
Proof.
move=> hh hc ht hst; have [_ hv _] := hh.
have hev : evidence (dp_n d) (probs d) [:: Trans a] = 1.
  rewrite evidence_step /evidence; under eq_big_seq => j.
    rewrite mem_iota add0n => hj; rewrite joint_nil //; over.
  rewrite /fwd exchange_big /= -(sum_probs hv).
  apply: eq_big_seq => i; rewrite mem_iota add0n => hi.
  by rewrite -mulr_suml hst // mul1r.
have hsf : stands_for (dp_n d) c [:: Trans a] by rewrite hc; case: (u) ht => [v|] ht; exists a.
have := one_call hh hsf; rewrite hev oner_neq0 => /(_ isT) [hf' [d' [h1 h2 h3 h4]]].
exists hf', d'; split=> // j hj; rewrite h4 // joint_step joint_nil // divr1.
by [].
Qed.

(** C28 *)
Theorem C28_bayes hf d (m : hmeas R Z) (z : Z) (s : option int) l c : holds hf d ->
  c = (if s is Some v then Update_mzs (hsys R) (Some m) z v else Update_mz (hsys R) int (Some m) z) ->
  meas_table (dp_n d) m z s l ->
  (exists2 i, (i < dp_n d)%N & 0 < probs d i /\ 0 < l i) ->
  exists hf' d', [/\ hf_call eps hf c = Ok (true, hf'), holds hf' d', dp_n d' = dp_n d &
    forall j, (j < dp_n d)%N -> dp_get d' j%:Z =
      Ok (probs d j * l j / \sum_(i <- iota 0 (dp_n d)) probs d i * l i)].
Proof.
move=> hh hc ht [i0 hi0 [hp0 hl0]]; have [_ [hs [hnn _] _] _] := hh.
have hev : evidence (dp_n d) (probs d) [:: Like l] = \sum_(i <- iota 0 (dp_n d)) probs d i * l i.
  rewrite evidence_step /evidence; apply: eq_big_seq => j.
  by rewrite mem_iota add0n => hj; rewrite joint_nil.
have hpos : 0 < \sum_(i <- iota 0 (dp_n d)) probs d i * l i.
  have h0 i : (i < dp_n d)%N -> 0 <= probs d i * l i.
    by move=> hi; apply: mulr_ge0; [exact: nonneg_nth|case: (sm_eval_meas ht hi)].
  rewrite (bigD1_seq i0) ?iota_uniq ?mem_iota //=; apply: ltr_paddr; last exact: mulr_gt0.
  by rewrite big_seq_cond; apply: sumr_ge0 => i; rewrite mem_iota add0n => /andP [/h0].
have hsf : stands_for (dp_n d) c [:: Like l] by rewrite hc; case: (s) ht => [v|] ht; exists l.
have := one_call hh hsf; rewrite hev gt_eqF // => /(_ isT) [hf' [d' [h1 h2 h3 h4]]].
by exists hf', d'; split=> // j hj; rewrite h4 // joint_step joint_nil.
Qed.
(** the scale of the likelihood is irrelevant: two models whose likelihoods
    differ by a positive factor give the same posterior *)
Theorem C28_scale_free hf d (m1 m2 : hmeas R Z) (z1 z2 : Z) l (k : R) hf1 hf2 d1 d2 : holds hf d ->
  0 < k -> meas_table (dp_n d) m1 z1 None l -> meas_table (dp_n d) m2 z2 None (fun i => k * l i) ->
  (exists2 i, (i < dp_n d)%N & 0 < probs d i /\ 0 < l i) ->
  hf_call eps hf (Update_mz (hsys R) int (Some m1) z1) = Ok (true, hf1) -> f_post hf1 = Ok d1 ->
  hf_call eps hf (Update_mz (hsys R) int (Some m2) z2) = Ok (true, hf2) -> f_post hf2 = Ok d2 ->
  dp_vals d1 = dp_vals d2.
Proof.
move=> hh hk ht1 ht2 [i0 hi0 [hp0 hl0]] hc1 hd1 hc2 hd2.
have w1 : exists2 i, (i < dp_n d)%N & 0 < probs d i /\ 0 < l i by exists i0.
have w2 : exists2 i, (i < dp_n d)%N & 0 < probs d i /\ 0 < k * l i.
  by exists i0 => //; split=> //; exact: mulr_gt0.
have [g1 [e1 [a1 [b1 v1 _] n1 p1]]] := C28_bayes (s := None) hh erefl ht1 w1.
have [g2 [e2 [a2 [b2 v2 _] n2 p2]]] := C28_bayes (s := None) hh erefl ht2 w2.
move: hc1 hc2; rewrite a1 a2 => -[eg1] [eg2]; subst g1 g2.
move: hd1 hd2; rewrite b1 b2 => -[ed1] [ed2]; subst e1 e2.
case: (v1) (v2) => [s1 _ _] [s2 _ _].
apply: (@eq_from_nth _ 0); first by rewrite s1 s2 n1 n2.
move=> j; rewrite s1 n1 -/(probs d1 j) -/(probs d2 j) => hj.
have := p1 j hj; rewrite get_probs ?n1 // => -[->].
have := p2 j hj; rewrite get_probs ?n2 // => -[->].
have -> : \sum_(i <- iota 0 (dp_n d)) probs d i * (k * l i) = k * \sum_(i <- iota 0 (dp_n d)) probs d i * l i.
  by rewrite mulr_sumr; apply: eq_bigr => i _; rewrite mulrCA.
by rewrite mulrCA -mulf_div divff ?mul1r // gt_eqF.
Qed.
Theorem C28_zero_stays_zero hf d (m : hmeas R Z) (z : Z) l hf' d' j : holds hf d ->
  meas_table (dp_n d) m z None l ->
  (exists2 i, (i < dp_n d)%N & 0 < probs d i /\ 0 < l i) ->
  hf_call eps hf (Update_mz (hsys R) int (Some m) z) = Ok (true, hf') -> f_post hf' = Ok d' ->
  (j < dp_n d)%N -> probs d j = 0 \/ l j = 0 -> probs d' j = 0.
Proof.
move=> hh ht w hc hd hj h0.
have [g1 [e1 [a1 [b1 v1 _] n1 p1]]] := C28_bayes (s := None) hh erefl ht w.
move: hc; rewrite a1 => -[eg1]; subst g1; move: hd; rewrite b1 => -[ed1]; subst e1.
have := p1 j hj; rewrite get_probs ?n1 // => -[->].
by case: h0 => ->; rewrite ?mul0r ?mulr0 ?mul0r.
Qed.

(** C29: measurement updates commute and merge *)
Lemma like_swap n p (l1 l2 : nat -> R) fs j :
  joint n p [:: Like l1, Like l2 & fs] j = joint n p [:: Like l2, Like l1 & fs] j.
Proof. by rewrite !joint_step; apply: eq_joint => i _ /=; rewrite mulrAC. Qed.
Lemma like_merge n p (l1 l2 : nat -> R) fs j :
  joint n p [:: Like l1, Like l2 & fs] j = joint n p (Like (fun i => l1 i * l2 i) :: fs) j.
Proof. by rewrite !joint_step; apply: eq_joint => i _ /=; rewrite mulrA. Qed.
Theorem C29_measurements_commute_merge hf d (c1 c2 c12 : hcall) l1 l2 : holds hf d ->
  stands_for (dp_n d) c1 [:: Like l1] -> stands_for (dp_n d) c2 [:: Like l2] ->
  stands_for (dp_n d) c12 [:: Like (fun i => l1 i * l2 i)] ->
  evidence (dp_n d) (probs d) [:: Like l1; Like l2] != 0 ->
  exists v : seq R, forall cs, cs \in [:: 0%N; 1%N; 2%N] ->
    exists hf' d', [/\ runO (@hf_call R eps Z) hf
        (nth [::] [:: [:: c1; c2]; [:: c2; c1]; [:: c12]] cs) =
        Ok (nseq (size (nth [::] [:: [:: c1; c2]; [:: c2; c1]; [:: c12]] cs)) true, hf'),
      holds hf' d' & dp_vals d' = v].
Proof.
move=> hh h1 h2 h12 hev.
set n := dp_n d in h1 h2 h12 hev *.
pose v := [seq joint n (probs d) [:: Like l1; Like l2] j / evidence n (probs d) [:: Like l1; Like l2] | j <- iota 0 n].
have key cs fss : List.Forall2 (@stands_for R Z n) cs fss ->
  (forall j, joint n (probs d) (flatten fss) j = joint n (probs d) [:: Like l1; Like l2] j) ->
  exists hf' d', [/\ runO (@hf_call R eps Z) hf cs = Ok (nseq (size cs) true, hf'), holds hf' d' & dp_vals d' = v].
  move=> hcs hj.
  have he : evidence n (probs d) (flatten fss) = evidence n (probs d) [:: Like l1; Like l2].
    by apply: eq_bigr => j _; exact: hj.
  have := C29_joint_posterior hh hcs; rewrite he => /(_ hev) [hf' [d' [a1 a2 a3 a4]]].
  exists hf', d'; split=> //; case: (a2) => [_ hv _]; case: (hv) => hs _ _.
  apply: (@eq_from_nth _ 0); first by rewrite hs a3 size_map size_iota.
  move=> j; rewrite hs a3 => hjn; have := a4 j hjn; rewrite get_probs ?a3 // => -[].
  by rewrite /probs => ->; rewrite (nth_map 0%N) ?size_iota // nth_iota // hj.
exists v => -[|[|[|//]]] _ /=.
- by apply: (key [:: c1; c2] [:: [:: Like l1]; [:: Like l2]]); [repeat constructor|].
- apply: (key [:: c2; c1] [:: [:: Like l2]; [:: Like l1]]); first by repeat constructor.
  by move=> j /=; exact: like_swap.
apply: (key [:: c12] [:: [:: Like (fun i => l1 i * l2 i)]]); first by repeat constructor.
by move=> j /=; rewrite -like_merge.
Qed.

(** C30 *)
Definition zeros hf : Prop :=
  exists d, [/\ f_post hf = Ok d, dp_vals d = nseq (dp_n d) 0 & size (fl_priv hf.2) = dp_n d].
Lemma sets_zero d n : dp_n d = n ->
  dp_sets eps d (nseq n 0) = Ok (false, DPdf n (nseq n 0) (dp_cum d)).
Proof.
move=> hn; rewrite dp_sets_zero ?size_nseq ?hn //; first exact: nonneg_nseq.
by rewrite total_nseq mulr0 ltxx.
Qed.
Lemma foldO_fill0 (b : seq R -> nat -> outcome (seq R)) (s r : seq R) n :
  size s = n ->
  (forall k t t', (k < n)%N -> b t k = Ok t' -> (k < size t)%N -> t' = set_nth 0 t k 0) ->
  foldO b s (iota 0 n) = Ok r -> r = nseq n 0.
Proof.
move=> hs hb.
suff gen : forall m k t, (k + m = n)%N -> size t = n -> take k t = nseq k 0 ->
  foldO b t (iota k m) = Ok r -> r = nseq n 0.
  by apply: (gen n 0%N); rewrite ?take0.
elim=> [|m IH] k t hk ht hz /=.
  by move=> [<-]; rewrite addn0 in hk; rewrite -hk -hz take_oversize // ht hk.
case h: (b t k) => [t'||] //=.
have e : t' = set_nth 0 t k 0 by apply: hb h _; rewrite ?ht; lia.
have hsz : size t' = n by rewrite e size_set_nth ht; apply/maxn_idPr; lia.
apply: (IH k.+1 t') => //; first by lia.
rewrite (take_nth 0) ?hsz; last by lia.
have -> : take k t' = nseq k 0.
  rewrite -hz e; apply: (@eq_from_nth _ 0); first by rewrite -e !size_takel ?hsz ?ht //; lia.
  move=> i; rewrite size_take => hi.
  have hik : (i < k)%N by move: hi; case: ifP; lia.
  by rewrite !nth_take // nth_set_nth /= (ltn_eqF hik).
rewrite e nth_set_nth /= eqxx -cats1; by elim: (k) => //= i ->.
Qed.
Lemma predict_zero (m : hsys R) u n to x : hf_predict m u (nseq n 0) n to = Ok x -> x = 0.
Proof.
rewrite /hf_predict.
suff gen : forall (l : seq nat) (t : R), t = 0 -> {subset l <= iota 0 n} ->
  foldO (fun temp (from : nat) => let! p := sm_eval m to%:Z from%:Z u in
     let! q := at_ (nseq n 0) from in Ok (temp + p * q)) t l = Ok x -> x = 0 by exact: gen.
elim=> [|i l IH] t ht hl /=; first by move=> [<-].
case: (sm_eval _ _ _ _) => //= p.
have hi : (i < n)%N by have := hl i (mem_head _ _); rewrite mem_iota.
rewrite (at_nth 0) ?size_nseq // nth_nseq hi /=; apply: IH; first by rewrite ht mulr0 addr0.
by move=> j hj; apply: hl; rewrite inE hj orbT.
Qed.
Lemma zeros_sys (m : hsys R) u np d np' d' : dp_vals d = nseq (dp_n d) 0 -> size np = dp_n d ->
  hf_sys eps m u (np, d) = Ok (np', d') ->
  [/\ dp_vals d' = nseq (dp_n d') 0, size np' = dp_n d' & dp_n d' = dp_n d].
Proof.
move=> hz hs; rewrite /hf_sys /=; case h: (foldO _ _ _) => [new||] //=.
have -> : new = nseq (dp_n d) 0.
  apply: foldO_fill0 hs _ h => k t t' hk; rewrite hz.
  case hp: (hf_predict _ _ _ _ _) => [x||] //=; rewrite (predict_zero hp) /mkProb /guard lexx /=.
  by move=> e ht; move: e; rewrite (put_set_nth 0) // => -[].
by rewrite sets_zero //= => -[<- <-] /=; rewrite size_nseq.
Qed.
Lemma zeros_meas (m : hmeas R Z) z s np d np' d' : dp_vals d = nseq (dp_n d) 0 -> size np = dp_n d ->
  hf_meas eps m z s (np, d) = Ok (np', d') ->
  [/\ dp_vals d' = nseq (dp_n d') 0, size np' = dp_n d' & dp_n d' = dp_n d].
Proof.
move=> hz hs; rewrite /hf_meas /=; case h: (foldO _ _ _) => [new||] //=.
have -> : new = nseq (dp_n d) 0.
  have gen : forall l t r, all (fun x => x == 0) t ->
    foldO (fun old k => let! q := at_ old k in let! v := (if z is Some v then Ok v else UB) in
             let! p := sm_eval m v k%:Z s in let! r := mkProb (q * p) in put_ old k r) t l = Ok r ->
    all (fun x => x == 0) r /\ size r = size t.
    case: (z) => [v|]; last by case=> [|k l] t r ht /=; [move=> [<-]|case: (at_ t k)].
    elim=> [|k l IH] t r ht /=; first by move=> [<-].
    case hq: (at_ t k) => [q||] //=; case: (sm_eval _ _ _ _) => //= p.
    have [hk eq] := at_Ok 0 hq.
    have q0 : q = 0 by rewrite eq; move/(all_nthP 0): ht => /(_ k hk) /eqP.
    rewrite q0 mul0r /mkProb /guard lexx /= (put_set_nth 0) //= => hx.
    have es : size (set_nth 0 t k 0) = size t by rewrite size_set_nth (maxn_idPr hk).
    rewrite -es; apply: IH hx.
    apply/(all_nthP 0) => i; rewrite size_set_nth (maxn_idPr hk) => hi.
    by rewrite nth_set_nth /=; case: (i == k); rewrite ?eqxx //; move/(all_nthP 0): ht => /(_ i hi).
  have h0 : all (fun x => x == 0) (dp_vals d) by rewrite hz; apply/all_pred1P; rewrite size_nseq.
  have [h1 h2] := gen _ _ _ h0 h.
  rewrite hz size_nseq in h2; rewrite -h2; apply/all_pred1P; exact: h1.
by rewrite sets_zero //= => -[<- <-].
Qed.
Theorem C30_impossible_measurement_refuted hf d (m : hmeas R Z) (z : Z) (s : option int) l c : holds hf d ->
  c = (if s is Some v then Update_mzs (hsys R) (Some m) z v else Update_mz (hsys R) int (Some m) z) ->
  meas_table (dp_n d) m z s l ->
  (forall i, (i < dp_n d)%N -> probs d i * l i = 0) ->
  exists hf', hf_call eps hf c = Ok (true, hf') /\ zeros hf'.
Proof.
move=> [hp [hs [hnn _] _] hpr] hc ht hz.
have e : hf_meas eps m (Some z) s (fl_priv hf.2, d) = Ok (fl_priv hf.2, DPdf (dp_n d) (nseq (dp_n d) 0) (dp_cum d)).
  rewrite (hf_measE eps (fl_priv hf.2) hnn hs ht).
  have -> : [seq fwd (dp_n d) (probs d) (Like l) i | i <- iota 0 (dp_n d)] = nseq (dp_n d) 0.
    apply: (@eq_from_nth _ 0); first by rewrite size_map size_iota size_nseq.
    move=> i; rewrite size_map size_iota => hi.
    by rewrite (nth_map 0%N) ?size_iota // nth_iota // nth_nseq hi /= hz.
  by rewrite sets_zero.
have e2 : hf_internal eps None None (Some m) (Some z) s (fl_priv hf.2, fl_time hf.2, d) =
  Ok (true, (fl_priv hf.2, fl_time hf.2, DPdf (dp_n d) (nseq (dp_n d) 0) (dp_cum d))).
  by rewrite /hf_internal /two_step /= e.
have [h' [e3 [e4 _]]] := f_updateE hp e2.
exists (h', Filt (fl_prior hf.2) (fl_post hf.2) (fl_time hf.2) (fl_priv hf.2)); split.
  by rewrite hc /hf_call; case: (s) e3 => [v|] /=.
by exists (DPdf (dp_n d) (nseq (dp_n d) 0) (dp_cum d)); split.
Qed.
Theorem C30_stuck_at_zero_refuted hf (cs : seq hcall) fl hf' : zeros hf ->
  runO (@hf_call R eps Z) hf cs = Ok (fl, hf') -> all id fl /\ zeros hf'.
Proof.
elim: cs hf fl hf' => [|c cs IH] hf fl hf' hz /=; first by move=> [<- <-].
case hc: (hf_call eps hf c) => [[b hf1]||] //=.
case hr: (runO _ _ _) => [[fl1 hf2]||] //= -[<- <-] /=.
suff [hb hz1] : b /\ zeros hf1 by have [h1 h2] := IH _ _ _ hz1 hr; rewrite hb.
case: hz => d [hd hv hs]; move: hc; rewrite /hf_call f_callE /= => hc.
case: (f_update_inv hc) => d0 [p [t [d' [e1 e2 e3 e4 _]]]].
move: e1; rewrite hd => -[e1]; subst d0.
move: e2; rewrite /hf_internal /two_step /=.
case hA: (if (routed c).1.1.1.1 is Some m then _ else _) => [[np1 d1]||] //=.
have [z1 z2 z3] : [/\ dp_vals d1 = nseq (dp_n d1) 0, size np1 = dp_n d1 & dp_n d1 = dp_n d].
  by case: ((routed c).1.1.1.1) hA => [m /(zeros_sys hv hs)|[<- <-]].
case hB: (if (routed c).1.1.2 is Some m then _ else _) => [[np2 d2]||] //= -[<- ep _ ed].
have [y1 y2 y3] : [/\ dp_vals d2 = nseq (dp_n d2) 0, size np2 = dp_n d2 & dp_n d2 = dp_n d1].
  by case: ((routed c).1.1.2) hB => [m /(zeros_meas z1 z2)|[<- <-]].
by split=> //; exists d'; rewrite -ed e4 /= -ep; split=> //; rewrite e3 ed.
Qed.
End Properties.

Print Assumptions C27_construction.
Print Assumptions C27_prediction.
Print Assumptions C28_bayes.
Print Assumptions C28_scale_free.
Print Assumptions C28_zero_stays_zero.
Print Assumptions C29_joint_posterior.
Print Assumptions C29_measurements_commute_merge.
Print Assumptions C30_impossible_measurement_refuted.
Print Assumptions C30_stuck_at_zero_refuted.

(** ** Concrete case: two states, one system and one measurement model *)
Section Examples.
Let q (a b : nat) : rat := a%:R / b%:R.
Notation Q := [realFieldType of rat].
Let eps : rat := q 1 8.
Let prior : dpdf Q := DPdf 2 [:: q 1 4; q 3 4] [:: 0; q 1 4; 1].
Let a (j i : nat) : rat := if j == i then q 3 4 else q 1 4.
Let sys : hsys Q := SModel true
  (fun args to => match args, to with [:: Posz i], Posz j => Ok (a j i) | _, _ => UB end) (fun _ _ _ => Abort).
(** sensor with a parameter [s]: likelihood of [z] in state [x] *)
Let l (s : int) (z i : nat) : rat := if s == 0 then (if z == i then q 1 2 else q 1 8) else 0.
Let meas : hmeas Q nat := SModel false
  (fun args z => match args with [:: Posz i; s] => Ok (l s z i) | _ => UB end) (fun _ _ _ => Abort).
Example C27_valid_example : dp_valid prior.
Proof.
split=> //; first by split; [vm_compute|apply/eqP; rewrite /total unlock; vm_compute].
split=> // -[|[|[|//]]] _; apply/eqP; rewrite /total unlock; by vm_compute.
Qed.
Example C27_tables_example : sys_table 2 sys None a /\ stochastic 2 a.
Proof.
split; first by move=> [|[|//]] [|[|//]] _ _; split=> //; vm_compute.
by move=> [|[|//]] _; apply/eqP; rewrite unlock; vm_compute.
Qed.
Example C28_tables_example : meas_table 2 meas 0%N (Some (0 : int)) (l 0 0).
Proof. by move=> [|[|//]] _; split=> //; vm_compute. Qed.
Example C29_stands_for_example :
  stands_for 2 (Update_smzs (Some sys) (Some meas) 0%N (0 : int)) [:: Trans a; Like (l 0 0)].
Proof.
exists [:: Trans a], [:: Like (l 0 0)]; split=> //; first by exists a; case: C27_tables_example.
by exists (l 0 0); split=> //; exact: C28_tables_example.
Qed.
Let run (cs : seq (call (hsys Q) (hmeas Q nat) int nat)) : seq rat :=
  match hf_new eps [:: Some prior] 0%N with
  | Ok hf => match runO (@hf_call Q eps nat) hf cs with
             | Ok (fl, hf') => if all id fl then match f_post hf' with Ok d => dp_vals d | _ => [::] end else [::]
             | _ => [::] end
  | _ => [::] end.
Example C27_example : run [:: Update_s (hmeas Q nat) int nat (Some sys)] == [:: q 3 8; q 5 8].
Proof. by vm_compute. Qed.
Example C28_example :
  run [:: Update_mzs (hsys Q) (Some meas) 0%N (0 : int)] == [:: q 4 7; q 3 7].
Proof. by vm_compute. Qed.
Example C29_evidence_example :
  evidence 2 (probs prior) [:: Trans a; Like (l 0 0)] == q 17 64.
Proof. by rewrite /evidence /joint unlock; vm_compute. Qed.
Example C29_example :
  run [:: Update_smzs (Some sys) (Some meas) 0%N (0 : int)] == [:: q 12 17; q 5 17].
Proof. by vm_compute. Qed.
Example C30_example :
  run [:: Update_mzs (hsys Q) (Some meas) 0%N (1 : int); Update_s (hmeas Q nat) int nat (Some sys);
          Update_mzs (hsys Q) (Some meas) 0%N (0 : int)] == [:: 0; 0].
Proof. by vm_compute. Qed.
End Examples.
