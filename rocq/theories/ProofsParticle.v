(** * Proofs about the particle filters *)
From mathcomp Require Import all_ssreflect all_algebra.
From mathcomp Require Import zify.
From Verif Require Import OrdLra Outcome SpecProb ModelTables ProofsTables ModelDiscretePdf
  ModelMCPdf SpecMCPdf ProofsMCPdf ModelModels ModelFilter ProofsFilter ModelParticle SpecParticle.
Set Implicit Arguments. Unset Strict Implicit. Unset Printing Implicit Defensive.
Import Order.TTheory GRing.Theory Num.Theory.
Local Open Scope ring_scope.

Arguments pf_resample : simpl never.
Arguments pf_static : simpl never.
Arguments pf_dynamic : simpl never.
Arguments pf_proposal : simpl never.
Arguments pf_weights : simpl never.
Arguments pf_internal : simpl never.
Arguments bf_internal : simpl never.
Arguments mc_updU : simpl never.
Arguments mc_updW : simpl never.

Lemma obindE A B (m : outcome A) (f : A -> outcome B) y :
  obind m f = Ok y -> exists2 x, m = Ok x & f x = Ok y.
Proof. exact: obind_Ok. Qed.

Section Routed.
Variables (D Priv SM MM U Z : Type).
Variable internal : option SM -> option U -> option MM -> option Z -> option U ->
                    fstate D Priv -> outcome (bool * fstate D Priv).
Lemma f_call_parts hf (c : call SM MM U Z) : f_call internal hf c =
  f_update internal hf (sys_of c) (input_of c) (meas_of c) (value_of c) (param_of c).
Proof. by case: c. Qed.
End Routed.

Section Proofs.
Variables (R : realFieldType) (T Z Rnd Rz : Type).
Variable root : R -> nat -> R.
Notation part := (T * R)%type.
Notation priv := (pfpriv R T Rnd).
Notation pstate := (fstate (mcpdf R T) priv).
Notation psys := (psys R T Rnd).
Notation pmeas := (pmeas R T Z Rz).
Notation prop := (prop R T Rnd).
Implicit Types (d : mcpdf R T) (p : priv) (st : pstate) (sm : psys) (mm : pmeas) (c : prop)
  (os : option psys) (om : option pmeas).

(** ** The proposal loop *)
Lemma pf_move_weights sm u rs olds news k q smp r x : size news = size olds ->
  pf_move sm u rs olds news k q smp = Ok (r, x) -> weights r = weights olds /\ nonneg (weights olds).
Proof.
elim: olds news k q smp r x => [|o olds IH] [|n news] //= k q smp r x; first by move=> _ [<- _].
case=> hs; case: (pf_arg0 q o.1) => [c0||] //=; case: (pf_arg1 c0 sm u) => [c||] //=.
case: (cp_samp _ _ _ _) => [y||] //=; case ho: (0 <= o.2) => //=.
case hr: (pf_move _ _ _ _ _ _ _ _) => [[r' x']||] //= -[<- _].
have [h1 h2] := IH _ _ _ _ _ _ hs hr; rewrite /weights /= -/(weights r') h1; split=> //.
by apply/nonneg_cons.
Qed.

(** ** Validity is preserved by every step that reports success *)
Definition inv (n : nat) st : Prop := mc_valid st.2 /\ size (mc_los st.2) = n.

Lemma updW_inv d (l : seq part) d' : mc_valid d -> mc_updW d l = Ok (true, d') ->
  mc_valid d' /\ size (mc_los d') = size (mc_los d).
Proof.
move=> hv; have h0 := mc_valid_nonempty hv; have hs := mc_valid_sized hv.
case: (size l =P size (mc_los d)) => hl; last by rewrite mc_updW_abort.
move=> h; have [h1 h2] : nonneg (weights l) /\ 0 < total (weights l).
  move: h; rewrite /mc_updW /guard hl eqxx /= -lt0n h0 => h; exact: normalize_true_nonneg h.
move: h; rewrite mc_updWE // => -[<-] /=; rewrite size_normalised hl; split=> //.
by apply: valid_build; exact: normalised_distr.
Qed.
Lemma updU_inv d (v : seq T) b d' : mc_valid d -> mc_updU d v = Ok (b, d') ->
  [/\ b = true, mc_valid d' & size (mc_los d') = size (mc_los d)].
Proof.
move=> hv; have h0 := mc_valid_nonempty hv; have hs := mc_valid_sized hv.
case: (size v =P size (mc_los d)) => hl; last by rewrite /mc_updU (introF eqP hl) => -[<- <-].
rewrite mc_updUE ?hl // => -[<- <-]; split=> //=; last by rewrite size_map.
by apply: valid_build; apply: equal_distr; rewrite hl.
Qed.
Lemma pf_resample_inv n st b st' : inv n st -> pf_resample root st = Ok (b, st') ->
  b = true /\ inv n st'.
Proof.
case: st => [[p t] d] [hv hn] h; case: (obindE h) => xs _ h2.
case: (obindE h2) => -[b' d'] hu [<- <-] /=; have [-> h3 h4] := updU_inv hv hu.
by split=> //; split=> //=; rewrite h4.
Qed.
Lemma pf_static_inv n st b st' : inv n st -> pf_static root st = Ok (b, st') -> b = true /\ inv n st'.
Proof.
by rewrite /pf_static; case: st => [[p t] d] hi; case: ifP => _; [exact: pf_resample_inv|case=> <- <-].
Qed.
Lemma pf_dynamic_inv n st b st' : inv n st -> pf_dynamic root st = Ok (b, st') -> b = true /\ inv n st'.
Proof.
rewrite /pf_dynamic; case: st => [[p t] d] hi; case: ifP => _; first by case=> <- <-.
by case: ifP => _; [exact: pf_resample_inv|case=> <- <-].
Qed.
Lemma pf_proposal_inv n sm u st st' : inv n st -> pf_proposal sm u st = Ok (true, st') -> inv n st'.
Proof.
case: st => [[p t] d] [hv hn] h; case: (obindE h) => r _ h2.
case: (obindE h2) => -[b' d'] hu [/= e <-] /=; rewrite e in hu.
by have [h3 h4] := updW_inv hv hu; split=> //=; rewrite h4.
Qed.
Lemma pf_weights_inv n os u mm z s st st' : inv n st -> pf_weights os u mm z s st = Ok (true, st') -> inv n st'.
Proof.
case: st => [[p t] d] [hv hn] h; case: (obindE h) => r _ h2.
case: (obindE h2) => -[b' d'] hu [/= e <-] /=; rewrite e in hu.
by have [h3 h4] := updW_inv hv hu; split=> //=; rewrite h4.
Qed.
Lemma pf_internal_inv n os u om z s st st' : inv n st ->
  pf_internal root os u om z s st = Ok (true, st') -> inv n st'.
Proof.
move=> hi h; case: (obindE h) => -[b1 st1] h1 h2 {h}.
have hi1 : b1 -> inv n st1.
  case: os h1 {h2} => [m|]; last by case=> <- <-.
  rewrite /also /= => h; case: (obindE h) => -[a sta] ha hb.
  have [ea hia] := pf_static_inv hi ha; rewrite ea /= in hb => e1; rewrite e1 in hb.
  exact: pf_proposal_inv hb.
case: om h2 => [k|]; last by case=> e <-; apply: hi1; rewrite e.
move=> h; case: (obindE h) => -[b2 st2] hw hd {h}; rewrite /also /= in hw hd.
have hi2 : b2 -> inv n st2.
  case: b1 h1 hi1 hw => h1 hi1 hw e2; last by case: hw e2 => <- _.
  rewrite e2 in hw; exact: pf_weights_inv (hi1 isT) hw.
case: b2 hi2 hw hd => hi2 hw hd; last by case: hd.
by have [_] := pf_dynamic_inv (hi2 isT) hd.
Qed.
Lemma bf_internal_inv n os u om z s st st' : inv n st ->
  bf_internal root os u om z s st = Ok (true, st') -> inv n st'.
Proof.
move=> hi h; case: (obindE h) => -[b1 st1] h1 h2 {h}; case: (obindE h2) => -[b2 st2] h3 [/= /andP [e2 e1] <-].
rewrite e2 e1 in h1 h3 *.
have hi1 : inv n st1.
  case: os h1 {h2} => [m|]; last by case=> <-.
  by case: (st) hi => [[p t] d] hi; apply: pf_internal_inv.
by case: (om) h3 => [k|]; [exact: pf_internal_inv|case=> <-].
Qed.

(** ** No call ends in undefined behaviour or a failed assert *)
Definition same_pdf V X Y (c c' : cpdf R V X Y) : Prop :=
  [/\ cp_prob c' = cp_prob c, cp_samp c' = cp_samp c & size (cp_args c') = size (cp_args c)].
Lemma same_refl V X Y (c : cpdf R V X Y) : same_pdf c c. Proof. by []. Qed.
Lemma same_trans V X Y (c1 c2 c3 : cpdf R V X Y) : same_pdf c1 c2 -> same_pdf c2 c3 -> same_pdf c1 c3.
Proof. by move=> [h1 h2 h3] [h4 h5 h6]; split; rewrite ?h4 ?h5 ?h6. Qed.
Lemma same_total V X Y (c c' : cpdf R V X Y) : same_pdf c c' -> total_pdf c -> total_pdf c'.
Proof. by move=> [h1 h2 h3] [h4 h5]; split; rewrite ?h1 ?h2 h3. Qed.
Lemma arg_setE V X Y (c : cpdf R V X Y) n x : (n < size (cp_args c))%N ->
  exists c' : cpdf R V X Y,
    [/\ cp_arg_set c n x = Ok c', same_pdf c c' & cp_args c' = set_nth x (cp_args c) n x].
Proof.
move=> h; rewrite /cp_arg_set /guard h /= (put_set_nth x x h) /=; eexists; split; first by [].
  by split=> //=; rewrite size_set_nth (maxn_idPr _).
by [].
Qed.
Lemma ml_query_total V X Y (m : mdl R V X Y) v x s : proper m -> supplied m s ->
  exists2 l, ml_query m v x s = Ok l & 0 <= l.
Proof.
move=> [c [b [h1 h2 h3 [h4 _]]]] hs; rewrite /ml_query /ml_flag h2 /=; case: b h2 h3 => h2 h3.
  rewrite /ml_prob1 /ml_assert h1 h2 /=; have h0 : (0 < size (cp_args c))%N by rewrite h3.
  have [c' [-> [e1 _ e3] _]] /= := arg_setE x h0.
  by have [l hl hl0] := h4 (cp_args c') v e3; exists l => //; rewrite e1 hl.
case: s hs => [y|] hs; last by case: hs => //; rewrite h2.
rewrite /ml_prob2 /ml_assert h1 h2 /=; have h0 : (0 < size (cp_args c))%N by rewrite h3.
have [c' [-> [e1 e2 e3] _]] /= := arg_setE x h0.
have h1' : (1 < size (cp_args c'))%N by rewrite e3 h3.
have [c2 [-> [f1 _ f3] _]] /= := arg_setE y h1'.
have [|l hl hl0] := h4 (cp_args c2) v; first by rewrite f3.
by exists l => //; rewrite f1 e1 hl.
Qed.
Lemma mkProbE (a : R) : 0 <= a -> mkProb a = Ok a.
Proof. by rewrite /mkProb /guard => ->. Qed.

Lemma pf_args_total c sm u x : accepts (Some c) sm -> proper sm -> supplied sm u ->
  exists c0 c1, [/\ pf_arg0 (Some c) x = Ok c0, pf_arg1 c0 sm u = Ok c1, same_pdf c c0 & same_pdf c c1].
Proof.
move=> [_ [[<-] ht hsz]] [cm [b [h1 h2 h3 _]]] hs; rewrite h2 in hsz.
have h0 : (0 < size (cp_args c))%N by case: (b) hsz => /= h; lia.
have [c0 [e0 s0 _]] := arg_setE x h0; rewrite /pf_arg0 e0.
rewrite /pf_arg1 /ml_flag h2 /=; case: b h2 h3 hsz => h2 h3 hsz; first by exists c0, c0.
case: u hs => [y|] hs; last by case: hs => //; rewrite h2.
have h1' : (1 < size (cp_args c0))%N by case: s0 => _ _ ->.
have [c1 [e1 s1 _]] := arg_setE y h1'; exists c0, c1; split=> //; exact: same_trans s1.
Qed.
Lemma accepts_same c c' sm : same_pdf c c' -> accepts (Some c) sm -> accepts (Some c') sm.
Proof.
move=> hs [_ [[<-] ht hsz]]; exists c'; split=> //; first exact: same_total ht.
by case: hs => _ _ ->.
Qed.

Lemma pf_move_total sm u rs olds news k c smp : accepts (Some c) sm -> proper sm -> supplied sm u ->
  size news = size olds -> nonneg (weights olds) ->
  exists r c' smp', [/\ pf_move sm u rs olds news k (Some c) smp = Ok (r, (Some c', smp')),
    same_pdf c c' & size r = size olds].
Proof.
move=> ha hp hu; elim: olds news k c smp ha => [|o olds IH] [|n news] //= k c smp ha.
  by move=> _ _; exists [::], c, smp.
case=> hs; rewrite /weights /= => /nonneg_cons [ho hol].
have [c0 [c1 [e0 e1 s0 s1]]] := pf_args_total o.1 ha hp hu; rewrite /pf_arg0 in e0; rewrite e0 /= e1 /=.
have [y ->] /= : exists y, cp_samp c1 (cp_args c1) DEFAULT (rs k) = Ok y.
  by have [_ [[<-] ht _]] := accepts_same s1 ha; case: ht => _; apply.
rewrite ho /=; have [r [c' [smp' [-> s' hr]]]] := IH _ k.+1 c1 (odflt smp y) (accepts_same s1 ha) hs hol.
by exists ((odflt smp y, o.2) :: r), c', smp'; split=> //=; [exact: same_trans s'|rewrite hr].
Qed.

Lemma pf_factor_total os u mm z s (c : option prop) xn xo : 
  (forall sm, os = Some sm -> [/\ accepts c sm, proper sm & supplied sm u]) -> proper mm -> supplied mm s ->
  exists f (c' : option prop), [/\ pf_factor os u mm (Some z) s c xn xo = Ok (f, c'), 0 <= f &
    forall c1, c = Some c1 -> exists2 c2, c' = Some c2 & same_pdf c1 c2].
Proof.
move=> hs hm hz; rewrite /pf_factor /=; have [l hl hl0] := ml_query_total z xn hm hz.
case: os hs => [sm|] hs; last first.
  rewrite hl /= mkProbE //=; exists l, c; split=> // c1 ->; by exists c1.
have [[c1 [e1 ht hsz]] hp hu] := hs sm erefl; subst c.
have ha : accepts (Some c1) sm by exists c1.
have [c0 [c2 [h0 h2 s0 s2]]] := pf_args_total xo ha hp hu.
case: (hm) => [cm [b [_ hb _ _]]]; rewrite h0 /= /ml_flag hb /= hl /= mkProbE //=.
case: b hb => hb; last by exists l, (Some c0); split=> // c' [<-]; exists c0.
rewrite h2 /=; have [q hq hq0] : exists2 q, cp_prob c2 (cp_args c2) xn = Ok q & 0 <= q.
  by have [h _] := same_total s2 ht; apply: h.
rewrite hq /= mkProbE //=; case: eqP => [_|_] /=; first by exists 0, (Some c2); split=> // c' [<-]; exists c2.
have [a ha' ha0] := ml_query_total xn xo hp hu; rewrite ha' /= mkProbE //=.
exists (l * (a / q)), (Some c2); split=> //; first by rewrite mulr_ge0 // divr_ge0.
by move=> c' [<-]; exists c2.
Qed.
Lemma pf_reweigh_total os u mm z s (c : option prop) news olds :
  (forall sm, os = Some sm -> [/\ accepts c sm, proper sm & supplied sm u]) -> proper mm -> supplied mm s ->
  size olds = size news -> nonneg (weights news) ->
  exists r (c' : option prop), [/\ pf_reweigh os u mm (Some z) s news olds c = Ok (r, c'), size r = size news,
    nonneg (weights r), values r = values news &
    forall c1, c = Some c1 -> exists2 c2, c' = Some c2 & same_pdf c1 c2].
Proof.
move=> hs hm hz; elim: news olds c hs => [|x news IH] [|o olds] //= c hs.
  by move=> _ _; exists [::], c; split=> // c1 ->; exists c1.
case=> hsz; rewrite /weights /= => /nonneg_cons [hx hn].
have [f [c' [-> hf hc]]] /= := pf_factor_total z x.1 o.1 hs hm hz.
rewrite /guard mulr_ge0 //=.
have hs' sm : os = Some sm -> [/\ accepts c' sm, proper sm & supplied sm u].
  move=> /hs [[c1 [e1 ht hsz']] h2 h3]; split=> //.
  have [c2 -> hsame] := hc c1 e1; by apply: accepts_same hsame _; exists c1.
have [r [c3 [-> h1 h2 h3 h4]]] := IH olds c' hs' hsz hn; exists ((x.1, x.2 * f) :: r), c3; split=> //=.
- by rewrite h1.
- by apply/nonneg_cons; split=> //=; exact: mulr_ge0.
- by rewrite /values /= -/(values r) h3.
by move=> c1 /hc [c2 /h4 [c4 -> hs4] hs2]; exists c4 => //; exact: same_trans hs4.
Qed.

Hypothesis root01 : forall u k, 0 < u <= 1 -> (0 < k)%N -> 0 < root u k <= 1.

(** multinomial sampling from a set whose table may be stale *)
Lemma ripley_stale d (ws : seq R) us : distribution ws -> size ws = size (mc_los d) ->
  mc_cum d = cum_loop 0 ws -> us != [::] -> all (fun u => 0 < u <= 1) us ->
  exists ks : seq nat, exists xs : seq T,
    [/\ mc_samples root d RIPLEY us = Ok (Some xs), size ks = size us, size xs = size us, sorted leq ks &
        forall i, (i < size us)%N ->
          quantile ws (nth 0 (ripley root us 0) i) (nth 0%N ks i) /\
          exists x, at_ (mc_los d) (nth 0%N ks i) = Ok x /\ at_ xs i = Ok x.1].
Proof.
move=> [hl ht] hsz hc hus hall.
case: (scan_many_quantiles root01 hl ht hall) => ks [h1 h2 h3 h4].
have hb : all (fun k => k < size (mc_los d))%N ks.
  by apply/(all_nthP 0%N) => i; rewrite h2 => /h4 []; rewrite hsz.
have [xs hx] : exists xs, mapO (fun k => let! x := at_ (mc_los d) k in Ok x.1) ks = Ok xs.
  elim: ks hb {h1 h2 h3 h4} => [|k ks IH] /=; first by exists [::].
  case/andP=> /at_lt [x ->] /IH [xs ->] /=; by exists (x.1 :: xs).
have hxs : size xs = size us by rewrite (mapO_size hx) h2.
exists ks, xs; split=> //.
  rewrite /mc_samples; case: us hus {hall} h1 {h2 h4 hxs} => // u us _ h1.
  rewrite hc -hsz h1 /=.
  have -> : mapO (mc_before d) (map S ks) = mapO (fun k => let! x := at_ (mc_los d) k in Ok x.1) ks.
    by elim: (ks) => //= k ks' ->.
  by rewrite hx.
move=> i hi; split; first exact: h4.
rewrite -h2 in hi; elim: ks xs i hi hb hx {h1 h2 h3 h4 hxs} => [|k ks IH] xs [|i] //=.
  move=> _ /andP [/at_lt [x hx] _]; rewrite hx /=; case: (mapO _ ks) => [r||] //= -[<-].
  by exists x.
move=> hi /andP [_ hb]; case: (at_ _ k) => [x||] //=; case hm: (mapO _ ks) => [r||] //= -[<-] /=.
exact: IH.
Qed.

(** what every step keeps, success or not *)
Definition alive (n : nat) st : Prop :=
  [/\ size (mc_los st.2) = n /\ (0 < n)%N, nonneg (weights (mc_los st.2)),
      exists2 ws, distribution ws & size ws = n /\ mc_cum st.2 = cum_loop 0 ws,
      size (pf_old st.1.1) = n /\ size (pf_new st.1.1) = n &
      unit_tape (pf_us st.1.1)].
Definition kept st st' : Prop :=
  forall c, pf_prop st.1.1 = Some c -> exists2 c', pf_prop st'.1.1 = Some c' & same_pdf c c'.
Lemma kept_refl st : kept st st. Proof. by move=> c ->; exists c. Qed.
Lemma kept_trans st1 st2 st3 : kept st1 st2 -> kept st2 st3 -> kept st1 st3.
Proof. by move=> h1 h2 c /h1 [c1 /h2 [c2 -> s2] s1]; exists c2 => //; exact: same_trans s2. Qed.
Lemma kept_accepts st st' sm : kept st st' -> accepts (pf_prop st.1.1) sm -> accepts (pf_prop st'.1.1) sm.
Proof.
move=> hk [c [hc ht hs]]; have [c' -> hsame] := hk c hc.
by apply: accepts_same hsame _; exists c.
Qed.
Lemma alive_sized n st : alive n st -> mc_sized st.2.
Proof. by move=> [[hn _] _ [ws _ [hs hc]] _ _]; rewrite /mc_sized hc size_cum hs hn. Qed.

Lemma updW_alive n p t d p' t' (l : seq part) : alive n (p, t, d) -> size l = n -> nonneg (weights l) ->
  size (pf_old p') = n -> size (pf_new p') = n -> unit_tape (pf_us p') ->
  exists b d', [/\ mc_updW d l = Ok (b, d'), alive n (p', t', d') &
    (b <-> 0 < total (weights l)) /\
    (if b then mc_valid d' /\ mc_los d' = normalised l else mc_los d' = l)].
Proof.
move=> hal hl hnn h1 h2 h3; have hsz := alive_sized hal; case: hal => /= -[hn h0] _ hw _ _.
case ht: (0 < total (weights l)).
  rewrite mc_updWE ?hl //; do 2 eexists; split; first by [].
  - have hd := normalised_distr hnn ht; split=> //=; first by rewrite size_normalised hl.
    + by case: hd.
    + by exists (weights (normalised l)) => //; rewrite size_weights size_normalised hl.
  - by split=> //; split=> //; apply: valid_build; exact: normalised_distr.
rewrite mc_updW_zero ?hl ?ht //; do 2 eexists; split; first by [].
- by split=> //=; rewrite hl.
- by split.
Qed.

Lemma pf_resample_alive n st : alive n st -> exists st',
  [/\ pf_resample root st = Ok (true, st'), alive n st', st'.1.2 = st.1.2, kept st st' &
      pf_scheme st.1.1 = MULTINOMIAL_RS -> mc_valid st'.2].
Proof.
case: st => [[p t] d] hal; have hsz := alive_sized hal; case: (hal) => /= -[hn h0] hnn [ws hd [hws hc]] [ho hne] hus.
rewrite /pf_resample.
have [xs [-> hxs]] : exists xs, (match pf_scheme p with MULTINOMIAL_RS =>
       let! o := mc_samples root d RIPLEY [seq pf_us p i | i <- iota 0 (size (mc_los d))] in
       Ok (odflt (pf_uns p) o) | _ => Ok (pf_uns p) end) = Ok xs /\
       (pf_scheme p = MULTINOMIAL_RS -> size xs = n).
  case: (pf_scheme p); try by exists (pf_uns p).
  have [|||ks [xs [-> _ hxs _ _]]] := @ripley_stale d ws [seq pf_us p i | i <- iota 0 (size (mc_los d))] hd _ hc.
  - by rewrite hws hn.
  - by rewrite -size_eq0 size_map size_iota hn -lt0n.
  - by apply/allP => u /mapP [i _ ->]; exact: hus.
  by exists xs; split=> //= _; rewrite hxs size_map size_iota.
rewrite /=; have hval : size xs = n -> mc_updU d xs =
    Ok (true, MC (equally_weighted R xs) (cum_loop 0 (weights (equally_weighted R xs))) 1).
  by move=> e; rewrite mc_updUE ?e ?hn.
have hus' : unit_tape match pf_scheme p with
     | MULTINOMIAL_RS => fun i : nat => pf_us p (size (mc_los d) + i)%N | _ => pf_us p end.
  by case: (pf_scheme p) => // i; exact: hus.
case: (size xs =P n) => hx.
  rewrite hval //=; eexists; split; [by []| |by []|by move=> c; exists c|].
    split=> //=; first by rewrite size_map hx.
      by have [] := @equal_distr R T xs _; rewrite ?hx.
    exists (weights (equally_weighted R xs)) => //; first by apply: equal_distr; rewrite hx.
    by rewrite size_weights size_map hx.
  by move=> _; apply: valid_build; apply: equal_distr; rewrite hx.
rewrite /mc_updU hn (introF eqP hx) /=; eexists; split; [by []| |by []|by move=> c; exists c|].
  by split=> //=; [exists ws|rewrite -hn].
by move=> e; case: hx; exact: hxs.
Qed.
Lemma pf_static_alive n st : alive n st -> exists st',
  [/\ pf_static root st = Ok (true, st'), alive n st', st'.1.2 = st.1.2 & kept st st'].
Proof.
case: st => [[p t] d] hal; rewrite /pf_static; case: ifP => _; last by exists (p, t, d); split=> //; exact: kept_refl.
by have [st' [h1 h2 h3 h4 _]] := pf_resample_alive hal; exists st'.
Qed.
Lemma pf_dynamic_alive n st : alive n st -> exists st',
  [/\ pf_dynamic root st = Ok (true, st'), alive n st', st'.1.2 = st.1.2 & kept st st'].
Proof.
case: st => [[p t] d] hal; rewrite /pf_dynamic; case: ifP => _; first by exists (p, t, d); split=> //; exact: kept_refl.
set p' := PF _ _ _ _ _ _ _ _ _ _ _ _.
have hal' : alive n (p', t, d) by case: hal => h1 h2 h3 [h4 h5] h6; split=> //=; split=> //; case: h1.
have hk : kept (p, t, d) (p', t, d) by move=> c /= ->; exists c.
case: ifP => _; last by exists (p', t, d); split.
by have [st' [h1 h2 h3 h4 _]] := pf_resample_alive hal'; exists st'; split=> //; exact: kept_trans h4.
Qed.
Lemma pf_proposal_alive n sm u st : alive n st -> accepts (pf_prop st.1.1) sm -> proper sm -> supplied sm u ->
  exists b st', [/\ pf_proposal sm u st = Ok (b, st'), alive n st', st'.1.2 = st.1.2.+1 & kept st st'].
Proof.
case: st => [[p t] d] hal [c [/= hc hct hcs]] hp hu; case: (hal) => /= -[hn h0] hnn hw [ho hne] hus.
have ha : accepts (Some c) sm by exists c.
have hsz : size (pf_new p) = size (mc_los d) by rewrite hne hn.
have [r [c' [smp' [hr hsame hrs]]]] := pf_move_total (pf_rs p) 0 (pf_sample p) ha hp hu hsz hnn.
have [hwr _] := pf_move_weights hsz hr; rewrite /pf_proposal hc hr /=.
set p' := PF _ _ _ _ _ _ _ _ _ _ _ _.
have hrn : size r = n by rewrite hrs.
have hnr : nonneg (weights r) by rewrite hwr.
have [b [d' [-> h1 _]]] /= := @updW_alive n p t d p' t.+1 r hal hrn hnr hn hrn hus.
by exists b, (p', t.+1, d'); split=> //= c1; rewrite hc => -[<-]; exists c'.
Qed.
Lemma pf_weights_alive n os u mm z s st : alive n st ->
  (forall sm, os = Some sm -> [/\ accepts (pf_prop st.1.1) sm, proper sm & supplied sm u]) ->
  proper mm -> supplied mm s ->
  exists b st', [/\ pf_weights os u mm (Some z) s st = Ok (b, st'), alive n st', st'.1.2 = st.1.2,
    kept st st' & values (mc_los st'.2) = values (mc_los st.2)].
Proof.
case: st => [[p t] d] hal hs hm hz; case: (hal) => /= -[hn h0] hnn hw [ho hne] hus.
have hsz : size (pf_old p) = size (mc_los d) by rewrite ho hn.
have [r [c' [hr hrs hrn hrv hk]]] := pf_reweigh_total z hs hm hz hsz hnn.
rewrite /pf_weights hr /=; set p' := PF _ _ _ _ _ _ _ _ _ _ _ _.
have hrn' : size r = n by rewrite hrs.
have [b [d' [-> h1 [_ h2]]]] /= := @updW_alive n p t d p' t r hal hrn' hrn ho hrn' hus.
exists b, (p', t, d'); split=> //= ; case: b h2 => [[_ ->]|->] //; by rewrite values_normalised.
Qed.
Lemma pf_internal_alive n os u om z s st : alive n st ->
  (forall sm, os = Some sm -> [/\ accepts (pf_prop st.1.1) sm, proper sm & supplied sm u]) ->
  (forall mm, om = Some mm -> [/\ proper mm, supplied mm s & z <> None]) ->
  exists b st', [/\ pf_internal root os u om z s st = Ok (b, st'), alive n st', kept st st' &
    st'.1.2 = (st.1.2 + (if os is Some _ then 1 else 0))%N].
Proof.
move=> hal hs hm; rewrite /pf_internal.
have [b1 [st1 [-> hal1 hk1 ht1]]] : exists b1 st1, [/\ (if os is Some m then
     let! a := also (true, st) (pf_static root) in also a (pf_proposal m u) else Ok (true, st)) = Ok (b1, st1),
     alive n st1, kept st st1 & st1.1.2 = (st.1.2 + (if os is Some _ then 1 else 0))%N].
  case: os hs => [m|] hs; last by exists true, st; rewrite addn0; split=> //; exact: kept_refl.
  have [st1 [h1 h2 h3 h4]] := pf_static_alive hal; rewrite /also /= h1 /=.
  have [ha hp hu] := hs m erefl.
  have [b [st2 [-> g2 g3 g4]]] := pf_proposal_alive h2 (kept_accepts h4 ha) hp hu.
  by exists b, st2; split=> //; [exact: kept_trans g4|rewrite g3 h3 addn1].
rewrite /=; case: om hm => [mm|] hm; last by exists b1, st1.
have [hp hsu hz] := hm mm erefl; case: z hz {hm} => // z _.
rewrite /also /=; case: b1 => /=; last by exists false, st1.
have hs1 sm : os = Some sm -> [/\ accepts (pf_prop st1.1.1) sm, proper sm & supplied sm u].
  by move=> /hs [h1 h2 h3]; split=> //; exact: kept_accepts h1.
have [b [st2 [-> g2 g3 g4 _]]] /= := pf_weights_alive z hal1 hs1 hp hsu; case: b => /=; last first.
  by exists false, st2; split=> //; [exact: kept_trans g4|rewrite g3].
have [st3 [-> k2 k3 k4]] := pf_dynamic_alive g2.
exists true, st3; split=> //; last by rewrite k3 g3.
by apply: kept_trans k4; exact: kept_trans g4.
Qed.

(** ** What the steps leave alone *)
Definition config p := (pf_dyn p, pf_period p, pf_thr p, pf_scheme p).
Lemma updU_true d (v : seq T) b d' : mc_updU d v = Ok (b, d') -> b = true.
Proof.
rewrite /mc_updU; case: eqP => _; last by case=> <-.
by case: guard => //= _; case: (mc_equalise _ _) => //= ? [<-].
Qed.
Lemma pf_resample_track st b st' : pf_resample root st = Ok (b, st') ->
  [/\ b = true, st'.1.2 = st.1.2, pf_nres st'.1.1 = (pf_nres st.1.1).+1 & config st'.1.1 = config st.1.1].
Proof.
case: st => [[p t] d] h; case: (obindE h) => xs _ h2; case: (obindE h2) => -[b' d'] hu [<- <-] /=.
by rewrite (updU_true hu).
Qed.
Definition due p t : bool := [&& ~~ pf_dyn p, (`|pf_period p|%N %| t)%N & t != 0%N].
Lemma pf_static_track st b st' : pf_static root st = Ok (b, st') ->
  [/\ b = true, st'.1.2 = st.1.2, pf_nres st'.1.1 = (pf_nres st.1.1 + due st.1.1 st.1.2)%N &
      config st'.1.1 = config st.1.1].
Proof.
case: st => [[p t] d]; rewrite /pf_static /= -/(due p t); case: (due p t); last first.
  by case=> <- <-; rewrite addn0.
by move=> h; have [-> h1 h2 h3] := pf_resample_track h; rewrite h2 addn1.
Qed.
Lemma pf_static_idle p t d : due p t = false -> pf_static root (p, t, d) = Ok (true, (p, t, d)).
Proof. by rewrite /pf_static -/(due p t) => ->. Qed.
Lemma pf_proposal_track sm u st b st' : pf_proposal sm u st = Ok (b, st') ->
  [/\ st'.1.2 = st.1.2.+1, pf_nres st'.1.1 = pf_nres st.1.1 & config st'.1.1 = config st.1.1].
Proof.
by case: st => [[p t] d] h; case: (obindE h) => r _ h2; case: (obindE h2) => -[b' d'] hu [_ <-].
Qed.
Lemma pf_weights_track os u mm z s st b st' : pf_weights os u mm z s st = Ok (b, st') ->
  [/\ st'.1.2 = st.1.2, pf_nres st'.1.1 = pf_nres st.1.1 & config st'.1.1 = config st.1.1].
Proof.
by case: st => [[p t] d] h; case: (obindE h) => r _ h2; case: (obindE h2) => -[b' d'] hu [_ <-].
Qed.
Definition poor p (l : seq part) : bool :=
  [&& pf_dyn p, total [seq w ^+ 2 | w <- weights l] != 0 & ess l < pf_thr p].
Lemma pf_dynamic_track st b st' : pf_dynamic root st = Ok (b, st') ->
  [/\ b = true, st'.1.2 = st.1.2, pf_nres st'.1.1 = (pf_nres st.1.1 + poor st.1.1 (mc_los st.2))%N &
      config st'.1.1 = config st.1.1].
Proof.
case: st => [[p t] d]; rewrite /pf_dynamic /poor; case hd: (pf_dyn p) => /=; last by case=> <- <-; rewrite addn0.
have e : [seq w ^+ 2 | w <- weights (mc_los d)] = [seq x.2 ^+ 2 | x <- mc_los d] by rewrite -map_comp.
rewrite sum_loopE /ess e div1r; case: ifP => _.
  move=> h; have [-> h1 h2 h3] := pf_resample_track h; rewrite h2 h3 addn1 /config /= hd; by split.
by case=> <- <-; rewrite addn0 /config /= hd.
Qed.
Lemma pf_internal_track os u om z s st b st' : pf_internal root os u om z s st = Ok (b, st') ->
  st'.1.2 = (st.1.2 + (if os is Some _ then 1 else 0))%N /\ config st'.1.1 = config st.1.1.
Proof.
move=> h; case: (obindE h) => -[b1 st1] h1 h2 {h}.
have [e1 e2] : st1.1.2 = (st.1.2 + (if os is Some _ then 1 else 0))%N /\ config st1.1.1 = config st.1.1.
  case: os h1 {h2} => [m|]; last by case=> _ <-; rewrite addn0.
  move=> h; case: (obindE h) => -[a sa] ha hb; rewrite /also /= in ha hb.
  have [ea e1 _ e2] := pf_static_track ha; rewrite ea in hb.
  by have [e3 _ e4] := pf_proposal_track hb; rewrite e3 e4 e1 e2 addn1.
case: om h2 => [k|] /=; last by case=> _ <-.
move=> h; case: (obindE h) => -[b2 st2] hw hd {h}; rewrite /also /= in hw hd.
have [f1 f2] : st2.1.2 = st1.1.2 /\ config st2.1.1 = config st1.1.1.
  by case: (b1) hw => [/pf_weights_track [? _ ?]|[_ <-]].
rewrite -e1 -e2 -f1 -f2; case: (b2) hd => [/pf_dynamic_track [_ ? _ ?]|[_ <-]] //.
Qed.
Lemma pf_internal_static os u om z s st b st' : pf_dyn st.1.1 = false ->
  pf_internal root os u om z s st = Ok (b, st') ->
  pf_nres st'.1.1 = (pf_nres st.1.1 + (if os is Some _ then due st.1.1 st.1.2 else false))%N.
Proof.
move=> hdyn h; case: (obindE h) => -[b1 st1] h1 h2 {h}.
have [e1 e2] : pf_nres st1.1.1 = (pf_nres st.1.1 + (if os is Some _ then due st.1.1 st.1.2 else false))%N /\
    config st1.1.1 = config st.1.1.
  case: os h1 {h2} => [m|]; last by case=> _ <-; rewrite addn0.
  move=> h; case: (obindE h) => -[a sa] ha hb; rewrite /also /= in ha hb.
  have [ea _ e1 e2] := pf_static_track ha; rewrite ea in hb.
  by have [_ e3 e4] := pf_proposal_track hb; rewrite e3 e4 e1 e2.
case: om h2 => [k|] /=; last by case=> _ <-.
move=> h; case: (obindE h) => -[b2 st2] hw hd {h}; rewrite /also /= in hw hd.
have [f1 f2] : pf_nres st2.1.1 = pf_nres st1.1.1 /\ config st2.1.1 = config st1.1.1.
  by case: (b1) hw => [/pf_weights_track [_ ? ?]|[_ <-]].
rewrite -e1 -f1; case: (b2) hd => [/pf_dynamic_track [_ _ -> _]|[_ <-]] //.
have [hc _ _ _] : config st2.1.1 = config st.1.1 by rewrite f2.
by rewrite /poor hc hdyn addn0.
Qed.

(** ** Densities *)
Lemma dens_query V X Y (m : mdl R V X Y) v s l x : dens m v s l ->
  ml_query m v x s = Ok (l x) /\ 0 <= l x.
Proof.
move=> [c [hc [[hf [hs hl]]|[hf [hs [y -> hl]]]]]]; have [h1 h2] := hl x; split=> //;
  rewrite /ml_query /ml_flag hf /= /ml_prob1 /ml_prob2 /ml_assert hf hc /= /cp_arg_set hs /=.
  by case: (cp_args c) hs => [|? []] //= _; rewrite h1.
by case: (cp_args c) hs => [|? [|? []]] //= _; rewrite h1.
Qed.
Lemma pdens_args c sm u g xn xo : pdens c sm u g ->
  exists c0 c1, [/\ pf_arg0 (Some c) xo = Ok c0, pf_arg1 c0 sm u = Ok c1,
    cp_prob c1 (cp_args c1) xn = Ok (g xn xo), same_pdf c c0 & same_pdf c c1] /\ 0 <= g xn xo.
Proof.
move=> [[hf [hs hg]]|[hf [hs [y -> hg]]]]; have [h1 h2] := hg xn xo;
  rewrite /pf_arg1 /ml_flag hf /= /cp_arg_set hs /=.
  case: c hs {hg} h1 => [[|a []] pr sp] //= _ h1.
  by do 2 eexists; split=> //; split; rewrite //=.
case: c hs {hg} h1 => [[|a [|b []]] pr sp] //= _ h1.
by do 2 eexists; split=> //; split; rewrite //=.
Qed.
Lemma pdens_same c c' sm u g : same_pdf c c' -> pdens c sm u g -> pdens c' sm u g.
Proof. by rewrite /pdens => -[-> _ ->]. Qed.

Lemma pf_factor_meas u mm z s (q : option prop) xn xo l : dens mm z s l ->
  pf_factor None u mm (Some z) s q xn xo = Ok (l xn, q) /\ 0 <= l xn.
Proof.
by move=> /(dens_query xn) [h1 h2]; rewrite /pf_factor /= h1 /= mkProbE.
Qed.
Lemma pf_factor_sys c sm u mm z xn xo s l a g : dens mm z s l -> ml_noextra mm = Some true ->
  (forall y, dens sm y u (a y)) -> pdens c sm u g ->
  exists c', [/\ pf_factor (Some sm) u mm (Some z) s (Some c) xn xo = Ok (importance l a g xn xo, Some c'),
    same_pdf c c' & 0 <= importance l a g xn xo].
Proof.
move=> hl hb ha hg; have [h1 h2] := dens_query xn hl; have [h3 h4] := dens_query xo (ha xn).
have [c0 [c1 [[e0 e1 e2 s0 s1] hg0]]] := pdens_args xn xo hg.
rewrite /pf_factor e0 /= /ml_flag hb /= h1 /= mkProbE //= e1 /= e2 /= mkProbE //=.
rewrite /importance; case: eqP => [_|_] /=; first by exists c1.
rewrite h3 /= mkProbE //=; exists c1; split=> //; first by rewrite mulrA.
by rewrite divr_ge0 // mulr_ge0.
Qed.
Lemma pf_factor_param c sm u mm z xn xo s l : dens mm z s l -> ml_noextra mm = Some false ->
  (0 < size (cp_args c))%N ->
  exists c', [/\ pf_factor (Some sm) u mm (Some z) s (Some c) xn xo = Ok (l xn, Some c'),
    same_pdf c c' & 0 <= l xn].
Proof.
move=> hl hb hs; have [h1 h2] := dens_query xn hl; have [c' [e s' _]] := arg_setE xo hs.
by rewrite /pf_factor /= e /= /ml_flag hb /= h1 /= mkProbE //=; exists c'.
Qed.

(** the weight loops *)
Lemma reweigh_meas u mm z s (q : option prop) l (news olds : seq part) : dens mm z s l -> size olds = size news ->
  nonneg (weights news) ->
  pf_reweigh None u mm (Some z) s news olds q = Ok (scaled l news, q) /\ nonneg (weights (scaled l news)).
Proof.
move=> hl; elim: news olds => [|x news IH] [|o olds] //= [hs]; rewrite /weights /= => /nonneg_cons [hx hn].
have [-> hl0] := pf_factor_meas u q x.1 o.1 hl; rewrite /= /guard mulr_ge0 //=.
by have [-> h2] := IH olds hs hn; split=> //; apply/nonneg_cons; rewrite mulr_ge0.
Qed.
Lemma reweigh_gen os u mm z s (f : T -> T -> R) c (news olds : seq part) :
  (forall c1 xn xo, same_pdf c c1 -> exists c2,
     [/\ pf_factor os u mm (Some z) s (Some c1) xn xo = Ok (f xn xo, Some c2), same_pdf c1 c2 & 0 <= f xn xo]) ->
  size olds = size news -> nonneg (weights news) ->
  exists c', [/\ pf_reweigh os u mm (Some z) s news olds (Some c) =
       Ok ([seq (x.1.1, x.1.2 * f x.1.1 x.2.1) | x <- zip news olds], Some c'),
     same_pdf c c' & nonneg (weights [seq (x.1.1, x.1.2 * f x.1.1 x.2.1) | x <- zip news olds])].
Proof.
elim: news olds c => [|x news IH] [|o olds] c hf //=; first by exists c.
case=> hs; rewrite /weights /= => /nonneg_cons [hx hn].
have [c2 [-> h1 h2]] := hf c x.1 o.1 (same_refl c); rewrite /= /guard mulr_ge0 //=.
have [|c3 [-> h3 h4]] := IH olds c2 _ hs hn.
  move=> c1 xn xo h; apply: hf; exact: same_trans h.
by exists c3; split=> //; [exact: same_trans h3|apply/nonneg_cons; rewrite mulr_ge0].
Qed.
End Proofs.
