(** * C38, C42, C71, C72: mixture particle filters *)
From mathcomp Require Import all_ssreflect all_algebra.
From mathcomp Require Import ring zify.
From Verif Require Import OrdLra Outcome SpecProb ModelTables ProofsTables ModelDiscretePdf
  ModelMCPdf SpecMCPdf ProofsMCPdf ModelMixture SpecMixture ProofsMixture ModelModels ModelFilter ProofsFilter
  ModelParticle SpecParticle ProofsParticle PropertiesParticle ModelMixPF SpecMixPF ProofsMixPF.
Set Implicit Arguments. Unset Strict Implicit. Unset Printing Implicit Defensive.
Import Order.TTheory GRing.Theory Num.Theory.
Local Open Scope ring_scope.

Section Properties.
Variables (R : realFieldType) (T Z Rnd Rz : Type).
Variables (eps : R) (root : R -> nat -> R).
Hypothesis eps0 : 0 <= eps.
Notation part := (T * R)%type.
Notation priv := (mpriv R T Rnd).
Notation cell := (cell R T).
Notation mixture := (mix R (mcpdf R T)).
Notation mstate := (fstate mixture priv).
Notation mfilter := (heap mixture * filt priv)%type.
Notation psys := (psys R T Rnd).
Notation pmeas := (pmeas R T Z Rz).
Notation prop := (prop R T Rnd).
Notation pcall := (call psys pmeas T Z).
Notation state_of hf d := (fl_priv hf.2, fl_time hf.2, d).
Implicit Types (hf : mfilter) (m : mixture) (c : pcall) (cs : seq pcall) (cl : seq cell) (st : mstate).
Local Arguments build : simpl never.

(** the filter, [boot]: the bootstrap variant *)
Definition mx_internal (boot : bool) := if boot then @mb_internal R T Z Rnd Rz eps root else @mp_internal R T Z Rnd Rz eps root.
Definition mx_call (boot : bool) := if boot then @mb_call R T Z Rnd Rz eps root else @mp_call R T Z Rnd Rz eps root.
(** number of executions of [ResampleOne] *)
Definition mresamplings hf : nat := mp_nres (fl_priv hf.2).
(** any state reached by construction from the mixture [m0], updates, and resets
    to a mixture of the same shape *)
Inductive history (boot : bool) m0 : mfilter -> Prop :=
| h_new junk (q : option prop) per thr sch us rs h p hf :
    mp_new_filter eps junk q per thr sch us rs h p = Ok hf -> h_get h p = Ok m0 -> fine_mixture m0 -> history boot m0 hf
| h_call hf c b hf' : history boot m0 hf -> mx_call boot hf c = Ok (b, hf') -> history boot m0 hf'
| h_reset hf m a d hf' : history boot m0 hf -> f_post hf = Ok m -> mp_reset eps hf a = Ok hf' ->
    f_post hf' = Ok d -> fine_mixture d -> shape d = shape m -> history boot m0 hf'.

(** ** Flow of one call *)
Lemma tail_flow K st sh t cl w cum nw sw os u (k : pmeas) z s b st' : okm K st sh t cl w cum nw sw ->
  (let! a := mp_weights eps os u k z s st in malso a (@mp_dynamic R T Rnd root)) = Ok (b, st') ->
  exists sh' cl1 cl', let v := products w (map (@mass R T) cl1) in
  [/\ okm K st' sh' t cl' (if b then normed v else v) (if b then cum_loop 0 (normed v) else cum) v (map (@mass R T) cl1),
      all2C (@after R T) cl cl1, exists sh1, eachw (pf_weights os u k z s) sh t cl = Ok (sh1, t, cl1), b = (0 < total v) &
      [/\ all2C (@redrawn R T) cl1 cl', pf_nres sh' = pf_nres sh -> map snd cl' = map snd cl1,
          (pf_nres sh <= pf_nres sh')%N, ~~ pf_dyn sh -> pf_nres sh' = pf_nres sh & config sh' = config sh]].
Proof.
move=> ok h; case: (obindE h) => -[b1 st1] h1 h2 {h}.
have [sh1 [cl1 [ok1 [ha hv] eb [en ec] he]]] := all_weights ok eps0 h1; rewrite /= in h2 hv eb ok1.
rewrite /malso /= in h2.
case: b1 h1 h2 eb ok1 => h1 h2 eb ok1; last first.
  case: h2 => <- <-; exists sh1, cl1, cl1; split=> //; first by exists sh1.
  by rewrite en leqnn; split=> //; elim: (cl1) => //= x l IH; split=> //; exact: redrawn_refl.
have [sh' [cl' [ok2 [hr hid] -> hle [hd [ec2 _]]]]] := all_dynamic ok1 h2.
exists sh', cl1, cl'; split=> //; first by exists sh1.
by split=> //; rewrite -?en ?ec2 // => h; apply: hd; move: ec h; rewrite /config => -[-> _ _ _].
Qed.
Lemma head_flow K st sh t cl w cum nw sw (m : psys) u b st' : okm K st sh t cl w cum nw sw ->
  (let! a := mp_static root st in malso a (mp_proposal m u)) = Ok (b, st') ->
  exists cl1 sh' t' cl',
  [/\ okm K st' sh' t' cl' w cum nw sw,
      [/\ all2C (@redrawn R T) cl cl1, ~~ due sh t -> cl1 = cl,
          pf_nres sh' = (pf_nres sh + due sh t * K)%N & config sh' = config sh],
      b -> t' = (t + K)%N /\ all2C (fun c c' : cell => moved c c' /\ mc_valid c.2) cl1 cl',
      forall i (c : cell), at_ cl1 i = Ok c -> ~ mc_valid c.2 -> b = false /\ forall j, (i < j)%N -> at_ cl' j = at_ cl1 j &
      (forall q, pf_prop sh = Some q -> exists2 q1, pf_prop sh' = Some q1 & same_pdf q q1) /\ (t <= t' <= t + K)%N].
Proof.
move=> ok h0; case: (obindE h0) => -[b1 st1] h1 h2 {h0}.
have [sh1 [cl1 [ok1 [hr hid] eb en [ec ep]]]] := all_static ok h1; subst b1; rewrite /malso /= in h2.
have [sh' [t' [cl' [ok2 hb hi hq [ht [en2 ec2]]]]]] := all_proposal ok1 h2.
exists cl1, sh', t', cl'; split=> //.
  by rewrite en2 en ec2 ec; split=> // /hid [].
by split=> // q hq0; apply: hq; rewrite ep.
Qed.
(** time, resampling counter and flag of a whole call *)
Definition calm (K : nat) (has : bool) (b : bool) (pd : bool * (bool * int * R * rscheme)) (n0 n1 t0 t1 : nat) : Prop :=
  [/\ (n0 <= n1)%N, ~~ pd.2.1.1.1 -> n1 = (n0 + (has && pd.1) * K)%N, (t0 <= t1 <= t0 + K)%N & b -> t1 = (t0 + has * K)%N].
Definition sound K hf m : Prop := f_post hf = Ok m /\
  exists sh t cl w cum nw sw, okm K (state_of hf m) sh t cl w cum nw sw.
Lemma okm_view K hf m sh t cl w cum nw sw : okm K (state_of hf m) sh t cl w cum nw sw ->
  [/\ mx_comps m = map snd cl, mx_w m = w, mresamplings hf = pf_nres sh, fl_time hf.2 = t &
      [/\ mp_prop (fl_priv hf.2) = pf_prop sh, mp_dyn (fl_priv hf.2) = pf_dyn sh, mp_period (fl_priv hf.2) = pf_period sh & mx_n m = K]].
Proof. by move=> [e _ [h1 _ _ _] _ _]; case: e => e1 e2 e3; rewrite /mresamplings e1 e2 e3 /= h1. Qed.
Lemma internal_ok boot K st sh t cl w cum nw sw os u (om : option pmeas) z s b st' : okm K st sh t cl w cum nw sw ->
  mx_internal boot os u om z s st = Ok (b, st') ->
  exists sh' t' cl' w' cum' nw' sw', okm K st' sh' t' cl' w' cum' nw' sw' /\ config sh' = config sh /\
    calm K (isSome os) b (due sh t, config sh) (pf_nres sh) (pf_nres sh') t t'.
Proof.
move=> ok; have core os' om' st0 sh0 b0 st1 : okm K st0 sh0 t cl w cum nw sw -> config sh0 = config sh -> pf_nres sh0 = pf_nres sh ->
    mp_internal eps root os' u (om' : option pmeas) z s st0 = Ok (b0, st1) ->
    exists sh' t' cl' w' cum' nw' sw', okm K st1 sh' t' cl' w' cum' nw' sw' /\ config sh' = config sh /\
    calm K (isSome os') b0 (due sh t, config sh) (pf_nres sh) (pf_nres sh') t t'.
  move=> ok0 ec0 en0; have ed0 : due sh0 t = due sh t by rewrite /due; case: ec0 => -> -> _ _.
  rewrite /mp_internal /malso /=; case: os' => [m|] h.
    case: (obindE h) => -[b1 st2] h1 h2 {h}.
    have [cl1 [sh1 [t1 [cl2 [ok1 [_ _ en1 ec1] hb _ [_ ht]]]]]] := head_flow ok0 h1.
    case: om' h2 => [k|] h2; last first.
      case: h2 => <- <-; exists sh1, t1, cl2, w, cum, nw, sw; rewrite ec1 ec0; split=> //; split=> //.
      rewrite /calm /= en1 en0 ed0 leq_addr ht; split=> //.
      by move=> /hb [-> _]; rewrite mul1n.
    case: b1 h1 hb h2 => h1 hb h2; last first.
      case: h2 => <- <-; exists sh1, t1, cl2, w, cum, nw, sw; rewrite ec1 ec0; split=> //; split=> //.
      by rewrite /calm /= en1 en0 ed0 leq_addr ht.
    have [sh' [cl3 [cl' [ok2 _ _ eb [_ _ hle hst ec2]]]]] := tail_flow ok1 h2.
    exists sh', t1, cl'; do 4 eexists; split; first exact: ok2.
    rewrite ec2 ec1 ec0; split=> //; split=> //=.
    - by apply: leq_trans hle; rewrite en1 en0 leq_addr.
    - by move=> hd; rewrite hst ?en1 ?en0 ?ed0 //; move: ec1; rewrite ec0 /config => -[-> _ _ _].
    - by have [-> _] := hb isT; rewrite mul1n.
  case: om' h => [k|] /= h; last first.
    by case: h => <- <-; exists sh0, t, cl, w, cum, nw, sw; rewrite ec0 en0; split=> //; split=> //; split; rewrite ?addn0 ?leqnn ?leq_addr.
  have [sh' [cl3 [cl' [ok2 _ _ eb [_ _ hle hst ec2]]]]] := tail_flow ok0 h.
  exists sh', t, cl'; do 4 eexists; split; first exact: ok2.
  rewrite ec2 ec0; split=> //; split; rewrite -?en0 // ?addn0 ?leqnn ?leq_addr //=.
  by move=> hd; rewrite hst //; move: ec0; rewrite /config => -[-> _ _ _].
case: boot => /=; last by move=> h; exact: (core _ _ _ _ _ _ ok erefl erefl h).
move=> h; case: (obindE h) => -[b1 st1] h1 h2 {h}; case: (obindE h2) => -[b2 st2] h3 [eb est] {h2}; subst st2.
rewrite /= in h3 eb.
have [sh1 [t1 [cl1 [w1 [cum1 [nw1 [sw1 [ok1 [ec1 hc1]]]]]]]]] : exists sh' t' cl' w' cum' nw' sw', okm K st1 sh' t' cl' w' cum' nw' sw' /\ config sh' = config sh /\
    calm K (isSome os) b1 (due sh t, config sh) (pf_nres sh) (pf_nres sh') t t'.
  case: os h1 => [m|] h1; last first.
    by case: h1 => <- <-; exists sh, t, cl, w, cum, nw, sw; split=> //; split=> //; split; rewrite ?addn0 ?leqnn ?leq_addr.
  pose sh0 := PF (ml_pdf m) (pf_sample sh) (pf_old sh) (pf_new sh) (pf_uns sh) (pf_dyn sh) (pf_period sh) (pf_thr sh)
    (pf_scheme sh) (pf_us sh) (pf_rs sh) (pf_nres sh).
  case: ok h1 => -> g1 g2 g3 g4 h1.
  by apply: (core (Some m) None _ sh0 _ _ _ _ _ h1).
case: om h3 => [k|] h3; last first.
  case: h3 => e2 <-; exists sh1, t1, cl1, w1, cum1, nw1, sw1; split=> //; split=> //.
  by rewrite -eb -e2.
rewrite /mp_internal /malso /= in h3.
have [sh' [cl3 [cl' [ok2 _ _ eb2 [_ _ hle hst ec2]]]]] := tail_flow ok1 h3.
exists sh', t1, cl'; do 4 eexists; split; first exact: ok2.
rewrite ec2 ec1; split=> //; case: hc1 => c1 c2 c3 c4; split=> //.
- exact: leq_trans hle.
- by move=> /= hd; rewrite hst ?c2 //; move: ec1; rewrite /config => -[-> _ _ _].
- by rewrite -eb => /andP [_ /c4].
Qed.
Lemma call_flow boot hf c b hf' m : mx_call boot hf c = Ok (b, hf') -> f_post hf = Ok m ->
  exists m', mx_internal boot (sys_of c) (input_of c) (meas_of c) (value_of c) (param_of c) (state_of hf m)
      = Ok (b, state_of hf' m') /\ f_post hf' = Ok m'.
Proof.
have -> : mx_call boot = f_call (mx_internal boot) by case: boot.
rewrite f_call_parts => hu hd; have [d0 [p [t [d' [h1 h2 h3 h4 _]]]]] := f_update_inv hu.
by move: h1; rewrite hd => -[e]; subst d0; exists d'; rewrite h4.
Qed.
Lemma copy_fine m : fine_mixture m -> mx_copy eps m = Ok m.
Proof.
move=> [hv _]; have [[h1 h2 h3] h4 h5 h6] := hv; rewrite /mx_copy /mx_init /guard -lt0n h4 /=.
have [_ ht] := h5.
by rewrite mx_cumE //= ?size_nseq // mapO_iota //= -(mix_validE hv).
Qed.
Lemma new_sound junk (q : option prop) per thr sch us rs h p hf m : fine_mixture m -> h_get h p = Ok m ->
  mp_new_filter eps junk q per thr sch us rs h p = Ok hf ->
  f_post hf = Ok m /\ exists cl nw sw, okm (mx_n m) (state_of hf m) (PF q junk.1 [::] [::] [::] (per == 0) per thr sch us rs 0) 0 cl
    (mx_w m) (cum_loop 0 (mx_w m)) nw sw.
Proof.
move=> hf0 hm; rewrite /mp_new_filter /f_new hm /= copy_fine //=.
have [[[h1 h2 h3] h4 h5 h6] hcv] := hf0; have hv : mix_valid m by case: hf0.
rewrite /mp_init /mx_comp_get /mx_init /guard -lt0n h4 /=.
rewrite mapO_iota //=; case: ifP => //= hg1; case: ifP => //= hg2 [<-].
split; first by rewrite /f_post /h_get /= (at_nth None) ?size_rcons // nth_rcons ltnn eqxx.
exists [seq (mc_los d, mc_los d, [::] : seq T, d) | d <- mx_comps m], (nseq (mx_n m) 0), (nseq (mx_n m) 0).
have hn : nonneg (mx_w m) by case: h5.
split=> //=.
- rewrite /build /= -!map_comp size_map h1.
  have -> : [seq ((fun c : cell => c.1.2) \o (fun d : mcpdf R T => (mc_los d, mc_los d, [::], d))) i | i <- mx_comps m]
      = nseq (mx_n m) [::] by rewrite -h1; elim: (mx_comps m) => //= x l ->.
  have -> : [seq ([eta snd] \o (fun d : mcpdf R T => (mc_los d, mc_los d, [::] : seq T, d))) i | i <- mx_comps m] = mx_comps m.
    by elim: (mx_comps m) => //= x l ->.
  by rewrite -(mix_validE hv).
- by rewrite size_map size_cum !size_nseq h1 h2.
- have hin d : List.In d (mx_comps m) -> mc_valid d := hcv d.
  elim: (mx_w m) (mx_comps m) (etrans h2 (esym h1)) hin => [|a w IH] [|d l] //= [hs] hin.
  split; last by apply: IH => // d' hd'; apply: hin; right.
  have hd := hin d (or_introl erefl).
  by split=> //=; [exact: mc_valid_sized|exact: mc_valid_nonempty|case: hd => -[]|left].
- by split=> //; left.
Qed.
Lemma reset_sound K hf m a d hf' sh t cl w cum nw sw : okm K (state_of hf m) sh t cl w cum nw sw ->
  mp_reset eps hf a = Ok hf' -> f_post hf' = Ok d -> fine_mixture d -> shape d = shape m -> sound K hf' d.
Proof.
move=> ok hr hd [hv hcv] hsh; split=> //; case: hf ok hr => h f ok hr.
case: (obindE hr) => h1 hde h2 {hr}; case: (obindE h2) => d0 hg h3 {h2}; case: (obindE h3) => d' hcp [e] {h3}; subst hf'.
have ed : d' = d.
  move: hd; rewrite /f_post /h_get /= (at_nth None) ?size_rcons // nth_rcons ltnn eqxx /=; by case.
subst d'; case: ok => e1 h0 [g1 g2 g3 g4] hcl _; case: e1 => ep et em; rewrite /= in ep et.
have hK : mx_n d = K.
  have [[q1 _ _] _ _ _] := hv; rewrite -q1 -(size_map (fun d => size (mc_los d))) -/(shape d) hsh em /shape /= !size_map //.
have [[q1 q2 q3] q4 q5 q6] := hv.
exists sh, t, [seq (x.1.1, x.2) | x <- zip cl (mx_comps d)], (mx_w d), (cum_loop 0 (mx_w d)), nw, sw.
have hsz : size (mx_comps d) = size cl by rewrite q1 hK g1.
have P (B : Type) (f1 : seq part * seq part * seq T -> B) :
    [seq f1 c.1 | c : cell <- [seq (x.1.1, x.2) | x <- zip cl (mx_comps d)]] = [seq f1 c.1 | c : cell <- cl].
  by elim: (cl) (mx_comps d) hsz => [|x l IH] [|y l2] //= [/IH ->].
have P2 : [seq c.2 | c : cell <- [seq (x.1.1, x.2) | x <- zip cl (mx_comps d)]] = mx_comps d.
  by elim: (cl) (mx_comps d) hsz => [|x l IH] [|y l2] //= [/IH ->].
have hp : size [seq (x.1.1, x.2) | x <- zip cl (mx_comps d)] = K by rewrite size_map size_zip hsz minnn.
split=> //.
- rewrite /build /= ep et hK (P _ (fun x => x.1.1)) (P _ (fun x => x.1.2)) (P _ snd) P2 hp.
  congr (_, _, _); last by rewrite -{1}hK -(mix_validE hv).
  by congr MP; rewrite /= /vresize ?g3 ?g4 subnn cats0; [rewrite -{1}g3 take_size|rewrite -{1}g4 take_size].
- by rewrite size_cum q2 hK.
- have qq := etrans q2 (esym q1); have := hsh; rewrite /shape em /= -map_comp.
  elim: (w) (cl) (mx_w d) (mx_comps d) hcl qq hcv {hsz P P2 hp em hsh g1 q1 q2 q3} => [|x w1 IH] [|c cl1] [|y w2] [|d1 l] //=.
  move=> [[k1 k2 [k3 k3'] k4 k5] hcl] [hs] hcv [es ess]; split; last by apply: IH => // d' hd'; apply: hcv; right.
  have hd1 := hcv d1 (or_introl erefl).
  by split=> /=; rewrite ?k3 ?k3' ?es //; [exact: mc_valid_sized|case: hd1 => -[]|left].
- by split; [case: q5|left].
Qed.
Lemma history_post boot m0 hf : history boot m0 hf -> exists m, sound (mx_n m0) hf m.
Proof.
elim=> [junk q per thr sch us rs h p hf' hn hp hfine|{}hf c b hf' hh [m [hm [sh [t [cl [w [cum [nw [sw ok]]]]]]]]] hc|
        {}hf m1 a d hf' hh [m [hm [sh [t [cl [w [cum [nw [sw ok]]]]]]]]] hm1 hr hd hfd hsh].
- have [h1 [cl [nw [sw ok]]]] := new_sound hfine hp hn; exists m0.
  by split=> //; eexists; exists 0%N, cl; do 2 eexists; exists nw, sw; exact: ok.
- have [m1 [hi hm1]] := call_flow hc hm; exists m1; split=> //.
  by have [sh' [t' [cl' [w' [cum' [nw' [sw' [ok' _]]]]]]]] := internal_ok ok hi; exists sh', t', cl', w', cum', nw', sw'.
by move: hm1; rewrite hm => -[e]; subst m1; exists d; exact: reset_sound ok hr hd hfd hsh.
Qed.
Lemma history_sound boot m0 hf m : history boot m0 hf -> f_post hf = Ok m ->
  exists sh t cl w cum nw sw, okm (mx_n m0) (state_of hf m) sh t cl w cum nw sw.
Proof. by move=> /history_post [m' [hm' H]]; rewrite hm' => -[<-]. Qed.
(** ** C38: time step and schedule of the mixture filters *)
Lemma has_sysE c : has_sys c = isSome (sys_of c). Proof. by rewrite /has_sys; case: (sys_of c). Qed.
Lemma due_gcd p K n : (0 < p)%N -> (0 < K)%N -> (p %| K * n)%N = ((p %/ gcdn p K) %| n)%N.
Proof.
move=> hp hK; have hg : (0 < gcdn p K)%N by rewrite gcdn_gt0 hp.
have E g a k : (0 < g)%N -> coprime a k -> (a * g %| k * g * n)%N = (a %| n)%N.
  by move=> h1 h2; rewrite -mulnA (mulnC g) mulnA dvdn_pmul2r // Gauss_dvdr.
have := E (gcdn p K) (p %/ gcdn p K)%N (K %/ gcdn p K)%N hg; rewrite !divnK ?dvdn_gcdl ?dvdn_gcdr //; apply.
by rewrite /coprime -(eqn_pmul2r hg) mul1n muln_gcdl !divnK ?dvdn_gcdl ?dvdn_gcdr.
Qed.
(** the time step advances by the number of components in every successful
    update with a system model, so static resampling takes place every
    period / gcd(period, number of components) system updates *)
Theorem C38_mixture boot junk (q : option prop) per thr sch us rs h p m0 hf0 cs fl hf :
  mp_new_filter eps junk q per thr sch us rs h p = Ok hf0 -> h_get h p = Ok m0 -> fine_mixture m0 ->
  runO (mx_call boot) hf0 cs = Ok (fl, hf) -> all id fl ->
  f_time hf = (mx_n m0 * count (@has_sys _ _ _ _) cs)%N /\
  (per != 0 -> mresamplings hf =
    (mx_n m0 * ((count (@has_sys _ _ _ _) cs).-1 %/ (`|per| %/ gcdn `|per| (mx_n m0))))%N).
Proof.
move=> hn hp hfine hr hall; have [hm0 [cl [nw [sw ok]]]] := new_sound hfine hp hn.
have hK : (0 < mx_n m0)%N by case: ok.
set K := mx_n m0 in ok hK *; set p' := (`|per| %/ gcdn `|per| K)%N.
suff H cs0 : forall n hf1 m1 sh t cl1 w cum nw1 sw1 fl1, okm K (state_of hf1 m1) sh t cl1 w cum nw1 sw1 -> f_post hf1 = Ok m1 ->
    config sh = (per == 0, per, thr, sch) -> t = (K * n)%N ->
    (per != 0 -> pf_nres sh = (K * (n.-1 %/ p'))%N) ->
    runO (mx_call boot) hf1 cs0 = Ok (fl1, hf) -> all id fl1 ->
    f_time hf = (K * (n + count (@has_sys _ _ _ _) cs0))%N /\
    (per != 0 -> mresamplings hf = (K * ((n + count (@has_sys _ _ _ _) cs0).-1 %/ p'))%N).
  by apply: (H cs 0%N hf0 m0 _ _ _ _ _ _ _ fl ok) => //; rewrite ?muln0 // div0n muln0.
elim: cs0 => [|c cs0 IH] n hf1 m1 sh t cl1 w cum nw1 sw1 fl1 ok1 hm1 hc ht hres /=.
  case=> _ <- _; have [_ _ -> e _] := okm_view ok1.
  by rewrite /f_time e ht addn0.
case hcall: (mx_call boot hf1 c) => [[b hf2]||] //=.
case hrun: (runO _ _ _) => [[fl2 hf3]||] //= -[<- e3] /= /andP [hb hall2]; subst hf3.
have [m2 [hi hm2]] := call_flow hcall hm1.
have [sh' [t' [cl' [w' [cum' [nw' [sw' [ok' [ec [_ c2 _ c4]]]]]]]]]] := internal_ok ok1 hi.
rewrite addnA; apply: (IH _ _ _ _ _ _ _ _ _ _ fl2 ok') => //.
- by rewrite ec.
- by rewrite c4 // ht has_sysE mulnDr (mulnC K (isSome _)).
move=> hper; have hdyn : pf_dyn sh = false by move: hc; rewrite /config => -[-> _ _ _]; exact: negbTE.
rewrite c2 /= ?hdyn //= hres // -has_sysE.
case: (has_sys c) => /=; last by rewrite mul0n !addn0.
rewrite /due; move: hc; rewrite /config => -[-> -> _ _]; rewrite (negbTE hper) /= ht due_gcd //; last by rewrite absz_gt0.
rewrite -/p' muln_eq0 (gtn_eqF hK) /= addn1 /=.
case: n {ht hres IH} => [|n] /=; first by rewrite andbF !div0n muln0.
rewrite andbT divnS; last by rewrite divn_gt0 ?gcdn_gt0 ?absz_gt0 ?hper // dvdn_leq ?dvdn_gcdl // absz_gt0.
by rewrite mulnDr addnC (mulnC K (nat_of_bool _)).
Qed.
(** whatever the results of the updates, it never advances faster *)
Theorem C38_mixture_bound boot m0 hf c b hf' : history boot m0 hf -> mx_call boot hf c = Ok (b, hf') ->
  (f_time hf <= f_time hf' <= f_time hf + mx_n m0)%N.
Proof.
move=> hh hc; have [m hm] : exists m, f_post hf = Ok m.
  have -> : f_post hf = h_get hf.1 (fl_post hf.2) by [].
  have E : mx_call boot = f_call (mx_internal boot) by case: (boot).
  by move: hc; rewrite E f_call_parts => /f_update_inv [d [_ [_ [_ [hd _ _ _ _]]]]]; exists d.
have [sh [t [cl [w [cum [nw [sw ok]]]]]]] := history_sound hh hm.
have [m2 [hi hm2]] := call_flow hc hm.
have [sh' [t' [cl' [w' [cum' [nw' [sw' [ok' [ec [_ c2 c3 c4]]]]]]]]]] := internal_ok ok hi.
have [_ _ _ e1 _] := okm_view ok; have [_ _ _ e2 _] := okm_view ok'.
by rewrite /f_time e1 e2.
Qed.

(** ** C42 *)
Lemma total_joint (W : seq R) (ls : seq (seq part)) : total (weights (joint_of W ls)) = total (shares W ls).
Proof.
rewrite /joint_of /shares; elim: (zip W ls) => [|[a l] z IH] /=; first by rewrite !total_nil.
rewrite /weights map_cat total_cat total_cons -/(weights _) -IH; congr (_ + _).
by elim: l => [|x l IHl] /=; rewrite ?total_nil ?mulr0 // !total_cons mulrDr IHl.
Qed.
Lemma scaled_joint f (W : seq R) (ls : seq (seq part)) : scaled f (joint_of W ls) = joint_of W (map (scaled f) ls).
Proof.
rewrite /joint_of; elim: W ls => [|a W IH] [|l ls] //=; rewrite [LHS]/scaled map_cat -[X in _ ++ X]/(scaled f _) IH; congr (_ ++ _).
by rewrite /scaled -!map_comp; apply: eq_map => x /=; rewrite mulrA.
Qed.
Lemma joint_settled (k : R) (W : seq R) (ls : seq (seq part)) : (forall l, List.In l ls -> nonneg (weights l)) ->
  joint_of [seq x / k | x <- shares W ls] (map (@settled R T) ls) = [seq (x.1, x.2 / k) | x <- joint_of W ls].
Proof.
rewrite /joint_of /shares; elim: W ls => [|a W IH] [|l ls] //= hn.
rewrite map_cat -IH; last by move=> l' hl'; apply: hn; right.
congr (_ ++ _); have hl := hn l (or_introl erefl); rewrite /settled; case: ifP => ht.
  rewrite /normalised -!map_comp; apply: eq_map => x /=; congr (_, _).
  have -> : a * total (weights l) / k * (x.2 / total (weights l)) = a * x.2 / k * (total (weights l) / total (weights l)).
    by move: (total _) => tt; ring.
  by rewrite divff ?mulr1 // gt_eqF.
have hz := nonneg_total0 hl (negbT ht); rewrite hz mulr0 mul0r.
have := total_eq0 hl hz; rewrite -map_comp; elim: l {hl ht hz hn} => //= x l IHl /andP [/eqP -> /IHl ->].
by rewrite !mulr0 mul0r.
Qed.
Lemma shares_products w cl : products w (map (@mass R T) cl) = shares w [seq c.1.1.2 | c : cell <- cl].
Proof. by rewrite /products /shares; elim: w cl => [|a w IH] [|c cl] //=; rewrite massE IH. Qed.
Lemma after_settled cl cl1 : all2C (@after R T) cl cl1 ->
  [seq mc_los d | d <- map snd cl1] = [seq settled l | l <- [seq c.1.1.2 | c : cell <- cl1]] /\
  forall l, List.In l [seq c.1.1.2 | c : cell <- cl1] -> nonneg (weights l).
Proof.
elim: cl cl1 => [|c cl IH] [|c1 cl1] //= [[_ _ hn _ hl] /IH [e1 e2]]; split; last by move=> l [<- //|/e2].
by rewrite e1; congr (_ :: _); rewrite /settled; move: hl; case: ifP => _ [].
Qed.
(** the components after a weight update and possible resampling *)
Definition component_of (l : seq part) (d : mcpdf R T) : Prop :=
  mc_los d = settled l \/ exists2 xs, size xs = size l & mc_los d = equally_weighted R xs.
Lemma redrawn_component cl1 cl' i l : all2C (@redrawn R T) cl1 cl' ->
  [seq mc_los d | d <- map snd cl1] = [seq settled l | l <- [seq c.1.1.2 | c : cell <- cl1]] ->
  at_ [seq c.1.1.2 | c : cell <- cl1] i = Ok l -> exists2 d, at_ (map snd cl') i = Ok d & component_of l d.
Proof.
move=> hr e; rewrite !at_map => h; case: (obindE h) => c hc [<-] {h}.
have [c' hc' [_ _ h2]] := all2C_at hr hc; rewrite hc' /=; exists c'.2 => //.
have el : mc_los c.2 = settled c.1.1.2.
  have : at_ [seq mc_los d | d <- map snd cl1] i = at_ [seq settled l | l <- [seq c.1.1.2 | c : cell <- cl1]] i by rewrite e.
  by rewrite !at_map hc /= => -[].
rewrite /component_of; case: h2 => [->|[xs [_ -> hs]]]; [by left|right; exists xs => //].
by rewrite hs el /settled; case: ifP => _ //; rewrite size_normalised.
Qed.
(** What an update with the reweighted lists [ls] leaves: [m'] from [m] *)
Definition updated (b : bool) (same : bool) m m' (ls : seq (seq part)) : Prop :=
  let v := shares (mx_w m) ls in
  [/\ b = (0 < total v), mx_w m' = (if b then to_one v else v),
      size (mx_comps m') = size (mx_comps m) /\
      forall i l, at_ ls i = Ok l -> exists2 d, at_ (mx_comps m') i = Ok d & component_of l d,
      same -> [seq mc_los d | d <- mx_comps m'] = [seq settled l | l <- ls] &
      same -> b -> joint m' = normalised (joint_of (mx_w m) ls)].
Lemma tail_updated K st sh t cl w cum nw sw os u (k : pmeas) z s b hf' m' : okm K st sh t cl w cum nw sw ->
  (let! a := mp_weights eps os u k z s st in malso a (@mp_dynamic R T Rnd root)) = Ok (b, state_of hf' m') ->
  exists cl1, (exists sh1, eachw (pf_weights os u k z s) sh t cl = Ok (sh1, t, cl1)) /\
    forall m, mx_w m = w -> size (mx_comps m) = size cl ->
    updated b (mresamplings hf' == pf_nres sh) m m' [seq c.1.1.2 | c : cell <- cl1] /\ (pf_nres sh <= mresamplings hf')%N.
Proof.
move=> ok h; have [sh' [cl1 [cl' [ok' ha he hb [hr hid hle _ _]]]]] := tail_flow ok h.
exists cl1; split=> // m hw hs; have [e1 e2 e3 _ _] := okm_view ok'.
rewrite -e3 in hid hle; split=> //.
have [h1 h2] := after_settled ha.
rewrite /updated hw; rewrite shares_products in hb e2 ok'.
have hl (same : mresamplings hf' == pf_nres sh) :
    [seq mc_los d | d <- mx_comps m'] = [seq settled l | l <- [seq c.1.1.2 | c : cell <- cl1]].
  by rewrite e1 hid // (eqP same).
split=> //.
- split; first by rewrite e1 size_map (all2C_size hr) (all2C_size ha).
  by move=> i l hi; rewrite e1; exact: redrawn_component hi.
- by move=> hsame hbt; rewrite /joint hl // e2 hbt joint_settled // -total_joint.
Qed.
Lemma eachw_meas u (k : pmeas) z s l : dens k z s l -> forall w cl (sh : pfpriv R T Rnd) t sh1 t1 cl1, all2P (@okcell R T) w cl ->
  eachw (pf_weights None u k (Some z) s) sh t cl = Ok (sh1, t1, cl1) ->
  [seq c.1.1.2 | c : cell <- cl1] = [seq scaled l (mc_los d) | d <- map snd cl].
Proof.
move=> hd; elim=> [|a w IH] [|c cl] //= sh t sh1 t1 cl1; first by move=> _ [_ _ <-].
move=> [[h1 h2 [h3 _] h4 _] hcl].
have [e1 e2] := reweigh_meas u (pf_prop sh) hd h3 h4.
rewrite {1}/pf_weights /= e1 /=; case hu: (mc_updW _ _) => [[b d]||] //=.
case he: (eachw _ _ _ _) => [[[sh2 t2] cl2]||] //= -[_ _ <-] /=.
by rewrite (IH _ _ _ _ _ _ hcl he).
Qed.
(** a measurement update: component weights, particle weights and flag; without
    resampling the joint posterior is that of Bayes *)
Theorem C42_measurement boot m0 hf m c l b hf' : history boot m0 hf -> f_post hf = Ok m ->
  sys_of c = None -> likelihood c l -> mx_call boot hf c = Ok (b, hf') ->
  exists m', [/\ f_post hf' = Ok m',
    updated b (mresamplings hf' == mresamplings hf) m m' [seq scaled l (mc_los d) | d <- mx_comps m],
    b = (0 < total (weights (scaled l (joint m)))) &
    mresamplings hf' = mresamplings hf -> b -> joint m' = normalised (scaled l (joint m))].
Proof.
move=> hh hm hs [k [z [hk hz hd]]] hc; have [sh [t [cl [w [cum [nw [sw ok]]]]]]] := history_sound hh hm.
have [m' [hi hm']] := call_flow hc hm; exists m'.
rewrite hs hk hz in hi.
have {hi} h : (let! a := mp_weights eps None (input_of c) k (Some z) (param_of c) (state_of hf m) in malso a (@mp_dynamic R T Rnd root)) = Ok (b, state_of hf' m').
  case: boot hh hc hi => hh hc //=; rewrite /mb_internal /= => h; case: (obindE h) => -[b1 st1] h1 [<- <-].
  by rewrite andbT.
have [cl1 [[sh1 he] hup]] := tail_updated ok h.
have [e1 e2 e3 e4 _] := okm_view ok; case: (ok) => _ _ _ hcl _.
have hsz : size (mx_comps m) = size cl by rewrite e1 size_map.
have [hU hle] := hup m e2 hsz.
rewrite (eachw_meas hd hcl he) -e1 -e3 in hU; split=> //.
  by case: hU => -> _ _ _ _; rewrite -total_joint /joint scaled_joint -map_comp.
move=> hsame hb; case: hU => _ _ _ _ -> //; last exact/eqP.
by rewrite /joint scaled_joint -map_comp.
Qed.
Lemma moved_carried (f : T -> T -> R) (c c' : cell) : moved c c' ->
  [seq (x.1.1, x.1.2 * f x.1.1 x.2.1) | x <- zip (mc_los c'.2) c'.1.1.1] = carried f (values (mc_los c'.2)) (mc_los c.2).
Proof. by move=> [-> hw _ _]; exact: zip_carried. Qed.
Lemma eachw_gen os u (k : pmeas) z s f (q : prop) :
  (forall q1 xn xo, same_pdf q q1 -> exists q2,
     [/\ pf_factor os u k (Some z) s (Some q1) xn xo = Ok (f xn xo, Some q2), same_pdf q1 q2 & 0 <= f xn xo]) ->
  forall w cl cl' (sh : pfpriv R T Rnd) t q1 sh1 t1 cl1, all2P (@okcell R T) w cl' ->
  all2C (fun c c' : cell => moved c c' /\ mc_valid c.2) cl cl' -> pf_prop sh = Some q1 -> same_pdf q q1 ->
  eachw (pf_weights os u k (Some z) s) sh t cl' = Ok (sh1, t1, cl1) ->
  [seq c.1.1.2 | c : cell <- cl1] = [seq carried f x.1 (mc_los x.2) | x <- zip [seq values (mc_los c.2) | c : cell <- cl'] (map snd cl)].
Proof.
move=> hf; elim=> [|a w IH] [|c cl] [|c' cl'] //= sh t q1 sh1 t1 cl1; first by move=> _ _ _ _ [_ _ <-].
move=> [[h1 h2 [h3 h3'] h4 _] hcl] [[hm _] hrel] hq hs.
have hf1 : forall (c1 : prop) xn xo, same_pdf q1 c1 -> exists q2,
     [/\ pf_factor os u k (Some z) s (Some c1) xn xo = Ok (f xn xo, Some q2),
         same_pdf c1 q2 & 0 <= f xn xo] by move=> c1 xn xo hcc; apply: hf; exact: same_trans hcc.
have [q2 [hr hs2 hn2]] := reweigh_gen hf1 h3 h4.
rewrite {1}/pf_weights /= hq hr /=; case hu: (mc_updW _ _) => [[b d]||] //=.
case he: (eachw _ _ _ _) => [[[sh2 t2] cl2]||] //= -[_ _ <-] /=.
by rewrite (IH _ _ _ _ q2 _ _ _ hcl hrel _ (same_trans hs hs2) he) //= (moved_carried f hm).
Qed.
Lemma moved_sizes cl cl' : all2C (fun c c' : cell => moved c c' /\ mc_valid c.2) cl cl' ->
  [seq size xs | xs <- [seq values (mc_los c.2) | c : cell <- cl']] = [seq size (mc_los d) | d <- map snd cl].
Proof.
elim: cl cl' => [|c cl IH] [|c' cl'] //= [[[_ hw _ _] _] /IH ->]; congr (_ :: _).
by rewrite size_map -size_weights hw size_weights.
Qed.
(** system and measurement update in one call of the particle filter: the
    importance weights of the joint particles *)
Theorem C42_importance m0 hf m c (ms : psys) l a (q : prop) g hf' : history false m0 hf -> f_post hf = Ok m ->
  sys_of c = Some ms -> transition c a -> likelihood c l -> plain_sensor c ->
  mp_prop (fl_priv hf.2) = Some q -> pdens q ms (input_of c) g ->
  mx_call false hf c = Ok (true, hf') -> mresamplings hf' = mresamplings hf ->
  exists m' xss, [/\ f_post hf' = Ok m',
    [seq size xs | xs <- xss] = [seq size (mc_los d) | d <- mx_comps m] &
    updated true true m m' [seq carried (importance l a g) x.1 (mc_los x.2) | x <- zip xss (mx_comps m)]].
Proof.
move=> hh hm hs [ms' hms' ha] [k [z [hk hz hd]]] hplain hq hg hc hsame.
move: hms'; rewrite hs => -[e]; subst ms'.
have hb : ml_noextra k = Some true by move: hplain; rewrite /plain_sensor hk; case: (ml_noextra k) => [[]|].
have [sh [t [cl [w [cum [nw [sw ok]]]]]]] := history_sound hh hm.
have [m' [hi hm']] := call_flow hc hm; exists m'.
have [e1 e2 e3 e4 [e5 _ _ _]] := okm_view ok.
rewrite hs hk hz /= /mp_internal /malso /= in hi; case: (obindE hi) => -[b1 st1] h1 h2 {hi}.
have [cl0 [sh1 [t1 [cl1 [ok1 [_ hdue en ec] hb1 _ [hprop _]]]]]] := head_flow ok h1.
case: b1 h1 h2 hb1 => h1 h2 hb1; last by case: h2.
have [cl2 [[sh2 he] hup]] := tail_updated ok1 h2.
have hs1 : size (mx_comps m) = size cl1 by case: ok1 => _ _ [-> _ _ _] _ _; case: ok e1 => _ _ [<- _ _ _] _ _ ->; rewrite size_map.
have [hU hle] := hup m e2 hs1.
have hdue0 : ~~ due sh t.
  apply/negP => hd1; move: hle; rewrite en hsame e3 hd1 mul1n; case: ok => _ hK _ _ _.
  by rewrite -{2}[pf_nres sh]addn0 leq_add2l leqn0 gtn_eqF.
rewrite (hdue hdue0) in hb1; have [_ hmv] := hb1 isT.
have [q1 hq1 hsq] := hprop q (etrans (esym e5) hq).
case: (ok1) => _ _ _ hcl _.
have hfac := fun (p1 : prop) xn xo (h : same_pdf q p1) => pf_factor_sys xn xo hd hb ha (pdens_same h hg).
rewrite (eachw_gen hfac hcl hmv hq1 hsq he) -e1 in hU.
rewrite hsame e3 en (negbTE hdue0) mul0n addn0 eqxx in hU.
exists [seq values (mc_los c.2) | c : cell <- cl1]; split=> //.
by rewrite e1 (moved_sizes hmv).
Qed.
(** likewise for the bootstrap variant: the weights are multiplied by the
    likelihood of the moved particles *)
Theorem C42_bootstrap m0 hf m c (ms : psys) l hf' : history true m0 hf -> f_post hf = Ok m ->
  sys_of c = Some ms -> likelihood c l ->
  mx_call true hf c = Ok (true, hf') -> mresamplings hf' = mresamplings hf ->
  exists m' xss, [/\ f_post hf' = Ok m',
    [seq size xs | xs <- xss] = [seq size (mc_los d) | d <- mx_comps m] &
    updated true true m m' [seq carried (fun xn _ => l xn) x.1 (mc_los x.2) | x <- zip xss (mx_comps m)]].
Proof.
move=> hh hm hs [k [z [hk hz hd]]] hc hsame.
have [sh [t [cl [w [cum [nw [sw ok]]]]]]] := history_sound hh hm.
have [m' [hi hm']] := call_flow hc hm; exists m'.
have [e1 e2 e3 e4 [e5 _ _ _]] := okm_view ok.
rewrite hs hk hz /= /mb_internal in hi; case: (obindE hi) => -[b1 st1] h1 h2 {hi}.
case: (obindE h2) => -[b2 st2] h3 [/andP [eb2 eb1] est] {h2}; rewrite /= in eb2 eb1 est h3; subst st2.
rewrite eb1 in h1; rewrite eb2 in h3.
pose sh0 := PF (ml_pdf ms) (pf_sample sh) (pf_old sh) (pf_new sh) (pf_uns sh) (pf_dyn sh) (pf_period sh) (pf_thr sh)
    (pf_scheme sh) (pf_us sh) (pf_rs sh) (pf_nres sh).
have [st0 ok0 {}h1] : exists2 st0, okm (mx_n m0) st0 sh0 t cl w cum nw sw &
    (let! a := mp_static root st0 in malso a (mp_proposal ms (input_of c))) = Ok (true, st1).
  case: ok h1 => e g1 g2 g3 g4 h1; exists (build sh0 t cl w cum nw sw); first by split.
  case: e h1 => -> -> -> h1; rewrite -/(build sh0 t cl w cum nw sw) in h1.
  by case: (obindE h1) => r hr1 hr2; rewrite /malso /= in hr1; rewrite hr1.
have [cl0 [sh1 [t1 [cl1 [ok1 [_ hdue en ec] hb1 _ [hprop _]]]]]] := head_flow ok0 h1.
rewrite /mp_internal /malso /= in h3.
have [cl2 [[sh2 he] hup]] := tail_updated ok1 h3.
have hs1 : size (mx_comps m) = size cl1 by case: ok1 => _ _ [-> _ _ _] _ _; case: ok e1 => _ _ [<- _ _ _] _ _ ->; rewrite size_map.
have [hU hle] := hup m e2 hs1.
have hdue0 : ~~ due sh0 t.
  apply/negP => hd1; move: hle; rewrite en hsame e3 hd1 mul1n; case: ok => _ hK _ _ _.
  by rewrite /= -[X in (_ <= X)%N -> _]addn0 leq_add2l leqn0 gtn_eqF.
rewrite (hdue hdue0) in hb1; have [_ hmv] := hb1 isT.
case: (ok1) => _ _ _ hcl _.
have E : [seq scaled l (mc_los d) | d <- map snd cl1] = [seq carried (fun xn _ => l xn) x.1 (mc_los x.2) |
    x <- zip [seq values (mc_los c.2) | c : cell <- cl1] (map snd cl)].
  elim: cl cl1 hmv {h1 h3 ok ok0 ok1 he hup hs1 hcl hb1 hdue e1} => [|x cl IH] [|x' cl1] //= [[hx _] /IH ->].
  congr (_ :: _); rewrite -(moved_carried _ hx) /scaled; case: hx => -> hw _ _.
  by elim: (mc_los x'.2) (mc_los x.2) hw => [|y l1 IHl] [|y' l2] //= [_ /IHl ->].
rewrite (eachw_meas hd hcl he) E -e1 in hU.
rewrite hsame e3 en (negbTE hdue0) mul0n addn0 /= eqxx in hU.
exists [seq values (mc_los c.2) | c : cell <- cl1]; split=> //.
by rewrite e1 (moved_sizes hmv).
Qed.
(** ** C71: components and mixtures that have lost all weight *)
(** component [i] has lost all its weight *)
Definition dead_at (i : nat) m : Prop := exists2 d, at_ (mx_comps m) i = Ok d & dead d.
Lemma dead_invalid (d : mcpdf R T) : dead d -> ~ mc_valid d.
Proof. by rewrite /dead => h [[_ +] _ _]; rewrite h => /esym/eqP; rewrite oner_eq0. Qed.
Definition stays_dead (c c' : cell) : Prop := dead c.2 -> dead c'.2.
Lemma stays_refl (c : cell) : stays_dead c c. Proof. by []. Qed.
Lemma build_inj sh t cl w cum nw sw (sh' : pfpriv R T Rnd) t' cl' w' cum' nw' sw' :
  build sh t cl w cum nw sw = build sh' t' cl' w' cum' nw' sw' -> cl = cl'.
Proof.
move=> e; have e1 : mp_old (build sh t cl w cum nw sw).1.1 = mp_old (build sh' t' cl' w' cum' nw' sw').1.1 by rewrite e.
have e2 : mp_new (build sh t cl w cum nw sw).1.1 = mp_new (build sh' t' cl' w' cum' nw' sw').1.1 by rewrite e.
have e3 : mp_uns (build sh t cl w cum nw sw).1.1 = mp_uns (build sh' t' cl' w' cum' nw' sw').1.1 by rewrite e.
have e4 : mx_comps (build sh t cl w cum nw sw).2 = mx_comps (build sh' t' cl' w' cum' nw' sw').2 by rewrite e.
move: e1 e2 e3 e4 => /= {e}; elim: cl cl' => [|[[[x1 x2] x3] x4] l IH] [|[[[y1 y2] y3] y4] l2] //=.
by move=> [-> e1'] [-> e2'] [-> e3'] [-> e4']; rewrite (IH l2).
Qed.
Lemma stays_at K K' st sh t cl w cum nw sw st' sh' t' cl' w' cum' nw' sw' i : okm K st sh t cl w cum nw sw ->
  okm K' st' sh' t' cl' w' cum' nw' sw' -> all2C stays_dead cl cl' -> dead_at i st.2 -> dead_at i st'.2.
Proof.
move=> [-> _ _ _ _] [-> _ _ _ _] hs [d] /=; rewrite at_map => h; case: (obindE h) => c hc [<-] hd.
by have [c' hc' hd'] := all2C_at hs hc; exists c'.2; [rewrite /= at_map hc'|exact: hd'].
Qed.
Lemma reweigh_dead os u (k : pmeas) z s news olds (q : option prop) L q' : nonneg (weights news) -> total (weights news) = 0 ->
  pf_reweigh os u k z s news olds q = Ok (L, q') -> total (weights L) = 0.
Proof.
move=> hn ht; have := total_eq0 hn ht.
elim: news olds q L q' {hn ht} => [|x news IH] [|o olds] q L q' //=; [by move=> _ [<- _]; exact: total_nil..|].
move=> /andP [/eqP e0 hz]; case: (pf_factor _ _ _ _ _ _ _ _) => [[g q1]||] //=; rewrite /guard; case: ifP => //= _.
case hr: (pf_reweigh _ _ _ _ _ _ _ _) => [[L1 q2]||] //= -[<- _] /=.
by rewrite total_cons e0 mul0r add0r (IH _ _ _ _ hz hr).
Qed.
Lemma weights_dead K st sh t cl w cum nw sw os u (k : pmeas) z s b st' i : okm K st sh t cl w cum nw sw ->
  mp_weights eps os u k z s st = Ok (b, st') -> dead_at i st.2 -> dead_at i st'.2.
Proof.
move=> ok h; have [sh1 [cl1 [ok1 [ha _] _ _ he]]] := all_weights ok eps0 h.
apply: (stays_at ok ok1); case: (ok) => _ _ _ hcl _.
apply: (eachw_rel _ hcl he) => a s0 t0 c b0 st0 g hr hd.
have := weights_after g hr => -[_ _ _ _].
case: g => [_ _ _ hn _]; case: (obindE hr) => -[L q] hw h6; case: (obindE h6) => -[b' d'] hu [_ <-] /=.
by have e0 := reweigh_dead hn hd hw; rewrite e0 ltxx /dead => -[-> _].
Qed.
Lemma dynamic_dead K st sh t cl w cum nw sw b st' i : okm K st sh t cl w cum nw sw ->
  mp_dynamic root st = Ok (b, st') -> dead_at i st.2 -> dead_at i st'.2.
Proof.
move=> ok; case: (ok) => -> h0 [h1 h2 h3 h4] h5 h6; rewrite /mp_dynamic mp_allE; last exact: keeps_dynamic.
case he: (each _ _ _ _ _) => [[b1 [[sh' t'] cl']]||] //= -[_ <-] [d] /=; rewrite at_map => h; case: (obindE h) => c hc [<-] hd.
have hrel : all2C stays_dead cl cl'.
  apply: (each_rel stays_refl _ h5 he) => a s0 t0 c0 b0 st0 [g1 g2 _ hn _] hr hd0; rewrite /= -/(dead _).
  move: hr; rewrite /pf_dynamic /=; case: ifP => _; first by case=> _ <-.
  rewrite sum_loopE (_ : total _ = 0) ?eqxx /=; first by case=> _ <-.
  have := total_eq0 hn hd0; elim: (mc_los c0.2) => [|x l IH] /=; first by rewrite total_nil.
  by move=> /andP [/eqP e0 /IH e1]; rewrite total_cons e1 e0 expr0n addr0.
by have [c' hc' hd'] := all2C_at hrel hc; exists c'.2; [rewrite /= at_map hc'|exact: hd'].
Qed.
Lemma tail_dead K st sh t cl w cum nw sw os u (k : pmeas) z s b st' i : okm K st sh t cl w cum nw sw ->
  (let! a := mp_weights eps os u k z s st in malso a (@mp_dynamic R T Rnd root)) = Ok (b, st') ->
  dead_at i st.2 -> dead_at i st'.2.
Proof.
move=> ok h hd; case: (obindE h) => -[b1 st1] h1 h2 {h}.
have {}hd := weights_dead ok h1 hd; have [sh1 [cl1 [ok1 _ _ _ _]]] := all_weights ok eps0 h1.
rewrite /malso /= in h2; case: b1 {h1 ok1} (ok1) h2 => ok1 h2; last by case: h2 => _ <-.
exact: (dynamic_dead ok1 h2).
Qed.
Lemma head_dead K st sh t cl w cum nw sw (m : psys) u b st' i : okm K st sh t cl w cum nw sw -> ~~ due sh t ->
  (let! a := mp_static root st in malso a (mp_proposal m u)) = Ok (b, st') -> dead_at i st.2 ->
  [/\ dead_at i st'.2, b = false, mx_w st'.2 = w &
      forall j, (i < j)%N -> at_ (mx_comps st'.2) j = at_ (mx_comps st.2) j].
Proof.
move=> ok hdue h hd; have [cl1 [sh' [t' [cl' [ok' [_ e1 _ _] _ hx _]]]]] := head_flow ok h.
rewrite e1 // in hx; case: (obindE h) => -[b1 st1] h1 h2.
have [sh1 [cl2 [ok1 [_ hid] eb _ _]]] := all_static ok h1; subst b1; have [ec es] := hid hdue; subst cl2 sh1.
have hst : st1 = st by case: ok ok1 => -> _ _ _ _ [-> _ _ _ _].
subst st1; have hdd := hd; case: hd => d hat hd.
have [c hc ec'] : exists2 c : cell, at_ cl i = Ok c & c.2 = d.
  by case: ok hat => -> _ _ _ _ /=; rewrite at_map => hq; case: (obindE hq) => c hc [<-]; exists c.
have hnv : ~ mc_valid c.2 by rewrite ec'; exact: dead_invalid.
have [-> hj] := hx i c hc hnv; split=> //.
- apply: (stays_at ok ok' _ hdd); rewrite /malso /= in h2.
  move: h2; case: (ok) => -> _ _ hcl _; rewrite /mp_proposal mp_allE; last exact: keeps_proposal.
  case he: (each _ _ _ _ _) => [[b2 [[sh2 t2] cl2]]||] //= -[_ est].
  have -> : cl' = cl2.
    by apply/esym; case: ok' est => -> _ _ _ _; exact: build_inj.
  apply: (each_rel stays_refl _ hcl he) => a s0 t0 c0 b0 st0 g hr.
  by have [[_ e2' _ _] _] := proposal_moved g hr; rewrite /stays_dead /dead e2'.
- by case: ok' => ->.
- by move=> j /hj; case: ok ok' => -> _ _ _ _ [-> _ _ _ _] /=; rewrite !at_map => ->.
Qed.
Lemma internal_dead boot K st sh t cl w cum nw sw (os : option psys) u (om : option pmeas) z s b st' i : okm K st sh t cl w cum nw sw ->
  (os -> ~~ due sh t) -> mx_internal boot os u om z s st = Ok (b, st') -> dead_at i st.2 ->
  dead_at i st'.2 /\ (os -> b = false /\ (~~ boot || ~~ om ->
      mx_w st'.2 = w /\ forall j, (i < j)%N -> at_ (mx_comps st'.2) j = at_ (mx_comps st.2) j)).
Proof.
move=> ok hdue; case: boot => /= h hd; last first.
  move: h; rewrite /mp_internal /malso /=; case: os hdue => [m|] hdue h.
    case: (obindE h) => -[b1 st1] h1 h2 {h}; have [d1 d2 d3 d4] := head_dead ok (hdue isT) h1 hd; subst b1.
    by case: om h2 => [k|] [<- <-].
  case: om h => [k|] h; last by case: h => _ <-.
  by split=> //; exact: (tail_dead ok h hd).
case: (obindE h) => -[b1 st1] h1 h2 {h}; case: (obindE h2) => -[b2 st2] h3 [eb est] {h2}; subst st2.
rewrite /= in h3 eb; case: os hdue h1 => [m|] hdue h1; last first.
  case: h1 => _ e; subst st1; split=> //.
  by case: om h3 => [k|] h3; [exact: (tail_dead ok h3 hd)|case: h3 => _ <-].
pose sh0 := PF (ml_pdf m) (pf_sample sh) (pf_old sh) (pf_new sh) (pf_uns sh) (pf_dyn sh) (pf_period sh) (pf_thr sh)
    (pf_scheme sh) (pf_us sh) (pf_rs sh) (pf_nres sh).
have [st0 ok0 [e0 {}h1]] : exists2 st0, okm K st0 sh0 t cl w cum nw sw & st0.2 = st.2 /\
    (let! a := mp_static root st0 in malso a (mp_proposal m u)) = Ok (b1, st1).
  case: ok h1 => -> g1 g2 g3 g4 h1; exists (build sh0 t cl w cum nw sw); first by split.
  split=> //; rewrite /build /= in h1; rewrite -/(build sh0 t cl w cum nw sw) in h1.
  by case: (obindE h1) => r hr1 [<-]; rewrite /malso /= in hr1; rewrite hr1.
rewrite -e0 in hd; have [d1 d2 d3 d4] := head_dead ok0 (hdue isT) h1 hd; subst b1.
have [cl1 [sh1 [t1 [cl2 [ok1 _ _ _ _]]]]] := head_flow ok0 h1.
rewrite andbF in eb; subst b; case: om h3 => [k|] h3 /=; last by case: h3 => _ <-; rewrite -e0.
by split=> //; exact: (tail_dead ok1 h3 d1).
Qed.
(** a measurement update that gives every particle of a component probability 0
    leaves that component dead, whatever it returns *)
Theorem C71_extinct boot m0 hf m c l b hf' i d : history boot m0 hf -> f_post hf = Ok m ->
  sys_of c = None -> likelihood c l -> mx_call boot hf c = Ok (b, hf') ->
  at_ (mx_comps m) i = Ok d -> total (weights (scaled l (mc_los d))) = 0 ->
  b = (0 < total (weights (scaled l (joint m)))) /\ exists2 m', f_post hf' = Ok m' & dead_at i m'.
Proof.
move=> hh hm hs hl hc hat hz; have [m1 [hm1 _ -> _]] := C42_measurement hh hm hs hl hc; split=> //.
exists m1 => //; case: hl => k [z [hk hz' hd]].
have [sh [t [cl [w [cum [nw [sw ok]]]]]]] := history_sound hh hm.
have [m' [hi hm']] := call_flow hc hm; move: hm1; rewrite hm' => -[e]; subst m1.
rewrite hs hk hz' in hi.
have {hi} h : (let! a := mp_weights eps None (input_of c) k (Some z) (param_of c) (state_of hf m) in malso a (@mp_dynamic R T Rnd root)) = Ok (b, state_of hf' m').
  case: boot hh hc hi => hh hc //=; rewrite /mb_internal /= => h; case: (obindE h) => -[b1 st1] h1 [<- <-].
  by rewrite andbT.
case: (obindE h) => -[b1 st1] h1 h2 {h}; have [sh1 [cl1 [ok1 [ha _] _ _ he]]] := all_weights ok eps0 h1.
case: (ok) => _ _ _ hcl _; have [e1 _ _ _ _] := okm_view ok.
have hd1 : dead_at i st1.2.
  have e := eachw_meas hd hcl he; rewrite -e1 in e.
  have : at_ [seq c.1.1.2 | c : cell <- cl1] i = Ok (scaled l (mc_los d)) by rewrite e at_map hat.
  rewrite at_map => hq; case: (obindE hq) => c1 hc1 [ec1] {hq}.
  exists c1.2; first by case: ok1 => -> _ _ _ _; rewrite /= at_map hc1.
  have [c0 _ [_ _ _ _ +]] : exists2 c0 : cell, at_ cl i = Ok c0 & after c0 c1.
    move: (ha) (hc1); elim: (cl) (cl1) (i) => [|x l1 IH] [|y l2] //= [|j] //=; first by move=> [hx _] [<-]; exists x.
    by move=> [_ hx] hj; exact: IH hx hj.
  by rewrite ec1 hz ltxx /dead => -[-> _].
rewrite /malso /= in h2; case: b1 {h1 ok1} (ok1) h2 => ok1 h2; last by case: h2 => _ est; move: hd1; rewrite est.
exact: (dynamic_dead ok1 h2 hd1).
Qed.
(** a filter with a dead component: unless the components are resampled first,
    an update with a system model returns false and does not move the components
    after the dead one *)
Theorem C71_stuck boot m0 hf m c b hf' i : history boot m0 hf -> f_post hf = Ok m -> dead_at i m ->
  has_sys c -> mx_call boot hf c = Ok (b, hf') -> mresamplings hf' = mresamplings hf ->
  b = false /\ exists2 m', f_post hf' = Ok m' &
    dead_at i m' /\ (~~ boot || ~~ isSome (meas_of c) -> mx_w m' = mx_w m /\
       forall j, (i < j)%N -> at_ (mx_comps m') j = at_ (mx_comps m) j).
Proof.
move=> hh hm hdd hs hc hsame; have [sh [t [cl [w [cum [nw [sw ok]]]]]]] := history_sound hh hm.
have [m' [hi hm']] := call_flow hc hm; have [_ e2 e3 _ _] := okm_view ok.
have [sh' [t' [cl' [w' [cum' [nw' [sw' [ok' [ec [c1 c2 _ _]]]]]]]]]] := internal_ok ok hi.
have [_ _ e3' _ _] := okm_view ok'.
have hdue : sys_of c -> ~~ due sh t.
  move=> hs'; apply/negP => hd; have hdyn : ~~ pf_dyn sh by move: hd; rewrite /due => /and3P [].
  have := c2 hdyn; rewrite /= hs' hd /= -e3' hsame e3 mul1n => /eqP.
  by rewrite -{1}[pf_nres sh]addn0 eqn_add2l eq_sym; case: ok => _ /gtn_eqF ->.
have [d1 d2] := internal_dead ok hdue hi hdd; rewrite has_sysE in hs; have [-> d3] := d2 hs.
by split=> //; exists m' => //; rewrite e2.
Qed.
(** with dynamic resampling it never recovers *)
Theorem C71_forever boot m0 hf m cs fl hf' i : history boot m0 hf -> f_post hf = Ok m -> dead_at i m ->
  mp_dyn (fl_priv hf.2) -> runO (mx_call boot) hf cs = Ok (fl, hf') ->
  (exists2 m', f_post hf' = Ok m' & dead_at i m') /\ all (fun x => has_sys x.1 ==> ~~ x.2) (zip cs fl).
Proof.
move=> hh hm hd hdyn; have [sh [t [cl [w [cum [nw [sw ok]]]]]]] := history_sound hh hm.
have [_ _ _ _ [_ e _ _]] := okm_view ok; rewrite e in hdyn.
elim: cs hf m sh t cl w cum nw sw fl hm hd ok hdyn {hh e} => [|c cs IH] hf m sh t cl w cum nw sw fl hm hd ok hdyn /=.
  by case=> <- <-; split=> //; exists m.
case hc: (mx_call boot hf c) => [[b hf1]||] //=.
case hr: (runO _ _ _) => [[fl1 hf2]||] //= -[<- e]; subst hf2.
have [m1 [hi hm1]] := call_flow hc hm.
have hdue : sys_of c -> ~~ due sh t by rewrite /due hdyn.
have [d1 d2] := internal_dead ok hdue hi hd.
have [sh' [t' [cl' [w' [cum' [nw' [sw' [ok' [ec _]]]]]]]]] := internal_ok ok hi.
have hdyn' : pf_dyn sh' by move: ec; rewrite /config => -[-> _ _ _].
have [h1 h2] := IH hf1 m1 _ _ _ _ _ _ _ fl1 hm1 d1 ok' hdyn' hr.
split=> //=; rewrite h2 andbT has_sysE; apply/implyP => /d2 [-> _] //.
Qed.
(** a mixture all of whose component weights are 0 stays so, and from then on
    every update with a measurement model returns false; the components may
    have been resampled in the meantime *)
Lemma products_zero (w v : seq R) : nonneg w -> total w = 0 -> total (products w v) = 0.
Proof.
move=> h1 h2; have := total_eq0 h1 h2; rewrite /products; elim: w v {h1 h2} => [|a w IH] [|x v] //=; rewrite ?total_nil //.
by move=> /andP [/eqP -> /IH h]; rewrite total_cons h mul0r addr0.
Qed.
Lemma tail_lost K st sh t cl w cum nw sw os u (k : pmeas) z s b st' : okm K st sh t cl w cum nw sw -> total w = 0 ->
  (let! a := mp_weights eps os u k z s st in malso a (@mp_dynamic R T Rnd root)) = Ok (b, st') ->
  b = false /\ total (mx_w st'.2) = 0.
Proof.
move=> ok h0 h; have [sh' [cl1 [cl' [ok' _ _ hb _]]]] := tail_flow ok h; case: (ok) => _ _ _ _ [hn _].
have e := products_zero (map (@mass R T) cl1) hn h0; rewrite e ltxx in hb; subst b; split=> //.
by case: ok' => -> _ _ _ _ /=.
Qed.
Lemma internal_lost boot K st sh t cl w cum nw sw (os : option psys) u (om : option pmeas) z s b st' : okm K st sh t cl w cum nw sw -> total w = 0 ->
  mx_internal boot os u om z s st = Ok (b, st') -> (om -> b = false) /\ total (mx_w st'.2) = 0.
Proof.
move=> ok h0; case: boot => /= h; last first.
  move: h; rewrite /mp_internal /malso /=; case: os => [m|] h.
    case: (obindE h) => -[b1 st1] h1 h2 {h}; have [_ [sh1 [t1 [cl1 [ok1 _ _ _ _]]]]] := head_flow ok h1.
    have h01 : total (mx_w st1.2) = 0 by case: ok1 => -> _ _ _ _.
    case: om h2 => [k|] h2; last by case: h2 => _ <-.
    case: b1 {h1} h2 => h2; last by case: h2 => <- <-.
    by have [-> ->] := tail_lost ok1 h0 h2.
  case: om h => [k|] h; last by case: h => _ <-; case: ok => -> _ _ _ _.
  by have [-> ->] := tail_lost ok h0 h.
case: (obindE h) => -[b1 st1] h1 h2 {h}; case: (obindE h2) => -[b2 st2] h3 [eb est] {h2}; subst st2.
rewrite /= in h3 eb.
have [sh1 [t1 [cl1 ok1]]] : exists sh1 t1 cl1, okm K st1 sh1 t1 cl1 w cum nw sw.
  case: os h1 => [m|] h1; last by case: h1 => _ <-; exists sh, t, cl.
  pose sh0 := PF (ml_pdf m) (pf_sample sh) (pf_old sh) (pf_new sh) (pf_uns sh) (pf_dyn sh) (pf_period sh) (pf_thr sh)
    (pf_scheme sh) (pf_us sh) (pf_rs sh) (pf_nres sh).
  have [st0 ok0 {}h1] : exists2 st0, okm K st0 sh0 t cl w cum nw sw &
      (let! a := mp_static root st0 in malso a (mp_proposal m u)) = Ok (b1, st1).
    case: ok h1 => -> g1 g2 g3 g4 h1; exists (build sh0 t cl w cum nw sw); first by split.
    rewrite /build /= in h1; rewrite -/(build sh0 t cl w cum nw sw) in h1.
    by case: (obindE h1) => r hr1 [<-]; rewrite /malso /= in hr1; rewrite hr1.
  by have [_ [sh1 [t1 [cl1 [ok1 _ _ _ _]]]]] := head_flow ok0 h1; exists sh1, t1, cl1.
case: om h3 => [k|] h3; last by case: h3 => _ <-; split=> //; case: ok1 => -> _ _ _ _.
by have [e1 ->] := tail_lost ok1 h0 h3; split=> // _; rewrite -eb e1.
Qed.
Theorem C71_lost boot m0 hf m cs fl hf' : history boot m0 hf -> f_post hf = Ok m -> total (mx_w m) = 0 ->
  runO (mx_call boot) hf cs = Ok (fl, hf') ->
  (exists2 m', f_post hf' = Ok m' & total (mx_w m') = 0) /\ all (fun x => isSome (meas_of x.1) ==> ~~ x.2) (zip cs fl).
Proof.
move=> hh hm h0; have [sh [t [cl [w [cum [nw [sw ok]]]]]]] := history_sound hh hm.
elim: cs hf m sh t cl w cum nw sw fl hm h0 ok {hh} => [|c cs IH] hf m sh t cl w cum nw sw fl hm h0 ok /=.
  by case=> <- <-; split=> //; exists m.
case hc: (mx_call boot hf c) => [[b hf1]||] //=.
case hr: (runO _ _ _) => [[fl1 hf2]||] //= -[<- e]; subst hf2.
have [m1 [hi hm1]] := call_flow hc hm; have [_ e2 _ _ _] := okm_view ok; rewrite e2 in h0.
have [d1 d2] := internal_lost ok h0 hi.
have [sh' [t' [cl' [w' [cum' [nw' [sw' [ok' _]]]]]]]] := internal_ok ok hi.
have [h1 h2] := IH hf1 m1 _ _ _ _ _ _ _ fl1 hm1 d2 ok' hr.
by split=> //=; rewrite h2 andbT; apply/implyP => /d1 ->.
Qed.
(** which happens when an update with a measurement returns false *)
Theorem C71_lose boot m0 hf m c l hf' : history boot m0 hf -> f_post hf = Ok m ->
  sys_of c = None -> likelihood c l -> mx_call boot hf c = Ok (false, hf') ->
  exists2 m', f_post hf' = Ok m' & total (mx_w m') = 0.
Proof.
move=> hh hm hs hl hc; have [m' [hm' [e1 e2 _ _ _] _ _]] := C42_measurement hh hm hs hl hc; exists m' => //.
rewrite e2; apply: nonneg_total0; last by rewrite -e1.
have [sh [t [cl [w [cum [nw [sw ok]]]]]]] := history_sound hh hm.
have [m1 [hi hm1]] := call_flow hc hm.
have [sh' [t' [cl' [w' [cum' [nw' [sw' [ok' _]]]]]]]] := internal_ok ok hi.
have [_ e3 _ _ _] := okm_view ok'; move: hm1; rewrite hm' => -[e4]; subst m1.
by rewrite -e2 e3; case: ok' => _ _ _ _ [].
Qed.
(** ** C72: Reset *)
Lemma h_get_at (h : heap mixture) a d : h_get h a = Ok d -> at_ h a = Ok (Some d).
Proof. by rewrite /h_get; case: (at_ h a) => [[x|]||] //= [<-]. Qed.
(** resetting the filter to its own posterior reads a deleted object *)
Theorem C72_alias_refuted hf m : f_post hf = Ok m -> mp_reset eps hf (fl_post hf.2) = UB.
Proof.
case: hf => h f; rewrite /f_post /= => hm; rewrite /mp_reset /f_destroy hm /=.
have hlt := h_get_lt hm; rewrite (put_set_nth None) //=.
by rewrite /h_get (at_nth None) ?size_set_nth ?(maxn_idPr hlt) // nth_set_nth /= eqxx.
Qed.
(** resetting to another mixture copies it; the time step, and with it the
    schedule of static resampling, is not reset *)
Theorem C72_reset hf m a d : f_post hf = Ok m -> a != fl_post hf.2 -> h_get hf.1 a = Ok d -> fine_mixture d ->
  exists hf', [/\ mp_reset eps hf a = Ok hf', f_post hf' = Ok d, h_get hf'.1 a = Ok d, f_time hf' = f_time hf &
    [/\ mp_old (fl_priv hf'.2) = mp_old (fl_priv hf.2), mp_new (fl_priv hf'.2) = mp_new (fl_priv hf.2) &
        mresamplings hf' = mresamplings hf]].
Proof.
case: hf => h f; rewrite /f_post /= => hm hne ha hf0; rewrite /mp_reset /f_destroy hm /=.
have hlt := h_get_lt hm; have hla := h_get_lt ha; rewrite (put_set_nth None) //=.
have -> : h_get (set_nth None h (fl_post f) None) a = Ok d.
  have := h_get_at ha; rewrite (at_nth None) // => -[e].
  by rewrite /h_get (at_nth None) ?size_set_nth ?(maxn_idPr hlt) // nth_set_nth /= (negbTE hne) e.
rewrite /= copy_fine //=; eexists; split; first by [].
- by rewrite /= /h_get (at_nth None) ?size_rcons // nth_rcons ltnn eqxx.
- have := h_get_at ha; rewrite (at_nth None) // => -[e].
  rewrite /= /h_get (at_nth None) ?size_rcons ?size_set_nth ?(maxn_idPr hlt) ?ltnS 1?ltnW //.
  by rewrite nth_rcons size_set_nth (maxn_idPr hlt) hla nth_set_nth /= (negbTE hne) e.
- by [].
- by [].
Qed.
(** [mp_on] touches one component only *)
Lemma on_inv f i st b st' : mp_on f i st = Ok (b, st') -> exists o n v d r,
  [/\ at_ (mx_comps st.2) i = Ok d, at_ (mp_old st.1.1) i = Ok o, at_ (mp_new st.1.1) i = Ok n,
      f (PF (mp_prop st.1.1) (mp_sample st.1.1) o n v (mp_dyn st.1.1) (mp_period st.1.1) (mp_thr st.1.1) (mp_scheme st.1.1)
         (mp_us st.1.1) (mp_rs st.1.1) (mp_nres st.1.1), st.1.2, d) = Ok (b, r) &
      [/\ at_ (mx_comps st'.2) i = Ok r.2, at_ (mp_old st'.1.1) i = Ok (pf_old r.1.1), at_ (mp_new st'.1.1) i = Ok (pf_new r.1.1),
          mx_n st'.2 = mx_n st.2 & forall j, j <> i -> [/\ at_ (mx_comps st'.2) j = at_ (mx_comps st.2) j,
            at_ (mp_old st'.1.1) j = at_ (mp_old st.1.1) j & at_ (mp_new st'.1.1) j = at_ (mp_new st.1.1) j]]].
Proof.
case: st => [[p t] m] h; case: (obindE h) => d hd h1 {h}; case: (obindE h1) => v hv h2 {h1}.
case: (obindE h2) => -[b' r] hr h3 {h2}; case: (obindE h3) => p' hp h4 {h3}; case: (obindE h4) => cs hcs [e1 <-] {h4}.
rewrite /= in e1 hp hcs; subst b'.
case: (obindE hv) => o ho hv1 {hv}; case: (obindE hv1) => n hn hv2 {hv1}; case: (obindE hv2) => w hw [ev] {hv2}; subst v.
case: (obindE hp) => o' ho' hp1 {hp}; case: (obindE hp1) => n' hn' hp2 {hp1}; case: (obindE hp2) => w' hw' [ep] {hp2}; subst p'.
have {}hd : at_ (mx_comps m) i = Ok d.
  by move: hd; rewrite /mx_comp_get /mx_init /guard; case: ifP => //= _; case: ifP.
have [g1 g2] := put_read ho'; have [g3 g4] := put_read hn'; have [g5 g6] := put_read hcs.
by exists o, n, w, d, r; split=> //; split=> // j hj; rewrite /= g2 ?g4 ?g6.
Qed.
(** an index that the loop reaches has been processed *)
Lemma mp_each_reach f (Q : mstate -> Prop) i is_ r st' : i \in is_ -> Q r.2 ->
  (forall j st b st1, j <> i -> Q st -> mp_on f j st = Ok (b, st1) -> Q st1) ->
  mp_each f is_ r = Ok (true, st') -> exists2 st, Q st & exists b st1, mp_on f i st = Ok (b, st1).
Proof.
move=> + + hQ; elim: is_ r => [|j is' IH] r //=; rewrite inE => /orP [/eqP <-|hi] hq h.
  case: (obindE h) => r1 h1 h2 {h}; case: r hq h1 => -[] st hq /= h1; first by exists st => //; exists r1.1, r1.2; rewrite h1; case: (r1).
  case: h1 => e; subst r1; have F l s : mp_each f l (false, s) = Ok (false, s) by elim: l.
  by rewrite F in h2.
case: (obindE h) => r1 h1 h2 {h}; case: (j =P i) => [e|hne].
  subst j; case: r hq h1 => -[] st hq /= h1; first by exists st => //; exists r1.1, r1.2; rewrite h1; case: (r1).
  case: h1 => e; subst r1; have F l s : mp_each f l (false, s) = Ok (false, s) by elim: l.
  by rewrite F in h2.
apply: (IH r1) => //; case: r hq h1 => -[] st hq /= h1; last by case: h1 => <-.
by case: r1 h1 {h2} => b1 st1 h1; exact: hQ hne hq h1.
Qed.
Lemma mp_each_keep f (Q : mstate -> Prop) is_ r r' : Q r.2 -> (forall j st b st1, Q st -> mp_on f j st = Ok (b, st1) -> Q st1) ->
  mp_each f is_ r = Ok r' -> Q r'.2.
Proof.
move=> + hQ; elim: is_ r => [|j is' IH] r hq /=; first by case=> <-.
case: r hq => -[] st hq /=; last exact: IH.
by case h1: (mp_on f j st) => [[b1 st1]||] //=; apply: IH; exact: hQ h1.
Qed.
(** the number of particles of component [i] is not that of the filter's lists *)
Definition mis i (st : mstate) : Prop := (i < mx_n st.2)%N /\ exists2 d, at_ (mx_comps st.2) i = Ok d &
  forall l, at_ (mp_new st.1.1) i = Ok l -> size l != size (mc_los d).
Lemma mis_resample i j st b st' : mis i st -> mp_on (pf_resample root) j st = Ok (b, st') -> mis i st'.
Proof.
move=> [hi [d hd hl]] h; have [o [n [v [d1 [r [h1 h2 h3 hf [h4 h5 h6 h7 h8]]]]]]] := on_inv h.
split; first by rewrite h7.
case: (i =P j) => [e|hne]; last by have [-> _ ->] := h8 i hne; exists d.
subst j; exists r.2 => // l; rewrite h6 => -[<-].
move: h1; rewrite hd => -[e]; subst d1; have := hl n h3.
case: (obindE hf) => xs _ hf1; case: (obindE hf1) => -[b' d'] hu [_ <-] /=.
have -> // : size (mc_los d') = size (mc_los d).
move: hu; rewrite /mc_updU; case: ifP => [/eqP hs|_] /=; last by case=> _ <-.
rewrite /guard; case: ifP => //= _; case he: (mc_equalise _ _) => [d2||] //= -[_ <-].
by move: he; rewrite /mc_equalise /mc_cum_update; case: ifP => //= _ [<-]; rewrite /= size_map.
Qed.
Lemma move_size (m : psys) u rs olds news k (q : option prop) smp r : pf_move m u rs olds news k q smp = Ok r -> size r.1 = size news.
Proof.
elim: olds news k q smp r => [|o olds IH] [|n news] k q smp r //=; [by case=> <-..|].
case: (pf_arg0 _ _) => [c0||] //=; case: (pf_arg1 _ _ _) => [c1||] //=; case: (cp_samp _ _ _ _) => [y||] //=.
rewrite /guard; case: ifP => //= _; case h: (pf_move _ _ _ _ _ _ _ _) => [r1||] //= -[<-] /=.
by rewrite (IH _ _ _ _ _ h).
Qed.
Lemma mis_proposal i (m : psys) u j st b st' : mis i st -> mp_on (pf_proposal m u) j st = Ok (b, st') -> j <> i /\ mis i st'.
Proof.
move=> [hi [d hd hl]] h; have [o [n [v [d1 [r [h1 h2 h3 hf [h4 h5 h6 h7 h8]]]]]]] := on_inv h.
case: (i =P j) => [e|hne]; last by split; [exact: nesym|split; [rewrite h7|have [-> _ ->] := h8 i hne; exists d]].
subst j; move: h1; rewrite hd => -[e]; subst d1; have := hl n h3.
case: (obindE hf) => r1 /move_size hs hf1; case: (obindE hf1) => -[b' d'] + _.
by rewrite /mc_updW /guard; case: ifP => // /eqP; rewrite hs /= => ->; rewrite eqxx.
Qed.
Lemma mis_head i (m : psys) u st b st' : mis i st -> (let! a := mp_static root st in malso a (mp_proposal m u)) = Ok (b, st') ->
  b = false.
Proof.
move=> hm h; case: (obindE h) => -[b1 st1] h1 h2 {h}.
have hm1 : mis i st1.
  move: h1; rewrite /mp_static; case: st hm => [[p t] d] hm; case: ifP => _; last by case=> _ <-.
  by move=> h1; have := mp_each_keep (Q := mis i) (r := (true, (p, t, d))) hm _ h1; apply=> j s0 b0 s1 hq; exact: mis_resample hq.
rewrite /malso /= in h2; case: b1 h1 h2 => h1 h2; last by case: h2.
case: b h2 => // h2; have hin : i \in iota 0 (mx_n st1.2) by rewrite mem_iota; case: hm1.
have [s0 hq [b0 [s1 h3]]] := mp_each_reach (Q := mis i) (r := (true, st1)) hin hm1 (fun j s0 b0 s1 _ hq hj => (mis_proposal hq hj).2) h2.
by have [] := mis_proposal hq h3.
Qed.
(** the filter's lists after a reset are still those for the previous posterior *)
Lemma reset_lists boot m0 hf m a hf1 d i k : history boot m0 hf -> f_post hf = Ok m -> mp_reset eps hf a = Ok hf1 ->
  f_post hf1 = Ok d -> mix_valid d -> at_ (shape d) i = Ok k ->
  (i < mx_n d)%N /\ exists2 e, at_ (mx_comps d) i = Ok e & size (mc_los e) = k /\
  (forall l, at_ (mp_new (fl_priv hf1.2)) i = Ok l -> at_ (shape m) i = Ok (size l)) /\
  (forall l, at_ (mp_old (fl_priv hf1.2)) i = Ok l -> at_ (shape m) i = Ok (size l)).
Proof.
move=> hh hm hr hd hv; rewrite /shape at_map => h; case: (obindE h) => e he [hk] {h}.
have [[h1 _ _] _ _ _] := hv; split; first by rewrite -h1; have [] := at_Ok e he.
exists e => //; split=> //.
have [sh [t [cl [w [cum [nw [sw ok]]]]]]] := history_sound hh hm.
have [en eo] : mp_new (fl_priv hf1.2) = mp_new (fl_priv hf.2) /\ mp_old (fl_priv hf1.2) = mp_old (fl_priv hf.2).
  by case: (hf) hr => h0 f; rewrite /mp_reset; case: (f_destroy _ _) => [x1||] //=; case: (h_get _ _) => [x2||] //=; case: (mx_copy _ _) => [x3||] //= -[<-].
rewrite en eo; case: ok => -[ep _ em] _ _ hcl _; rewrite ep em /=.
have hc (c : cell) : at_ cl i = Ok c -> size c.1.1.1 = size (mc_los c.2) /\ size c.1.1.2 = size (mc_los c.2).
  by move=> hc; have [x _ [_ _ []]] := all2P_at hcl hc.
by split=> l; rewrite !at_map => h; case: (obindE h) => c hc1 [<-]; rewrite hc1 /=; have [e1 e2] := hc c hc1; rewrite ?e1 ?e2.
Qed.
Local Arguments mp_static : simpl never.
Lemma sys_call_false boot hf c b hf' m i : f_post hf = Ok m -> has_sys c -> mis i (state_of hf m) ->
  mx_call boot hf c = Ok (b, hf') -> b = false.
Proof.
move=> hm; rewrite has_sysE => hs hmis hc; have [m' [hi hm']] := call_flow hc hm.
case: (sys_of c) hs hi => [sm|] //= _; case: boot {hc} => /= h.
  case: (obindE h) => -[b1 st1] h1 h2 {h}; case: (obindE h2) => -[b2 st2] _ [<- _].
  case: (obindE h1) => -[b3 st3] h3 /= [<- _]; rewrite /malso /= in h3.
  have -> : b3 = false; last by rewrite andbF.
  by apply: (mis_head (i := i) _ h3); case: hmis => g1 [e g2 g3]; split=> //; exists e.
move: h; rewrite /mp_internal /malso /= => h; case: (obindE h) => -[b1 st1] h1 h2 {h}.
have e := mis_head hmis h1; subst b1; by case: (meas_of c) h2 => [k|] [].
Qed.
(** if some component of the new prior has no counterpart of the same size in the
    old posterior, no update with a system model succeeds *)
Theorem C72_mismatch_refuted boot m0 hf m a hf1 d i k c b hf' : history boot m0 hf -> f_post hf = Ok m ->
  mp_reset eps hf a = Ok hf1 -> f_post hf1 = Ok d -> mix_valid d -> at_ (shape d) i = Ok k -> at_ (shape m) i <> Ok k ->
  has_sys c -> mx_call boot hf1 c = Ok (b, hf') -> b = false.
Proof.
move=> hh hm hr hd hv hk hne hs; have [hi [e he [hek [hn _]]]] := reset_lists hh hm hr hd hv hk.
apply: (sys_call_false (m := d) (i := i)) => //; split=> //; exists e => // l /hn h.
by apply/eqP => es; apply: hne; rewrite h es hek.
Qed.
Definition short i (st : mstate) : Prop := (i < mx_n st.2)%N /\ exists2 d, at_ (mx_comps st.2) i = Ok d &
  forall l, at_ (mp_old st.1.1) i = Ok l -> (size l < size (mc_los d))%N.
Lemma reweigh_size os u (k : pmeas) z s news olds (q : option prop) r :
  pf_reweigh os u k z s news olds q = Ok r -> (size news <= size olds)%N.
Proof.
elim: news olds q r => [|x news IH] [|o olds] q r //=.
case: (pf_factor _ _ _ _ _ _ _ _) => [[g q1]||] //=; rewrite /guard; case: ifP => //= _.
by case hr: (pf_reweigh _ _ _ _ _ _ _ _) => [r1||] //= _; exact: (IH _ _ _ hr).
Qed.
Lemma short_weights i os u (k : pmeas) z s j st b st' : short i st ->
  mp_on (pf_weights os u k z s) j st = Ok (b, st') -> j <> i /\ short i st'.
Proof.
move=> [hi [d hd hl]] h; have [o [n [v [d1 [r [h1 h2 h3 hf [h4 h5 h6 h7 h8]]]]]]] := on_inv h.
case: (i =P j) => [e|hne]; last by split; [exact: nesym|split; [rewrite h7|have [-> -> _] := h8 i hne; exists d]].
subst j; move: h1; rewrite hd => -[e]; subst d1; have := hl o h2.
by case: (obindE hf) => r1 /reweigh_size /=; rewrite leqNgt => /negbTE ->.
Qed.
Lemma short_fold i os u (k : pmeas) z s is_ st st' : i \in is_ -> short i st ->
  foldO (fun st i => let! r := mp_weights_one os u k z s i st in Ok r.2) st is_ <> Ok st'.
Proof.
elim: is_ st => [|j is' IH] st //=; rewrite inE => hi hs h.
case: (obindE h) => st1 h1 h2 {h}; case: (obindE h1) => -[b2 st2] h3 [e] {h1}; rewrite /= in e; subst st2.
case: (obindE h3) => -[b4 [[p t] d]] h4 h5; have [hne hs1] := short_weights hs h4.
case: (obindE h5) => l hl h6; case: (obindE h6) => sw hsw [_ e] {h5 h6}.
have hs2 : short i st1 by case: hs1 => g1 [d1 g2 g3]; rewrite -e; split=> //; exists d1.
by move: hi => /orP [/eqP e2|hi]; [apply: hne|exact: (IH _ hi hs2 h2)].
Qed.
(** if a component of the new prior is missing from the old posterior or has
    more particles than there, no update with only a measurement returns *)
Theorem C72_larger_refuted boot m0 hf m a hf1 d i k c km r : history boot m0 hf -> f_post hf = Ok m ->
  mp_reset eps hf a = Ok hf1 -> f_post hf1 = Ok d -> mix_valid d -> at_ (shape d) i = Ok k ->
  (forall k', at_ (shape m) i = Ok k' -> (k' < k)%N) -> sys_of c = None -> meas_of c = Some km ->
  mx_call boot hf1 c <> Ok r.
Proof.
move=> hh hm hr hd hv hk hlt hs hk0; have [hi [e he [hek [_ ho]]]] := reset_lists hh hm hr hd hv hk.
case: r => b hf' hc; have [m' [hI hm']] := call_flow hc hd; rewrite hs hk0 in hI.
have hsh : short i (state_of hf1 d) by split=> //; exists e => // l /ho /hlt; rewrite hek.
have [st' hw] : exists st', foldO (fun st i => let! r := mp_weights_one None (input_of c) km (value_of c) (param_of c) i st in Ok r.2)
     (state_of hf1 d) (iota 0 (mx_n d)) = Ok st'.
  have {hI} [b1 [st1 h]] : exists b1 st1, mp_weights eps None (input_of c) km (value_of c) (param_of c) (state_of hf1 d) = Ok (b1, st1).
    case: boot {hh hc} hI => /= h; last by rewrite /mp_internal /malso /= in h; case: (obindE h) => -[b1 st1] h1 _; exists b1, st1.
    rewrite /mb_internal /= in h; case: (obindE h) => -[b1 st1] h1 _; rewrite /mp_internal /malso /= in h1.
    by case: (obindE h1) => -[b2 st2] h2 _; exists b2, st2.
  by case: (obindE h) => st2 h2 _; exists st2.
by apply: (short_fold _ hsh hw); rewrite mem_iota.
Qed.
End Properties.

(** concrete cases: ExamplesMixPF *)
Print Assumptions C38_mixture.
Print Assumptions C38_mixture_bound.
Print Assumptions C42_measurement.
Print Assumptions C42_importance.
Print Assumptions C42_bootstrap.
Print Assumptions C71_extinct.
Print Assumptions C71_stuck.
Print Assumptions C71_forever.
Print Assumptions C71_lost.
Print Assumptions C71_lose.
Print Assumptions C72_alias_refuted.
Print Assumptions C72_reset.
Print Assumptions C72_mismatch_refuted.
Print Assumptions C72_larger_refuted.
