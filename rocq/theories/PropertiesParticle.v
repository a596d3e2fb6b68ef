(** * C33-C40: particle filters *)
From mathcomp Require Import all_ssreflect all_algebra.
From mathcomp Require Import ring zify.
From Verif Require Import OrdLra Outcome SpecProb ModelTables ProofsTables ModelDiscretePdf
  ModelMCPdf SpecMCPdf ProofsMCPdf ModelModels ModelFilter ProofsFilter PropertiesFilter ModelParticle SpecParticle ProofsParticle.
Set Implicit Arguments. Unset Strict Implicit. Unset Printing Implicit Defensive.
Import Order.TTheory GRing.Theory Num.Theory.
Local Open Scope ring_scope.

Section Properties.
Variables (R : realFieldType) (T Z Rnd Rz : Type).
Variable root : R -> nat -> R.
Notation part := (T * R)%type.
Notation priv := (pfpriv R T Rnd).
Notation pstate := (fstate (mcpdf R T) priv).
Notation pfilter := (heap (mcpdf R T) * filt priv)%type.
Notation psys := (psys R T Rnd).
Notation pmeas := (pmeas R T Z Rz).
Notation prop := (prop R T Rnd).
Notation pcall := (call psys pmeas T Z).
Notation state_of hf d := (fl_priv hf.2, fl_time hf.2, d).
Implicit Types (hf : pfilter) (d : mcpdf R T) (c : pcall) (cs : seq pcall).

(** number of executions of [Resample] so far *)
Definition resamplings hf : nat := pf_nres (fl_priv hf.2).
Definition dynamic hf : bool := pf_dyn (fl_priv hf.2).
Definition period hf : int := pf_period (fl_priv hf.2).
Definition threshold hf : R := pf_thr (fl_priv hf.2).
(** the internal sample lists have the size of the posterior; true from
    construction on *)
Definition matched hf d : Prop :=
  size (pf_old (fl_priv hf.2)) = size (mc_los d) /\ size (pf_new (fl_priv hf.2)) = size (mc_los d).

Lemma new_filter junk q per thr sch us rs h p hf :
  pf_new_filter junk q per thr sch us rs h p = Ok hf ->
  exists d d', [/\ h_get h p = Ok d, f_post hf = Ok d',
    [/\ mc_valid d', mc_los d' = normalised (mc_los d), nonneg (weights (mc_los d)) &
        0 < total (weights (mc_los d))], fl_time hf.2 = 0%N &
    (per == 0) = (thr != 0) /\
    fl_priv hf.2 = PF q junk.1 (mc_los d) (mc_los d) [::] (per == 0) per thr sch us rs 0].
Proof.
rewrite /pf_new_filter /f_new; case hp: (h_get h p) => [d||] //=.
case hc: (pf_copy junk d) => [d'||] //=; case hi: (pf_init _ _ _ _ _ _ _ _) => [b||] //= -[<-] /=.
exists d, d'; move: hc; rewrite /pf_copy; case hs: (mc_setW _ _ _) => [[r d1]||] //=.
case: r hs => //= hs [e]; subst d1.
have [h1 h2] := normalize_true_nonneg hs.
move: hs; rewrite mc_setWE //; last exact: mc_new_sized.
case=> hd; split=> //; first by rewrite /f_post /h_get /= (at_nth None) ?size_rcons // nth_rcons ltnn eqxx.
  by rewrite -hd; split=> //; apply: valid_build; exact: normalised_distr.
by move: hi; rewrite /pf_init; case: eqP => _; case: eqP => _ //= -[<-].
Qed.
Lemma new_matched junk q per thr sch us rs h p hf d : pf_new_filter junk q per thr sch us rs h p = Ok hf ->
  f_post hf = Ok d -> matched hf d.
Proof.
move=> hn hd; have [d0 [d' [_ hd' [_ hl _ _] _ [_ hp]]]] := new_filter hn.
by move: hd; rewrite hd' /matched hp /= => -[<-]; rewrite hl size_normalised.
Qed.

(** ** C33 *)
Definition started hf n : Prop := exists2 d, f_post hf = Ok d & mc_valid d /\ size (mc_los d) = n.
Lemma run_started internal n cs hf fl hf' :
  (forall os u om z s st st', inv n st -> internal os u om z s st = Ok (true, st') -> inv n st') ->
  started hf n -> runO (f_call internal) hf cs = Ok (fl, hf') -> all id fl -> started hf' n.
Proof.
move=> hi; have hs x c x' : started x n -> f_call internal x c = Ok (true, x') -> started x' n.
  move=> [d hd hv]; rewrite f_call_parts => hu.
  have [d0 [p [t [d' [h1 h2 h3 _ _]]]]] := f_update_inv hu; exists d' => //.
  move: h1; rewrite hd => -[e]; subst d0; exact: hi h2.
exact: runO_inv hs cs hf fl hf'.
Qed.
Theorem C33_particle junk q per thr sch us rs h p d hf cs fl hf' :
  pf_new_filter junk q per thr sch us rs h p = Ok hf -> h_get h p = Ok d ->
  runO (pf_call root) hf cs = Ok (fl, hf') -> all id fl ->
  exists d', [/\ f_post hf' = Ok d', mc_valid d' & size (mc_los d') = size (mc_los d)].
Proof.
move=> hn hd hr hall; have [d0 [d1 [hd0 hp [hv hl _ _] _ _]]] := new_filter hn.
move: hd0; rewrite hd => -[e]; subst d0.
have h0 : started hf (size (mc_los d)) by exists d1 => //; rewrite hl size_normalised.
have [d' h1 [h2 h3]] := run_started (@pf_internal_inv _ _ _ _ _ root _) h0 hr hall.
by exists d'.
Qed.
Theorem C33_bootstrap junk per thr sch us rs h p d hf cs fl hf' :
  bf_new_filter junk per thr sch us rs h p = Ok hf -> h_get h p = Ok d ->
  runO (bf_call root) hf cs = Ok (fl, hf') -> all id fl ->
  exists d', [/\ f_post hf' = Ok d', mc_valid d' & size (mc_los d') = size (mc_los d)].
Proof.
move=> hn hd hr hall; have [d0 [d1 [hd0 hp [hv hl _ _] _ _]]] := new_filter hn.
move: hd0; rewrite hd => -[e]; subst d0.
have h0 : started hf (size (mc_los d)) by exists d1 => //; rewrite hl size_normalised.
have [d' h1 [h2 h3]] := run_started (@bf_internal_inv _ _ _ _ _ root _) h0 hr hall.
by exists d'.
Qed.

(** no history ends in undefined behaviour or a failed assert, provided the
    models answer every query; the number of particles never changes, whether
    the updates succeed or not *)
Section Safe.
Hypothesis root01 : forall u k, 0 < u <= 1 -> (0 < k)%N -> 0 < root u k <= 1.
Definition live (n : nat) hf : Prop := exists2 d, f_post hf = Ok d & alive n (state_of hf d).
Lemma new_live junk q per thr sch us rs h p d hf : pf_new_filter junk q per thr sch us rs h p = Ok hf ->
  h_get h p = Ok d -> unit_tape us -> live (size (mc_los d)) hf.
Proof.
move=> hn hd hu; have [d0 [d1 [hd0 hp [hv hl hnn ht] h0 [_ hpr]]]] := new_filter hn.
move: hd0; rewrite hd => -[e]; subst d0; exists d1 => //; rewrite hpr; split=> //=.
- split; first by rewrite hl size_normalised.
  by have := mc_valid_nonempty hv; rewrite hl size_normalised.
- by case: hv => -[].
- exists (weights (mc_los d1)); first by case: hv.
  by rewrite size_weights hl size_normalised -hl (mc_cumE hv).
Qed.
Lemma value_given c k : meas_of c = Some k -> value_of c <> None.
Proof. by case: c. Qed.
Lemma live_call internal n hf c d b p t d' : f_post hf = Ok d ->
  internal (sys_of c) (input_of c) (meas_of c) (value_of c) (param_of c) (state_of hf d) = Ok (b, (p, t, d')) ->
  alive n (p, t, d') ->
  exists hf', [/\ f_call internal hf c = Ok (b, hf'), live n hf' & fl_priv hf'.2 = p].
Proof.
move=> hd hi hal; have [h' [h1 [h2 _]]] := f_updateE hd hi.
exists (h', Filt (fl_prior hf.2) (fl_post hf.2) t p); rewrite f_call_parts; split=> //.
by exists d'.
Qed.
Theorem C33_particle_safe junk (q : option prop) per thr sch us rs h p d hf cs :
  pf_new_filter junk q per thr sch us rs h p = Ok hf -> h_get h p = Ok d -> unit_tape us ->
  (forall c, List.In c cs -> fine_call c /\ forall m, sys_of c = Some m -> accepts q m) ->
  exists fl hf' d', [/\ runO (pf_call root) hf cs = Ok (fl, hf'), f_post hf' = Ok d' &
    size (mc_los d') = size (mc_los d) /\ nonneg (weights (mc_los d'))].
Proof.
move=> hn hd hu; have hl := new_live hn hd hu.
have hq : forall e : prop, q = Some e -> exists2 c', pf_prop (fl_priv hf.2) = Some c' & same_pdf e c'.
  by have [? [? [_ _ _ _ [_ ->]]]] := new_filter hn => c /= ->; exists c.
elim: cs hf hl hq {hn} => [|c cs IH] hf [d1 hd1 hal] hq hfine /=.
  by exists [::], hf, d1; split=> //; case: hal => -[].
have [[hf1 hf2] hacc] := hfine c (or_introl erefl).
have [|k hk|b [[[p' t'] d'] [hi hal' hkept _]]] := @pf_internal_alive _ _ _ _ _ root root01 (size (mc_los d))
    (sys_of c) (input_of c) (meas_of c) (value_of c) (param_of c) _ hal.
- move=> m hm; have [h1 h2] := hf1 m hm; split=> //=.
  have [c0 [e0 ht0 hs0]] := hacc m hm; have [c' -> hs] := hq c0 e0.
  by apply: accepts_same hs _; exists c0.
- by have [h1 h2] := hf2 k hk; split=> //; exact: value_given hk.
have [hf' [e1 hl' e2]] := live_call hd1 hi hal'.
have [|x hx|fl [hf3 [d3 [e3 e4 e5]]]] := IH hf' hl'.
- move=> c0 /hq [c1 h1 h2]; have [c2 h3 h4] := hkept c1 h1; exists c2; first by rewrite e2.
  exact: same_trans h4.
- by apply: hfine; right.
by exists (b :: fl), hf3, d3; rewrite /pf_call e1 /= -/(pf_call root) e3.
Qed.
Theorem C33_bootstrap_safe junk per thr sch us rs h p d hf cs :
  bf_new_filter junk per thr sch us rs h p = Ok hf -> h_get h p = Ok d -> unit_tape us ->
  (forall c, List.In c cs -> fine_call c) ->
  exists fl hf' d', [/\ runO (bf_call root) hf cs = Ok (fl, hf'), f_post hf' = Ok d' &
    size (mc_los d') = size (mc_los d) /\ nonneg (weights (mc_los d'))].
Proof.
move=> hn hd hu; have hl := new_live hn hd hu.
elim: cs hf hl {hn} => [|c cs IH] hf [d1 hd1 hal] hfine /=.
  by exists [::], hf, d1; split=> //; case: hal => -[].
have [hf1 hf2] := hfine c (or_introl erefl).
have [b [[[p' t'] d'] [hi hal']]] : exists b st', bf_internal root (sys_of c) (input_of c) (meas_of c)
    (value_of c) (param_of c) (state_of hf d1) = Ok (b, st') /\ alive (size (mc_los d)) st'.
  rewrite /bf_internal.
  have [b1 [st1 [-> hal1]]] : exists b1 st1, (if sys_of c is Some m then
       pf_internal root (sys_of c) (input_of c) (None : option pmeas) (value_of c) (param_of c)
        (PF (ml_pdf m) (pf_sample (fl_priv hf.2)) (pf_old (fl_priv hf.2)) (pf_new (fl_priv hf.2))
           (pf_uns (fl_priv hf.2)) (pf_dyn (fl_priv hf.2)) (pf_period (fl_priv hf.2)) (pf_thr (fl_priv hf.2))
           (pf_scheme (fl_priv hf.2)) (pf_us (fl_priv hf.2)) (pf_rs (fl_priv hf.2)) (pf_nres (fl_priv hf.2)),
         fl_time hf.2, d1) else Ok (true, state_of hf d1)) = Ok (b1, st1) /\ alive (size (mc_los d)) st1.
    case hs: (sys_of c) => [m|]; last by exists true, (state_of hf d1).
    set st0 := (PF _ _ _ _ _ _ _ _ _ _ _ _, _, _).
    have hal0 : alive (size (mc_los d)) st0 by case: hal.
    have [m' [<-]|//|b [st' [-> h1 _ _]]] := @pf_internal_alive _ _ _ _ Rz root root01 (size (mc_los d))
       (Some m) (input_of c) None (value_of c) (param_of c) _ hal0; last by exists b, st'.
    have [hp hsu] := hf1 m hs; split=> //.
    case: (hp) => c0 [b0 [h1 h2 h3 h4]]; exists c0; split=> //; rewrite h3 h2; by case: (b0).
  rewrite /=; case hm: (meas_of c) => [k|]; last by exists (true && b1), st1.
  have [//|k' [<-]|b [st' [-> h1 _ _]]] := @pf_internal_alive _ _ _ _ Rz root root01 (size (mc_los d))
       None (input_of c) (Some k) (value_of c) (param_of c) _ hal1; last by exists (b && b1), st'.
  by have [h1 h2] := hf2 k hm; split=> //; exact: value_given hm.
have [hf' [e1 hl' e2]] := live_call hd1 hi hal'.
have [|fl [hf3 [d3 [e3 e4 e5]]]] := IH hf' hl'; first by move=> x hx; apply: hfine; right.
by exists (b :: fl), hf3, d3; rewrite /bf_call e1 /= -/(bf_call root) e3.
Qed.
End Safe.

(** ** What one call does *)
Lemma normalised_id (l : seq part) : total (weights l) = 1 -> normalised l = l.
Proof. by rewrite /normalised => ->; elim: l => //= -[x w] l ->; rewrite divr1. Qed.

Lemma call_inv internal hf c b hf' d : f_call internal hf c = Ok (b, hf') -> f_post hf = Ok d ->
  exists d', internal (sys_of c) (input_of c) (meas_of c) (value_of c) (param_of c) (state_of hf d)
      = Ok (b, state_of hf' d') /\ f_post hf' = Ok d'.
Proof.
rewrite f_call_parts => hu hd; have [d0 [p [t [d' [h1 h2 h3 h4 _]]]]] := f_update_inv hu.
by move: h1; rewrite hd => -[e]; subst d0; exists d'; rewrite h4.
Qed.

Lemma arg_set_same V X Y (q q' : cpdf R V X Y) n x : cp_arg_set q n x = Ok q' -> same_pdf q q'.
Proof.
rewrite /cp_arg_set /guard; case: ifP => //= h; case hp: (put_ _ _ _) => [l||] //= -[<-].
by split=> //=; rewrite (put_len hp).
Qed.
Lemma arg1_same (q q' : prop) (m : psys) u : pf_arg1 q m u = Ok q' -> same_pdf q q'.
Proof.
rewrite /pf_arg1; case: (ml_flag m) => [b||] //=; case: b; first by case=> <-.
by case: u => // y; exact: arg_set_same.
Qed.
Lemma move_same (m : psys) u rs (olds news : seq part) k (q : prop) smp r q' smp' :
  pf_move m u rs olds news k (Some q) smp = Ok (r, (q', smp')) -> exists2 q1, q' = Some q1 & same_pdf q q1.
Proof.
elim: olds news k q smp r q' smp' => [|o olds IH] [|n news] //= k q smp r q' smp'.
- by case=> _ <- _; exists q.
- by case=> _ <- _; exists q.
case h0: (cp_arg_set _ _ _) => [c0||] //=; case h1: (pf_arg1 _ _ _) => [c1||] //=.
case: (cp_samp _ _ _ _) => [y||] //=; case: (guard _) => //= _.
case hr: (pf_move _ _ _ _ _ _ _ _) => [[r1 [q1 s1]]||] //= -[_ <- _].
have [q2 -> h2] := IH _ _ _ _ _ _ _ hr; exists q2 => //.
by apply: same_trans h2; apply: same_trans (arg1_same h1); exact: arg_set_same h0.
Qed.
Lemma proposal_step (m : psys) u (p : priv) t d b (st1 : pstate) : mc_valid d -> size (pf_new p) = size (mc_los d) ->
  pf_proposal m u (p, t, d) = Ok (b, st1) ->
  [/\ b = true, mc_valid st1.2, weights (mc_los st1.2) = weights (mc_los d), pf_old st1.1.1 = mc_los d &
      forall q, pf_prop p = Some q -> exists2 q1, pf_prop st1.1.1 = Some q1 & same_pdf q q1].
Proof.
move=> hv hs h; case: (obindE h) => -[r [q' smp']] hm h2; case: (obindE h2) => -[b' d'] hu [<- <-] {h h2}.
have [hw hn] := pf_move_weights hs hm; have [[_ ht] _ _] := hv.
have hsz : size r = size (mc_los d) by rewrite -size_weights hw size_weights.
have h1 : 0 < total (weights r) by rewrite hw ht ltr01.
move: hu; rewrite (mc_updWE (mc_valid_sized hv) hsz) //; last by rewrite hw.
have he : normalised r = r by rewrite normalised_id // hw.
case=> <- <- /=; rewrite he hw.
split=> //; first by rewrite -hw; apply: valid_build; rewrite hw; case: hv.
by move=> q hq; rewrite hq in hm; exact: move_same hm.
Qed.
Lemma zip_carried (f : T -> T -> R) (news olds : seq part) : weights news = weights olds ->
  [seq (x.1.1, x.1.2 * f x.1.1 x.2.1) | x <- zip news olds] = carried f (values news) olds.
Proof.
rewrite /carried; elim: news olds => [|x news IH] [|o olds] //= [h1 h2]; rewrite h1.
by congr (_ :: _); exact: IH.
Qed.
Lemma updW_cases d (l : seq part) b d' : mc_sized d -> (0 < size (mc_los d))%N -> size l = size (mc_los d) ->
  nonneg (weights l) -> mc_updW d l = Ok (b, d') ->
  b = (0 < total (weights l)) /\ if b then mc_valid d' /\ mc_los d' = normalised l else
     mc_los d' = l /\ mc_cum d' = mc_cum d.
Proof.
move=> hs h0 hl hn; case ht: (0 < total (weights l)).
  by rewrite mc_updWE // => -[<- <-]; split=> //; split=> //; apply: valid_build; exact: normalised_distr.
by rewrite mc_updW_zero ?ht ?hl // => -[<- <-].
Qed.
Lemma size_carried f (xs : seq T) (l : seq part) : size xs = size l -> size (carried f xs l) = size l.
Proof. by move=> h; rewrite size_map size_zip h minnn. Qed.

(** system update and measurement update in one call, no resampling in between *)
Lemma both_flow hf c d b hf' m k z (q : prop) f : f_post hf = Ok d -> mc_valid d -> matched hf d ->
  pf_call root hf c = Ok (b, hf') -> sys_of c = Some m -> meas_of c = Some k -> value_of c = Some z ->
  due (fl_priv hf.2) (fl_time hf.2) = false -> pf_prop (fl_priv hf.2) = Some q ->
  (forall q1 xn xo, same_pdf q q1 -> exists q2,
     [/\ pf_factor (Some m) (input_of c) k (Some z) (param_of c) (Some q1) xn xo = Ok (f xn xo, Some q2),
         same_pdf q1 q2 & 0 <= f xn xo]) ->
  exists xs d', [/\ f_post hf' = Ok d', size xs = size (mc_los d) &
    b = (0 < total (weights (carried f xs (mc_los d)))) /\
    if b then exists p2 t2 d2,
       [/\ mc_valid d2, mc_los d2 = normalised (carried f xs (mc_los d)),
           config p2 = config (fl_priv hf.2) /\ pf_nres p2 = resamplings hf,
           exists2 q2, pf_prop p2 = Some q2 & same_pdf q q2 &
           pf_dynamic root (p2, t2, d2) = Ok (true, state_of hf' d')]
    else mc_los d' = carried f xs (mc_los d) /\ resamplings hf' = resamplings hf].
Proof.
move=> hd hv [ho hnw] hc hsm hk hz hdue hq hfac; have [d' [hi hd']] := call_inv hc hd.
rewrite hsm hk hz in hi; case: (obindE hi) => -[b1 sb] h1 h2 {hi}.
rewrite /also /= (pf_static_idle root d hdue) /= in h1.
have [e1 hvb hwb hob hqb] := proposal_step hv hnw h1; rewrite {}e1 /= in h1 h2.
have [q1 hq1 hs1] := hqb q hq; have [etb enb ecb] := pf_proposal_track h1.
case: (obindE h2) => -[bw sc] hw hdy {h2}; have [etc enc ecc] := pf_weights_track hw.
case: sb hvb hwb hob hq1 etb enb ecb hw etc enc ecc {h1 hqb} => [[pb tb] db] /= hvb hwb hob hq1 etb enb ecb hw etc enc ecc.
case: (obindE hw) => -[r qr] hr h3; case: (obindE h3) => -[b' d2] hu [/= eb esc] {hw h3}; subst b' sc.
have hsz : size (mc_los db) = size (mc_los d) by rewrite -size_weights hwb size_weights.
have hnn : nonneg (weights (mc_los db)) by case: hvb => -[].
have hf1 : forall (c1 : prop) xn xo, same_pdf q1 c1 -> exists q2,
     [/\ pf_factor (Some m) (input_of c) k (Some z) (param_of c) (Some c1) xn xo = Ok (f xn xo, Some q2),
         same_pdf c1 q2 & 0 <= f xn xo] by move=> c1 xn xo hcc; apply: hfac; exact: same_trans hcc.
have [q2 [hr2 hs2 hn2]] := reweigh_gen hf1 (esym hsz) hnn.
move: hr; rewrite hob hq1 hr2 => -[er eq]; subst r qr.
rewrite (zip_carried _ hwb) in hu hn2 hdy.
have hvs : size (values (mc_los db)) = size (mc_los d) by rewrite size_map.
have hcs := size_carried f hvs.
have [eb hb] := updW_cases (mc_valid_sized hvb) (mc_valid_nonempty hvb) (etrans hcs (esym hsz)) hn2 hu.
exists (values (mc_los db)), d'; split=> //; rewrite /= in hdy enc ecc etc *.
case: bw hu hdy eb hb => hu hdy eb hb /=.
  have [eb2 _ _ _] := pf_dynamic_track hdy; subst b; split=> //; do 3 eexists; split; last first.
  - exact: hdy.
  - by exists q2 => //; exact: same_trans hs2.
  - by [].
  - by case: hb.
  - by case: hb.
by case: hdy => <- e1 e2 <-; rewrite eb; split=> //; case: hb => ->; split=> //; rewrite /resamplings -e1.
Qed.

Lemma meas_flow hf c d b hf' l : f_post hf = Ok d -> nonneg (weights (mc_los d)) -> mc_sized d ->
  (0 < size (mc_los d))%N -> matched hf d ->
  pf_call root hf c = Ok (b, hf') -> sys_of c = None -> likelihood c l ->
  exists d', [/\ f_post hf' = Ok d', nonneg (weights (scaled l (mc_los d))),
    pf_old (fl_priv hf'.2) = pf_old (fl_priv hf.2) &
    b = (0 < total (weights (scaled l (mc_los d)))) /\
    if b then exists p2 t2 d2,
       [/\ mc_valid d2, mc_los d2 = normalised (scaled l (mc_los d)),
           config p2 = config (fl_priv hf.2) /\ pf_nres p2 = resamplings hf,
           pf_us p2 = pf_us (fl_priv hf.2) /\ pf_uns p2 = pf_uns (fl_priv hf.2) &
           pf_dynamic root (p2, t2, d2) = Ok (true, state_of hf' d')]
    else [/\ mc_los d' = scaled l (mc_los d), resamplings hf' = resamplings hf,
             mc_cum d' = mc_cum d & size (pf_new (fl_priv hf'.2)) = size (mc_los d)]].
Proof.
move=> hd hn hs h0 [ho _] hc hsm [k [z [hk hz hl]]]; have [d' [hi hd']] := call_inv hc hd.
rewrite hsm hk hz in hi; case: (obindE hi) => -[b1 sb] [<- <-] h2 {hi}.
case: (obindE h2) => -[bw sc] hw hdy {h2}; have [etc enc ecc] := pf_weights_track hw.
have [e1 e2] := reweigh_meas (input_of c) (pf_prop (fl_priv hf.2)) hl ho hn.
move: hw; rewrite /also /pf_weights /= e1 /=.
case hu: (mc_updW _ _) => [[b' d2]||] //= -[eb esc]; subst b' sc.
have hsz : size (scaled l (mc_los d)) = size (mc_los d) by rewrite size_map.
have [eb hb] := updW_cases hs h0 hsz e2 hu.
have hold : pf_old (fl_priv hf'.2) = pf_old (fl_priv hf.2).
  move: hdy; case: bw {hu eb hb} => /=; last by case=> _ <-.
  rewrite /also /pf_dynamic /=; case: ifP => _; first by case=> _ <-.
  case: ifP => _; last by case=> _ <-.
  by move=> h; case: (obindE h) => xs _ h3; case: (obindE h3) => -[? ?] _ [_ <-].
exists d'; split=> //; case: bw hu hdy eb hb => hu hdy eb hb /=.
  have [eb2 _ _ _] := pf_dynamic_track hdy; subst b; split=> //; do 3 eexists; split; last first.
  - exact: hdy.
  - by [].
  - by [].
  - by case: hb.
  - by case: hb.
case: hdy => <- e3 e4 <-; rewrite eb; split=> //; case: hb => -> ->; split=> //; rewrite /resamplings -e3 //=.
Qed.

(** effective sample size *)
Lemma squares_pos (ws : seq R) : distribution ws -> 0 < total [seq w ^+ 2 | w <- ws].
Proof.
move=> [hn ht]; suff [//|hz] : 0 < total [seq w ^+ 2 | w <- ws] \/ total ws = 0.
  by have := oner_neq0 R; rewrite -ht hz eqxx.
elim: ws hn {ht} => [|w ws IH]; first by rewrite total_nil; right.
move=> /nonneg_cons [h1 h2]; rewrite /= !total_cons.
have h3 : 0 <= total [seq w ^+ 2 | w <- ws].
  by rewrite /total big_map; apply: sumr_ge0 => i _; exact: sqr_ge0.
case: (IH h2) => [h|h]; first by left; rewrite ltr_paddl ?sqr_ge0.
case: (w =P 0) => hw; first by right; rewrite hw h addr0.
by left; rewrite ltr_paddr // lt0r sqr_ge0 expf_neq0 //; apply/eqP.
Qed.
Lemma poor_ess (p : priv) (l : seq part) : distribution (weights l) -> poor p l = pf_dyn p && (ess l < pf_thr p).
Proof. by move=> h; rewrite /poor (gt_eqF (squares_pos h)) /=. Qed.
Lemma dynamic_idle (st st' : pstate) b : pf_dynamic root st = Ok (b, st') -> poor st.1.1 (mc_los st.2) = false ->
  st'.2 = st.2.
Proof.
move=> h hp; have [_ _ hn _] := pf_dynamic_track h; move: h; case: st hn hp => [[p t] d] /= hn hp.
rewrite /pf_dynamic; case: ifP => _; first by case=> _ <-.
case: ifP => _; last by case=> _ <-.
by move=> h; have [_ _ hn2 _] := pf_resample_track h; move: hn; rewrite hn2 hp /= addn0 => e; lia.
Qed.

Lemma idle_dynamic (p2 : priv) t2 d2 hf hf' d' : pf_dynamic root (p2, t2, d2) = Ok (true, state_of hf' d') ->
  pf_nres p2 = resamplings hf -> resamplings hf' = resamplings hf -> d' = d2.
Proof.
move=> h e1 e2; have [_ _ hn _] := pf_dynamic_track h.
apply: (dynamic_idle h); move: hn; rewrite /= -/(resamplings hf') e2 e1; case: (poor _ _) => //= e; lia.
Qed.

(** the sample lists keep their sizes *)
Definition fitted n (st : pstate) : Prop :=
  [/\ mc_valid st.2, size (mc_los st.2) = n, size (pf_old st.1.1) = n & size (pf_new st.1.1) = n].
Lemma resample_fitted n st b st' : fitted n st -> pf_resample root st = Ok (b, st') -> fitted n st'.
Proof.
case: st => [[p t] d] [hv hl ho hn] h; have [_ [h1 h2]] := pf_resample_inv (conj hv hl) h.
by case: (obindE h) => xs _ h3; case: (obindE h3) => -[? ?] _ [_ e]; subst st'; split.
Qed.
Lemma static_fitted n st b st' : fitted n st -> pf_static root st = Ok (b, st') -> fitted n st'.
Proof.
by rewrite /pf_static; case: st => [[p t] d] hi; case: ifP => _; [exact: resample_fitted|case=> _ <-].
Qed.
Lemma dynamic_fitted n st b st' : fitted n st -> pf_dynamic root st = Ok (b, st') -> fitted n st'.
Proof.
rewrite /pf_dynamic; case: st => [[p t] d] hi; case: ifP => _; first by case=> _ <-.
have hi' : fitted n (PF (pf_prop p) (pf_sample p) (pf_old p) (mc_los d) (pf_uns p) (pf_dyn p) (pf_period p)
               (pf_thr p) (pf_scheme p) (pf_us p) (pf_rs p) (pf_nres p), t, d) by case: hi.
by case: ifP => _; [exact: resample_fitted|case=> _ <-].
Qed.
Lemma proposal_fitted n (m : psys) u st b st' : fitted n st -> pf_proposal m u st = Ok (b, st') -> fitted n st'.
Proof.
case: st => [[p t] d] [/= hv hl ho hn] h; have hs : size (pf_new p) = size (mc_los d) by rewrite hn hl.
have [e1 e2 e3 e4 _] := proposal_step hv hs h.
have e5 : size (mc_los st'.2) = n by rewrite -size_weights e3 size_weights.
split=> //; first by rewrite e4.
case: (obindE h) => -[r q'] hm h2; case: (obindE h2) => -[b' d'] hu [_ e]; subst st' => /=.
by have [hw _] := pf_move_weights hs hm; rewrite -size_weights hw size_weights.
Qed.
Lemma updW_fits d (l : seq part) b d' : mc_updW d l = Ok (b, d') -> size l = size (mc_los d).
Proof. by rewrite /mc_updW /guard; case: (size l =P _). Qed.
Lemma weights_fitted n os u (k : pmeas) z s st st' : fitted n st -> pf_weights os u k z s st = Ok (true, st') ->
  fitted n st'.
Proof.
case: st => [[p t] d] [/= hv hl ho hn] h.
have hi : inv n (p, t, d) by split.
have [h1 h2] := pf_weights_inv hi h.
case: (obindE h) => -[r q'] hm h3; case: (obindE h3) => -[b' d'] hu [_ e]; subst st'.
by split=> //=; rewrite (updW_fits hu).
Qed.
Lemma internal_fitted n os u om z s st st' : fitted n st ->
  pf_internal root os u (om : option pmeas) z s st = Ok (true, st') -> fitted n st'.
Proof.
move=> hi h; case: (obindE h) => -[b1 st1] h1 h2 {h}.
have hi1 : fitted n st1.
  case: os h1 {h2} => [m|]; last by case=> _ <-.
  move=> h; case: (obindE h) => -[a sta] ha hb; rewrite /also /= in ha hb.
  have hia := static_fitted hi ha; case: a ha hb => ha; last by case=> _ <-.
  exact: proposal_fitted hia.
case: om h2 => [k|]; last by case=> _ <-.
move=> h; case: (obindE h) => -[a sta] ha hb {h}; rewrite /also /= in ha hb.
case: b1 h1 ha => h1 ha; last by case: ha hb => <- _ [].
case: a ha hb => ha; last by case.
exact: dynamic_fitted (weights_fitted hi1 ha).
Qed.
Lemma bf_fitted n os u om z s st st' : fitted n st ->
  bf_internal root os u (om : option pmeas) z s st = Ok (true, st') -> fitted n st'.
Proof.
move=> hi h; case: (obindE h) => -[b1 st1] h1 h2 {h}; case: (obindE h2) => -[b2 st2] h3 [/= /andP [e2 e1] <-] {h2}.
rewrite e1 in h1; rewrite e2 in h3; have hi1 : fitted n st1.
  case: os h1 => [m|]; last by case=> <-.
  by case: st hi => [[p t] d] hi; apply: internal_fitted; case: hi.
case: om h3 => [k|]; last by case=> <-.
exact: internal_fitted.
Qed.
Definition fit n hf : Prop := exists2 d, f_post hf = Ok d & fitted n (state_of hf d).
Lemma fit_run internal n cs hf fl hf' :
  (forall os u om z s st st', fitted n st -> internal os u om z s st = Ok (true, st') -> fitted n st') ->
  fit n hf -> runO (f_call internal) hf cs = Ok (fl, hf') -> all id fl -> fit n hf'.
Proof.
move=> hi; have hs x c x' : fit n x -> f_call internal x c = Ok (true, x') -> fit n x'.
  move=> [d hd hv] hc; have [d' [h1 h2]] := call_inv hc hd; exists d' => //; exact: hi h1.
exact: runO_inv hs cs hf fl hf'.
Qed.
Lemma new_fit junk q per thr sch us rs h p hf d : pf_new_filter junk q per thr sch us rs h p = Ok hf ->
  h_get h p = Ok d -> fit (size (mc_los d)) hf.
Proof.
move=> hn hd; have [d0 [d' [hd0 hd' [hv hl _ _] _ [_ hp]]]] := new_filter hn.
move: hd0; rewrite hd => -[e]; subst d0; exists d' => //.
by rewrite /fitted /= hp /= hl size_normalised.
Qed.
(** Whatever succeeded so far, the posterior is valid and the internal lists
    match it: the hypotheses of the theorems below hold in every history. *)
Theorem C33_reachable junk q per thr sch us rs h p hf cs fl hf' :
  pf_new_filter junk q per thr sch us rs h p = Ok hf -> all id fl ->
  (runO (pf_call root) hf cs = Ok (fl, hf') \/ runO (bf_call root) hf cs = Ok (fl, hf')) ->
  exists d', [/\ f_post hf' = Ok d', mc_valid d' & matched hf' d'].
Proof.
move=> hn hall hr; have [d [_ [hd _ _ _ _]]] := new_filter hn; have h0 := new_fit hn hd.
have [d' h1 [h2 h3 h4 h5]] : fit (size (mc_los d)) hf'.
  case: hr => hr; apply: fit_run h0 hr hall => os u om z s st st'.
    exact: internal_fitted.
  exact: bf_fitted.
by exists d'; split=> //; rewrite /matched h4 h5 h3.
Qed.

(** ** C34 *)
Theorem C34_measurement hf c d b hf' l : f_post hf = Ok d -> mc_valid d -> matched hf d ->
  sys_of c = None -> likelihood c l -> pf_call root hf c = Ok (b, hf') -> resamplings hf' = resamplings hf ->
  exists d', [/\ f_post hf' = Ok d', b = (0 < total (weights (scaled l (mc_los d)))) &
    mc_los d' = if b then normalised (scaled l (mc_los d)) else scaled l (mc_los d)].
Proof.
move=> hd hv hm hs hl hc hr; have [[hn _] _ _] := hv.
have [d' [h1 _ _ [h2 h3]]] := meas_flow hd hn (mc_valid_sized hv) (mc_valid_nonempty hv) hm hc hs hl.
exists d'; split=> //; case: b {hc h2} h3 => [[p2 [t2 [d2 [_ e1 [_ e2] _ e3]]]]|[]//].
by rewrite (idle_dynamic e3 e2 hr).
Qed.
Theorem C34_system hf c d b hf' l a m q g : f_post hf = Ok d -> mc_valid d -> matched hf d ->
  sys_of c = Some m -> transition c a -> likelihood c l -> plain_sensor c ->
  pf_prop (fl_priv hf.2) = Some q -> pdens q m (input_of c) g ->
  pf_call root hf c = Ok (b, hf') -> resamplings hf' = resamplings hf ->
  exists xs d', [/\ f_post hf' = Ok d', size xs = size (mc_los d),
    b = (0 < total (weights (carried (importance l a g) xs (mc_los d)))) &
    mc_los d' = if b then normalised (carried (importance l a g) xs (mc_los d))
                else carried (importance l a g) xs (mc_los d)].
Proof.
move=> hd hv hm hs [m' hm' ha] [k [z [hk hz hl]]] hp hq hg hc hr.
move: hm'; rewrite hs => -[e]; subst m'.
have hb : ml_noextra k = Some true by move: hp; rewrite /plain_sensor hk; case: (ml_noextra k) => [[]|].
have hdue : due (fl_priv hf.2) (fl_time hf.2) = false.
  apply/negbTE/negP => hdue; have [d' [hi _]] := call_inv hc hd; rewrite hs hk hz in hi.
  have hdyn : pf_dyn (state_of hf d).1.1 = false by move: hdue; rewrite /due /=; case: (pf_dyn _).
  have := pf_internal_static hdyn hi; rewrite /= hdue -/(resamplings hf) -/(resamplings hf') hr /= => e; lia.
have [|xs [d' [h1 h2 [h3 h4]]]] := both_flow hd hv hm hc hs hk hz hdue hq (f := importance l a g).
  move=> q1 xn xo hsame; exact: pf_factor_sys hl hb ha (pdens_same hsame hg).
exists xs, d'; split=> //; case: b {hc h3} h4 => [[p2 [t2 [d2 [_ e1 [_ e2] _ e3]]]]|[]//].
by rewrite (idle_dynamic e3 e2 hr).
Qed.

(** ** C35: with sensor parameters only the likelihood counts *)
Theorem C35_parameters_refuted hf c d b hf' l m q : f_post hf = Ok d -> mc_valid d -> matched hf d ->
  sys_of c = Some m -> likelihood c l -> ~~ plain_sensor c ->
  pf_prop (fl_priv hf.2) = Some q -> (0 < size (cp_args q))%N ->
  pf_call root hf c = Ok (b, hf') -> resamplings hf' = resamplings hf ->
  exists xs d', [/\ f_post hf' = Ok d', size xs = size (mc_los d),
    b = (0 < total (weights (carried (fun xn _ => l xn) xs (mc_los d)))) &
    mc_los d' = if b then normalised (carried (fun xn _ => l xn) xs (mc_los d))
                else carried (fun xn _ => l xn) xs (mc_los d)].
Proof.
move=> hd hv hm hs [k [z [hk hz hl]]] hp hq hg hc hr.
have hb : ml_noextra k = Some false.
  by move: hp hl => + [k' [_]]; rewrite /plain_sensor hk; case: (ml_noextra k) => [[]|] //= _ [[]|[]].
have hdue : due (fl_priv hf.2) (fl_time hf.2) = false.
  apply/negbTE/negP => hdue; have [d' [hi _]] := call_inv hc hd; rewrite hs hk hz in hi.
  have hdyn : pf_dyn (state_of hf d).1.1 = false by move: hdue; rewrite /due /=; case: (pf_dyn _).
  have := pf_internal_static hdyn hi; rewrite /= hdue -/(resamplings hf) -/(resamplings hf') hr /= => e; lia.
have [|xs [d' [h1 h2 [h3 h4]]]] := both_flow hd hv hm hc hs hk hz hdue hq (f := fun xn _ => l xn).
  move=> q1 xn xo [_ _ hsz]; apply: pf_factor_param hl hb _; by rewrite hsz.
exists xs, d'; split=> //; case: b {hc h3} h4 => [[p2 [t2 [d2 [_ e1 [_ e2] _ e3]]]]|[]//].
by rewrite (idle_dynamic e3 e2 hr).
Qed.

(** ** C36, C38: schedule and time step *)
Implicit Type st : pstate.
Lemma bf_internal_track os u om z s st b st' : bf_internal root os u (om : option pmeas) z s st = Ok (b, st') ->
  st'.1.2 = (st.1.2 + (if os is Some _ then 1 else 0))%N /\ config st'.1.1 = config st.1.1.
Proof.
move=> h; case: (obindE h) => -[b1 st1] h1 h2 {h}; case: (obindE h2) => -[b2 st2] h3 [/= _ <-] {h2}.
have [e1 e2] : st1.1.2 = (st.1.2 + (if os is Some _ then 1 else 0))%N /\ config st1.1.1 = config st.1.1.
  case: os h1 => [m|]; last by case=> _ <-; rewrite addn0.
  by case: st => [[p t] d] /= h; have [-> ->] := pf_internal_track h.
case: om h3 => [k|]; last by case=> _ <-.
by move=> h; have [-> ->] := pf_internal_track h; rewrite /= addn0.
Qed.
Lemma bf_internal_static os u om z s st b st' : pf_dyn st.1.1 = false ->
  bf_internal root os u (om : option pmeas) z s st = Ok (b, st') ->
  pf_nres st'.1.1 = (pf_nres st.1.1 + (if os is Some _ then due st.1.1 st.1.2 else false))%N.
Proof.
move=> hdyn h; case: (obindE h) => -[b1 st1] h1 h2 {h}; case: (obindE h2) => -[b2 st2] h3 [/= _ <-] {h2}.
have [e1 e2] : pf_nres st1.1.1 = (pf_nres st.1.1 + (if os is Some _ then due st.1.1 st.1.2 else false))%N
   /\ pf_dyn st1.1.1 = false.
  case: os h1 => [m|]; last by case=> _ <-; rewrite addn0.
  case: st hdyn => [[p t] d] /= hdyn h; have [_ hcf] := pf_internal_track h.
  by rewrite (pf_internal_static _ h) //=; split=> //; case: hcf => -> _ _ _.
case: om h3 => [k|]; last by case=> _ <-.
by move=> h; rewrite (pf_internal_static e2 h) addn0.
Qed.

Lemma call_track c hf b hf' : pf_call root hf c = Ok (b, hf') \/ bf_call root hf c = Ok (b, hf') ->
  [/\ f_time hf' = (f_time hf + has_sys c)%N, config (fl_priv hf'.2) = config (fl_priv hf.2) &
      ~~ dynamic hf -> resamplings hf' = (resamplings hf + (has_sys c && due (fl_priv hf.2) (fl_time hf.2)))%N].
Proof.
have hE : has_sys c = (if sys_of c is Some _ then 1 else 0)%N :> nat by rewrite /has_sys; case: sys_of.
move=> [] hc; have := hc; rewrite /pf_call /bf_call f_call_parts => /f_update_inv [d [_ [_ [_ [hd _ _ _ _]]]]];
  have [d' [hi hd']] := call_inv hc hd.
  have [/= h1 h2] := pf_internal_track hi; rewrite hE /f_time h1; split=> // /negbTE hdyn.
  rewrite /resamplings (pf_internal_static _ hi) //=; congr addn.
  by rewrite /has_sys; case: (sys_of c).
have [/= h1 h2] := bf_internal_track hi; rewrite hE /f_time h1; split=> // /negbTE hdyn.
rewrite /resamplings (bf_internal_static _ hi) //=; congr addn.
by rewrite /has_sys; case: (sys_of c).
Qed.
Lemma run_track call cs hf fl hf' :
  (forall x c y, call x c = Ok y -> pf_call root x c = Ok y \/ bf_call root x c = Ok y) ->
  runO call hf cs = Ok (fl, hf') ->
  f_time hf' = (f_time hf + count (@has_sys _ _ _ _) cs)%N /\ config (fl_priv hf'.2) = config (fl_priv hf.2).
Proof.
move=> hcall; elim: cs hf fl => [|c cs IH] hf fl /=; first by case=> _ <-; rewrite addn0.
case hc: (call hf c) => [[b x]||] //=; case hr: (runO _ _ _) => [[fl' y]||] //= -[_ e]; subst y.
have [-> ->] := IH _ _ hr; have [-> -> _] := call_track (hcall _ _ _ hc); by rewrite addnA.
Qed.

Lemma run_track_both cs hf fl hf' :
  (runO (pf_call root) hf cs = Ok (fl, hf') \/ runO (bf_call root) hf cs = Ok (fl, hf')) ->
  f_time hf' = (f_time hf + count (@has_sys _ _ _ _) cs)%N /\ config (fl_priv hf'.2) = config (fl_priv hf.2).
Proof. by case=> /run_track; apply=> x c y; [left|right]. Qed.

(** exactly one policy, fixed for life *)
Theorem C36_policy junk q per thr sch us rs h p hf cs fl hf' :
  pf_new_filter junk q per thr sch us rs h p = Ok hf ->
  (runO (pf_call root) hf cs = Ok (fl, hf') \/ runO (bf_call root) hf cs = Ok (fl, hf')) ->
  [/\ (per == 0) = (thr != 0), dynamic hf' = (per == 0), period hf' = per & threshold hf' = thr].
Proof.
move=> hn hr; have [d0 [d1 [_ _ _ _ [h1 h2]]]] := new_filter hn.
have [_ h3] := run_track_both hr.
by move: h3; rewrite h2 /config /= /dynamic /period /threshold => -[-> -> -> _].
Qed.
(** static resampling, one update: exactly when a positive multiple of the
    period of system updates is completed and a system model is given *)
Theorem C36_static hf c b hf' : ~~ dynamic hf ->
  (pf_call root hf c = Ok (b, hf') \/ bf_call root hf c = Ok (b, hf')) ->
  resamplings hf' =
    (resamplings hf + [&& has_sys c, (`|period hf|%N %| f_time hf)%N & (0 < f_time hf)%N])%N.
Proof.
move=> hdyn hc; have [_ _ ->] := call_track hc; rewrite // /due -/(dynamic hf) hdyn lt0n //.
Qed.
(** a whole history *)
Theorem C36_static_run junk q per thr sch us rs h p hf cs fl hf' :
  pf_new_filter junk q per thr sch us rs h p = Ok hf -> per != 0 ->
  (runO (pf_call root) hf cs = Ok (fl, hf') \/ runO (bf_call root) hf cs = Ok (fl, hf')) ->
  resamplings hf' = ((count (@has_sys _ _ _ _) cs).-1 %/ `|per|)%N.
Proof.
move=> hn hper; have [d0 [d1 [_ _ _ h0 [_ hp]]]] := new_filter hn.
suff main call : (forall x c y, call x c = Ok y -> pf_call root x c = Ok y \/ bf_call root x c = Ok y) ->
    runO call hf cs = Ok (fl, hf') -> resamplings hf' = ((count (@has_sys _ _ _ _) cs).-1 %/ `|per|)%N.
  by case=> hr; apply: main hr => x c y; [left|right].
move=> hcall; have hT : (0 < `|per|)%N by rewrite absz_gt0.
have e0 : resamplings hf = ((f_time hf).-1 %/ `|per|)%N by rewrite /resamplings /f_time hp h0 div0n.
have ec : config (fl_priv hf.2) = (false, per, thr, sch) by rewrite hp /config /= (negbTE hper).
have -> : count (@has_sys _ _ _ _) cs = (f_time hf + count (@has_sys _ _ _ _) cs)%N by rewrite /f_time h0.
elim: cs hf fl e0 ec {hn h0 hp} => [|c cs IH] hf fl e0 ec /=; first by case=> _ <-; rewrite addn0.
case hc: (call hf c) => [[b x]||] //=; case hr: (runO _ _ _) => [[fl' y]||] //= -[_ e]; subst y.
have [h1 h2 h3] := call_track (hcall _ _ _ hc).
rewrite (IH x fl') ?h2 // h1 ?addnA //.
have hdyn : ~~ dynamic hf by move: ec; rewrite /config /dynamic => -[-> _ _ _].
rewrite h3 // e0 /due -/(dynamic hf) hdyn /=.
have -> : pf_period (fl_priv hf.2) = per by move: ec; rewrite /config => -[_ -> _ _].
case: (has_sys c) => /=; last by rewrite !addn0.
rewrite -/(f_time hf); case: (f_time hf) => [|t] /=; first by rewrite andbF div0n.
by rewrite andbT -[(t + 1)%Nrec]/(t + 1)%N addn1 divnS // addnC.
Qed.
(** dynamic resampling: never without a successful weight update, and then
    exactly when the effective sample size of the new weights is too small *)
Theorem C36_dynamic_measurement hf c d b hf' l : f_post hf = Ok d -> mc_valid d -> matched hf d -> dynamic hf ->
  sys_of c = None -> likelihood c l -> pf_call root hf c = Ok (b, hf') ->
  resamplings hf' = (resamplings hf + (b && (ess (normalised (scaled l (mc_los d))) < threshold hf)%R))%N.
Proof.
move=> hd hv hm hdyn hs hl hc; have [[hn _] _ _] := hv.
have [d' [h1 _ _ [h2 h3]]] := meas_flow hd hn (mc_valid_sized hv) (mc_valid_nonempty hv) hm hc hs hl.
case: b {hc h2} h3 => [[p2 [t2 [d2 [hv2 e1 [ec e2] _ e3]]]]|[_ -> _ _]]; last by rewrite addn0.
have [_ _ + _] := pf_dynamic_track e3; rewrite -/(resamplings hf') => -> /=; rewrite e2 poor_ess; last by case: hv2.
by rewrite e1; move: ec; rewrite /config => -[-> _ -> _]; rewrite -/(dynamic hf) hdyn.
Qed.
Theorem C36_dynamic_system hf c d b hf' l a m q g : f_post hf = Ok d -> mc_valid d -> matched hf d -> dynamic hf ->
  sys_of c = Some m -> transition c a -> likelihood c l -> plain_sensor c ->
  pf_prop (fl_priv hf.2) = Some q -> pdens q m (input_of c) g -> pf_call root hf c = Ok (b, hf') ->
  exists2 xs, size xs = size (mc_los d) & resamplings hf' =
    (resamplings hf + (b && (ess (normalised (carried (importance l a g) xs (mc_los d))) < threshold hf)%R))%N.
Proof.
move=> hd hv hm hdyn hs [m' hm' ha] [k [z [hk hz hl]]] hp hq hg hc.
move: hm'; rewrite hs => -[e]; subst m'.
have hb : ml_noextra k = Some true by move: hp; rewrite /plain_sensor hk; case: (ml_noextra k) => [[]|].
have hdue : due (fl_priv hf.2) (fl_time hf.2) = false by rewrite /due -/(dynamic hf) hdyn.
have [|xs [d' [h1 h2 [h3 h4]]]] := both_flow hd hv hm hc hs hk hz hdue hq (f := importance l a g).
  move=> q1 xn xo hsame; exact: pf_factor_sys hl hb ha (pdens_same hsame hg).
exists xs => //; case: b {hc h3} h4 => [[p2 [t2 [d2 [hv2 e1 [ec e2] _ e3]]]]|[_ ->]]; last by rewrite addn0.
have [_ _ + _] := pf_dynamic_track e3; rewrite -/(resamplings hf') => -> /=; rewrite e2 poor_ess; last by case: hv2.
by rewrite e1; move: ec; rewrite /config => -[-> _ -> _]; rewrite -/(dynamic hf) hdyn.
Qed.
Theorem C36_dynamic_prediction hf c b hf' : dynamic hf -> meas_of c = None ->
  (pf_call root hf c = Ok (b, hf') \/ bf_call root hf c = Ok (b, hf')) -> resamplings hf' = resamplings hf.
Proof.
move=> hdyn hk; have main os u z s st b1 st1 : pf_dyn st.1.1 ->
    pf_internal root os u (None : option pmeas) z s st = Ok (b1, st1) -> pf_nres st1.1.1 = pf_nres st.1.1.
  move=> hst h; case: (obindE h) => -[b2 st2] h1 [_ <-] {h}; case: os h1 => [m|]; last by case=> _ <-.
  move=> h; case: (obindE h) => -[a sa] ha hb; rewrite /also /= in ha hb.
  have [ea _ en _] := pf_static_track ha; rewrite ea in hb.
  by have [_ -> _] := pf_proposal_track hb; rewrite en /due hst /= addn0.
move=> [] hc; have := hc; rewrite /pf_call /bf_call f_call_parts => /f_update_inv [d [_ [_ [_ [hd _ _ _ _]]]]];
  have [d' [hi hd']] := call_inv hc hd; rewrite hk in hi.
  exact: main hi.
case: (obindE hi) => -[b1 st1] h1 [_ e] {hi}; rewrite /resamplings.
have -> : fl_priv hf'.2 = st1.1.1 by rewrite /= in e; rewrite e.
case: (sys_of c) h1 => [m|]; last by case=> _ <-.
by move=> /= h; rewrite (main _ _ _ _ _ _ _ _ h).
Qed.
(** bounds of the effective sample size *)
Lemma squares_shift (k : R) (ws : seq R) :
  total [seq (w - k) ^+ 2 | w <- ws] = total [seq w ^+ 2 | w <- ws] - 2%:R * k * total ws + (size ws)%:R * k ^+ 2.
Proof.
elim: ws => [|w ws IH] /=; first by rewrite total_nil; ring.
rewrite !total_cons IH (_ : (size ws).+1%:R = (size ws)%:R + 1 :> R); last by rewrite -addn1 natrD.
move: (total _) (total _) (size ws)%:R => A B N; ring.
Qed.
Theorem C36_ess (l : seq part) : distribution (weights l) -> 1 <= ess l <= (size l)%:R.
Proof.
move=> hd; have hp := squares_pos hd; have [hn ht] := hd; rewrite /ess -(size_weights l).
move: (weights l) hp hn ht => ws hp hn ht {hd l}.
have hN : 0 < (size ws)%:R :> R.
  by rewrite ltr0n; case: ws ht {hp hn} => //; rewrite total_nil => e; have := oner_neq0 R; rewrite -e eqxx.
apply/andP; split.
  rewrite invf_ge1 // -ht; have h1 : forall w, w \in ws -> w <= 1.
    move=> w /(nthP 0) [i hi <-]; rewrite -ht; exact: nth_le_total.
  have -> : total [seq w ^+ 2 | w <- ws] = \sum_(w <- ws) w ^+ 2 by rewrite /total big_map.
  rewrite /total big_seq_cond [X in _ <= X]big_seq_cond; apply: ler_sum => w /andP [hw _].
  by rewrite expr2 ler_pimull ?h1 //; exact: (allP hn).
rewrite -[X in _ <= X]invrK lef_pinv ?posrE ?invr_gt0 //.
have := squares_shift (size ws)%:R^-1 ws; rewrite ht.
have : 0 <= total [seq (w - (size ws)%:R^-1) ^+ 2 | w <- ws].
  by rewrite /total big_map; apply: sumr_ge0 => i _; exact: sqr_ge0.
move=> h e; rewrite e in h.
have -> : (size ws)%:R^-1 = 2%:R * (size ws)%:R^-1 * 1 - (size ws)%:R * (size ws)%:R^-1 ^+ 2 :> R.
  by field; exact: lt0r_neq0.
move: (total _) h => S h; rewrite -subr_ge0; move: h; congr (_ <= _); ring.
Qed.
Corollary C36_thresholds (l : seq part) (thr : R) : distribution (weights l) ->
  ((size l)%:R < thr -> ess l < thr) /\ (thr <= 1 -> (ess l < thr) = false).
Proof.
move=> /C36_ess /andP [h1 h2]; split=> h; first exact: le_lt_trans h.
by apply/negbTE; rewrite -leNgt; exact: le_trans h1.
Qed.

(** the time step counts the updates with a system model *)
Theorem C38_timestep junk q per thr sch us rs h p hf cs fl hf' :
  pf_new_filter junk q per thr sch us rs h p = Ok hf ->
  (runO (pf_call root) hf cs = Ok (fl, hf') \/ runO (bf_call root) hf cs = Ok (fl, hf')) ->
  f_time hf' = count (@has_sys _ _ _ _) cs.
Proof.
move=> hn hr; have [_ [_ [_ _ _ h0 _]]] := new_filter hn.
by have [-> _] := run_track_both hr; rewrite /f_time h0.
Qed.

(** ** C37 *)
Lemma quantile_pos (ws : seq R) u k : quantile ws u k -> 0 < nth 0 ws k.
Proof.
move=> [hk [h1 h2]]; have := lt_le_trans h1 h2; rewrite (take_nth 0 hk) -cats1 /total big_cat /= big_seq1.
by rewrite ltr_addl.
Qed.
Lemma resample_multi (p : priv) t d (ws : seq R) : distribution ws -> size ws = size (mc_los d) ->
  mc_cum d = cum_loop 0 ws -> mc_sized d -> (0 < size (mc_los d))%N ->
  (forall u k, 0 < u <= 1 -> (0 < k)%N -> 0 < root u k <= 1) -> unit_tape (pf_us p) ->
  pf_scheme p = MULTINOMIAL_RS ->
  exists xs p' d', [/\ pf_resample root (p, t, d) = Ok (true, (p', t, d')), size xs = size (mc_los d),
    mc_valid d', mc_los d' = equally_weighted R xs &
    forall i, (i < size xs)%N -> exists j x,
      [/\ at_ (mc_los d) j = Ok x, at_ xs i = Ok x.1 & 0 < nth 0 ws j]].
Proof.
move=> hd hs hc hz h0 hroot hus hsch; rewrite /pf_resample hsch.
set us := [seq pf_us p i | i <- iota 0 (size (mc_los d))].
have hsz : size us = size (mc_los d) by rewrite size_map size_iota.
have hne : us != [::] by rewrite -size_eq0 hsz -lt0n.
have hall : all (fun u => 0 < u <= 1) us by apply/allP => _ /mapP [i _ ->]; exact: hus.
have [ks [xs [-> hks hxs _ hq]]] := ripley_stale hroot hd hs hc hne hall.
rewrite /= mc_updUE ?hxs ?hsz //=.
exists xs; do 2 eexists; split; [by []|by rewrite hxs| | by [] |].
  by apply: valid_build; apply: equal_distr; rewrite hxs hsz.
move=> i; rewrite hxs => /hq [h1 [x [h2 h3]]]; exists (nth 0%N ks i), x; split=> //; exact: quantile_pos h1.
Qed.
Lemma at_map A B (f : A -> B) (l : seq A) j : at_ (map f l) j = (let! x := at_ l j in Ok (f x)).
Proof. by elim: l j => [|x l IH] [|j] //=. Qed.
Section Draws.
Hypothesis root01 : forall u k, 0 < u <= 1 -> (0 < k)%N -> 0 < root u k <= 1.

Theorem C37_multinomial (p : priv) t d : mc_valid d -> unit_tape (pf_us p) -> pf_scheme p = MULTINOMIAL_RS ->
  exists xs p' d', [/\ pf_resample root (p, t, d) = Ok (true, (p', t, d')), size xs = size (mc_los d),
    mc_valid d', mc_los d' = [seq (x, (size (mc_los d))%:R^-1) | x <- xs] &
    forall i, (i < size xs)%N -> exists j x,
      [/\ at_ (mc_los d) j = Ok x, at_ xs i = Ok x.1 & 0 < x.2]].
Proof.
move=> hv hu hs; have [hd _ _] := hv; have hz := mc_valid_sized hv.
have [xs [p' [d' [h1 h2 h3 h4 h5]]]] := resample_multi t hd (size_weights _) (mc_cumE hv) hz (mc_valid_nonempty hv) root01 hu hs.
exists xs, p', d'; split=> //; first by rewrite h4 /equally_weighted h2.
move=> i /h5 [j [x [e1 e2 e3]]]; exists j, x; split=> //.
have [hj e] := at_Ok x e1; move: e3; by rewrite (nth_map x) // -e.
Qed.
(** the dynamic filter *)
Theorem C37_dynamic hf c d hf' l : f_post hf = Ok d -> mc_valid d -> matched hf d ->
  sys_of c = None -> likelihood c l -> pf_scheme (fl_priv hf.2) = MULTINOMIAL_RS ->
  unit_tape (pf_us (fl_priv hf.2)) -> pf_call root hf c = Ok (true, hf') -> resamplings hf' <> resamplings hf ->
  exists xs d', [/\ f_post hf' = Ok d', size xs = size (mc_los d),
    mc_los d' = [seq (x, (size (mc_los d))%:R^-1) | x <- xs] &
    forall i, (i < size xs)%N -> exists j x,
      [/\ at_ (mc_los d) j = Ok x, at_ xs i = Ok x.1 & 0 < x.2 * l x.1]].
Proof.
move=> hd hv hm hs hl hsch hus hc hr; have [[hn _] _ _] := hv.
have [d' [h1 hnn _ [h2 [p2 [t2 [d2 [hv2 e1 [ec e2] [e3 _] e4]]]]]]] :=
  meas_flow hd hn (mc_valid_sized hv) (mc_valid_nonempty hv) hm hc hs hl.
have hsz : size (mc_los d2) = size (mc_los d) by rewrite e1 size_normalised size_map.
move: e4; rewrite /pf_dynamic; case: ifP => _; first by case=> e4; case: hr; rewrite /resamplings -e4.
case: ifP => _; last by case=> e4; case: hr; rewrite /resamplings -e4.
set p3 := PF _ _ _ _ _ _ _ _ _ _ _ _.
have hs3 : pf_scheme p3 = MULTINOMIAL_RS by move: ec; rewrite /config /= => -[_ _ _ ->].
have hu3 : unit_tape (pf_us p3) by rewrite /= e3.
have [xs [p4 [d4 [-> h4 h5 h6 h7]]]] := C37_multinomial t2 hv2 hu3 hs3; case=> _ _ ed; subst d4.
exists xs, d'; rewrite h4 hsz in h6 h7 *; split=> // i /h7 [j [x [f1 f2 f3]]].
have [hj e5] := at_Ok x f1; rewrite e1 size_normalised size_map in hj.
move: f1; rewrite e1 /normalised /scaled -map_comp at_map; case f4: (at_ _ _) => [y||] //= [ex]; subst x.
by exists j, y; split=> //; move: f3 => /=; rewrite pmulr_lgt0 // invr_gt0 -h2.
Qed.
End Draws.

(** every other scheme: nothing happens, success is reported *)
Lemma resample_other (p : priv) t d : pf_scheme p <> MULTINOMIAL_RS -> pf_uns p = [::] -> (0 < size (mc_los d))%N ->
  exists p', [/\ pf_resample root (p, t, d) = Ok (true, (p', t, d)), pf_uns p' = [::] &
    config p' = config p].
Proof.
move=> hs hu h0; rewrite /pf_resample; case hsch: (pf_scheme p) hs => // _; rewrite /= hu /mc_updU /=;
  rewrite eq_sym (gtn_eqF h0) /=; by eexists; split; rewrite // /config hsch.
Qed.

Lemma resample_uns st b st' : pf_scheme st.1.1 <> MULTINOMIAL_RS -> pf_resample root st = Ok (b, st') ->
  pf_uns st'.1.1 = pf_uns st.1.1.
Proof.
case: st => [[p t] d] /= hs h; case: (obindE h) => xs hx h2; case: (obindE h2) => -[? ?] _ [_ <-] /=.
by case: (pf_scheme p) hs hx => // _ [].
Qed.
Lemma static_uns st b st' : pf_scheme st.1.1 <> MULTINOMIAL_RS -> pf_static root st = Ok (b, st') ->
  pf_uns st'.1.1 = pf_uns st.1.1.
Proof.
by case: st => [[p t] d] hs; rewrite /pf_static; case: ifP => _; [exact: resample_uns|case=> _ <-].
Qed.
Lemma dynamic_uns st b st' : pf_scheme st.1.1 <> MULTINOMIAL_RS -> pf_dynamic root st = Ok (b, st') ->
  pf_uns st'.1.1 = pf_uns st.1.1.
Proof.
case: st => [[p t] d] hs; rewrite /pf_dynamic; case: ifP => _; first by case=> _ <-.
by case: ifP => _; [move=> h; rewrite (resample_uns _ h)|case=> _ <-].
Qed.
Lemma internal_uns os u om z s st b st' : pf_scheme st.1.1 <> MULTINOMIAL_RS ->
  pf_internal root os u (om : option pmeas) z s st = Ok (b, st') -> pf_uns st'.1.1 = pf_uns st.1.1.
Proof.
move=> hs h; case: (obindE h) => -[b1 st1] h1 h2 {h}.
have [e1 e2] : pf_uns st1.1.1 = pf_uns st.1.1 /\ config st1.1.1 = config st.1.1.
  case: os h1 {h2} => [m|]; last by case=> _ <-.
  move=> h; case: (obindE h) => -[a sa] ha hb; rewrite /also /= in ha hb.
  have [ea _ _ hca] := pf_static_track ha; rewrite ea in hb.
  rewrite -(static_uns hs ha) -hca; have [_ _ <-] := pf_proposal_track hb; split=> //.
  case: (sa) hb => [[p t] d] hb.
  by case: (obindE hb) => r _ h2; case: (obindE h2) => -[b' d'] hu [_ <-].
have hs1 : pf_scheme st1.1.1 <> MULTINOMIAL_RS by move: e2; rewrite /config => -[_ _ _ ->].
rewrite -e1; case: om h2 => [k|]; last by case=> _ <-.
move=> h; case: (obindE h) => -[a sa] ha hb {h}; rewrite /also /= in ha hb.
case: b1 h1 ha => h1 ha; last by case: ha hb => <- <- [_ <-].
have [_ _ eca] := pf_weights_track ha.
have ea : pf_uns sa.1.1 = pf_uns st1.1.1.
  case: (st1) ha => [[p t] d] ha.
  by case: (obindE ha) => r _ h2; case: (obindE h2) => -[b' d'] hu [_ <-].
case: a ha hb => ha; last by case=> _ <-.
by move=> hb; rewrite -ea; apply: dynamic_uns hb; move: eca; rewrite /config => -[_ _ _ ->].
Qed.
Lemma bf_internal_uns os u om z s st b st' : pf_scheme st.1.1 <> MULTINOMIAL_RS ->
  bf_internal root os u (om : option pmeas) z s st = Ok (b, st') -> pf_uns st'.1.1 = pf_uns st.1.1.
Proof.
move=> hs h; case: (obindE h) => -[b1 st1] h1 h2 {h}; case: (obindE h2) => -[b2 st2] h3 [/= _ <-] {h2}.
have [e1 e2] : pf_uns st1.1.1 = pf_uns st.1.1 /\ config st1.1.1 = config st.1.1.
  case: os h1 => [m|]; last by case=> _ <-.
  by case: st hs => [[p t] d] /= hs h; have [_ ->] := pf_internal_track h; rewrite (internal_uns _ h).
case: om h3 => [k|]; last by case=> _ <-.
by move=> h; rewrite (internal_uns _ h) //; move: e2; rewrite /config => -[_ _ _ ->].
Qed.
Definition inert hf : Prop := pf_scheme (fl_priv hf.2) <> MULTINOMIAL_RS /\ pf_uns (fl_priv hf.2) = [::].
Lemma run_inert junk q per thr sch us rs h p hf cs fl hf' :
  pf_new_filter junk q per thr sch us rs h p = Ok hf -> sch <> MULTINOMIAL_RS ->
  (runO (pf_call root) hf cs = Ok (fl, hf') \/ runO (bf_call root) hf cs = Ok (fl, hf')) -> inert hf'.
Proof.
move=> hn hsch; have [d0 [d1 [_ _ _ h0 [_ hp]]]] := new_filter hn.
have hi : inert hf by rewrite /inert hp.
have step call : (forall x c y, call x c = Ok y -> pf_call root x c = Ok y \/ bf_call root x c = Ok y) ->
    forall x c b y, inert x -> call x c = Ok (b, y) -> inert y.
  move=> hcall x c b y [hs hu] /hcall hc; have [_ ec _] := call_track hc; split.
    by move: ec; rewrite /config => -[_ _ _ ->].
  case: hc => hc; have := hc; rewrite /pf_call /bf_call f_call_parts => /f_update_inv [d [_ [_ [_ [hd _ _ _ _]]]]];
    have [d' [hin hd']] := call_inv hc hd.
    by have /= -> := internal_uns (st := state_of x d) hs hin.
  by have /= -> := bf_internal_uns (st := state_of x d) hs hin.
case=> hr; [have hs := step (pf_call root) | have hs := step (bf_call root)];
  exact: (runO_inv_any (hs (fun x c y hh => ltac:(by [left|right]))) hi hr).
Qed.
(** For the four other schemes "resampling" leaves the particles and weights
    alone, in every history, and success is reported. *)
Theorem C37_other_schemes_refuted junk q per thr sch us rs h p hf0 cs fl hf c l hf' d :
  pf_new_filter junk q per thr sch us rs h p = Ok hf0 -> sch <> MULTINOMIAL_RS -> all id fl ->
  (runO (pf_call root) hf0 cs = Ok (fl, hf) \/ runO (bf_call root) hf0 cs = Ok (fl, hf)) ->
  sys_of c = None -> likelihood c l -> pf_call root hf c = Ok (true, hf') -> f_post hf = Ok d ->
  exists2 d', f_post hf' = Ok d' & mc_los d' = normalised (scaled l (mc_los d)).
Proof.
move=> hn hsch hall hr hs hl hc hd; have [hsc hu] := run_inert hn hsch hr.
have [d0 [hd0 hv hm]] := C33_reachable hn hall hr; move: hd0; rewrite hd => -[e]; subst d0.
have [[hnn _] _ _] := hv.
have [d' [h1 _ _ [h2 [p2 [t2 [d2 [hv2 e1 [ec e2] [_ e3] e4]]]]]]] :=
  meas_flow hd hnn (mc_valid_sized hv) (mc_valid_nonempty hv) hm hc hs hl.
exists d' => //; rewrite -e1; move: e4; rewrite /pf_dynamic; case: ifP => _; first by case=> _ _ ->.
case: ifP => _; last by case=> _ _ ->.
set p3 := PF _ _ _ _ _ _ _ _ _ _ _ _.
have hs3 : pf_scheme p3 <> MULTINOMIAL_RS by move: ec; rewrite /config /= => -[_ _ _ ->].
have [|p4 [-> _ _]] := resample_other t2 hs3 _ (mc_valid_nonempty hv2); first by rewrite /= e3.
by case=> _ _ ->.
Qed.
Theorem C37_other_schemes_static_refuted junk q per thr sch us rs h p hf0 cs fl hf c b hf' d :
  pf_new_filter junk q per thr sch us rs h p = Ok hf0 -> sch <> MULTINOMIAL_RS -> all id fl ->
  (runO (pf_call root) hf0 cs = Ok (fl, hf) \/ runO (bf_call root) hf0 cs = Ok (fl, hf)) ->
  has_sys c -> meas_of c = None -> pf_call root hf c = Ok (b, hf') -> f_post hf = Ok d ->
  b = true /\ exists2 d', f_post hf' = Ok d' & weights (mc_los d') = weights (mc_los d).
Proof.
move=> hn hsch hall hr hs hk hc hd; have [hsc hu] := run_inert hn hsch hr.
have [d0 [hd0 hv [ho hnw]]] := C33_reachable hn hall hr; move: hd0; rewrite hd => -[e]; subst d0.
have [d' [hi hd']] := call_inv hc hd; move: hs hi; rewrite /has_sys hk; case: (sys_of c) => // m _ hi.
case: (obindE hi) => -[b1 sb] h1 [e1 e2] {hi}; subst b1; rewrite e2 /= in h1.
case: (obindE h1) => -[a sa] ha hb {h1}; rewrite /also /= in ha hb.
have [ea _ _ _] := pf_static_track ha; rewrite ea in hb ha.
have [p1 [e3 e4]] : exists p1, sa = (p1, fl_time hf.2, d) /\ size (pf_new p1) = size (mc_los d).
  move: ha; rewrite /pf_static; case: ifP => _; last by case=> <-; exists (fl_priv hf.2).
  move=> hre; case: (obindE hre) => xs hx h3; case: (obindE h3) => -[b' d1] hup [_ <-].
  have -> : d1 = d; last by eexists; split.
  have exs : xs = [::] by case: (pf_scheme _) hsc hx => // _ [<-].
  by move: hup; rewrite exs /mc_updU /= eq_sym (gtn_eqF (mc_valid_nonempty hv)) => -[].
rewrite e3 in hb; have [-> h1 h2 _ _] := proposal_step hv e4 hb.
by split=> //; exists d'.
Qed.

(** ** C39 *)
(** the bootstrap filter: system part, then measurement part, in any case *)
Lemma reweigh_input u (k : pmeas) z s (news olds : seq part) (q : option prop) :
  pf_reweigh None u k z s news olds q = pf_reweigh None None k z s news olds q.
Proof.
elim: news olds q => [|x news IH] [|o olds] q //=.
by rewrite /pf_factor; case: (match z with Some _ => _ | None => _ end) => [zz||] //=;
   case: (ml_query _ _ _ _) => [l||] //=; case: (mkProb _) => [l'||] //=; rewrite IH.
Qed.
Lemma internal_input u (k : pmeas) z s st : pf_internal root None u (Some k) z s st =
  pf_internal root None None (Some k) z s st.
Proof.
by case: st => [[p t] d]; rewrite /pf_internal /also /= /pf_weights /= reweigh_input.
Qed.
Theorem C40_bootstrap_both_steps hf c : bf_call root hf c =
  (let! r1 := bf_call root hf (system_only c) in
   match measurement_only c with
   | Some c' => let! r2 := bf_call root r1.2 c' in Ok (r2.1 && r1.1, r2.2)
   | None => Ok r1
   end).
Proof.
have main (sm : option psys) u (mm : option pmeas) (z : option Z) s : f_update (bf_internal root) hf sm u mm z s =
   (let! r1 := f_update (bf_internal root) hf sm u (None : option pmeas) None None in
    let! r2 := f_update (bf_internal root) r1.2 None None mm z s in Ok (r2.1 && r1.1, r2.2)).
  case: hf => h [p0 p1 t b]; rewrite /f_update /=; case hd: (h_get h p1) => [d||] //=.
  rewrite /bf_internal /=.
  case: sm => [m|] /=.
    rewrite [in LHS](_ : pf_internal root (Some m) u None z s _ = pf_internal root (Some m) u (None : option pmeas) None None
      (PF (ml_pdf m) (pf_sample b) (pf_old b) (pf_new b) (pf_uns b) (pf_dyn b) (pf_period b) (pf_thr b)
        (pf_scheme b) (pf_us b) (pf_rs b) (pf_nres b), t, d)) //.
    case: (pf_internal root (Some m) _ _ _ _ _) => [[b1 [[p2 t2] d2]]||] //=.
    have hl := h_get_lt hd; have [h1 hh1] := put_at (Some d2) hl; rewrite hh1 /=.
    have [-> _] /= := h_get_put hh1.
    case: mm => [k|] /=; last by rewrite (put_put _ hh1); case: (put_ _ _ _) => [?||] //=.
    rewrite internal_input.
    case: (pf_internal root None _ _ _ _ _) => [[b3 [[p3 t3] d3]]||] //=.
    by rewrite (put_put _ hh1); case: (put_ _ _ _) => [?||] //=; rewrite !andbT.
  have hl := h_get_lt hd; have [h1 hh1] := put_at (Some d) hl; rewrite hh1 /=.
  have [-> _] /= := h_get_put hh1.
  case: mm => [k|] /=; last by rewrite (put_put _ hh1); case: (put_ _ _ _) => [?||] //=.
  rewrite internal_input.
  case: (pf_internal root None _ _ _ _ _) => [[b3 [[p3 t3] d3]]||] //=.
  by rewrite (put_put _ hh1); case: (put_ _ _ _) => [?||] //=; rewrite !andbT.
rewrite /bf_call !f_callE; case: c => [sm u mm z s|sm mm z s|sm mm z|sm u mm z|sm u|sm|mm z s|mm z] /=.
all: try by rewrite main.
all: by case: (f_update _ _ _ _ _ _ _).
Qed.

Lemma bf_measures hf c : sys_of c = None -> has_meas c -> bf_call root hf c = pf_call root hf c.
Proof.
move=> hs; rewrite /bf_call /pf_call !f_call_parts hs /has_meas; case: (meas_of c) => // k _.
rewrite /f_update; case: (h_get _ _) => [d||] //=; rewrite /bf_internal /=.
by case: (pf_internal _ _ _ _ _ _ _) => [[b st]||] //=; rewrite andbT.
Qed.
Lemma bf_nothing hf c d : f_post hf = Ok d -> sys_of c = None -> meas_of c = None -> bf_call root hf c = Ok (true, hf).
Proof.
move=> hd hs hk; rewrite /bf_call f_call_parts hs hk /f_update -/(f_post hf) hd /=.
case: hf hd => h [p0 p1 t b] /=; rewrite /f_post /h_get /=; case ha: (at_ _ _) => [[x|]||] //= [e]; subst x.
by rewrite (put_same ha).
Qed.
Lemma parts_of c : [/\ sys_of (system_only c) = sys_of c, meas_of (system_only c) = None &
   if measurement_only c is Some c' then
     [/\ sys_of c' = None, meas_of c' = meas_of c, value_of c' = value_of c & param_of c' = param_of c]
   else meas_of c = None].
Proof. by case: c. Qed.

(** a bootstrap system update without resampling moves the particles and keeps
    their weights *)
Lemma bf_system hf c d hf' b : f_post hf = Ok d -> mc_valid d -> matched hf d -> meas_of c = None ->
  bf_call root hf c = Ok (b, hf') -> resamplings hf' = resamplings hf ->
  exists2 d', f_post hf' = Ok d' & [/\ b = true, mc_valid d', matched hf' d', weights (mc_los d') = weights (mc_los d) &
    (~~ has_sys c -> mc_los d' = mc_los d)].
Proof.
move=> hd hv hm hk hc hr; case hs: (has_sys c); last first.
  have hs' : sys_of c = None by move: hs; rewrite /has_sys; case: (sys_of c).
  by move: hc; rewrite (bf_nothing hd hs' hk) => -[<- e]; exists d; rewrite -e.
have [d' [hi hd']] := call_inv hc hd; move: hs hi; rewrite /has_sys hk; case: (sys_of c) => // m _ hi.
exists d' => //; case: (obindE hi) => -[b1 sb] h1 [e1 e2] {hi}; rewrite /= in e1; subst b1; rewrite /= e2 in h1.
set st0 := (PF _ _ _ _ _ _ _ _ _ _ _ _, fl_time hf.2, d) in h1.
case: (obindE h1) => -[b1 s1] h2 [e3 e4] {h1}; subst b1; rewrite e4 in h2.
case: (obindE h2) => -[a sa] ha hb {h2}; rewrite /also /= in ha hb.
have [ea _ hn _] := pf_static_track ha; rewrite ea in hb ha.
have [_ hn2 _] := pf_proposal_track hb.
have hidle : due st0.1.1 st0.1.2 = false.
  have : resamplings hf' = (resamplings hf + due st0.1.1 st0.1.2)%N by rewrite -[RHS]hn -hn2.
  by rewrite hr; case: (due _ _) => //= e; lia.
move: ha; rewrite pf_static_idle // => -[esa]; rewrite -esa in hb.
have hnw : size (pf_new st0.1.1) = size (mc_los d) by case: hm.
have [eb h1 h2 h3 _] := proposal_step hv hnw hb; split=> //.
have hfit : fitted (size (mc_los d)) st0 by case: hm.
by have [_ f1 f2 f3] := proposal_fitted hfit hb; rewrite /matched f1 f2 f3.
Qed.
Lemma bf_monotone hf c b hf' : bf_call root hf c = Ok (b, hf') -> (resamplings hf <= resamplings hf')%N.
Proof.
have main os u om z s st b1 st1 : pf_internal root os u (om : option pmeas) z s st = Ok (b1, st1) ->
    (pf_nres st.1.1 <= pf_nres st1.1.1)%N.
  move=> h; case: (obindE h) => -[b2 st2] h1 h2 {h}; apply: (@leq_trans (pf_nres st2.1.1)).
    case: os h1 {h2} => [m|]; last by case=> _ <-.
    move=> h; case: (obindE h) => -[a sa] ha hb; rewrite /also /= in ha hb.
    have [ea _ en _] := pf_static_track ha; rewrite ea in hb.
    by have [_ -> _] := pf_proposal_track hb; rewrite en leq_addr.
  case: om h2 => [k|]; last by case=> _ <-.
  move=> h; case: (obindE h) => -[a sa] ha hb {h}; rewrite /also /= in ha hb.
  case: b2 h1 ha => h1 ha; last by case: ha hb => <- <- [_ <-].
  have [_ <- _] := pf_weights_track ha; case: a ha hb => ha; last by case=> _ <-.
  by move=> hb; have [_ _ -> _] := pf_dynamic_track hb; rewrite leq_addr.
move=> hc; have := hc; rewrite /bf_call f_call_parts => /f_update_inv [d [_ [_ [_ [hd _ _ _ _]]]]].
have [d' [hi hd']] := call_inv hc hd; case: (obindE hi) => -[b1 st1] h1 h2 {hi}.
case: (obindE h2) => -[b2 st2] h3 [_ e] {h2}; rewrite /= in e h3.
have -> : resamplings hf' = pf_nres st2.1.1 by rewrite e.
apply: (@leq_trans (pf_nres st1.1.1)).
  by case: (sys_of c) h1 => [m|]; [move=> /= h; have := main _ _ _ _ _ _ _ _ h|case=> _ <-].
by case: (meas_of c) h3 => [k|]; [move=> h; have := main _ _ _ _ _ _ _ _ h|case=> _ <-].
Qed.
Lemma carried_same (f : T -> R) (l l1 : seq part) : weights l1 = weights l ->
  scaled f l1 = carried (fun xn _ => f xn) (values l1) l.
Proof.
rewrite /scaled /carried; elim: l1 l => [|x l1 IH] [|y l] //= [h1 h2].
by rewrite h1; congr (_ :: _); exact: IH.
Qed.
Lemma carried_one (f : T -> R) (l l1 : seq part) : weights l1 = weights l -> (forall x, f x = 1) ->
  carried (fun xn _ => f xn) (values l1) l = l1.
Proof.
rewrite /carried; move=> hw hf; elim: l1 l hw => [|[x w] l1 IH] [|y l] //= [h1 h2].
by rewrite hf mulr1 -h1 IH.
Qed.
(** one successful bootstrap update without resampling *)
Lemma bf_one hf c d hf' f : f_post hf = Ok d -> mc_valid d -> matched hf d -> gain c f ->
  bf_call root hf c = Ok (true, hf') -> resamplings hf' = resamplings hf ->
  exists xs d', [/\ f_post hf' = Ok d', mc_valid d' /\ matched hf' d', size xs = size (mc_los d),
    ~~ has_sys c -> xs = values (mc_los d) &
    0 < total (weights (carried (fun xn _ => f xn) xs (mc_los d))) /\
    mc_los d' = normalised (carried (fun xn _ => f xn) xs (mc_los d))].
Proof.
move=> hd hv hm hg hc hr; have hc0 := hc.
have [d' hd' [hv' hmt']] : exists2 d', f_post hf' = Ok d' & mc_valid d' /\ matched hf' d'.
  have [d' [hi hd']] := call_inv hc hd; exists d' => //.
  have hfit : fitted (size (mc_los d)) (state_of hf d) by case: hm.
  by have [h1 h2 h3 h4] := bf_fitted hfit hi; split=> //; split; rewrite ?h3 ?h4 h2.
move: hc; rewrite C40_bootstrap_both_steps; case: (parts_of c) => hs1 hk1.
case hc1: (bf_call root hf (system_only c)) => [[b1 hf1]||] //=.
case hmo: (measurement_only c) => [c'|] => hk2; last first.
  case=> e1 e2; subst b1 hf1; have [d1 hd1 [_ h1 h2 h3 h4]] := bf_system hd hv hm hk1 hc1 hr.
  move: hd1; rewrite hd' => -[e]; subst d1.
  have hf1 x : f x = 1 by move: hg; rewrite /gain /has_meas hk2; apply.
  have hsz : size (mc_los d') = size (mc_los d) by rewrite -size_weights h3 size_weights.
  have [[_ ht] _ _] := hv'.
  exists (values (mc_los d')), d'; rewrite (carried_one h3 hf1) normalised_id //; split=> //.
  - by rewrite size_map.
  - by move=> hns; rewrite h4 // /has_sys hs1.
  - by split=> //; rewrite ht ltr01.
have [hs2 hk3 hz hp] := hk2.
case hc2: (bf_call root hf1 c') => [[b2 hf2]||] //= [/andP [e1 e2] e3]; subst hf2; rewrite e1 in hc2; rewrite e2 in hc1.
have hm1 := bf_monotone hc1; have hm2 := bf_monotone hc2.
have hr1 : resamplings hf1 = resamplings hf by lia.
have hr2 : resamplings hf' = resamplings hf1 by lia.
have [d1 hd1 [_ hv1 hmt1 hw1 hst]] := bf_system hd hv hm hk1 hc1 hr1.
have hsz : size (mc_los d1) = size (mc_los d) by rewrite -size_weights hw1 size_weights.
have hst' : ~~ has_sys c -> mc_los d1 = mc_los d by move=> h; apply: hst; rewrite /has_sys hs1.
case hhm: (has_meas c); last first.
  have hk4 : meas_of c' = None by rewrite hk3; move: hhm; rewrite /has_meas; case: (meas_of c).
  move: hc2; rewrite (bf_nothing hd1 hs2 hk4) => -[e]; subst hf1.
  move: hd1; rewrite hd' => -[e]; subst d1.
  have hf1 x : f x = 1 by move: hg; rewrite /gain hhm; apply.
  have [[_ ht] _ _] := hv'.
  exists (values (mc_los d')), d'; rewrite (carried_one hw1 hf1) normalised_id //; split=> //.
  - by rewrite size_map.
  - by move=> hns; rewrite hst'.
  - by split=> //; rewrite ht ltr01.
have hl : likelihood c' f.
  by move: hg; rewrite /gain hhm => -[k [z [e5 e6 e7]]]; exists k, z; rewrite hk3 hz hp.
have hhm' : has_meas c' by rewrite /has_meas hk3.
rewrite bf_measures // in hc2.
have [d2 [hd2 eb el]] := C34_measurement hd1 hv1 hmt1 hs2 hl hc2 hr2.
move: hd2; rewrite hd' => -[e]; subst d2.
exists (values (mc_los d1)), d'; rewrite -(carried_same f hw1); split=> //.
- by rewrite size_map.
- by move=> hns; rewrite hst'.
Qed.

Lemma normalised_scale (l : seq part) (k : R) : k != 0 ->
  normalised [seq (x.1, x.2 / k) | x <- l] = normalised l.
Proof.
move=> hk; have ht : total (weights [seq (x.1, x.2 / k) | x <- l]) = total (weights l) / k.
  by rewrite /weights -map_comp /total !big_map -mulr_suml.
rewrite /normalised ht -map_comp; apply: eq_map => x /=; congr (_, _).
case: (total (weights l) =P 0) => [->|/eqP h]; first by rewrite mul0r invr0 !mulr0.
by field; rewrite hk h.
Qed.
Lemma product_cons x0 (l : seq part) f fs (xs : seq T) path : size xs = size l ->
  product_weights x0 l (f :: fs) (xs :: path) = product_weights x0 (carried (fun xn _ => f xn) xs l) fs path.
Proof.
move=> hs; rewrite /product_weights size_carried // /=; apply/eq_in_map => k; rewrite mem_iota /= add0n => hk.
have hv : values (carried (fun xn _ => f xn) xs l) = xs.
  by rewrite /values /carried -map_comp -[RHS](unzip1_zip (t := l)) ?hs.
rewrite hv; congr (_, _); rewrite big_cons /= mulrA; congr (_ * _).
rewrite /weights /carried -map_comp [RHS](nth_map (x0, (x0, 0))); last by rewrite size_zip hs minnn.
by rewrite nth_zip //= (nth_map (x0, 0)).
Qed.
Lemma product_scale x0 (l : seq part) fs path (k : R) :
  product_weights x0 [seq (x.1, x.2 / k) | x <- l] fs path = [seq (x.1, x.2 / k) | x <- product_weights x0 l fs path].
Proof.
rewrite /product_weights size_map -map_comp; apply/eq_in_map => i; rewrite mem_iota /= add0n => hi.
have -> : values [seq (x.1, x.2 / k) | x <- l] = values l by rewrite /values -map_comp.
congr (_, _); rewrite /weights -map_comp (nth_map (x0, 0)) // (nth_map (x0, 0)) //=; ring.
Qed.
(** Between resamplings the weight of a particle is proportional to its
    initial weight times the likelihoods along its trajectory. *)
Theorem C39_product hf d cs fs fl hf' x0 : f_post hf = Ok d -> mc_valid d -> matched hf d ->
  runO (bf_call root) hf cs = Ok (fl, hf') -> all id fl -> resamplings hf' = resamplings hf ->
  List.Forall2 (fun c f => gain c f) cs fs ->
  exists path d', [/\ f_post hf' = Ok d', stays (values (mc_los d)) cs path &
    mc_los d' = normalised (product_weights x0 (mc_los d) fs path)].
Proof.
elim: cs fs fl hf d => [|c cs IH] fs fl hf d hd hv hm /=.
  case=> _ <- _ _ hg; have -> : fs = [::] by inversion hg.
  exists [::], d; split=> //.
  rewrite /product_weights /=; have -> : [seq (nth x0 (values (mc_los d)) k, nth 0 (weights (mc_los d)) k *
      \prod_(j <- zip [::] [::]) (j : (T -> R) * seq T).1 (nth x0 j.2 k)) | k <- iota 0 (size (mc_los d))] = mc_los d.
    apply: (@eq_from_nth _ (x0, 0)); first by rewrite size_map size_iota.
    move=> i; rewrite size_map size_iota => hi; rewrite (nth_map 0%N) ?size_iota // nth_iota // add0n.
    by rewrite big_nil mulr1 /values /weights !(nth_map (x0, 0)) //; case: (nth _ _ _).
  by rewrite normalised_id //; case: hv => -[].
case hc: (bf_call root hf c) => [[b hf1]||] //=; case hr: (runO _ _ _) => [[fl' y]||] //= -[<- e]; subst y.
move=> /= /andP [hb hall] hres hg; rewrite hb in hc.
have [f [fs' [efs hg1 hg2]]] : exists f fs', [/\ fs = f :: fs', gain c f & List.Forall2 (fun c f => gain c f) cs fs'].
  by inversion hg; do 2 eexists; split; first by [].
have hmono : (resamplings hf1 <= resamplings hf')%N.
  elim: (cs) (fl') (hf1) hr {IH hg hg2 hres hc} => [|c1 cs1 IH] fl1 hf2 /=; first by case=> _ <-.
  case hc: (bf_call root hf2 c1) => [[b2 hf3]||] //=; case hr: (runO _ _ _) => [[fl2 y]||] //= -[_ e]; subst y.
  exact: leq_trans (bf_monotone hc) (IH _ _ hr).
have hmono1 := bf_monotone hc; have hr1 : resamplings hf1 = resamplings hf by lia.
have [xs [d1 [hd1 [hv1 hm1] hxs hstay [htp hl1]]]] := bf_one hd hv hm hg1 hc hr1.
have hr2 : resamplings hf' = resamplings hf1 by lia.
have [path [d' [hd' hst hl']]] := IH fs' fl' hf1 d1 hd1 hv1 hm1 hr hall hr2 hg2.
have hval : values (mc_los d1) = xs.
  by rewrite hl1 values_normalised /values /carried -map_comp -[RHS](unzip1_zip (t := mc_los d)) ?hxs.
exists (xs :: path), d'; split=> //=; first by split=> //; [rewrite size_map|rewrite -hval].
rewrite hl' efs product_cons // hl1 /normalised -/(normalised _) product_scale normalised_scale //.
exact: lt0r_neq0.
Qed.
(** two measurements commute and can be merged into one *)
Theorem C39_commute hf d c1 c2 l1 l2 hf1 hf12 hf2 hf21 :
  f_post hf = Ok d -> mc_valid d -> matched hf d -> sys_of c1 = None -> sys_of c2 = None ->
  likelihood c1 l1 -> likelihood c2 l2 ->
  pf_call root hf c1 = Ok (true, hf1) -> pf_call root hf1 c2 = Ok (true, hf12) ->
  pf_call root hf c2 = Ok (true, hf2) -> pf_call root hf2 c1 = Ok (true, hf21) ->
  resamplings hf1 = resamplings hf -> resamplings hf12 = resamplings hf ->
  resamplings hf2 = resamplings hf -> resamplings hf21 = resamplings hf ->
  exists d12 d21, [/\ f_post hf12 = Ok d12, f_post hf21 = Ok d21, mc_los d12 = mc_los d21 &
    mc_los d12 = normalised (scaled (fun x => l1 x * l2 x) (mc_los d))].
Proof.
have main (k1 k2 : pcall) m1 m2 g1 g12 : f_post hf = Ok d -> mc_valid d -> matched hf d -> sys_of k1 = None -> sys_of k2 = None ->
    likelihood k1 m1 -> likelihood k2 m2 ->
    pf_call root hf k1 = Ok (true, g1) -> pf_call root g1 k2 = Ok (true, g12) ->
    resamplings g1 = resamplings hf -> resamplings g12 = resamplings hf ->
    exists2 d12, f_post g12 = Ok d12 & mc_los d12 = normalised (scaled (fun x => m1 x * m2 x) (mc_los d)).
  move=> hd hv hm hs1 hs2 hl1 hl2 hc1 hc2 hr1 hr2.
  have [d1 [hd1 e1 el1]] := C34_measurement hd hv hm hs1 hl1 hc1 hr1.
  have hfit : fitted (size (mc_los d)) (state_of hf d) by case: hm.
  have [d1' [hi hd1']] := call_inv hc1 hd; move: hd1'; rewrite hd1 => -[e]; subst d1'.
  have [hv1 f1 f2 f3] := internal_fitted hfit hi.
  have hm1 : matched g1 d1 by split; rewrite /= in f1 f2 f3; rewrite ?f2 ?f3 f1.
  have hr3 : resamplings g12 = resamplings g1 by rewrite hr1.
  have [d2 [hd2 e2 el2]] := C34_measurement hd1 hv1 hm1 hs2 hl2 hc2 hr3.
  exists d2 => //; rewrite el2 el1 /=.
  have -> : scaled m2 (normalised (scaled m1 (mc_los d))) =
      [seq (x.1, x.2 / total (weights (scaled m1 (mc_los d)))) | x <- scaled (fun x => m1 x * m2 x) (mc_los d)].
    rewrite /scaled /normalised -!map_comp; apply: eq_map => x /=; congr (_, _); ring.
  by rewrite normalised_scale // lt0r_neq0 // -e1.
move=> hd hv hm hs1 hs2 hl1 hl2 hc1 hc12 hc2 hc21 r1 r12 r2 r21.
have [d12 h1 h2] := main _ _ _ _ _ _ hd hv hm hs1 hs2 hl1 hl2 hc1 hc12 r1 r12.
have [d21 h3 h4] := main _ _ _ _ _ _ hd hv hm hs2 hs1 hl2 hl1 hc2 hc21 r2 r21.
exists d12, d21; split=> //; rewrite h2 h4; congr normalised.
by apply: eq_map => x; rewrite (mulrC (l1 _)).
Qed.

(** the trajectories are those of the system model: particle [k] moves to a
    sample of the system pdf at its own old position and the given input *)
Definition arity (m : psys) (u : option T) (n : nat) : Prop :=
  (ml_noextra m = Some true /\ n = 1%N) \/ (ml_noextra m = Some false /\ n = 2%N /\ u <> None).
Lemma move_draws m u rs F (olds news : seq part) k (q : prop) smp r x : size news = size olds ->
  arity m u (size (cp_args q)) ->
  (forall y w, cp_samp q (sys_args m u y) DEFAULT w = Ok (Some (F y w))) ->
  pf_move m u rs olds news k (Some q) smp = Ok (r, x) ->
  values r = [seq F p.1.1 (rs p.2) | p <- zip olds (iota k (size olds))].
Proof.
elim: olds news k q smp r x => [|o olds IH] [|n news] //= k q smp r x; first by move=> _ _ _ [<- _].
case=> hs ha hF; case h0: (cp_arg_set _ _ _) => [c0||] //=; case h1: (pf_arg1 _ _ _) => [c1||] //=.
have s1 : same_pdf q c1 by apply: same_trans (arg1_same h1); exact: arg_set_same h0.
have eargs : cp_args c1 = sys_args m u o.1.
  move: h0 h1; rewrite /cp_arg_set /guard /pf_arg1 /ml_flag /sys_args.
  case: ha => [[-> e]|[-> [e hu]]]; rewrite e /=; case: (cp_args q) e => [|a [|a' []]] //= _ [<-] /=; first by case=> <-.
  case: u hu {hF IH} => // y _; rewrite /cp_arg_set /guard /= => -[<-] //.
have [e1 e2 e3] := s1.
rewrite eargs e2 hF /=; case: (guard _) => //= _.
case hr: (pf_move _ _ _ _ _ _ _ _) => [[r1 x1]||] //= -[<- _] /=; congr (_ :: _).
apply: IH hr => //; first by rewrite e3.
by move=> y w; rewrite e2.
Qed.
Theorem C39_moves hf c d hf' m q F b : f_post hf = Ok d -> mc_valid d -> matched hf d ->
  sys_of c = Some m -> meas_of c = None -> ml_pdf m = Some q -> arity m (input_of c) (size (cp_args q)) ->
  (forall y w, cp_samp q (sys_args m (input_of c) y) DEFAULT w = Ok (Some (F y w))) ->
  bf_call root hf c = Ok (b, hf') -> resamplings hf' = resamplings hf ->
  exists2 d', f_post hf' = Ok d' & mc_los d' =
    [seq (F x.1.1 (pf_rs (fl_priv hf.2) x.2), x.1.2) | x <- zip (mc_los d) (iota 0 (size (mc_los d)))].
Proof.
move=> hd hv hm hsm hk hpdf har hF hc hr; have [d1 hd1 [_ hv1 _ hw1 _]] := bf_system hd hv hm hk hc hr.
exists d1 => //.
have [d' [hi hd']] := call_inv hc hd; move: hd'; rewrite hd1 => -[e]; subst d'.
rewrite hsm hk in hi; case: (obindE hi) => -[b1 sb] h1 [_ e2] {hi}; rewrite /= e2 in h1.
set st0 := (PF _ _ _ _ _ _ _ _ _ _ _ _, fl_time hf.2, d) in h1.
case: (obindE h1) => -[b2 s1] h2 [_ e4] {h1}; rewrite e4 in h2.
case: (obindE h2) => -[a sa] ha hb {h2}; rewrite /also /= in ha hb.
have [ea _ hn _] := pf_static_track ha; rewrite ea in hb ha.
have [_ hn2 _] := pf_proposal_track hb.
have hidle : due st0.1.1 st0.1.2 = false.
  have : resamplings hf' = (resamplings hf + due st0.1.1 st0.1.2)%N by rewrite -[RHS]hn -hn2.
  by rewrite hr; case: (due _ _) => //= e; lia.
move: ha; rewrite pf_static_idle // => -[esa]; rewrite -esa in hb.
case: (obindE hb) => -[r x] hmv h3; case: (obindE h3) => -[b' d2] hu [_ _ _ ed] {hb h3}; rewrite /= in hmv hu ed; subst d2.
rewrite hpdf in hmv; have hnw : size (pf_new (fl_priv hf.2)) = size (mc_los d) by case: hm.
have hvr := move_draws hnw har hF hmv; have [hwr hnn] := pf_move_weights hnw hmv.
have [[_ ht] _ _] := hv.
have hsr : size r = size (mc_los d) by rewrite -size_weights hwr size_weights.
have hp : 0 < total (weights r) by rewrite hwr ht ltr01.
have hnr : nonneg (weights r) by rewrite hwr.
move: hu; rewrite (mc_updWE (mc_valid_sized hv) hsr hnr hp) => -[_ <-] /=; rewrite normalised_id ?hwr //.
elim: (mc_los d) r (0%N) hvr hwr {hmv hnn hsr hnr hp har hF hnw} => [|o l IH] [|y r] k //= [h1 h2] [h3 h4].
by rewrite -(IH r k.+1) // -h1 -h3; case: (y).
Qed.

(** ** C40: failure *)
Theorem C40_all_zero hf c d b hf' l : f_post hf = Ok d -> mc_valid d -> matched hf d ->
  sys_of c = None -> likelihood c l -> (forall x, List.In x (mc_los d) -> x.2 * l x.1 = 0) ->
  (pf_call root hf c = Ok (b, hf') \/ bf_call root hf c = Ok (b, hf')) ->
  b = false /\ exists2 d', f_post hf' = Ok d' & weights (mc_los d') = nseq (size (mc_los d)) 0.
Proof.
move=> hd hv hm hs hl h0 hc.
have {}hc : pf_call root hf c = Ok (b, hf').
  by case: hc => // hc; rewrite -bf_measures //; case: hl => k [z [hk _ _]]; rewrite /has_meas hk.
have [[hn _] _ _] := hv.
have [d' [h1 _ _ [h2 h3]]] := meas_flow hd hn (mc_valid_sized hv) (mc_valid_nonempty hv) hm hc hs hl.
have hz : weights (scaled l (mc_los d)) = nseq (size (mc_los d)) 0.
  elim: (mc_los d) h0 {h1 h2 h3} => //= x xs IH h0; rewrite /weights /= h0; last by left.
  by congr (_ :: _); apply: IH => y hy; apply: h0; right.
have ht : total (weights (scaled l (mc_los d))) = 0.
  by rewrite hz /total; elim: (size _) => [|n IH] /=; rewrite ?big_nil // big_cons add0r IH.
rewrite ht ltxx in h2; subst b; split=> //; exists d' => //.
by case: h3 => -> _ _ _.
Qed.

Section Dead.
Hypothesis root01 : forall u k, 0 < u <= 1 -> (0 < k)%N -> 0 < root u k <= 1.
(** all weights are zero *)
Definition zeroed n st : Prop := weights (mc_los st.2) = nseq n 0.
Lemma total_zero n : total (nseq n (0 : R)) = 0.
Proof. by elim: n => [|n IH] /=; rewrite ?total_nil // total_cons IH addr0. Qed.
Lemma proposal_zeroed n m u st b st' : alive n st -> zeroed n st -> pf_proposal m u st = Ok (b, st') ->
  b = false /\ zeroed n st'.
Proof.
case: st => [[p t] d] hal hz h; case: (hal) => /= -[hn h0] hnn hw [ho hne] hus; rewrite /zeroed /= in hz.
case: (obindE h) => -[r x] hm h2; case: (obindE h2) => -[b' d'] hu [<- <-] {h h2}; rewrite /zeroed /= in hm hu *.
have hs : size (pf_new p) = size (mc_los d) by rewrite hne hn.
have [hwr _] := pf_move_weights hs hm.
have hsr : size r = size (mc_los d) by rewrite -size_weights hwr size_weights.
have hnr : nonneg (weights r) by rewrite hwr.
have hl0 : (0 < size (mc_los d))%N by rewrite hn.
have [eb hb] := updW_cases (alive_sized hal) hl0 hsr hnr hu.
rewrite hwr hz total_zero ltxx in eb; subst b'; by case: hb => -> _; rewrite hwr.
Qed.
Lemma reweigh_zeroed os u (k : pmeas) z s n (news olds : seq part) (q : option prop) r x :
  weights news = nseq n 0 -> pf_reweigh os u k z s news olds q = Ok (r, x) -> weights r = nseq n 0.
Proof.
elim: news olds q n r x => [|y news IH] [|o olds] q [|n] r x //=; last 1 first.
all: try by move=> _ h; case: h => <- _.
case=> h1 h2; case: (pf_factor _ _ _ _ _ _ _ _) => [f||] //=; case: (guard _) => //= _.
case hr: (pf_reweigh _ _ _ _ _ _ _ _) => [[r1 x1]||] //= -[<- _] /=.
by rewrite h1 mul0r (IH _ _ _ _ _ h2 hr).
Qed.
Lemma weights_zeroed n os u (k : pmeas) z s st b st' : alive n st -> zeroed n st ->
  pf_weights os u k z s st = Ok (b, st') -> b = false /\ zeroed n st'.
Proof.
case: st => [[p t] d] hal hz h; case: (hal) => /= -[hn h0] hnn hw [ho hne] hus; rewrite /zeroed /= in hz.
case: (obindE h) => -[r x] hm h2; case: (obindE h2) => -[b' d'] hu [<- <-] {h h2}; rewrite /zeroed /= in hm hu *.
have hwr := reweigh_zeroed hz hm.
have hnr : nonneg (weights r) by rewrite hwr /nonneg; elim: (n) => //= i ->; rewrite lexx.
have hl0 : (0 < size (mc_los d))%N by rewrite hn.
have [eb hb] := updW_cases (alive_sized hal) hl0 (updW_fits hu) hnr hu.
rewrite hwr total_zero ltxx in eb; subst b'; by case: hb => -> _; rewrite hwr.
Qed.
Lemma internal_zeroed n os u om z s st b st' : alive n st -> zeroed n st ->
  (os <> None -> due st.1.1 st.1.2 = false) -> os <> None \/ om <> None ->
  pf_internal root os u (om : option pmeas) z s st = Ok (b, st') -> b = false /\ zeroed n st'.
Proof.
case: st => [[p t] d] hal hz hdue hor h; case: (obindE h) => -[b1 st1] h1 h2 {h}.
case: os h1 h2 hdue hor => [m|] h1 h2 hdue hor.
  case: (obindE h1) => -[a sa] ha hb {h1}; rewrite /also /= in ha hb.
  move: ha; rewrite pf_static_idle; last by apply: hdue.
  case=> ea esa; subst a sa; have [eb hz1] := proposal_zeroed hal hz hb; subst b1.
  by case: om h2 {hor} => [k|]; rewrite /also /= => -[<- <-].
case: h1 => eb es; subst b1 st1; case: om h2 hor => [k|] h2 hor; last by case: hor.
rewrite /also /= in h2; case: (obindE h2) => -[a sa] ha hb {h2}.
by have [ea hz1] := weights_zeroed hal hz ha; subst a; case: hb => <- <-.
Qed.
Definition dead n hf : Prop := exists2 d, f_post hf = Ok d & alive n (state_of hf d) /\ zeroed n (state_of hf d).
(** Once all weights are zero, every later update of a filter that is not just
    about to resample fails and leaves all weights zero; for dynamic filters
    this means for ever. *)
Theorem C40_stuck n hf c : dead n hf -> fine_call c ->
  (forall m, sys_of c = Some m -> accepts (pf_prop (fl_priv hf.2)) m) -> has_sys c || has_meas c ->
  (has_sys c -> dynamic hf \/ ~~ (`|period hf|%N %| f_time hf)%N \/ f_time hf = 0%N) ->
  exists2 hf', pf_call root hf c = Ok (false, hf') & dead n hf'.
Proof.
move=> [d hd [hal hz]] [hf1 hf2] hacc hor hidle.
have [m hm|k hk|b [[[p' t'] d'] [hi hal' hkept _]]] := @pf_internal_alive _ _ _ _ _ root root01 n
    (sys_of c) (input_of c) (meas_of c) (value_of c) (param_of c) _ hal.
- by have [h1 h2] := hf1 m hm; split=> //; exact: hacc.
- by have [h1 h2] := hf2 k hk; split=> //; exact: value_given hk.
have [||eb hz'] := internal_zeroed hal hz _ _ hi.
- move=> hs; have hs' : has_sys c by rewrite /has_sys; case: (sys_of c) hs.
  rewrite /due -/(dynamic hf) -/(period hf) -/(f_time hf).
  by case: (hidle hs') => [->|[/negbTE ->|->]] //=; rewrite !andbF.
- by move: hor; rewrite /has_sys /has_meas; case: (sys_of c) => [m|]; [left|case: (meas_of c) => // k; right].
subst b; have [hf' [e1 [d1 hd1 hal1] e2]] := live_call hd hi hal'; exists hf' => //; exists d1 => //; split=> //.
have [d2 [hi2 hd2]] := call_inv e1 hd; move: hd2; rewrite hd1 => -[e]; subst d2.
by move: hi2; rewrite hi => -[_ _ ed]; rewrite -ed.
Qed.
(** a whole later history of a dynamic filter *)
Theorem C40_stuck_forever n hf cs : dead n hf -> dynamic hf ->
  (forall c, List.In c cs -> fine_call c /\ has_sys c || has_meas c) ->
  (forall c m, List.In c cs -> sys_of c = Some m -> accepts (pf_prop (fl_priv hf.2)) m) ->
  exists2 hf', runO (pf_call root) hf cs = Ok (nseq (size cs) false, hf') & dead n hf'.
Proof.
move=> hdead hdyn hfine hacc; elim: cs hf hdead hdyn hfine hacc => [|c cs IH] hf hdead hdyn hfine hacc /=.
  by exists hf.
have [hf1 hor] : fine_call c /\ has_sys c || has_meas c by case: (hfine c (or_introl erefl)).
have [|hf2 e1 hdead2] := C40_stuck hdead hf1 (fun m => hacc c m (or_introl erefl)) hor; first by left.
have [_ ec _] := call_track (or_introl e1).
have hdyn2 : dynamic hf2 by move: ec; rewrite /config /dynamic => -[-> _ _ _].
have [c1 h1|c1 m h1 hm1|hf3 e3 hd3] := IH hf2 hdead2 hdyn2.
- by apply: hfine; right.
- have hacc1 := hacc c1 m (or_intror h1) hm1; case: hdead => d hd [hal hz].
  have [d' [hi hd']] := call_inv e1 hd.
  have [m0 hm0|k hk|b [st' [hi2 _ hkept _]]] := @pf_internal_alive _ _ _ _ _ root root01 n
    (sys_of c) (input_of c) (meas_of c) (value_of c) (param_of c) _ hal.
  + by have [q1 q2] := hf1.1 m0 hm0; split=> //; exact: (hacc c m0 (or_introl erefl) hm0).
  + by have [q1 q2] := hf1.2 k hk; split=> //; exact: value_given hk.
  by move: hi; rewrite hi2 => -[_ est]; subst st'; exact: (kept_accepts hkept hacc1).
by exists hf3 => //; rewrite e1 /= e3.
Qed.
(** ... but a filter with static resampling comes back to life: the resampling
    step draws from the cumulative table of the last good update, and the next
    system update succeeds *)
Theorem C40_static_revival_refuted n hf c : dead n hf -> fine_call c ->
  (forall m, sys_of c = Some m -> accepts (pf_prop (fl_priv hf.2)) m) -> has_sys c -> meas_of c = None ->
  ~~ dynamic hf -> (`|period hf|%N %| f_time hf)%N -> (0 < f_time hf)%N ->
  pf_scheme (fl_priv hf.2) = MULTINOMIAL_RS ->
  exists hf' d', [/\ pf_call root hf c = Ok (true, hf'), f_post hf' = Ok d', mc_valid d' &
    weights (mc_los d') = nseq n n%:R^-1].
Proof.
move=> [d hd [hal hz]] [hf1 _] hacc hs hk hdyn hper ht hsch.
have [m hsm] : exists m, sys_of c = Some m by move: hs; rewrite /has_sys; case: (sys_of c) => [m|] //; exists m.
have [m' hm'|k|b [[[p' t'] d'] [hi hal' _ _]]] := @pf_internal_alive _ _ _ _ _ root root01 n
    (sys_of c) (input_of c) (meas_of c) (value_of c) (param_of c) _ hal.
- by have [h1 h2] := hf1 m' hm'; split=> //; exact: hacc.
- by rewrite hk.
have [hf' [e1 [d1 hd1 hal1] e2]] := live_call hd hi hal'.
have [d2 [hi2 hd2]] := call_inv e1 hd; move: hd2; rewrite hd1 => -[e]; subst d2.
rewrite hsm hk in hi2; case: (obindE hi2) => -[b1 sb] h1 [eb es] {hi2}; rewrite eb es in h1.
case: (obindE h1) => -[a sa] ha hb {h1}; rewrite /also /= in ha hb.
have [ea _ _ _] := pf_static_track ha; rewrite ea in hb ha.
move: ha; rewrite /pf_static -/(dynamic hf) hdyn -/(period hf) -/(f_time hf) hper -lt0n ht /= => ha.
have hsz := alive_sized hal; case: (hal) => /= -[hn h0] hnn [ws hw [hws hcum]] [ho hne] hus.
have hl0 : (0 < size (mc_los d))%N by rewrite hn.
have hws' : size ws = size (mc_los d) by rewrite hws hn.
have [xs [p2 [d2 [er hxs hv2 hl2 _]]]] := resample_multi (fl_time hf.2) hw hws' hcum hsz hl0 root01 hus hsch.
have esa : sa = (p2, fl_time hf.2, d2) by move: ha; rewrite er => -[].
have en2 : size (pf_new p2) = size (mc_los d2).
  move: er => hre; case: (obindE hre) => ys hx h3; case: (obindE h3) => -[b' d3] hup [_ <- _] /=.
  by rewrite hne hl2 size_map hxs hn.
rewrite esa in hb; have [eb2 hv3 hw3 _ _] := proposal_step hv2 en2 hb.
exists hf', d1; split=> //; first by rewrite /pf_call e1 -eb2 -eb.
by move: hw3 => /= ->; rewrite hl2 weights_equal hxs hn.
Qed.
End Dead.
End Properties.

(** ** Concrete cases *)
Section Examples.
Let q (a b : nat) : rat := a%:R / b%:R.
Notation Q := [realFieldType of rat].
Let rt (u : rat) (k : nat) : rat := u.
Notation sysm := (psys Q nat nat).
Notation measm := (pmeas Q nat nat nat).
(** states 0, 1; system pdf 1/2, 1/2; proposal 1/4, 3/4; sampler: add the draw *)
Let a (xn xo : nat) : rat := q 1 2.
Let g (xn xo : nat) : rat := if xn == 0%N then q 1 4 else q 3 4.
Let l (x : nat) : rat := if x == 0%N then q 1 4 else q 1 2.
Let spdf : cpdf Q nat nat nat := CPdf [:: 7]%N
  (fun args y => if args is [:: x] then Ok (a y x) else UB)
  (fun args _ r => Ok (Some ((r + head 0 args) %% 2)%N)).
Let ppdf : cpdf Q nat nat nat := CPdf [:: 7]%N
  (fun args y => if args is [:: x] then Ok (g y x) else UB)
  (fun args _ r => Ok (Some ((r + head 0 args) %% 2)%N)).
Let sys : sysm := Mdl (Some true) (Some spdf).
Let mpdf : cpdf Q nat nat nat := CPdf [:: 7]%N
  (fun args z => if args is [:: x] then Ok (if z == 0%N then l x else 0) else UB) (fun _ _ _ => Ok None).
Let mpdf2 : cpdf Q nat nat nat := CPdf [:: 7; 7]%N
  (fun args z => if args is [:: x; s] then Ok (if z == 0%N then l x else 0) else UB) (fun _ _ _ => Ok None).
Let meas : measm := Mdl (Some true) (Some mpdf).
Let meas2 : measm := Mdl (Some false) (Some mpdf2).
Notation pcallQ := (call sysm measm nat nat).
Let cm : pcallQ := Update_mz _ _ (Some meas) 0%N.
Let cz : pcallQ := Update_mz _ _ (Some meas) 1%N.
Let cs : pcallQ := Update_s _ _ _ (Some sys).
Let csm : pcallQ := Update_smz _ (Some sys) (Some meas) 0%N.
Let csm2 : pcallQ := Update_smzs (Some sys) (Some meas2) 0%N 5%N.
Let prior : mcpdf Q nat := MC [:: (0%N, q 1 2); (1%N, q 1 2)] [:: 0; q 1 2; 1] 1.
Let new per thr sch := pf_new_filter (5%N, 0) (Some ppdf) per thr sch (fun _ => q 1 4) (fun _ => 0%N) [:: Some prior] 0%N.
Let newb per thr sch := bf_new_filter (5%N, 0) per thr sch (fun _ => q 1 4) (fun _ => 0%N) [:: Some prior] 0%N.
Notation pfilterQ := (heap (mcpdf Q nat) * filt (pfpriv Q nat nat))%type.
Notation callfun := (pfilterQ -> pcallQ -> outcome (bool * pfilterQ)).
(** flags, weights and values, time step, number of resamplings *)
Let run (o : outcome pfilterQ) (call : callfun) cs : seq bool * seq (nat * rat) * nat * nat :=
  match o with
  | Ok hf => match runO call hf cs with
             | Ok (fl, hf') => match f_post hf' with
                               | Ok d => (fl, mc_los d, f_time hf', resamplings hf')
                               | _ => ([::], [::], 9, 9)%N end
             | _ => ([::], [::], 9, 9)%N end
  | _ => ([::], [::], 9, 9)%N end.
Notation pf := (pf_call rt).
Notation bf := (bf_call rt).
Example C33_fine_example : [/\ fine_call cm, fine_call csm, fine_call csm2, accepts (Some ppdf) sys & unit_tape (fun _ => q 1 4)].
Proof.
have ht c n : size (cp_args c) = n -> (forall args y, size args = n -> exists2 p, cp_prob c args y = Ok p & 0 <= p) ->
   (forall args m r, size args = n -> exists o, cp_samp c args m r = Ok o) -> total_pdf (c : cpdf Q nat nat nat).
  by move=> e h1 h2; split; rewrite e.
have hs : total_pdf spdf by apply: (ht _ 1%N) => // [[|x []] // y _|x m r _]; [exists (q 1 2)|eexists].
have hp : total_pdf ppdf.
  by apply: (ht _ 1%N) => // [[|x []] // y _|x m r _]; [exists (g y x) => //; rewrite /g; case: ifP|eexists].
have hm : total_pdf mpdf.
  apply: (ht _ 1%N) => // [[|x []] // y _|x m r _]; last by exists None.
  by exists (if y == 0%N then l x else 0) => //; case: ifP => // _; rewrite /l; case: ifP.
have hm2 : total_pdf mpdf2.
  apply: (ht _ 2%N) => // [[|x [|s []]] // y _|x m r _]; last by exists None.
  by exists (if y == 0%N then l x else 0) => //; case: ifP => // _; rewrite /l; case: ifP.
have p1 : proper sys by exists spdf, true.
have p2 : proper meas by exists mpdf, true.
have p3 : proper meas2 by exists mpdf2, false.
split; first by split=> // k [<-]; split=> //; left.
- by split=> k [<-]; split=> //; left.
- by split=> k [<-]; split=> //; [left|right].
- by exists ppdf.
- by move=> i; apply/andP; split; vm_compute.
Qed.
Example C34_example : [/\ likelihood cm l, likelihood csm l, transition csm a, plain_sensor csm & pdens ppdf sys None g].
Proof.
have hl : dens meas 0%N None l.
  exists mpdf; split=> //; left; do 2 split=> //; by move=> x; split=> //; rewrite /l; case: ifP.
split=> //; [by exists meas, 0%N|by exists meas, 0%N| | by left; do 2 split=> //; move=> x y; split=> //; rewrite /g; case: ifP].
by exists sys => // y; exists spdf; split=> //; left.
Qed.
Example C34_measurement_example :
  run (new 5 0 MULTINOMIAL_RS) pf [:: cm] == ([:: true], [:: (0%N, q 1 3); (1%N, q 2 3)], 0, 0)%N.
Proof. by vm_compute. Qed.
(** importance weights 1/4 * (1/2)/(1/4) and 1/2 * (1/2)/(3/4) *)
Example C34_system_example :
  run (new 5 0 MULTINOMIAL_RS) pf [:: csm] == ([:: true], [:: (0%N, q 3 5); (1%N, q 2 5)], 1, 0)%N.
Proof. by vm_compute. Qed.
(** the same densities with a sensor parameter: different weights *)
Example C35_example : [/\ likelihood csm2 l, ~~ plain_sensor csm2 &
  run (new 5 0 MULTINOMIAL_RS) pf [:: csm2] == ([:: true], [:: (0%N, q 1 3); (1%N, q 2 3)], 1, 0)%N].
Proof.
split=> //; exists meas2, 0%N; split=> //; exists mpdf2; split=> //; right; do 2 split=> //.
by exists 5%N => // x; split=> //; rewrite /l; case: ifP.
Qed.
(** period 2: resampling at the start of the third system update; the draws
    (1/4)^(1/2) and (1/4)^(3/2) are replaced by [rt] *)
Example C36_static_example :
  run (new 2 0 MULTINOMIAL_RS) pf [:: cm; cs; cm; cs] ==
     ([:: true; true; true; true], [:: (0%N, q 1 5); (1%N, q 4 5)], 2, 0)%N /\
  (run (new 2 0 MULTINOMIAL_RS) pf [:: cm; cs; cm; cs; cs]).2 = 1%N.
Proof. by split; vm_compute. Qed.
(** effective sample size 9/5 *)
Example C36_dynamic_example :
  (run (new 0 (q 7 4) MULTINOMIAL_RS) pf [:: cm]).2 = 0%N /\ (run (new 0 2%:R MULTINOMIAL_RS) pf [:: cm]).2 = 1%N.
Proof. by split; vm_compute. Qed.
Example C37_example :
  run (new 0 2%:R MULTINOMIAL_RS) pf [:: cm] == ([:: true], [:: (0%N, q 1 2); (0%N, q 1 2)], 0, 1)%N /\
  run (new 0 2%:R SYSTEMATIC_RS) pf [:: cm] == ([:: true], [:: (0%N, q 1 3); (1%N, q 2 3)], 0, 1)%N.
Proof. by split; vm_compute. Qed.
Example C38_example : (run (newb 5 0 MULTINOMIAL_RS) bf [:: cs; cm; csm; cs]).1.2 = 3%N.
Proof. by vm_compute. Qed.
Example C39_example :
  run (newb 5 0 MULTINOMIAL_RS) bf [:: csm; cm] == ([:: true; true], [:: (0%N, q 1 5); (1%N, q 4 5)], 1, 0)%N /\
  product_weights 9%N (mc_los prior) [:: l; l] [:: [:: 0; 1]; [:: 0; 1]]%N == [:: (0%N, q 1 32); (1%N, q 1 8)].
Proof. by split; [vm_compute|rewrite /product_weights unlock; vm_compute]. Qed.
(** all weights zero for a measurement of likelihood 0; a dynamic filter stays
    there, a static one is revived by the resampling before its second system
    update *)
Example C40_example :
  run (new 0 2%:R MULTINOMIAL_RS) pf [:: cz; cm; csm] ==
    ([:: false; false; false], [:: (0%N, q 0 1); (1%N, q 0 1)], 1, 0)%N /\
  run (new 1 0 MULTINOMIAL_RS) pf [:: cs; cz; cm; cs] ==
    ([:: true; false; false; true], [:: (0%N, q 1 2); (0%N, q 1 2)], 2, 1)%N.
Proof. by split; vm_compute. Qed.
End Examples.

Print Assumptions C33_particle.
Print Assumptions C33_bootstrap.
Print Assumptions C33_particle_safe.
Print Assumptions C33_bootstrap_safe.
Print Assumptions C33_reachable.
Print Assumptions C34_measurement.
Print Assumptions C34_system.
Print Assumptions C35_parameters_refuted.
Print Assumptions C36_policy.
Print Assumptions C36_static.
Print Assumptions C36_static_run.
Print Assumptions C36_dynamic_measurement.
Print Assumptions C36_dynamic_system.
Print Assumptions C36_dynamic_prediction.
Print Assumptions C36_ess.
Print Assumptions C36_thresholds.
Print Assumptions C38_timestep.
Print Assumptions C37_multinomial.
Print Assumptions C37_dynamic.
Print Assumptions C37_other_schemes_refuted.
Print Assumptions C37_other_schemes_static_refuted.
Print Assumptions C40_bootstrap_both_steps.
Print Assumptions C39_product.
Print Assumptions C39_commute.
Print Assumptions C39_moves.
Print Assumptions C40_all_zero.
Print Assumptions C40_stuck.
Print Assumptions C40_stuck_forever.
Print Assumptions C40_static_revival_refuted.
