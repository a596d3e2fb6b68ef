(** * Extended Kalman particle filter with a working sampler: C75, C76 *)
From mathcomp Require Import all_ssreflect all_algebra zify ring.
From Verif Require Import Outcome OrdLra Simulation SpecProb ModelTables ProofsTables ModelMatrix ModelDiscretePdf ModelMCPdf SpecMCPdf ProofsMCPdf
  ModelMoments ModelFilter ProofsFilter ModelKalman ProofsKalman ModelGauss ModelProposal SpecProposal PropertiesProposal ModelEKPF SpecEKPF PropertiesEKPF.
Set Implicit Arguments. Unset Strict Implicit. Unset Printing Implicit Defensive.
Import Order.TTheory GRing.Theory Num.Theory.
Local Open Scope ring_scope.

Section Step.
Variables (R : realFieldType) (n : nat).
Hypothesis n0 : (0 < n)%N.
Notation vecn := 'cV[R]_n.
Notation part := (vecn * R)%type.
Notation asys := (asys R (meas R) n).
Notation ameas := (ameas R (meas R) n).
Variable root : R -> nat -> R.
Variable draw : fpd R n -> (nat -> R) -> outcome (option vecn * fpd R n).
Variable pprob : fpd R n -> vecn -> outcome (R * fpd R n).
Variable dsys : asys -> vecn -> vecn -> option (meas R) -> outcome R.
Variable dmeas : ameas -> meas R -> vecn -> option (meas R) -> outcome R.
Variables (sam : gauss R n -> (nat -> R) -> vecn) (dn : gauss R n -> vecn -> R).

(** the sampler and the density depend only on the Gaussian that the proposal
    stands for, and leave the settings alone *)
Definition samples : Prop := forall f p zz r, agree f p -> p_sized p -> draw f zz = Ok r ->
  exists g, [/\ proposal p = Ok g, r.1 = Some (sam g zz) & agree r.2 p].
Definition evaluates : Prop := forall f p x r, agree f p -> p_sized p -> pprob f x = Ok r ->
  exists g, [/\ proposal p = Ok g, r.1 = dn g x & agree r.2 p].
Hypothesis Hs : samples.
Hypothesis He : evaluates.

Section Models.
Variables (a : asys) (u : option (meas R)) (am : ameas) (z s : option (meas R)).
Definition conf args cov : prop R n := Prop_ true (Some a) (Some am) (nargs_s a + nargs_m am)%N args cov.
Definition the_args (x : vecn) : outcome (seq (meas R)) :=
  let! us := (if am_noextra a then Ok [::] else let! u := need u in Ok [:: u]) in
  let! z := need z in
  let! ss := (if am_noextra (projT2 am) then Ok [::] else let! s := need s in Ok [:: s]) in
  Ok (existT _ n x :: us ++ z :: ss).
Lemma args_size x l : the_args x = Ok l -> size l = (nargs_s a + nargs_m am)%N.
Proof.
rewrite /the_args /nargs_s /nargs_m; case: (am_noextra a) => /=; last case: u => //= u'.
  by case: z => //= z'; case: (am_noextra _) => /=; last case: s => //= s'; case=> <-.
by case: z => //= z'; case: (am_noextra _) => /=; last case: s => //= s'; case=> <-.
Qed.
Lemma proposal_conf x l P : the_args x = Ok l -> proposal (conf l (Some P)) = ekf_step a u am z s x P.
Proof.
rewrite /the_args /proposal /arg /proposal_call /ekf_step /conf /arg /nargs_s /nargs_m /=.
case: (am_noextra a) => /=; last case: u => //= u'.
  case: z => //= z'; case: (am_noextra _) => /=; last case: s => //= s'; by case=> <- /=; rewrite meas_castE.
case: z => //= z'; case: (am_noextra _) => /=; last case: s => //= s'; by case=> <- /=; rewrite meas_castE.
Qed.
Lemma cov_ref f l c P f' : agree f (conf l c) -> fp_cov_set f P = Ok f' -> agree f' (conf l (Some P)).
Proof. by move=> h e; have /= := exec_ref (FCov P) n0 h; rewrite e /= => -[]. Qed.
Lemma arg_set_ref f l c i v f' : agree f (conf l c) -> fp_arg_set f i v = Ok f' ->
  (i < size l)%N /\ agree f' (conf (set_nth v l i v) c).
Proof.
move=> h e; have /= := exec_ref (FArg i v) n0 h; rewrite e /=; case: ifP => // _.
case: (ltnP i (size l)) => hi; last by rewrite put_UB.
by rewrite (put_set_nth v) //= => -[].
Qed.
Lemma args_ref x f l c f' : agree f (conf l c) -> size l = (nargs_s a + nargs_m am)%N ->
  ek_args a u am z s x f = Ok f' -> exists2 l', the_args x = Ok l' & agree f' (conf l' c).
Proof.
rewrite /ek_args /the_args /nargs_s /nargs_m => h hl.
case h0: (fp_arg_set f 0 _) => [f0||] //=; have [_ {}h] := arg_set_ref h h0.
case: (am_noextra a) hl => /= hl.
  case: z => //= z'; case h1: (fp_arg_set f0 1 _) => [f1||] //=; have [_ {}h] := arg_set_ref h h1.
  case: (am_noextra _) hl => /= hl.
    by case=> <-; eexists; first reflexivity; case: l hl h => [|x0 [|x1 [|x2 l]]].
  case: s => //= s' h2; have [_ {}h] := arg_set_ref h h2.
  by eexists; first reflexivity; case: l hl h => [|x0 [|x1 [|x2 [|x3 l]]]].
case: u => //= u'; case h1: (fp_arg_set f0 1 _) => [f1||] //=; have [_ {}h] := arg_set_ref h h1.
case: z => //= z'; case h2: (fp_arg_set f1 2 _) => [f2||] //=; have [_ {}h] := arg_set_ref h h2.
case: (am_noextra _) hl => /= hl.
  by case=> <-; eexists; first reflexivity; case: l hl h => [|x0 [|x1 [|x2 [|x3 l]]]].
case: s => //= s' h3; have [_ {}h] := arg_set_ref h h3.
by eexists; first reflexivity; case: l hl h => [|x0 [|x1 [|x2 [|x3 [|x4 l]]]]].
Qed.

(** *** the proposal step *)
Lemma covar_ref (f : fpd R n) p r : agree f p -> fp_covar f = Ok r -> exists g, [/\ proposal p = Ok g, r.1 = g_cov g & agree r.2 p].
Proof.
move=> h e; have /= := exec_ref FCovQ n0 h; rewrite e /=; case: (proposal p) => [g||] //= [[e1] h1].
by exists g.
Qed.
Lemma move_ref zs olds news covs k f smp l c r : agree f (conf l c) -> size l = (nargs_s a + nargs_m am)%N ->
  size news = size olds -> size covs = size olds ->
  ek_move draw a u am z s zs olds news covs k f smp = Ok r ->
  exists gs, [/\ mapO (fun x => ekf_step a u am z s x.1.1 x.2) (zip olds covs) = Ok gs,
    r.1.1 = [seq (sam x.1.1 (zs x.1.2), x.2) | x <- zip (zip gs (iota k (size olds))) (weights olds)],
    r.1.2 = map (@g_cov R n) gs, nonneg (weights olds) &
    if olds is [::] then r.2.1 = f else exists x' l', the_args x' = Ok l' /\ agree r.2.1 (conf l' (Some (last 0 covs)))].
Proof.
elim: olds news covs k f smp l c r => [|o olds IH] news covs k f smp l c r hf hl /=.
  by case: news => // _; case: covs => // _ [<-] /=; exists [::].
case: news => // x news [hn]; case: covs => // P covs [hc].
case h1: (fp_cov_set f P) => [f1||] //=; have {}h1 := cov_ref hf h1.
case h2: (ek_args a u am z s o.1 f1) => [f2||] //=; have [l' hl' {}h2] := args_ref h1 hl h2.
case h3: (draw f2 (zs k)) => [d||] //=; have [g [hg hd {}h3]] := Hs h2 isT h3.
rewrite /guard; case: ifP => //= ho.
case h4: (fp_covar d.2) => [q||] //=; have [g' [hg' hq {}h4]] := covar_ref h3 h4.
move: hg'; rewrite hg => -[eg]; subst g'.
case h5: (ek_move _ _ _ _ _ _ _ _ _ _ _ _ _) => [w||] //= [<-] /=.
have [gs [i1 i2 i3 i4 i5]] := IH _ _ _ _ _ _ _ _ h4 (args_size hl') hn hc h5.
exists (g :: gs); rewrite -(proposal_conf P hl') hg /= i1 i2 i3 hd hq.
split=> //; first by rewrite /nonneg /= ho.
case: (olds) hc i5 => [|o2 ol] hc i5; last by case: covs hc i5 {IH h5 i1}.
by case: covs hc {IH h5 i1} => // _; exists o.1, l'; rewrite i5.
Qed.

(** *** the weights *)
Lemma set_arg0 x l x' : the_args x = Ok l -> the_args x' = Ok (set_nth (existT _ n x') l 0 (existT _ n x')).
Proof.
rewrite /the_args; case: (if am_noextra a then _ else _) => [us||] //=; case: z => //= z'.
by case: (if am_noextra (projT2 am) then _ else _) => [ss||] //= [<-].
Qed.
Lemma set_arg1 x l w : ~~ am_noextra a -> u = Some w -> the_args x = Ok l -> set_nth w l 1 w = l.
Proof.
rewrite /the_args => /negbTE -> -> /=; case: z => //= z'.
by case: (if am_noextra (projT2 am) then _ else _) => [ss||] //= [<-].
Qed.
Lemma factor_ref f x l P xnew xold r : agree f (conf l (Some P)) -> the_args x = Ok l ->
  ek_factor pprob dsys dmeas a u am z s f xnew xold = Ok r ->
  factor dn dsys dmeas a u am z s P xnew xold = Ok r.1 /\
  exists l', the_args xold = Ok l' /\ agree r.2 (conf l' (Some P)).
Proof.
rewrite /ek_factor /factor; case ez: z => [z'|] //= hf hl; rewrite -ez.
case h1: (fp_arg_set f 0 _) => [f1||] //=; have [_ {}h1] := arg_set_ref hf h1.
have {}hl := set_arg0 xold hl; set l1 := set_nth _ _ _ _ in h1 hl.
case: (am_noextra (projT2 am)); last first.
  case: s => //= s'; case: (dmeas _ _ _ _) => //= v; case: (mkProb v) => //= v' [<-] /=; split=> //.
  by exists l1.
case: (dmeas _ _ _ _) => //= v; case: (mkProb v) => //= v'.
case ha: (am_noextra a) => /=; last case eu: u => [w|] //=; last case h2: (fp_arg_set f1 1 w) => [f2||] //=;
  last have {}h1 : agree f2 (conf l1 (Some P)) by have [_] := arg_set_ref h1 h2; rewrite (set_arg1 (negbT ha) eu hl).
all: case h4: (pprob _ xnew) => [q||] //=; have [g [hg hq {}h4]] := He h1 isT h4.
all: rewrite -?eu -(proposal_conf P hl) hg /= hq; case: eqP => [_|_] /=; first by case=> <- /=; split=> //; exists l1.
all: case: (dsys _ _ _ _) => //= y; case: (mkProb y) => //= y'.
all: case h5: (pprob _ xnew) => [q2||] //=; have [g2 [hg2 hq2 {}h5]] := He h4 isT h5.
all: move: hg2; rewrite hg => -[eg]; rewrite -eg in hq2; case=> <- /=; rewrite hq2; split=> //; by exists l1.
Qed.
Lemma reweigh_ref news olds f l x P r : agree f (conf l (Some P)) -> the_args x = Ok l ->
  (size news <= size olds)%N -> ek_reweigh pprob dsys dmeas a u am z s news olds f = Ok r ->
  exists fs, [/\ mapO (fun x => factor dn dsys dmeas a u am z s P x.1.1 x.2.1) (zip news olds) = Ok fs,
    r.1 = [seq (x.1.1, x.1.2 * x.2) | x <- zip news fs], nonneg (weights r.1) &
    exists x' l', the_args x' = Ok l' /\ agree r.2 (conf l' (Some P))].
Proof.
elim: news olds f l x r => [|w news IH] olds f l x r hf hl /=.
  by case: olds => [|o olds] _ [<-]; exists [::]; split=> //; exists x, l.
case: olds => // o olds hsz.
case h1: (ek_factor _ _ _ _ _ _ _ _ _ _ _) => [v||] //=; have [e1 [l1 [hl1 h2]]] := factor_ref hf hl h1.
rewrite /guard; case: ifP => //= h0; case h3: (ek_reweigh _ _ _ _ _ _ _ _ _ _ _) => [q||] //= [<-] /=.
have [fs [i1 i2 i3 i4]] := IH _ _ _ _ _ h2 hl1 hsz h3.
by exists (v.1 :: fs); rewrite e1 /= i1 /= -i2; split=> //; rewrite /nonneg /= h0.
Qed.
End Models.

(** ** The invariant of all histories *)
Implicit Types (p : ekpriv R n) (d : mcpdf R vecn).
Record einv d0 p d : Prop := EInv {
  ei_fits : fits p d; ei_new : size (ek_new p) = size (mc_los d); ei_size : size (mc_los d) = size (mc_los d0);
  ei_bold : ek_bold p = mc_los d0; ei_sized : mc_sized d;
  ei_fp : exists2 q, agree (ek_fp p) q & size (p_args q) = p_nargs q }.
Definition dead d : Prop := all (fun x : part => x.2 == 0) (mc_los d).

Lemma num_set_size (l : seq (meas R)) num k : size l = num -> size (fp_num_set l num k) = k.
Proof.
move=> hl; rewrite /fp_num_set; case: eqP => [->//|_] /=; rewrite size_cat size_nseq size_take hl.
by case: ltnP => h; lia.
Qed.
Lemma set_ref a am f q f1 f2 : agree f q -> size (p_args q) = p_nargs q ->
  fp_sys_set f (Some a) = Ok f1 -> fp_meas_set f1 (Some am) = Ok f2 ->
  exists l c, agree f2 (conf a am l c) /\ size l = (nargs_s a + nargs_m am)%N.
Proof.
move=> h hl e1 e2.
have := exec_ref (FSys (Some a)) n0 h; rewrite {1}/fp_exec e1 /p_exec /= => -[_].
set q1 := count_args _ _ _ => h1.
have [s1 z1] : p_sys q1 = Some a /\ size (p_args q1) = p_nargs q1.
  by rewrite /q1 /count_args; case: (both _ _) => [k|] //=; split=> //; apply: num_set_size.
have b1 : p_sized q1 by rewrite /q1 /count_args; case: (both _ _).
have := exec_ref (FMeas (Some am)) n0 h1; rewrite {1}/fp_exec e2 /p_exec /= s1 /count_args /= b1 => -[_] h2.
by exists (fp_num_set (p_args q1) (p_nargs q1) (nargs_s a + nargs_m am)), (p_cov q1); split=> //; apply: num_set_size.
Qed.

Lemma scan_size k (us : seq R) i rest l : scan_many k us i rest = Ok l -> size l = size us.
Proof.
elim: us i rest l => [|x us IH] i rest l /=; first by case=> <-.
by case: (scan _ _ _ _) => [r||] //=; case h: (scan_many _ _ _ _) => [l'||] //= [<-] /=; rewrite (IH _ _ _ h).
Qed.
Lemma before_all (A : Type) (P : pred A) l pos xs : all P l -> mapO (ek_before l) pos = Ok xs -> all P xs.
Proof.
move=> hl; elim: pos xs => [|k pos IH] xs /=; first by case=> <-.
case h: (ek_before l k) => [x||] //=; case: (mapO _ _) IH => [ys||] //= IH [<-] /=; rewrite (IH ys) // andbT.
case: k h => //= k h; have [hk ->] := at_Ok x h.
by apply: (all_nthP x).
Qed.
Lemma overwriteE A (old new r : seq A) : size old = size new -> overwrite old new = Ok r -> r = new.
Proof. by move=> e; rewrite overwrite_full // => -[]. Qed.
Lemma resample_inv d0 p t d b p' t' d' : einv d0 p d -> ek_resample root (p, t, d) = Ok (b, (p', t', d')) ->
  [/\ einv d0 p' d', t' = t & dead d -> dead d'].
Proof.
case=> -[f1 f2 f3 f4] h2 h3 h4 h5 h6; rewrite /ek_resample; case: ifP => // hg.
case hs: (scan_many _ _ _ _) => [pos||] //=; have := scan_size hs; rewrite size_ripley size_map size_iota => hp.
case hx: (mapO _ _) => [xs||] //=; have sx := mapO_size hx.
case hc: (mapO _ _) => [cs||] //=; have sc := mapO_size hc.
case ho: (overwrite (ek_res p) xs) => [res||] //=; have {ho}er : res = xs by apply: overwriteE ho; rewrite f4 sx hp.
case ho: (overwrite (ek_tmp p) cs) => [tmp||] //=; have {ho}et : tmp = cs by apply: overwriteE ho; rewrite f3 sc hp.
case he: (mc_updW d res) => [[b1 d1]||] //= [_ <- <- <-]; have [u1 u2 u3 u4 u5] := updW_out he.
split=> //.
  by split=> //=; rewrite ?u2 //; [split=> //=; rewrite ?u2 ?et ?er // ?sc ?sx hp|exact: u3].
move=> hd; rewrite /dead u4; have := before_all hd hx; rewrite -er => hall.
by case: ifP => // _; rewrite /normalised all_map; apply/allP => x /(allP hall) /= /eqP ->; rewrite mul0r.
Qed.

Definition settings p := (ek_dyn p, ek_period p, ek_thr p, ek_us p).
Definition moved (gs : seq (gauss R n)) (zs : nat -> nat -> R) : seq vecn := [seq sam x.1 (zs x.2) | x <- zip gs (iota 0 (size gs))].
Lemma normalised_weights (l : seq part) : weights (normalised l) = [seq w / total (weights l) | w <- weights l].
Proof. by rewrite /normalised /weights -!map_comp. Qed.
Lemma normalised_values (l : seq part) : map fst (normalised l) = map fst l.
Proof. by rewrite /normalised -map_comp. Qed.
Lemma weights_zip (ys : seq vecn) (ws : seq R) : size ys = size ws -> weights (zip ys ws) = ws.
Proof. by move=> h; rewrite /weights -/(unzip2 _) unzip2_zip // h. Qed.

Lemma proposal_inv d0 p t d a u am z s l c b p' t' d' : einv d0 p d -> (0 < size (mc_los d0))%N ->
  agree (ek_fp p) (conf a am l c) -> size l = (nargs_s a + nargs_m am)%N ->
  ek_proposal draw a u am z s (p, t, d) = Ok (b, (p', t', d')) ->
  exists gs, [/\ mapO (fun x => ekf_step a u am z s x.1.1 x.2) (zip (mc_los d) (ek_cov p)) = Ok gs,
    mc_los d' = (let m := zip (moved gs (ek_zs p)) (weights (mc_los d)) in if b then normalised m else m),
    b = (0 < total (weights (mc_los d))), ek_cov p' = map (@g_cov R n) gs &
    [/\ einv d0 p' d', t' = t.+1, settings p' = settings p, ek_zs p' = (fun i => ek_zs p (size (mc_los d) + i)%N) & exists x l', the_args a u am z s x = Ok l' /\
        agree (ek_fp p') (conf a am l' (Some (last 0 (ek_cov p))))]].
Proof.
case=> -[f1 f2 f3 f4] h2 h3 h4 h5 _ hN hf hl; rewrite /ek_proposal.
case hm: (ek_move _ _ _ _ _ _ _ _ _ _ _ _ _) => [r||] //=.
have [gs [i1 i2 i3 i4 i5]] := move_ref hf hl h2 f2 hm.
have sg : size gs = size (mc_los d) by rewrite (mapO_size i1) size_zip f2 minnn.
have e2 : r.1.1 = zip (moved gs (ek_zs p)) (weights (mc_los d)).
  rewrite i2 /moved sg; move: (zip gs _) (weights _) => A B.
  by elim: A B => [|x A IH] [|y B] //=; rewrite IH.
case he: (mc_updW d r.1.1) => [[b' d1]||] //= [<- <- <- <-]; have [u1 u2 u3 u4 u5] := updW_out he.
have sr : size r.1.1 = size (mc_los d) by rewrite u1.
exists gs; rewrite -e2; split=> //.
  rewrite u5 e2 weights_zip ?u1 -?e2 ?sr -?h3 ?gtn_eqF ?orbF ?h3 //.
  by rewrite /moved size_map size_zip size_iota minnn size_weights.
split=> //=.
  split=> //=; rewrite ?u2 //; last 1 first.
  - case: (mc_los d) i5 h3 hN => [|o os] i5; first by move=> <-.
    by move=> _ _; have [x' [l' [hl' ha]]] := i5; eexists; [exact: ha|exact: args_size hl'].
  - by split=> //=; rewrite ?u2 ?i3 ?size_map.
  by exact: u3.
by case: (mc_los d) i5 h3 hN => [|o os] i5 // <-.
Qed.
Lemma weights_inv d0 p t d a u am z s l x P b p' t' d' : einv d0 p d -> (0 < size (mc_los d0))%N ->
  the_args a u am z s x = Ok l -> agree (ek_fp p) (conf a am l (Some P)) ->
  ek_weights pprob dsys dmeas a u am z s (p, t, d) = Ok (b, (p', t', d')) ->
  exists fs, [/\ mapO (fun x => factor dn dsys dmeas a u am z s P x.1.1 x.2.1) (zip (mc_los d) (mc_los d0)) = Ok fs,
    mc_los d' = (let m := [seq (x.1.1, x.1.2 * x.2) | x <- zip (mc_los d) fs] in if b then normalised m else m),
    b = (0 < total [seq x.1.2 * x.2 | x <- zip (mc_los d) fs]), ek_cov p' = ek_cov p &
    [/\ einv d0 p' d', t' = t, settings p' = settings p, ek_zs p' = ek_zs p & b -> mc_valid d']].
Proof.
case=> -[f1 f2 f3 f4] h2 h3 h4 h5 _ hN hl hf; rewrite /ek_weights h4.
case hm: (ek_reweigh _ _ _ _ _ _ _ _ _ _ _) => [r||] //=.
have [|fs [i1 i2 i3 i4]] := reweigh_ref hf hl _ hm; first by rewrite h3.
case he: (mc_updW d r.1) => [[b' d1]||] //= [<- <- <- <-]; have [u1 u2 u3 u4 u5] := updW_out he.
exists fs; rewrite -i2; split=> //.
  rewrite u5 u1 h3 gtn_eqF // orbF i2; congr (0 < total _); by rewrite /weights -map_comp.
split=> //.
  split=> //=; rewrite ?u2 //; [by split=> //=; rewrite ?u2|exact: u3|].
  by have [x' [l' [hl' ha]]] := i4; eexists; [exact: ha|exact: args_size hl'].
move=> hb; have ht : 0 < total (weights r.1) by move: hb; rewrite u5 u1 h3 gtn_eqF // orbF.
by move: he; rewrite mc_updWE // => -[_ <-]; apply: valid_build; apply: normalised_distr.
Qed.

(** no resampling at this step *)
Definition quiet p (t : nat) : bool := ~~ ek_dyn p && ~~ ((`|ek_period p|%N %| t)%N && (t != 0%N)).
Notation internal := (ek_internal root draw pprob dsys dmeas).
Lemma with_inv d0 p d f q : einv d0 p d -> agree f q -> size (p_args q) = p_nargs q -> einv d0 (ek_with f p) d.
Proof. by case=> *; split=> //; exists q. Qed.
Lemma dead_mul (l : seq part) (fs : seq R) : all (fun x => x.2 == 0) l ->
  all (fun x : part => x.2 == 0) [seq (x.1.1, x.1.2 * x.2) | x <- zip l fs].
Proof. by elim: l fs => [|x l IH] [|y fs] //= /andP [/eqP -> /IH ->]; rewrite mul0r eqxx. Qed.
Lemma dead_total (l : seq part) : all (fun x => x.2 == 0) l -> total (weights l) = 0.
Proof. by elim: l => [|x l IH] /=; rewrite /weights ?total_nil //= => /andP [/eqP h /IH]; rewrite total_cons h add0r. Qed.
Lemma dead_zip (ys : seq vecn) (l : seq part) : all (fun x => x.2 == 0) l ->
  all (fun x : part => x.2 == 0) (zip ys (weights l)).
Proof. by elim: l ys => [|x l IH] [|y ys] //= /andP [/eqP -> /IH ->]; rewrite eqxx. Qed.
Lemma dynamic_inv d0 p t d r : einv d0 p d -> ek_dynamic root (p, t, d) = Ok r ->
  [/\ einv d0 r.2.1.1 r.2.2, r.2.1.2 = t, dead d -> dead r.2.2 & ~~ ek_dyn p -> r.2 = (p, t, d)].
Proof.
move=> h; rewrite /ek_dynamic; case: ifP => [hd|/negbFE hd]; first by case=> <-.
set p1 := EK _ _ _ _ _ _ _ _ _ _ _ _ _ _.
have h1 : einv d0 p1 d by case: h => -[*]; split=> //; split.
case: ifP => _; last by case=> <-; split=> //=; rewrite hd.
by case: r => b [[p2 t2] d2] /(resample_inv h1) [*]; split=> //=; rewrite hd.
Qed.
Lemma static_inv d0 p t d r : einv d0 p d -> ek_static root (p, t, d) = Ok r ->
  [/\ einv d0 r.2.1.1 r.2.2, r.2.1.2 = t, dead d -> dead r.2.2, ek_fp r.2.1.1 = ek_fp p & quiet p t -> r.2 = (p, t, d)].
Proof.
move=> h; rewrite /ek_static /quiet; case: ifP => [/and3P [-> -> ->]|_]; last by case=> <-.
move=> hr; split=> //; move: hr; case: r => b [[p2 t2] d2] hr; have [] := resample_inv h hr => //= *.
move: hr; rewrite /ek_resample; case: ifP => // _; case: (scan_many _ _ _ _) => //= pos.
by do 5!case: (X in obind X) => //= ?; case=> _ <-.
Qed.

Lemma internal_step d0 p t d sm u mm z s b st : einv d0 p d -> (0 < size (mc_los d0))%N ->
  internal sm u mm z s (p, t, d) = Ok (b, st) ->
  [/\ einv d0 st.1.1 st.2, st.1.2 = t.+1, dead d -> dead st.2 /\ b = false & exists a am, [/\ sm = Some a, mm = Some am &
    mc_valid d -> quiet p t -> exists gs fs, let m := zip (moved gs (ek_zs p)) (weights (mc_los d)) in
      let m' := [seq (x.1.1, x.1.2 * x.2) | x <- zip m fs] in
      [/\ mapO (fun x => ekf_step a u am z s x.1.1 x.2) (zip (mc_los d) (ek_cov p)) = Ok gs,
          mapO (fun x => factor dn dsys dmeas a u am z s (last 0 (ek_cov p)) x.1.1 x.2.1) (zip m (mc_los d0)) = Ok fs,
          b = (0 < total (weights m')), mc_los st.2 = (if b then normalised m' else m') /\ (b -> mc_valid st.2) &
          [/\ ek_cov st.1.1 = map (@g_cov R n) gs, settings st.1.1 = settings p &
              ek_zs st.1.1 = fun i => ek_zs p (size (mc_los d) + i)%N]]]].
Proof.
move=> hi hN h; cbv beta iota delta [ek_internal] in h; case: (obind_Ok h) => f1 h1 {}h; case: (obind_Ok h) => f2 h2 {}h.
case: sm h1 h => [a|] h1 h //; case: mm h2 h => [am|] h2 h //.
have [q hq sq] := ei_fp hi; have [l [c [hf hl]]] := set_ref hq sq h1 h2.
have hi1 : einv d0 (ek_with f2 p) d by apply: with_inv hf _.
case: (obind_Ok h) => r1 h3 {}h; have [i1 i2 i3 i4 i5] := static_inv hi1 h3.
case: r1 h3 i1 i2 i3 i4 i5 h => b1 [[p1 t1] d1] h3 i1 i2 i3 i4 i5 h; rewrite /= in i1 i2 i3 i4 i5; subst t1.
case: (obind_Ok h) => a' [<-] {}h; case: (obind_Ok h) => am' [<-] {}h.
case: (obind_Ok h) => -[b2 [[p2 t2] d2]] h4 {}h.
rewrite -[f2]/(ek_fp (ek_with f2 p)) -i4 in hf.
have [gs [j1 j2 j3 j4 [j5 j6 j7 j8 [x [l' [hl' hf']]]]]] := proposal_inv i1 hN hf hl h4.
case: (obind_Ok h) => -[b3 [[p3 t3] d3]] h5 {}h.
have [fs [k1 k2 k3 k4 [k5 k6 k7 k8 k9]]] := weights_inv j5 hN hl' hf' h5.
case: (obind_Ok h) => r4 h6; case=> <- <-; have [m1 m2 m3 m4] := dynamic_inv k5 h6.
split=> //; first by rewrite m2 k6 j6.
- move=> /i3 hd1; have t0 := dead_total hd1; have e2 : b2 = false by rewrite j3 t0 ltxx.
  rewrite e2 andbF; split=> //; apply: m3; rewrite /dead k2.
  have hd2 : dead d2 by rewrite /dead j2 e2; apply: dead_zip.
  have hd3 := dead_mul fs hd2.
  cbv zeta; case: ifP => // _; rewrite /normalised all_map; apply/allP => y /(allP hd3) /= /eqP ->; by rewrite mul0r.
exists a, am; split=> // hv hqt; have [ep ed] : p1 = ek_with f2 p /\ d1 = d by case: (i5 hqt).
subst p1 d1; have [[hv1 hv2] _ _] := hv.
have e2 : b2 by rewrite j3 hv2 ltr01.
have sg : size gs = size (mc_los d) by rewrite (mapO_size j1) size_zip /=; case: (ei_fits hi) => _ -> _ _; rewrite minnn.
have em : mc_los d2 = zip (moved gs (ek_zs p)) (weights (mc_los d)).
  rewrite j2 e2 /= /normalised weights_zip ?hv2; last by rewrite /moved size_map size_zip size_iota minnn size_weights.
  by rewrite -[RHS]map_id; apply: eq_map => -[y w] /=; rewrite divr1.
exists gs, fs => m m'; rewrite em -/m in k1 k2 k3; rewrite e2 andbT.
have hd4 : ~~ ek_dyn p by case/andP: hqt.
have em4 : r4.2 = (p3, t3, d3) by apply: m4; move: k7 j7; rewrite /settings => -[-> _ _ _] [-> _ _ _].
rewrite em4 /= k4 j4; split=> //; first by rewrite k3 /m' /weights -map_comp.
by rewrite k7 j7 k8 j8.
Qed.

(** ** Histories *)
Notation call := (ek_call_with root draw pprob dsys dmeas).
Definition hinv d0 (hf : heap (mcpdf R vecn) * filt (ekpriv R n)) : Prop :=
  (0 < size (mc_los d0))%N /\ exists2 d, f_post hf = Ok d & einv d0 (fl_priv hf.2) d.
Lemma call_inv hf c b hf' : call hf c = Ok (b, hf') -> exists d d', let: (sm, u, mm, z, s) := routed c in
  [/\ f_post hf = Ok d, f_post hf' = Ok d' & internal sm u mm z s (fl_priv hf.2, fl_time hf.2, d) =
      Ok (b, (fl_priv hf'.2, fl_time hf'.2, d'))].
Proof.
rewrite /ek_call_with f_callE; case: (routed c) => [[[[sm u] mm] z] s] /= h.
by have [d [p [t [d' [h1 h2 h3 h4 _]]]]] := f_update_inv h; exists d, d'; rewrite h4.
Qed.
Lemma step_inv d0 hf c b hf' : hinv d0 hf -> call hf c = Ok (b, hf') -> hinv d0 hf'.
Proof.
case=> hN [d hd hi] h; split=> //; have [d1 [d2]] := call_inv h; case: (routed c) => [[[[sm u] mm] z] s] [h1 h2 h3].
by move: h1 h3; rewrite hd => -[<-] h3; exists d2 => //; have [] := internal_step hi hN h3.
Qed.
Lemma copyE junk d0 d1 : ek_copy junk d0 = Ok d1 ->
  [/\ (0 < size (mc_los d0))%N, d1 = MC (normalised (mc_los d0)) (cum_loop 0 (weights (normalised (mc_los d0)))) 1 & mc_valid d1].
Proof.
rewrite /ek_copy; case h: (mc_setW _ _ _) => [[b d2]||] //=; case: b h => //= h [<-].
have [h1 h2] := normalize_true_nonneg h; move: h; rewrite mc_setWE //; last first.
  exact: mc_new_sized.
case=> <-; split=> //; last by apply: valid_build; apply: normalised_distr.
by case: (mc_los d0) h2 => //; rewrite total_nil ltxx.
Qed.
Lemma newE junk g per thr us zs h q d0 h1 fl : h_get h q = Ok d0 ->
  ek_new_filter junk g per thr us zs h q = Ok (h1, fl) -> exists d1 p, [/\ ek_copy junk d0 = Ok d1,
    f_post (h1, fl) = Ok d1, fl_priv fl = p, ek_init junk g per thr us zs d0 = Ok p & fl_time fl = 0%N].
Proof.
move=> hd; rewrite /ek_new_filter /f_new hd /=; case hc: (ek_copy junk d0) => [d1||] //=.
case hi: (ek_init _ _ _ _ _ _ _) => [p||] //= [<- <-]; exists d1, p; split=> //.
by rewrite /f_post /h_get /= -cats1 (at_nth None) ?size_cat ?addn1 // nth_cat ltnn subnn.
Qed.
Lemma start_inv junk g per thr us zs h q d0 h1 fl : h_get h q = Ok d0 ->
  ek_new_filter junk g per thr us zs h q = Ok (h1, fl) -> hinv d0 (h1, fl).
Proof.
move=> hd hn; have [d1 [p [hc hp <- hi ht]]] := newE hd hn; have [hN e1 hv] := copyE hc; split=> //; exists d1 => //=.
move: hi; rewrite /ek_init /guard; case: ifP => // _; case: ifP => // _.
have [f hf ha] := new_ref g None None; rewrite hf /= => -[<-].
have s1 : size (mc_los d1) = size (mc_los d0) by rewrite e1 size_map.
split=> //=; first by split=> //=; rewrite ?size_nseq.
  exact: mc_valid_sized hv.
by exists (p_new None None).
Qed.

(** ** C75: one update of any filter of the class, after any history *)
Theorem C75_update junk g per thr us zs h q d0 h1 fl cs bs hf c b hf' d d' sm u mm z s :
  h_get h q = Ok d0 -> ek_new_filter junk g per thr us zs h q = Ok (h1, fl) -> runO call (h1, fl) cs = Ok (bs, hf) ->
  call hf c = Ok (b, hf') -> routed c = (sm, u, mm, z, s) -> f_post hf = Ok d -> f_post hf' = Ok d' ->
  mc_valid d -> quiet (fl_priv hf.2) (fl_time hf.2) ->
  let p := fl_priv hf.2 in
  exists a am gs fs, let m := zip (moved gs (ek_zs p)) (weights (mc_los d)) in
    let m' := [seq (x.1.1, x.1.2 * x.2) | x <- zip m fs] in
    [/\ sm = Some a /\ mm = Some am,
        mapO (fun x => ekf_step a u am z s x.1.1 x.2) (zip (mc_los d) (ek_cov p)) = Ok gs,
        mapO (fun x => factor dn dsys dmeas a u am z s (last 0 (ek_cov p)) x.1.1 x.2.1) (zip m (mc_los d0)) = Ok fs,
        [/\ b = (0 < total (weights m')), mc_los d' = (if b then normalised m' else m') & b -> mc_valid d'] &
        [/\ ek_cov (fl_priv hf'.2) = map (@g_cov R n) gs, fl_time hf'.2 = (fl_time hf.2).+1,
            settings (fl_priv hf'.2) = settings p & ek_zs (fl_priv hf'.2) = fun i => ek_zs p (size (mc_los d) + i)%N]].
Proof.
move=> hd hn hr hc er hp hp' hv hq p; have := runO_inv_any (@step_inv d0) (start_inv hd hn) hr.
case=> hN [d1]; rewrite hp => -[<-] hi; have [d2 [d3]] := call_inv hc; rewrite er hp hp' => -[[<-] [<-] hc'].
have [_ et _ [a [am [e1 e2 H]]]] := internal_step hi hN hc'; have [gs [fs [k1 k2 k3 k4 k5]]] := H hv hq.
by exists a, am, gs, fs; split=> //; [case: k4|case: k5].
Qed.
(** the first update is right: every particle is reweighted with its own
    predecessor and its own covariance *)
Theorem C75_first junk g per thr us zs h q d0 h1 fl c b hf' d sm u mm z s :
  h_get h q = Ok d0 -> ek_new_filter junk g per thr us zs h q = Ok (h1, fl) ->
  call (h1, fl) c = Ok (b, hf') -> routed c = (sm, u, mm, z, s) -> f_post (h1, fl) = Ok d -> per != 0 ->
  let p := fl_priv fl in
  exists a am gs fs, let m := zip (moved gs (ek_zs p)) (weights (mc_los d)) in
    [/\ sm = Some a /\ mm = Some am,
        mapO (fun x => ekf_step a u am z s x.1.1 x.2) (zip (mc_los d) (ek_cov p)) = Ok gs,
        mapO (fun x => factor dn dsys dmeas a u am z s x.2.2 x.1.1 x.2.1.1) (zip m (zip (mc_los d) (ek_cov p))) = Ok fs &
        b = (0 < total [seq x.1.2 * x.2 | x <- zip m fs])].
Proof.
move=> hd hn hc er hp hper p; have [d1 [p1 [hcp hp1 ep hi ht]]] := newE hd hn; have [hN e1 hv] := copyE hcp.
move: hp; rewrite hp1 => -[<-].
have [d2 [d3]] := call_inv hc; rewrite er => -[h2 h3 _].
have ekp : ek_cov p = nseq (size (mc_los d0)) (mc_cov d0) /\ ek_dyn p = (per == 0).
  by move: hi; rewrite /p ep /ek_init /guard; do 2!case: ifP => //= _; case=> <-.
have [] := @C75_update junk g per thr us zs h q d0 h1 fl [::] [::] (h1, fl) c b hf' d1 d3 sm u mm z s => //.
  by rewrite /quiet /= ht -/p ekp.2 hper /= andbF.
move=> a [am [gs [fs [k1 k2 k3 [k4 _ _] _]]]]; exists a, am, gs, fs => m; split=> //; last by rewrite k4 /weights -map_comp.
rewrite -k3 -/m /= -/p ekp.1 e1 /=.
have -> : last 0 (nseq (size (mc_los d0)) (mc_cov d0)) = mc_cov d0.
  by case: (size _) hN => // k _ /=; elim: k.
move: (mc_cov d0) => P; rewrite /normalised; move: (total _) (m) => w; clear.
elim: (mc_los d0) => [|x l IH] [|y m] //=.
by rewrite IH.
Qed.

(** ** C76: weights that are all zero stay zero, and every later update returns
    false; resampling does not help *)
Theorem C76_dead_refuted junk g per thr us zs h q d0 h1 fl cs bs hf d cs' bs' hf' d' :
  h_get h q = Ok d0 -> ek_new_filter junk g per thr us zs h q = Ok (h1, fl) -> runO call (h1, fl) cs = Ok (bs, hf) ->
  f_post hf = Ok d -> dead d -> runO call hf cs' = Ok (bs', hf') -> f_post hf' = Ok d' ->
  dead d' /\ all negb bs'.
Proof.
move=> hd hn hr hp hdead; have := runO_inv_any (@step_inv d0) (start_inv hd hn) hr => {hr}.
elim: cs' hf d bs' hp hdead => [|c cs' IH] hf1 d1 bs' hp hdead hi /=.
  by case=> <- <-; rewrite hp => -[<-].
case hc: (call hf1 c) => [[b1 hf2]||] //=; case hr: (runO _ _ _) => [[bs2 hf3]||] //= [<- e3] hp'; rewrite e3 in hr.
have hi2 := step_inv hi hc; case: hi => hN [d2]; rewrite hp => -[<-] hi.
have [d3 [d4]] := call_inv hc; case: (routed c) => [[[[sm u] mm] z] s]; rewrite hp => -[[<-] h4 hc'].
have [_ _ /(_ hdead) [h5 ->] _] := internal_step hi hN hc'.
exact: (IH _ _ _ h4 h5 hi2 hr hp').
Qed.

(** ** The update returns whenever its parts do *)
Definition samples_total : Prop := forall f q zz g, agree f q -> p_sized q -> proposal q = Ok g -> exists r, draw f zz = Ok r.
Definition evaluates_total : Prop := forall f q x g, agree f q -> p_sized q -> proposal q = Ok g -> exists r, pprob f x = Ok r.
Hypothesis Hst : samples_total.
Hypothesis Het : evaluates_total.
Section Forward.
Variables (a : asys) (u : option (meas R)) (am : ameas) (z s : option (meas R)).
Notation k := (nargs_s a + nargs_m am)%N.
Lemma cov_fwd f l c P : agree f (conf a am l c) -> exists f', fp_cov_set f P = Ok f'.
Proof. by move=> h; have := exec_ref (FCov P) n0 h; rewrite /fp_exec; case: (fp_cov_set f P) => //= f' _; exists f'. Qed.
Lemma arg_fwd f l c i v : agree f (conf a am l c) -> size l = k -> (i < k)%N ->
  exists f' l', [/\ fp_arg_set f i v = Ok f', agree f' (conf a am l' c) & size l' = k].
Proof.
move=> h hl hi; have := exec_ref (FArg i v) n0 h; rewrite /fp_exec /p_exec /= hi (put_set_nth v) ?hl //=.
case: (fp_arg_set f i v) => //= f' [_ h']; exists f', (set_nth v l i v); split=> //.
by rewrite size_set_nth hl; apply/maxn_idPr.
Qed.
Lemma args_fwd x f l c l' : agree f (conf a am l c) -> size l = k ->
  the_args a u am z s x = Ok l' -> exists f', ek_args a u am z s x f = Ok f'.
Proof.
rewrite /ek_args /the_args => hf hl.
have [|f0 [l0 [-> h0 z0]]] := arg_fwd (existT _ n x) (i := 0) hf hl; first by rewrite /nargs_s; case: (am_noextra a).
rewrite [obind (Ok _) _]/=; case ha: (am_noextra a) => /=.
  case: z => //= z'; have [|f1 [l1 [-> h1 z1]]] := arg_fwd z' (i := 1) h0 z0.
    by rewrite /nargs_s /nargs_m ha; case: (am_noextra _).
  case hm: (am_noextra _) => /=; first by exists f1.
  case: s => //= s' _; have [|f2 [l2 [-> h2 z2]]] := arg_fwd s' (i := 2) h1 z1; last by exists f2.
  by rewrite /nargs_s /nargs_m ha hm.
case: u => //= u'; have [|f1 [l1 [-> h1 z1]]] := arg_fwd u' (i := 1) h0 z0.
  by rewrite /nargs_s /nargs_m ha; case: (am_noextra _).
case: z => //= z'; have [|f2 [l2 [-> h2 z2]]] := arg_fwd z' (i := 2) h1 z1.
  by rewrite /nargs_s /nargs_m ha; case: (am_noextra _).
case hm: (am_noextra _) => /=; first by exists f2.
case: s => //= s' _; have [|f3 [l3 [-> h3 z3]]] := arg_fwd s' (i := 3) h2 z2; last by exists f3.
by rewrite /nargs_s /nargs_m ha hm.
Qed.
Lemma step_args x P g : ekf_step a u am z s x P = Ok g -> exists l, the_args a u am z s x = Ok l.
Proof.
rewrite /ekf_step /the_args.
by case: (am_noextra a); case: (am_noextra (projT2 am)); case: u => [u'|] //=; case: z => [z'|] //=; case: s => [s'|] //=; eexists.
Qed.
Lemma move_fwd zs olds news covs i f smp l c gs : agree f (conf a am l c) -> size l = k ->
  size news = size olds -> size covs = size olds -> nonneg (weights olds) ->
  mapO (fun x => ekf_step a u am z s x.1.1 x.2) (zip olds covs) = Ok gs ->
  exists r, ek_move draw a u am z s zs olds news covs i f smp = Ok r.
Proof.
elim: olds news covs i f smp l c gs => [|o olds IH] news covs i f smp l c gs hf hl /=; first by eexists.
case: news => // x news [hn]; case: covs => // P covs [hc]; rewrite /nonneg /= => /andP [ho hw].
case hg: (ekf_step _ _ _ _ _ _ _) => [g||] //=; case hgs: (mapO _ _) => [gs'||] //= _.
have [f1 e1] := cov_fwd P hf; have h1 := cov_ref hf e1; rewrite e1 /=.
have [l' hl'] := step_args hg; have [f2 e2] := args_fwd h1 hl hl'; have [l2 hl2 h2] := args_ref h1 hl e2.
move: hl2; rewrite hl' => -[el]; subst l2; rewrite e2 /=.
have hp : proposal (conf a am l' (Some P)) = Ok g by rewrite (proposal_conf P hl').
have [d e3] := Hst (zs i) h2 isT hp; have [_ [_ _ h3]] := Hs h2 isT e3; rewrite e3 /= /guard ho /=.
have := exec_ref FCovQ n0 h3; rewrite /fp_exec /p_exec hp; case: (fp_covar d.2) => //= q [_ h4].
by have [r ->] := IH news covs i.+1 q.2 (odflt smp d.1) l' _ gs' h4 (args_size hl') hn hc hw hgs; eexists.
Qed.
Lemma factor_fwd f x l P xnew xold v : agree f (conf a am l (Some P)) -> the_args a u am z s x = Ok l ->
  factor dn dsys dmeas a u am z s P xnew xold = Ok v ->
  exists f', ek_factor pprob dsys dmeas a u am z s f xnew xold = Ok (v, f').
Proof.
rewrite /ek_factor /factor => hf hl; case ez: z => [z'|] //=; rewrite -ez.
have [|f1 [l0 [e1 _ _]]] := arg_fwd (existT _ n xold) (i := 0) hf (args_size hl); first by rewrite /nargs_s; case: (am_noextra a).
have [_ h1] := arg_set_ref hf e1; rewrite e1 /=; have hl1 := set_arg0 xold hl; set l1 := set_nth _ _ _ _ in h1 hl1.
case hm: (am_noextra (projT2 am)); last first.
  by case: s => //= s'; case: (dmeas _ _ _ _) => //= w; case: (mkProb w) => //= w' [<-]; eexists.
case: (dmeas _ _ _ _) => //= w; case: (mkProb w) => //= w'.
case hg: (ekf_step _ _ _ _ _ _ _) => [g||] //=.
have hp : proposal (conf a am l1 (Some P)) = Ok g by rewrite (proposal_conf P hl1).
have [f2 [e2 h2]] : exists f2, (if ~~ am_noextra a then let! w := need u in fp_arg_set f1 1%N w else Ok f1) = Ok f2 /\
    agree f2 (conf a am l1 (Some P)).
  case ha: (am_noextra a) => /=; first by exists f1.
  have hu : u <> None by move=> eu; move: hl1; rewrite /the_args ha eu.
  case eu: u hu => [y|] //= _.
  have [|f2 [l2 [e2 _ _]]] := arg_fwd y (i := 1) h1 (args_size hl1); first by rewrite /nargs_s /nargs_m ha; case: (am_noextra _).
  by exists f2; split=> //; have [_] := arg_set_ref h1 e2; rewrite (set_arg1 (negbT ha) eu hl1).
rewrite e2 /=; have [q eq] := Het xnew h2 isT hp; have [g' [hg' hq h3]] := He h2 isT eq; move: hg'; rewrite hp => -[eg]; subst g'.
rewrite eq /= hq; case: eqP => [_|_] /=; first by case=> <-; eexists.
have -> : (if ~~ am_noextra a then let! w := need u in dsys a xnew xold (Some w) else dsys a xnew xold None) =
  dsys a xnew xold (if am_noextra a then None else u).
  case ha: (am_noextra a) => //=; have hu : u <> None by move=> eu; move: hl1; rewrite /the_args ha eu.
  by case: u hu.
case: (dsys _ _ _ _) => //= y; case: (mkProb y) => //= y'; have [q2 eq2] := Het xnew h3 isT hp.
have [g' [hg' hq2 h4]] := He h3 isT eq2; move: hg'; rewrite hp => -[eg]; subst g'.
by rewrite eq2 /= hq2 => -[<-]; eexists.
Qed.
Lemma reweigh_fwd news olds f l x P fs : agree f (conf a am l (Some P)) -> the_args a u am z s x = Ok l ->
  size news = size olds ->
  mapO (fun x => factor dn dsys dmeas a u am z s P x.1.1 x.2.1) (zip news olds) = Ok fs ->
  all (fun x : part * R => 0 <= x.1.2 * x.2) (zip news fs) ->
  exists r, ek_reweigh pprob dsys dmeas a u am z s news olds f = Ok r.
Proof.
elim: news olds f l x fs => [|w news IH] olds f l x fs hf hl /=; first by eexists.
case: olds => // o olds [hsz] /=.
case h1: (factor _ _ _ _ _ _ _ _ _ _ _) => [v||] //=; case h2: (mapO _ _) => [fs'||] //= [<-] /= /andP [h3 h4].
have [f1 e1] := factor_fwd hf hl h1; have [_ [l1 [hl1 hf1]]] := factor_ref hf hl e1.
by rewrite e1 /= /guard h3 /=; have [r ->] := IH _ _ _ _ _ hf1 hl1 hsz h2 h4; eexists.
Qed.
End Forward.
Lemma updW_fwd d l : mc_sized d -> size l = size (mc_los d) -> nonneg (weights l) -> exists r, mc_updW d l = Ok r.
Proof.
move=> hs hl hw; case: (ltrP 0 (total (weights l))) => ht; first by rewrite mc_updWE //; eexists.
case: (posnP (size l)) => h0; last by rewrite mc_updW_zero // -?leNgt //; eexists.
by rewrite /mc_updW hl /guard eqxx -hl h0 /=; eexists.
Qed.
Lemma bind_fwd A B (m : outcome A) x (f : A -> outcome B) : m = Ok x -> (exists r, f x = Ok r) -> exists r, obind m f = Ok r.
Proof. by move=> ->. Qed.
Lemma set_fwd a am (f : fpd R n) q : agree f q ->
  exists f1 f2, fp_sys_set f (Some a) = Ok f1 /\ fp_meas_set f1 (Some am) = Ok f2.
Proof.
move=> h; have := exec_ref (FSys (Some a)) n0 h; rewrite {1}/fp_exec; case: (fp_sys_set f _) => //= f1 _.
by exists f1; eexists.
Qed.
Lemma internal_fwd d0 p t d a u am z s gs fs : einv d0 p d -> (0 < size (mc_los d0))%N -> mc_valid d -> quiet p t ->
  let m := zip (moved gs (ek_zs p)) (weights (mc_los d)) in
  mapO (fun x => ekf_step a u am z s x.1.1 x.2) (zip (mc_los d) (ek_cov p)) = Ok gs ->
  mapO (fun x => factor dn dsys dmeas a u am z s (last 0 (ek_cov p)) x.1.1 x.2.1) (zip m (mc_los d0)) = Ok fs ->
  all (fun v => 0 <= v) fs -> exists r, internal (Some a) u (Some am) z s (p, t, d) = Ok r.
Proof.
move=> hi hN hv hqt m hgs hfs hnn; cbv beta iota delta [ek_internal].
have [q hq sq] := ei_fp hi; have [f1 [f2 [h1 h2]]] := set_fwd a am hq; have [l [c [hf hl]]] := set_ref hq sq h1 h2.
have [[hw ht] _ _] := hv; have [[e1 e2 e3 e4] e5 e6 e7 e8 _] := hi.
have hi1 : einv d0 (ek_with f2 p) d by apply: with_inv hf _.
apply: (bind_fwd h1); apply: (bind_fwd h2).
apply: (@bind_fwd _ _ _ (true, (ek_with f2 p, t, d))).
  by rewrite /ek_static; case: ifP hqt => // /and3P [h3 h4 h5]; rewrite /quiet h4 h5 andbF.
do 2!apply: bind_fwd erefl _.
have [r hr] := move_fwd (ek_zs p) 0%N (ek_smp p) (f := f2) hf hl e5 e2 hw hgs.
have [gs' [j1 j2 j3 _ _]] := move_ref hf hl e5 e2 hr; move: j1; rewrite hgs => -[eg]; subst gs'.
have sg : size gs = size (mc_los d) by rewrite (mapO_size hgs) size_zip /= e2 minnn.
have er : r.1.1 = m.
  rewrite j2 /m /moved sg; move: (zip gs _) (weights _) => A B.
  by elim: A B => [|x A IH] [|y B] //=; rewrite IH.
have sy : size (moved gs (ek_zs p)) = size (weights (mc_los d)) by rewrite /moved size_map size_zip size_iota minnn size_weights.
have wm : weights m = weights (mc_los d) by rewrite weights_zip.
have sm : size m = size (mc_los d) by rewrite size_zip sy minnn size_weights.
have nm : normalised m = m.
  by rewrite /normalised wm ht -[RHS]map_id; apply: eq_map => -[y w] /=; rewrite divr1.
have [[b2 d2] hu] : exists r, mc_updW d m = Ok r by apply: updW_fwd; rewrite ?wm.
have [u1 u2 u3 u4 u5] := updW_out hu.
have ed : mc_los d2 = m by rewrite u4 nm; case: (b2).
have hp : exists r, ek_proposal draw a u am z s (ek_with f2 p, t, d) = Ok r.
  by rewrite /ek_proposal /= hr /= er hu /=; eexists.
case: hp => -[b3 [[p3 t3] d3]] hp; apply: (bind_fwd hp).
have [gs' [k1 k2 k3 k4 [k5 k6 k7 k8 [x [l' [hl' hf']]]]]] := proposal_inv hi1 hN hf hl hp.
have ed3 : d3 = d2 by move: hp; rewrite /ek_proposal /= hr /= er hu /= => -[].
rewrite -[(b3, _).2]/(p3, t3, d3) ed3 in k5 *.
have [r3 hr3] : exists r, ek_reweigh pprob dsys dmeas a u am z s (mc_los d2) (ek_bold p3) (ek_fp p3) = Ok r.
  rewrite (ei_bold k5); apply: (reweigh_fwd hf' hl') => //; first by rewrite ed sm.
    by rewrite ed; exact: hfs.
  rewrite ed; move: hw; rewrite -wm; move: (m) (fs) hnn; clear.
  by elim=> [|y m IH] [|v fs] //= /andP [h1 h2]; rewrite /nonneg /= => /andP [h3 h4]; rewrite mulr_ge0 // IH.
have le : (size (mc_los d2) <= size (ek_bold p3))%N by rewrite (ei_bold k5) ed sm e6.
have [fs' [m1 m2 m3 m4]] := reweigh_ref hf' hl' le hr3.
have fs_eq : fs' = fs by move: m1; rewrite (ei_bold k5) ed; rewrite hfs => -[].
have s3 : size r3.1 = size (mc_los d2).
  by rewrite m2 fs_eq size_map size_zip (mapO_size hfs) ed size_zip sm e6 !minnn.
have [r4 hu4] : exists r, mc_updW d2 r3.1 = Ok r by apply: updW_fwd => //; exact: ei_sized k5.
apply: (@bind_fwd _ _ _ (r4.1, (EK r3.2 (ek_cov p3) (ek_tmp p3) (ek_num p3) (ek_old p3) (ek_res p3) (ek_bold p3) r3.1 (ek_smp p3) (ek_dyn p3)
               (ek_period p3) (ek_thr p3) (ek_us p3) (ek_zs p3), t3, r4.2))); first by rewrite /ek_weights hr3 /= hu4.
have hdyn : ek_dyn p3 = false.
  by move: k7; rewrite /settings => -[-> _ _ _] /=; apply/negbTE; case/andP: hqt.
by rewrite /ek_dynamic /= hdyn /=; eexists.
Qed.
(** the update returns if every Kalman step and every weight factor does *)
Theorem C75_returns junk g per thr us zs h q d0 h1 fl cs bs hf c d a u am z s gs fs :
  h_get h q = Ok d0 -> ek_new_filter junk g per thr us zs h q = Ok (h1, fl) -> runO call (h1, fl) cs = Ok (bs, hf) ->
  routed c = (Some a, u, Some am, z, s) -> f_post hf = Ok d -> mc_valid d -> quiet (fl_priv hf.2) (fl_time hf.2) ->
  let p := fl_priv hf.2 in let m := zip (moved gs (ek_zs p)) (weights (mc_los d)) in
  mapO (fun x => ekf_step a u am z s x.1.1 x.2) (zip (mc_los d) (ek_cov p)) = Ok gs ->
  mapO (fun x => factor dn dsys dmeas a u am z s (last 0 (ek_cov p)) x.1.1 x.2.1) (zip m (mc_los d0)) = Ok fs ->
  all (fun v => 0 <= v) fs -> exists b hf', call hf c = Ok (b, hf').
Proof.
move=> hd hn hr er hp hv hq p m hgs hfs hnn; have := runO_inv_any (@step_inv d0) (start_inv hd hn) hr.
case=> hN [d1]; rewrite hp => -[<-] hi; have [r hi1] := internal_fwd (t := fl_time hf.2) hi hN hv hq hgs hfs hnn.
case: r hi1 => b [[p' t'] d'] hi1.
rewrite /ek_call_with f_callE er /=; have [h' [-> _]] := f_updateE hp hi1; by do 2!eexists.
Qed.
End Step.

(** concrete cases: ExamplesEKPF *)
Print Assumptions C75_update.
Print Assumptions C75_first.
Print Assumptions C75_returns.
Print Assumptions C76_dead_refuted.
