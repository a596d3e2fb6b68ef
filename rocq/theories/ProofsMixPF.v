(** * Proofs about the mixture particle filter: the loops over the components *)
From mathcomp Require Import all_ssreflect all_algebra.
From mathcomp Require Import zify.
From Verif Require Import OrdLra Outcome SpecProb ModelTables ProofsTables ModelDiscretePdf
  ModelMCPdf SpecMCPdf ProofsMCPdf ModelMixture SpecMixture ProofsMixture ModelModels ModelFilter ProofsFilter ModelParticle SpecParticle ProofsParticle PropertiesParticle
  ModelMixPF.
Set Implicit Arguments. Unset Strict Implicit. Unset Printing Implicit Defensive.
Import Order.TTheory GRing.Theory Num.Theory.
Local Open Scope ring_scope.

Lemma at_cat A (s : seq A) x r : at_ (s ++ x :: r) (size s) = Ok x.
Proof. by elim: s. Qed.
Lemma put_cat A (s : seq A) x r y : put_ (s ++ x :: r) (size s) y = Ok (s ++ y :: r).
Proof. by elim: s => //= z s ->. Qed.
Lemma at_map A B (f : A -> B) s i : at_ (map f s) i = let! x := at_ s i in Ok (f x).
Proof. by elim: s i => [|x s IH] [|i] /=. Qed.

Section Proofs.
Variables (R : realFieldType) (T Z Rnd Rz : Type).
Variables (eps : R) (root : R -> nat -> R).
Notation part := (T * R)%type.
Notation priv := (pfpriv R T Rnd).
Notation pstate := (fstate (mcpdf R T) priv).
Notation psys := (psys R T Rnd).
Notation pmeas := (pmeas R T Z Rz).
Notation prop := (prop R T Rnd).
Notation mixture := (mix R (mcpdf R T)).
Notation mstate := (fstate mixture (mpriv R T Rnd)).

(** what belongs to one component: old, new, unweighted samples, the pdf *)
Definition cell := (seq part * seq part * seq T * mcpdf R T)%type.
Implicit Types (sh : priv) (c : cell) (cs : seq cell) (w cum nw sw : seq R) (f : pstate -> outcome (bool * pstate)).
Definition load sh c : priv :=
  PF (pf_prop sh) (pf_sample sh) c.1.1.1 c.1.1.2 c.1.2 (pf_dyn sh) (pf_period sh) (pf_thr sh) (pf_scheme sh)
     (pf_us sh) (pf_rs sh) (pf_nres sh).
Definition store sh (d : mcpdf R T) : cell := (pf_old sh, pf_new sh, pf_uns sh, d).
Definition build sh t cs w cum nw sw : mstate :=
  (MP (pf_prop sh) (pf_sample sh) [seq c.1.1.1 | c <- cs] [seq c.1.1.2 | c <- cs] [seq c.1.2 | c <- cs] nw sw
      (pf_dyn sh) (pf_period sh) (pf_thr sh) (pf_scheme sh) (pf_us sh) (pf_rs sh) (pf_nres sh), t,
   Mix (size cs) [seq c.2 | c <- cs] w cum).
Arguments build : simpl never.
Arguments mp_on : simpl never.
Definition keeps f : Prop := forall st b st', f st = Ok (b, st') -> config st'.1.1 = config st.1.1.

Lemma mp_onE f sh t pre c post w cum nw sw : keeps f ->
  mp_on f (size pre) (build sh t (pre ++ c :: post) w cum nw sw) =
  let! r := f (load sh c, t, c.2) in
  Ok (r.1, build r.2.1.1 r.2.1.2 (pre ++ store r.2.1.1 r.2.2 :: post) w cum nw sw).
Proof.
move=> hf; rewrite /mp_on /build /mx_comp_get /mx_init /=.
have -> : (size (pre ++ c :: post) != 0)%N by rewrite size_cat addnS.
rewrite /= /mp_view /= !at_map !at_cat /= -/(load sh c).
case hr: (f (load sh c, t, c.2)) => [[b [[p t'] d]]||] //=; have [e1 e2 e3 e4] := hf _ _ _ hr.
have P (B : Type) (g : cell -> B) y :
    put_ [seq g x | x <- pre ++ c :: post] (size pre) y = Ok (map g pre ++ y :: map g post).
  by rewrite map_cat /= -(size_map g pre) put_cat.
rewrite /mp_back /= !P /= in e1 e2 e3 e4 *.
by rewrite e1 e2 e3 e4 !map_cat !size_cat.
Qed.

Fixpoint each f (b : bool) sh (t : nat) cs : outcome (bool * (priv * nat * seq cell)) :=
  if cs is c :: cs' then
    if b then
      let! r := f (load sh c, t, c.2) in
      let! q := each f r.1 r.2.1.1 r.2.1.2 cs' in
      Ok (q.1, (q.2.1, store r.2.1.1 r.2.2 :: q.2.2))
    else Ok (false, (sh, t, cs))
  else Ok (b, (sh, t, [::])).
Lemma each_false f sh t cs : each f false sh t cs = Ok (false, (sh, t, cs)).
Proof. by case: cs. Qed.
Lemma mp_eachE f b sh t pre cs w cum nw sw : keeps f ->
  mp_each f (iota (size pre) (size cs)) (b, build sh t (pre ++ cs) w cum nw sw) =
  let! r := each f b sh t cs in
  Ok (r.1, build r.2.1.1 r.2.1.2 (pre ++ r.2.2) w cum nw sw).
Proof.
move=> hf; elim: cs b sh t pre => [|c cs IH] b sh t pre /=; first by [].
case: b.
  rewrite mp_onE //; case: (f _) => [[b [[p t'] d]]||] //=.
  have := IH b p t' (rcons pre (store p d)); rewrite size_rcons cat_rcons => ->.
  by case: (each _ _ _ _ _) => [[b' [[p' t''] cs']]||] //=; rewrite cat_rcons.
by have := IH false sh t (rcons pre c); rewrite size_rcons cat_rcons each_false /= cat_rcons => ->.
Qed.
Lemma mp_allE f sh t cs w cum nw sw : keeps f ->
  mp_all f (build sh t cs w cum nw sw) =
  let! r := each f true sh t cs in Ok (r.1, build r.2.1.1 r.2.1.2 r.2.2 w cum nw sw).
Proof. by move=> hf; rewrite /mp_all /= (mp_eachE true sh t [::] cs). Qed.

(** ** Weights *)
Definition mass c : R := sum_loop [seq x.2 | x <- c.1.1.2].
Fixpoint eachw f sh (t : nat) cs : outcome (priv * nat * seq cell) :=
  if cs is c :: cs' then
    let! r := f (load sh c, t, c.2) in
    let! q := eachw f r.2.1.1 r.2.1.2 cs' in Ok (q.1, store r.2.1.1 r.2.2 :: q.2)
  else Ok (sh, t, [::]).
Lemma keeps_weights os u (mm : pmeas) z s : keeps (pf_weights os u mm z s).
Proof. by move=> st b st' h; have [_ _] := pf_weights_track h. Qed.
Lemma mp_foldE os u (mm : pmeas) z s sh t pre cs w cum nw sw : size sw = size cs ->
  foldO (fun st i => let! r := mp_weights_one os u mm z s i st in Ok r.2)
    (build sh t (pre ++ cs) w cum nw (map mass pre ++ sw)) (iota (size pre) (size cs)) =
  let! r := eachw (pf_weights os u mm z s) sh t cs in
  Ok (build r.1.1 r.1.2 (pre ++ r.2) w cum nw (map mass (pre ++ r.2))).
Proof.
elim: cs sh t pre sw => [|c cs IH] sh t pre [|a sw] //=.
  by move=> _; rewrite !cats0.
case=> hs; rewrite /mp_weights_one mp_onE; last exact: keeps_weights.
case: (pf_weights _ _ _ _ _ _) => [[b [[p t'] d]]||] //=.
rewrite at_map at_cat /=.
have -> y : put_ (map mass pre ++ a :: sw) (size pre) y = Ok (map mass pre ++ y :: sw).
  by rewrite -(size_map mass pre) put_cat.
rewrite /=.
have := IH p t' (rcons pre (store p d)) sw hs.
rewrite size_rcons cat_rcons map_rcons cat_rcons /build /= => ->.
by case: (eachw _ _ _ _) => [[[p' t''] cs']||] //=; rewrite !cat_rcons.
Qed.
Definition products w (ms : seq R) : seq R := [seq x.1 * x.2 | x <- zip w ms].
Lemma foldO_products (d : mixture) w ms n : mx_w d = w -> mx_n d = n -> (0 < n)%N -> size w = n ->
  nonneg (products w ms) -> size ms = n -> forall nw, size nw = n ->
  foldO (fun nw i => let! x := mx_weight_get d i in let! a := at_ ms i in
                     let! y := mkProb (x * a) in put_ nw i y) nw (iota 0 n) = Ok (products w ms).
Proof.
move=> hw hn h0 hsw hnn hms nw hnw; set F := (fun _ _ => _).
have hsp : size (products w ms) = n by rewrite size_map size_zip hsw hms minnn.
have hF v k : (k < n)%N -> F v k = put_ v k (nth 0 (products w ms) k).
  move=> hlt; rewrite /F /mx_weight_get /mx_init hn -lt0n h0 /= hlt /= hw (at_nth 0) ?hsw //= (at_nth 0) ?hms //=.
  have e : nth 0 (products w ms) k = nth 0 w k * nth 0 ms k.
    by rewrite (nth_map (0, 0)) ?size_zip ?hsw ?hms ?minnn // nth_zip ?hsw ?hms.
  by rewrite mkProbE -e //; apply: (allP hnn); rewrite mem_nth ?hsp.
suff H k (pre post : seq R) : (k + size post = n)%N -> pre = take k (products w ms) ->
   foldO F (pre ++ post) (iota k (size post)) = Ok (products w ms).
  by have := H 0%N [::] nw; rewrite take0 hnw; apply.
elim: post k pre => [|y post IH] k pre /=.
  by rewrite addn0 => -> ->; rewrite cats0 -hsp take_size.
move=> hk hp; have hlt : (k < n)%N by rewrite -hk addnS ltnS leq_addr.
have hsk : size pre = k by rewrite hp size_takel // hsp ltnW.
rewrite hF // -{1}hsk put_cat /= -cat_rcons.
by apply: (IH k.+1); rewrite ?addSnnS // hp -take_nth // hsp.
Qed.
Lemma mp_weightsE os u (mm : pmeas) z s sh t cs w cum nw sw : 0 <= eps -> (0 < size cs)%N ->
  size w = size cs -> size cum = (size cs).+1 -> size nw = size cs -> size sw = size cs ->
  forall sh' t' cs', eachw (pf_weights os u mm z s) sh t cs = Ok (sh', t', cs') -> size cs' = size cs ->
  let v := products w (map mass cs') in nonneg v ->
  mp_weights eps os u mm z s (build sh t cs w cum nw sw) =
  Ok (if 0 < total v then (true, build sh' t' cs' (normed v) (cum_loop 0 (normed v)) v (map mass cs'))
      else (false, build sh' t' cs' v cum v (map mass cs'))).
Proof.
move=> he h0 h1 h2 h3 h4 sh' t' cs' hE hsz v hv.
have := mp_foldE os u mm z s sh t [::] w cum nw (esym (esym h4)).
rewrite /mp_weights /= => ->; rewrite hE /=.
rewrite (@foldO_products _ w (map mass cs') (size cs)) ?size_map //= -/v.
have hsv : size v = size cs by rewrite /v size_map size_zip size_map hsz h1 minnn.
case: ifP => ht.
  by rewrite mx_setsE ?hsz //= /build hsz.
by rewrite /mx_sets /guard hv /= /mx_init /= hsz -lt0n h0 hsv eqxx mx_finish0 ?ht //= /build hsz.
Qed.

(** ** Predicates on all components *)
Fixpoint all2P (P : R -> cell -> Prop) w cs : Prop :=
  match w, cs with
  | [::], [::] => True
  | a :: w', c :: cs' => P a c /\ all2P P w' cs'
  | _, _ => False
  end.
Lemma all2P_size (P : R -> cell -> Prop) w cs : all2P P w cs -> size w = size cs.
Proof. by elim: w cs => [|a w IH] [|c cs] //= [_ /IH ->]. Qed.
Lemma all2P_at (P : R -> cell -> Prop) w cs i c : all2P P w cs -> at_ cs i = Ok c ->
  exists2 a, at_ w i = Ok a & P a c.
Proof.
elim: w cs i => [|a w IH] [|c' cs] //= [|i] //=; first by move=> [h _] [<-]; exists a.
by move=> [_ h] /(IH _ _ h).
Qed.
Fixpoint all2C (P : cell -> cell -> Prop) cs cs' : Prop :=
  match cs, cs' with
  | [::], [::] => True
  | c :: cs, c' :: cs' => P c c' /\ all2C P cs cs'
  | _, _ => False
  end.
Lemma all2C_size (P : cell -> cell -> Prop) cs cs' : all2C P cs cs' -> size cs' = size cs.
Proof. by elim: cs cs' => [|a w IH] [|c cs] //= [_ /IH ->]. Qed.
Lemma all2C_at (P : cell -> cell -> Prop) cs cs' i c : all2C P cs cs' -> at_ cs i = Ok c ->
  exists2 c', at_ cs' i = Ok c' & P c c'.
Proof.
elim: cs cs' i => [|a w IH] [|c' cs] //= [|i] //=; first by move=> [h _] [<-]; exists c'.
by move=> [_ h] /(IH _ _ h).
Qed.
Lemma all2C_trans (P Q S : cell -> cell -> Prop) cs1 cs2 cs3 : (forall x y z, P x y -> Q y z -> S x z) ->
  all2C P cs1 cs2 -> all2C Q cs2 cs3 -> all2C S cs1 cs3.
Proof.
by move=> h; elim: cs1 cs2 cs3 => [|a cs1 IH] [|b cs2] [|c cs3] //= [h1 h2] [h3 h4]; split; [exact: h h3|exact: IH h4].
Qed.
Lemma each_inv f (P : R -> cell -> Prop) :
  (forall a sh t c b st', P a c -> f (load sh c, t, c.2) = Ok (b, st') -> P a (store st'.1.1 st'.2)) ->
  forall w cs b sh t r, all2P P w cs -> each f b sh t cs = Ok r -> all2P P w r.2.2.
Proof.
move=> hf; elim=> [|a w IH] [|c cs] //= b sh t r; first by move=> _ [<-].
move=> [h1 h2]; case: b; last by case=> <-.
case hr: (f _) => [[b st]||] //=.
case he: (each _ _ _ _ _) => [r1||] //= -[<-] /=.
by split; [exact: hf hr|exact: IH he].
Qed.
Lemma each_size f b sh t cs r : each f b sh t cs = Ok r -> size r.2.2 = size cs.
Proof.
elim: cs b sh t r => [|c cs IH] b sh t r /=; first by case=> <-.
case: b; last by case=> <-.
case: (f _) => [[b st]||] //=; case he: (each _ _ _ _ _) => [q||] //= -[<-] /=.
by rewrite (IH _ _ _ _ he).
Qed.
Lemma each_config f b sh t cs r : keeps f -> each f b sh t cs = Ok r -> config r.2.1.1 = config sh.
Proof.
move=> hf; elim: cs b sh t r => [|c cs IH] b sh t r /=; first by case=> <-.
case: b; last by case=> <-.
case hr: (f _) => [[b st]||] //=; case he: (each _ _ _ _ _) => [q||] //= -[<-] /=.
by rewrite (IH _ _ _ _ he) (hf _ _ _ hr).
Qed.
Lemma eachw_size f sh t cs r : eachw f sh t cs = Ok r -> size r.2 = size cs.
Proof.
elim: cs sh t r => [|c cs IH] sh t r /=; first by case=> <-.
by case: (f _) => [[b st]||] //=; case he: (eachw _ _ _ _) => [q||] //= -[<-] /=; rewrite (IH _ _ _ he).
Qed.

(** ** What the steps do to one component *)
(** a component has a valid particle set, or all its weights and its own weight
    are 0 *)
Definition okcell (a : R) c : Prop :=
  [/\ mc_sized c.2, (0 < size (mc_los c.2))%N,
      size c.1.1.1 = size (mc_los c.2) /\ size c.1.1.2 = size (mc_los c.2), nonneg (weights (mc_los c.2)) &
      mc_valid c.2 \/ (total (weights (mc_los c.2)) = 0 /\ a = 0)].

Lemma updU_ok (d : mcpdf R T) (v : seq T) b d' : mc_sized d -> mc_updU d v = Ok (b, d') -> (0 < size (mc_los d))%N ->
  d' = d \/ [/\ mc_valid d', mc_los d' = equally_weighted R v & size v = size (mc_los d)].
Proof.
move=> hs h h0; case: (size v =P size (mc_los d)) => e; last first.
  by left; move: h; rewrite /mc_updU (introF eqP e) => -[_ ->].
have hv : (0 < size v)%N by rewrite e.
right; move: h; rewrite mc_updUE // => -[_ <-] /=; split=> //.
by apply: valid_build; exact: equal_distr.
Qed.
(** the same cell, or equally weighted particles *)
Definition redrawn c c' : Prop :=
  [/\ c'.1.1.1 = c.1.1.1, size c'.1.1.2 = size c.1.1.2 \/ size c'.1.1.2 = size (mc_los c.2) &
      c'.2 = c.2 \/ exists xs, [/\ mc_valid c'.2, mc_los c'.2 = equally_weighted R xs & size xs = size (mc_los c.2)]].
Lemma redrawn_ok a c c' : okcell a c -> redrawn c c' -> okcell a c'.
Proof.
move=> [h1 h2 [h3 h3'] h4 h5] [e1 e2 [e3|[xs [hv e3 e4]]]].
  by split; rewrite ?e3 ?e1 //; split=> //; case: e2 => ->.
have e5 : size (mc_los c'.2) = size (mc_los c.2) by rewrite e3 size_map.
split; rewrite ?e5 ?e1 //; [exact: mc_valid_sized|by split=> //; case: e2 => ->|by case: hv => -[]|by left].
Qed.
Lemma resample_redrawn sh t c b st' : mc_sized c.2 -> (0 < size (mc_los c.2))%N ->
  pf_resample root (load sh c, t, c.2) = Ok (b, st') -> redrawn c (store st'.1.1 st'.2).
Proof.
move=> h1 h2 h; case: (obindE h) => xs _ h6; case: (obindE h6) => -[b' d'] hu [_ <-] /=.
split=> //=; first by left.
by case: (updU_ok h1 hu h2) => [->|?]; [left|right; exists xs].
Qed.
Lemma dynamic_redrawn sh t c b st' : mc_sized c.2 -> (0 < size (mc_los c.2))%N ->
  pf_dynamic root (load sh c, t, c.2) = Ok (b, st') -> redrawn c (store st'.1.1 st'.2).
Proof.
move=> h1 h2; rewrite /pf_dynamic /=; case: ifP => _; first by case=> _ <-; split=> //; left.
case: ifP => _; last by case=> _ <-; split=> //=; [right|left].
move=> hr; have [e1 e2 e3] := resample_redrawn (sh := sh) (c := (c.1.1.1, mc_los c.2, c.1.2, c.2)) h1 h2 hr.
by split=> //; right; case: e2.
Qed.
(** the proposal step *)
Definition moved c c' : Prop :=
  [/\ c'.1.1.1 = mc_los c.2, weights (mc_los c'.2) = weights (mc_los c.2), size c'.1.1.2 = size (mc_los c.2) &
      mc_sized c'.2 /\ (mc_valid c.2 -> mc_valid c'.2)].
Lemma proposal_moved a (m : psys) u sh t c b st' : okcell a c -> pf_proposal m u (load sh c, t, c.2) = Ok (b, st') ->
  moved c (store st'.1.1 st'.2) /\ (b <-> mc_valid c.2).
Proof.
move=> [h1 h2 [h3 h3'] h4 h5] h; case: (obindE h) => -[r [q' smp']] hm h6; case: (obindE h6) => -[b' d'] hu [e1 <-] /=.
subst b'; have [hw hn] := pf_move_weights (esym (esym h3')) hm.
have hsr : size r = size (mc_los c.2) by rewrite -size_weights hw size_weights.
have hnr : nonneg (weights r) by rewrite hw.
case: h5 => [hv|[hz _]].
  have ht : total (weights r) = 1 by rewrite hw; case: hv => -[].
  move: hu; rewrite mc_updWE ?ht ?ltr01 // => -[<- <-] /=.
  have e : normalised r = r.
    by rewrite /normalised ht -[RHS]map_id; apply: eq_map => -[x y] /=; rewrite divr1.
  have hd : distribution (weights r) by split.
  split=> //; split; rewrite ?e /=  //; split.
    by rewrite /mc_sized size_cum size_weights.
  by move=> _; exact: valid_build.
move: hu; rewrite mc_updW_zero ?hsr ?hw ?hz ?ltxx // => -[<- <-] /=; split; last first.
  by split=> // -[[_ +] _ _]; rewrite hz => /esym/eqP; rewrite oner_eq0.
split=> //=; split; first by rewrite /mc_sized /= h1 hsr.
by move=> [[_ +] _ _]; rewrite hz => /esym/eqP; rewrite oner_eq0.
Qed.
Lemma moved_ok a c c' : okcell a c -> moved c c' -> okcell a c'.
Proof.
move=> [h1 h2 [h3 h3'] h4 h5] [e1 e2 e3 [e4 e5]].
have e6 : size (mc_los c'.2) = size (mc_los c.2) by rewrite -size_weights e2 size_weights.
split; rewrite ?e6 ?e1 ?e2 //; case: h5 => [/e5|]; [by left|by right].
Qed.
Lemma keeps_resample : keeps (pf_resample root : pstate -> _).
Proof. by move=> st b st' h; have [_ _ _] := pf_resample_track h. Qed.
Lemma keeps_dynamic : keeps (pf_dynamic root : pstate -> _).
Proof. by move=> st b st' h; have [_ _ _] := pf_dynamic_track h. Qed.
Lemma keeps_proposal (m : psys) u : keeps (pf_proposal m u).
Proof. by move=> st b st' h; have [_ _] := pf_proposal_track h. Qed.

(** weights: the new lists and what becomes of the components *)
Lemma reweigh_ok os u (mm : pmeas) z s news olds (q : option prop) L q' :
  pf_reweigh os u mm z s news olds q = Ok (L, q') -> nonneg (weights L) /\ values L = values news.
Proof.
elim: news olds q L q' => [|x news IH] [|o olds] q L q' //=; [by case=> <- _|by case=> <- _|].
case: (pf_factor _ _ _ _ _ _ _ _) => [[g q1]||] //=; rewrite /guard; case: ifP => //= hg.
case hr: (pf_reweigh _ _ _ _ _ _ _ _) => [[L1 q2]||] //= -[<- _].
by have [h1 h2] := IH _ _ _ _ hr; split; [apply/nonneg_cons|rewrite /values /= -/(values L1) h2].
Qed.
Definition after c c' : Prop :=
  [/\ c'.1.1.1 = c.1.1.1, c'.1.2 = c.1.2, nonneg (weights c'.1.1.2), values c'.1.1.2 = values (mc_los c.2) &
      if 0 < total (weights c'.1.1.2) then mc_valid c'.2 /\ mc_los c'.2 = normalised c'.1.1.2
      else mc_los c'.2 = c'.1.1.2 /\ mc_cum c'.2 = mc_cum c.2].
Lemma updW_after (d : mcpdf R T) (l : seq part) b d' : mc_sized d -> (0 < size (mc_los d))%N -> size l = size (mc_los d) ->
  nonneg (weights l) -> mc_updW d l = Ok (b, d') ->
  if 0 < total (weights l) then mc_valid d' /\ mc_los d' = normalised l
  else mc_los d' = l /\ mc_cum d' = mc_cum d.
Proof.
move=> hs h0 hl hn; case ht: (0 < total (weights l)).
  by rewrite mc_updWE // => -[_ <-]; split=> //; apply: valid_build; exact: normalised_distr.
by rewrite mc_updW_zero ?ht ?hl // => -[_ <-].
Qed.
Lemma massE c : mass c = total (weights c.1.1.2).
Proof. by rewrite /mass sum_loopE. Qed.
Lemma weights_after a os u (mm : pmeas) z s sh t c b st' : okcell a c ->
  pf_weights os u mm z s (load sh c, t, c.2) = Ok (b, st') -> after c (store st'.1.1 st'.2).
Proof.
move=> [h1 h2 [h3 h3'] h4 h5] h; case: (obindE h) => -[L q] hr h6; case: (obindE h6) => -[b' d'] hu [_ <-] /=.
have [e1 e2] := reweigh_ok hr; split=> //=.
by apply: updW_after hu => //; rewrite -[LHS](size_map fst) -[RHS](size_map fst) -/(values _) e2.
Qed.
Lemma after_size c c' : after c c' -> size c'.1.1.2 = size (mc_los c.2) /\ size (mc_los c'.2) = size (mc_los c.2).
Proof.
move=> [_ _ _ hv hl]; have e : size c'.1.1.2 = size (mc_los c.2).
  by rewrite -[LHS](size_map fst) -[RHS](size_map fst) -/(values _) hv.
by split=> //; move: hl; case: ifP => _ [] => [_ ->|-> _] //; rewrite size_normalised.
Qed.
Lemma nonneg_total0 (l : seq R) : nonneg l -> ~~ (0 < total l) -> total l = 0.
Proof.
by move=> h hn; apply/eqP; rewrite eq_le total_ge0 // andbT leNgt.
Qed.
Lemma after_ok a c c' k : okcell a c -> after c c' -> okcell (a * mass c' / k) c'.
Proof.
move=> [h1 h2 [h3 h3'] h4 h5] ha; have [e1 e2] := after_size ha; case: ha => [a1 a2 a3 a4 a5].
have hnn : nonneg (weights (mc_los c'.2)).
  by move: a5; case: ifP => _ [] => [[[]]|->].
split; rewrite ?e2 ?a1 ?e1 //.
  by move: a5; case: ifP => _ [] => [/mc_valid_sized|_ ec]; rewrite /mc_sized // ec e2 h1.
move: a5; case: ifP => ht [e3 e4]; first by left.
by right; have hz := nonneg_total0 a3 (negbT ht); rewrite massE e3 hz mulr0 mul0r.
Qed.

(** ** The invariant of all histories *)
Definition okm (K : nat) (st : mstate) sh t cs w cum nw sw : Prop :=
  [/\ st = build sh t cs w cum nw sw, (0 < K)%N,
      [/\ size cs = K, size cum = K.+1, size nw = K & size sw = K], all2P okcell w cs &
      nonneg w /\ (distribution w /\ cum = cum_loop 0 w \/ total w = 0)].

Lemma each_rel f (P : cell -> cell -> Prop) (ok : R -> cell -> Prop) : (forall c, P c c) ->
  (forall a sh t c b st', ok a c -> f (load sh c, t, c.2) = Ok (b, st') -> P c (store st'.1.1 st'.2)) ->
  forall w cs b sh t r, all2P ok w cs -> each f b sh t cs = Ok r -> all2C P cs r.2.2.
Proof.
move=> hrefl hf; elim=> [|a w IH] [|c cs] //= b sh t r; first by move=> _ [<-].
move=> [h1 h2]; case: b; last by case=> <- /=; split=> //; elim: cs {h2}.
case hr: (f _) => [[b st]||] //=.
case he: (each _ _ _ _ _) => [r1||] //= -[<-] /=.
by split; [exact: (hf _ _ _ _ _ _ h1 hr)|exact: IH he].
Qed.
(** with success everywhere *)
Lemma each_rel_true f (P : cell -> cell -> Prop) (ok : R -> cell -> Prop) :
  (forall a sh t c st', ok a c -> f (load sh c, t, c.2) = Ok (true, st') -> P c (store st'.1.1 st'.2)) ->
  forall w cs sh t r, all2P ok w cs -> each f true sh t cs = Ok (true, r) -> all2C P cs r.2.
Proof.
move=> hf; elim=> [|a w IH] [|c cs] //= sh t r; first by move=> _ [<-].
move=> [h1 h2].
case hr: (f _) => [[b st]||] //=; case: b hr => hr; last by rewrite each_false.
case he: (each _ _ _ _ _) => [[b r1]||] //= -[eb <-] /=; subst b.
by split; [exact: (hf _ _ _ _ _ h1 hr)|exact: IH he].
Qed.
Lemma eachw_rel f (P : cell -> cell -> Prop) (ok : R -> cell -> Prop) :
  (forall a sh t c b st', ok a c -> f (load sh c, t, c.2) = Ok (b, st') -> P c (store st'.1.1 st'.2)) ->
  forall w cs sh t r, all2P ok w cs -> eachw f sh t cs = Ok r -> all2C P cs r.2.
Proof.
move=> hf; elim=> [|a w IH] [|c cs] //= sh t r; first by move=> _ [<-].
move=> [h1 h2]; case hr: (f _) => [[b st]||] //=.
case he: (eachw _ _ _ _) => [r1||] //= -[<-] /=.
by split; [exact: (hf _ _ _ _ _ _ h1 hr)|exact: IH he].
Qed.
Lemma redrawn_refl c : redrawn c c. Proof. by split=> //; left. Qed.

Lemma all_resample K (st : mstate) sh t cs w cum nw sw b st' : okm K st sh t cs w cum nw sw ->
  mp_resample root st = Ok (b, st') ->
  exists sh' cs', [/\ okm K st' sh' t cs' w cum nw sw, all2C redrawn cs cs', b = true,
    pf_nres sh' = (pf_nres sh + K)%N & config sh' = config sh /\ pf_prop sh' = pf_prop sh].
Proof.
move=> ok; case: (ok) => -> h0 [h1 h2 h3 h4] h5 h6; rewrite /mp_resample mp_allE; last exact: keeps_resample.
case he: (each _ _ _ _ _) => [[b1 [[sh' t'] cs']]||] //= -[<- <-].
have hrel : all2C redrawn cs cs'.
  apply: (each_rel redrawn_refl _ h5 he) => a s0 t0 c b0 st0 [g1 g2 _ _ _]; exact: resample_redrawn.
have hok : all2P okcell w cs'.
  apply: (each_inv _ h5 he) => a s0 t0 c b0 st0 g hr; apply: (redrawn_ok g).
  by case: (g) => g1 g2 _ _ _; exact: resample_redrawn hr.
have hcfg := each_config keeps_resample he.
have [e1 e2 e3 e4] : [/\ b1, t' = t, pf_nres sh' = (pf_nres sh + size cs)%N & pf_prop sh' = pf_prop sh].
  elim: (cs) sh t cs' b1 sh' t' he {hrel hok hcfg h1 h5 ok} => [|c cs1 IH] sh0 t0 cs' b1 sh' t' /=.
    by case=> <- <- <- _; rewrite addn0.
  case hr: (pf_resample _ _) => [[b2 st2]||] //=.
  have [e1 e2 e3 _] := pf_resample_track hr; subst b2.
  case he: (each _ _ _ _ _) => [[b3 [[sh3 t3] cs3]]||] //= -[<- <- <- _].
  have [-> -> -> ->] := IH _ _ _ _ _ _ he; rewrite e2 e3 /= addSnnS; split=> //.
  by case: (obindE hr) => xs _ h6'; case: (obindE h6') => -[b' d'] hu [_ <-].
subst t'; exists sh', cs'; rewrite e1 e3 h1; split=> //.
by split=> //; split=> //; rewrite (each_size he).
Qed.
Lemma all_static K (st : mstate) sh t cs w cum nw sw b st' : okm K st sh t cs w cum nw sw ->
  mp_static root st = Ok (b, st') ->
  exists sh' cs', [/\ okm K st' sh' t cs' w cum nw sw, all2C redrawn cs cs' /\ (~~ due sh t -> cs' = cs /\ sh' = sh),
    b = true, pf_nres sh' = (pf_nres sh + due sh t * K)%N & config sh' = config sh /\ pf_prop sh' = pf_prop sh].
Proof.
move=> ok; have -> : mp_static root st = if due sh t then mp_resample root st else Ok (true, st) by case: ok => ->.
case: (due sh t).
  by move=> /(all_resample ok) [sh' [cs' [e1 e2 -> e4 e5]]]; exists sh', cs'; rewrite mul1n.
case=> <- <-; exists sh, cs; rewrite addn0; split=> //; split=> //.
by elim: (cs) => //= c cs1 IH; split=> //; exact: redrawn_refl.
Qed.
Lemma all_dynamic K (st : mstate) sh t cs w cum nw sw b st' : okm K st sh t cs w cum nw sw ->
  mp_dynamic root st = Ok (b, st') ->
  exists sh' cs', [/\ okm K st' sh' t cs' w cum nw sw, all2C redrawn cs cs' /\ (pf_nres sh' = pf_nres sh -> [seq c.2 | c <- cs'] = [seq c.2 | c <- cs]),
    b = true, (pf_nres sh <= pf_nres sh')%N & (~~ pf_dyn sh -> pf_nres sh' = pf_nres sh) /\ config sh' = config sh /\ pf_prop sh' = pf_prop sh].
Proof.
move=> ok; case: (ok) => -> h0 [h1 h2 h3 h4] h5 h6; rewrite /mp_dynamic mp_allE; last exact: keeps_dynamic.
case he: (each _ _ _ _ _) => [[b1 [[sh' t'] cs']]||] //= -[<- <-].
have hrel : all2C redrawn cs cs'.
  apply: (each_rel redrawn_refl _ h5 he) => a s0 t0 c b0 st0 [g1 g2 _ _ _]; exact: dynamic_redrawn.
have hok : all2P okcell w cs'.
  apply: (each_inv _ h5 he) => a s0 t0 c b0 st0 g hr; apply: (redrawn_ok g).
  by case: (g) => g1 g2 _ _ _; exact: dynamic_redrawn hr.
have hcfg := each_config keeps_dynamic he.
have [e1 e2 e3 [e4 e5 e6]] : [/\ b1, t' = t, (pf_nres sh <= pf_nres sh')%N &
    [/\ pf_prop sh' = pf_prop sh, pf_nres sh' = pf_nres sh -> [seq c.2 | c <- cs'] = [seq c.2 | c <- cs] &
        ~~ pf_dyn sh -> pf_nres sh' = pf_nres sh]].
  elim: (cs) sh t cs' b1 sh' t' he {hrel hok hcfg h1 h5 ok} => [|c cs1 IH] sh0 t0 cs' b1 sh' t' /=.
    by case=> <- <- <- <-.
  case hr: (pf_dynamic _ _) => [[b2 st2]||] //=.
  have [f1 f2 f3 f4] := pf_dynamic_track hr; subst b2; rewrite /= in f2 f3.
  case he: (each _ _ _ _ _) => [[b3 [[sh3 t3] cs3]]||] //= -[<- <- <- <-].
  have [-> -> g1 [-> g2 g3]] := IH _ _ _ _ _ _ he; rewrite f2; split=> //.
    by apply: leq_trans g1; rewrite f3 leq_addr.
  have fp : pf_prop st2.1.1 = pf_prop sh0.
    move: hr; rewrite /pf_dynamic /=; case: ifP => _; first by case=> <-.
    case: ifP => _; last by case=> <-.
    by move=> hr; case: (obindE hr) => xs _ h6'; case: (obindE h6') => -[b' d'] hu [_ <-].
  split=> //.
    move=> e /=; case hp: (poor _ _) f3 => f3 //=; first by move: g1; rewrite e f3; lia.
    rewrite g2; last by rewrite e f3 addn0.
    congr (_ :: _); move: hr hp; rewrite /pf_dynamic /poor /=; case: ifP => _; first by case=> <-.
    case: ifP => hc; last by case=> <-.
    move=> hr; have [_ _ f5 _] := pf_resample_track hr; move: f3; rewrite f5 /= addn0 => f3; lia.
  move=> hd; rewrite g3; first by rewrite f3 /poor /= (negbTE hd) addn0.
  by move: f4; rewrite /config /= => -[-> _ _ _].
subst t'; exists sh', cs'; rewrite e1; split=> //.
by split=> //; split=> //; rewrite (each_size he).
Qed.
Lemma all_proposal K (st : mstate) sh t cs w cum nw sw (m : psys) u b st' : okm K st sh t cs w cum nw sw ->
  mp_proposal m u st = Ok (b, st') ->
  exists sh' t' cs', [/\ okm K st' sh' t' cs' w cum nw sw,
    b -> t' = (t + K)%N /\ all2C (fun c c' => moved c c' /\ mc_valid c.2) cs cs',
    forall i c, at_ cs i = Ok c -> ~ mc_valid c.2 ->
      b = false /\ forall j, (i < j)%N -> at_ cs' j = at_ cs j,
    forall q, pf_prop sh = Some q -> exists2 q1, pf_prop sh' = Some q1 & same_pdf q q1 &
    (t <= t' <= t + K)%N /\ pf_nres sh' = pf_nres sh /\ config sh' = config sh].
Proof.
move=> ok; case: (ok) => -> h0 [h1 h2 h3 h4] h5 h6; rewrite /mp_proposal mp_allE; last exact: keeps_proposal.
case he: (each _ _ _ _ _) => [[b1 [[sh' t'] cs']]||] //= -[<- <-].
have hok : all2P okcell w cs'.
  apply: (each_inv _ h5 he) => a s0 t0 c b0 st0 g hr; apply: (moved_ok g).
  by have [] := proposal_moved g hr.
have hcfg := each_config (keeps_proposal (m := m) (u := u)) he.
exists sh', t', cs'; split.
- by split=> //; split=> //; rewrite (each_size he).
- move=> hb; rewrite hb in he; split; last first.
    by apply: (each_rel_true _ h5 he) => a s0 t0 c st0 g hr; have [g1 g2] := proposal_moved g hr; split=> //; apply/g2.
  rewrite -h1; elim: (cs) sh t cs' sh' t' he {hok hcfg h1 h5 ok hb b1} => [|c cs1 IH] sh0 t0 cs' sh' t' /=; first by case=> _ <-; rewrite addn0.
  case hr: (pf_proposal _ _ _) => [[b2 st2]||] //=; case: b2 hr => hr; last by rewrite each_false.
  case he: (each _ _ _ _ _) => [[b3 [[sh3 t3] cs3]]||] //= -[eb _ <- _]; subst b3.
  by rewrite (IH _ _ _ _ _ he); have [-> _ _] := pf_proposal_track hr; rewrite addSnnS.
- elim: (cs) (w) sh t cs' b1 sh' t' h5 he {hok hcfg h1 ok h6} => [|c cs1 IH] [|a w1] sh0 t0 cs' b1 sh' t' //= [g1 g2].
  case hr: (pf_proposal _ _ _) => [[b2 st2]||] //=.
  have [_ gv] := proposal_moved g1 hr.
  case he: (each _ _ _ _ _) => [[b3 [[sh3 t3] cs3]]||] //= -[<- _ _ <-] [|i] c0 /=.
    case=> <- hn; have eb : b2 = false by apply/negP => hb; apply: hn; apply/gv.
    by move: he; rewrite eb each_false => -[<- _ _ <-]; split=> // -[].
  case: b2 he {hr gv} => he hi hn; last first.
    by move: he; rewrite each_false => -[<- _ _ <-]; split=> // -[].
  by have [k1 k2] := IH _ _ _ _ _ _ _ g2 he _ _ hi hn; split=> // -[|j] //= /k2.
- move=> q0; elim: (cs) q0 sh t cs' b1 sh' t' (true) he {hok hcfg h1 h5 ok} => [|c cs1 IH] q0 sh0 t0 cs' b1 sh' t' [] /=.
  + by case=> _ <- _ _ ->; exists q0.
  + by case=> _ <- _ _ ->; exists q0.
  + case hr: (pf_proposal _ _ _) => [[b2 st2]||] //=.
    case he: (each _ _ _ _ _) => [[b3 [[sh3 t3] cs3]]||] //= -[_ <- _ _] hq.
    case: (obindE hr) => -[r [q' smp']] hm h6'; case: (obindE h6') => -[b' d'] hu [_ est].
    rewrite /load /= hq in hm; have [q1 hq1 hs1] := move_same hm.
    have hp2 : pf_prop st2.1.1 = Some q1 by rewrite -est.
    by have [q2 -> hs2] := IH _ _ _ _ _ _ _ _ he hp2; exists q2 => //; exact: same_trans hs2.
  + by case=> _ <- _ _ ->; exists q0.
split; last split=> //.
  rewrite -h1; elim: (cs) sh t cs' b1 sh' t' (true) he {hok hcfg h1 h5 ok} => [|c cs1 IH] sh0 t0 cs' b1 sh' t' [] /=.
  + by case=> _ _ <- _; rewrite addn0 leqnn.
  + by case=> _ _ <- _; rewrite addn0 leqnn.
  + case hr: (pf_proposal _ _ _) => [[b2 st2]||] //=.
    case he: (each _ _ _ _ _) => [[b3 [[sh3 t3] cs3]]||] //= -[_ _ <- _].
    have := IH _ _ _ _ _ _ _ he; have [-> _ _] := pf_proposal_track hr; rewrite /=; lia.
  + by case=> _ _ <- _; rewrite leqnn leq_addr.
elim: (cs) sh t cs' b1 sh' t' (true) he {hok hcfg h1 h5 ok} => [|c cs1 IH] sh0 t0 cs' b1 sh' t' [] /=.
+ by case=> _ <- _ _.
+ by case=> _ <- _ _.
+ case hr: (pf_proposal _ _ _) => [[b2 st2]||] //=.
  case he: (each _ _ _ _ _) => [[b3 [[sh3 t3] cs3]]||] //= -[_ <- _ _].
  by rewrite (IH _ _ _ _ _ _ _ he); have [_ -> _] := pf_proposal_track hr.
by case=> _ <- _ _.
Qed.
Lemma all_weights K (st : mstate) sh t cs w cum nw sw os u (mm : pmeas) z s b st' : okm K st sh t cs w cum nw sw ->
  0 <= eps -> mp_weights eps os u mm z s st = Ok (b, st') ->
  exists sh' cs', let v := products w (map mass cs') in
  [/\ okm K st' sh' t cs' (if b then normed v else v) (if b then cum_loop 0 (normed v) else cum) v (map mass cs'),
    all2C after cs cs' /\ nonneg v, b = (0 < total v), pf_nres sh' = pf_nres sh /\ config sh' = config sh &
    eachw (pf_weights os u mm z s) sh t cs = Ok (sh', t, cs')].
Proof.
move=> ok heps; case: (ok) => -> h0 [h1 h2 h3 h4] h5 [h6 h7] hmp.
have hsw := all2P_size h5.
have hfold := mp_foldE os u mm z s sh t [::] w cum nw (etrans h4 (esym h1)).
have [[[sh' t'] cs'] he] : exists r, eachw (pf_weights os u mm z s) sh t cs = Ok r.
  move: hmp; rewrite /mp_weights [build sh t cs]/build /=.
  move: hfold; rewrite /= [build sh t cs]/build => ->; case: (eachw _ _ _ _) => [r||] //= _; by exists r.
have hrel : all2C after cs cs'.
  by apply: (eachw_rel _ h5 he) => a s0 t0 c b0 st0 g hr; exact: (weights_after g hr).
have hsz := eachw_size he; rewrite /= in hsz.
have [et [en ec]] : t' = t /\ pf_nres sh' = pf_nres sh /\ config sh' = config sh.
  elim: (cs) sh t cs' sh' t' he {hmp hfold hrel hsz h1 h5 ok hsw} => [|c cs1 IH] sh0 t0 cs' sh' t' /=; first by case=> <- <- _.
  case hr: (pf_weights _ _ _ _ _ _) => [[b2 st2]||] //=.
  case he: (eachw _ _ _ _) => [[[sh3 t3] cs3]||] //= -[<- <- _].
  have [-> [-> ->]] := IH _ _ _ _ _ he; by have [-> -> ->] := pf_weights_track hr.
subst t'; exists sh', cs'; set v := products w (map mass cs').
have hm : nonneg (map mass cs').
  elim: (cs) cs' hrel {he hsz v hmp hfold h1 h5 ok hsw} => [|c cs1 IH] [|c' cs'] //= [[_ _ g _ _] /IH g'].
  by apply/nonneg_cons; rewrite massE; split=> //; exact: total_ge0.
have hv : nonneg v.
  rewrite /v; elim: (w) (map mass cs') h6 hm => [|x w1 IH] [|y l] //= /nonneg_cons [g1 g2] /nonneg_cons [g3 g4].
  by apply/nonneg_cons; split; [exact: mulr_ge0|exact: IH].
have h0' : (0 < size cs)%N by rewrite h1.
have h2' : size cum = (size cs).+1 by rewrite h1.
have := mp_weightsE heps h0' hsw h2' (etrans h3 (esym h1)) (etrans h4 (esym h1)) he hsz hv.
rewrite hmp => -[e].
have e2 : b = (0 < total v) by move: e; rewrite -/v; case: (0 < total v) => -[].
have hcell k : all2P okcell [seq x / k | x <- v] cs'.
  rewrite /v; elim: (w) (cs) cs' h5 hrel {he hsz hv e2 v hmp hfold h1 hm e ok hsw h7 h6} => [|x w1 IH] [|c cs1] [|c' cs'] //=.
  move=> [g1 g2] [g3 g4]; split; last exact: IH g2 g4.
  by apply: after_ok g1 g3.
have hsv : size v = K by rewrite /v size_map size_zip hsw size_map hsz h1 minnn.
split=> //.
  move: e e2; rewrite -/v; case: ifP => ht [-> ->] _; split=> //.
  - by rewrite hsz h1 size_cum size_normed hsv size_map hsz.
  - exact: hcell.
  - by have hd := normed_distr hv ht; split; [case: hd|left].
  - by rewrite hsz h1 hsv size_map hsz.
  - have := hcell 1; rewrite (_ : [seq x / 1 | x <- v] = v) // -[RHS]map_id.
    by apply: eq_map => x; rewrite divr1.
  - by split=> //; right; apply: nonneg_total0; rewrite ?ht.
Qed.
End Proofs.
