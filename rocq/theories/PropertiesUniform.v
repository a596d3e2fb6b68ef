(** * Properties of [Uniform]: C57, C67 *)
From mathcomp Require Import all_ssreflect all_algebra zify ring.
From Verif Require Import Outcome OrdLra ModelWrapper ModelDiscretePdf ModelUniform SpecUniform.
From Verif Require Import ProofsFilter Simulation.
Set Implicit Arguments. Unset Strict Implicit. Unset Printing Implicit Defensive.
Import Order.TTheory GRing.Theory Num.Theory.
Local Open Scope ring_scope.

Section Uniform.
Variable R : realFieldType.
Implicit Types (c w x : seq R) (u : uniform R) (b : box R) (t : nat -> R).

(** ** The simulation *)
Let cw b : seq R * seq R := if b_cw b is Some p then p else (nseq (b_dim b) 0, nseq (b_dim b) 0).
Let los (p : seq R * seq R) := [seq q.1 - q.2 / 2%:R | q <- zip p.1 p.2].
Let his (p : seq R * seq R) := [seq q.1 + q.2 / 2%:R | q <- zip p.1 p.2].
Record rel u b : Prop := Rel {
  r_buf : size (u_buf u) = b_room b;
  r_dim : u_dim u = b_dim b;
  r_room : b_room b = b_dim b \/ b_room b = 0%N;
  r_sc : size (cw b).1 = b_dim b; r_sw : size (cw b).2 = b_dim b;
  r_lo : u_lo u = los (cw b); r_hi : u_hi u = his (cw b);
  r_h : u_height u = if b_cw b is Some p then foldl (@h_div R) (HNum 1) p.2 else HUnset }.

Lemma nth_los p i k : size p.1 = k -> size p.2 = k -> (i < k)%N ->
  nth 0 (los p) i = nth 0 p.1 i - nth 0 p.2 i / 2%:R.
Proof.
move=> h1 h2 hi; rewrite (nth_map (0, 0)) ?size_zip ?h1 ?h2 ?minnn // nth_zip ?h1 ?h2 //.
Qed.
Lemma nth_his p i k : size p.1 = k -> size p.2 = k -> (i < k)%N ->
  nth 0 (his p) i = nth 0 p.1 i + nth 0 p.2 i / 2%:R.
Proof.
move=> h1 h2 hi; rewrite (nth_map (0, 0)) ?size_zip ?h1 ?h2 ?minnn // nth_zip ?h1 ?h2 //.
Qed.
Lemma size_los p k : size p.1 = k -> size p.2 = k -> size (los p) = k.
Proof. by move=> h1 h2; rewrite size_map size_zip h1 h2 minnn. Qed.
Lemma size_his p k : size p.1 = k -> size p.2 = k -> size (his p) = k.
Proof. by move=> h1 h2; rewrite size_map size_zip h1 h2 minnn. Qed.
Lemma getE v i : vec_get v i.+1 = if (i < size v)%N then Ok (nth (0 : R) v i) else Abort.
Proof. by rewrite /= /ub_get; case: ifP => // h; rewrite (at_nth 0 h). Qed.
Lemma forallE m (P : pred nat) : [forall i : 'I_m, P i] = all P (iota 0 m).
Proof.
apply/forallP/allP => [h j|h j]; last by apply: h; rewrite mem_iota /= ltn_ord.
by rewrite mem_iota /= add0n => hj; exact: (h (Ordinal hj)).
Qed.

Lemma insideE p x k j n : size p.1 = k -> size p.2 = k -> (j <= k)%N -> (j + n)%N = size x ->
  u_inside (los p) (his p) x (iota j.+1 n) =
  if all (fun i => between (nth 0 x i) (nth 0 p.1 i) (nth 0 p.2 i)) (iota j (minn (size x) k - j))
  then (if (k < size x)%N then Abort else Ok true) else Ok false.
Proof.
move=> h1 h2; elim: n j => [|n IH] j hj hn.
  rewrite addn0 in hn; rewrite /= (_ : (minn (size x) k - j)%N = 0%N) /=; last by lia.
  by rewrite -hn ltnNge hj.
rewrite [iota j.+1 n.+1]/= [LHS]/= -!/(vec_get _ j.+1) !getE (size_his h1 h2) (size_los h1 h2).
have -> : (j < size x)%N by lia.
case: (ltnP j k) => hk /=; last first.
  rewrite (_ : (minn (size x) k - j)%N = 0%N) /=; last by lia.
  by have -> : (k < size x)%N by lia.
rewrite (nth_his h1 h2 hk) (nth_los h1 h2 hk).
have -> : (minn (size x) k - j)%N = (minn (size x) k - j.+1).+1 by lia.
rewrite [all _ _]/= /between; case: ltrP => ha /=; first by rewrite andbF.
case: ltrP => hb //=; rewrite IH //; lia.
Qed.

Lemma heightE (a : R) w : foldl (@h_div R) (HNum a) w =
  if 0 \in w then HInf else HNum (a / volume w).
Proof.
rewrite /volume; elim: w a => [|y w IH] a; first by rewrite big_nil divr1.
rewrite [LHS]/= inE [0 == y]eq_sym; case: (y =P 0) => [->|/eqP ny] /=.
  by elim: (w) => //= z w' ->.
by rewrite IH big_cons; case: ifP => // _; rewrite invfM mulrA.
Qed.

Lemma fillE (g : nat -> outcome R) good (f : nat -> R) n j buf :
  (forall i, (j <= i < j + n)%N -> g i.+1 = if good i then Ok (f i) else Abort) -> (j <= size buf)%N ->
  foldO (fun bf i => let! r := g i in vec_put bf i r) buf (iota j.+1 n) =
  if all good (iota j n) && (j + n <= size buf)%N then Ok (take j buf ++ map f (iota j n) ++ drop (j + n) buf)
  else Abort.
Proof.
elim: n j buf => [|n IH] j buf hg hj; first by rewrite /= addn0 hj cat_take_drop.
rewrite [LHS]/= hg; last by lia.
rewrite [iota j n.+1]/= [all _ _]/=; case: (good j) => //=.
rewrite /ub_put; case: ltnP => hj'; last first.
  by rewrite (_ : (j + n.+1 <= size buf)%N = false) ?andbF //; lia.
rewrite (put_set_nth 0 _ hj') /= IH; last 2 first.
- by move=> i hi; apply: hg; lia.
- by rewrite size_set_nth; lia.
have hs : size (set_nth 0 buf j (f j)) = size buf by rewrite size_set_nth; exact/maxn_idPr.
rewrite hs addSnnS; case: ifP => // /andP[_ hle]; congr Ok.
rewrite (take_nth 0) ?hs // nth_set_nth /= eqxx -cats1 -catA; congr (_ ++ _).
  apply: (@eq_from_nth _ 0); rewrite !size_take hs // => i; rewrite hj' => hi.
  rewrite !nth_take ?nth_set_nth //=; case: eqP => //; lia.
congr (_ :: _); congr (_ ++ _).
apply: (@eq_from_nth _ 0); rewrite !size_drop hs // => i hi.
by rewrite !nth_drop nth_set_nth /=; case: eqP => //; lia.
Qed.

Lemma foldO_ext A S (f g : S -> A -> outcome S) l s : (forall s a, f s a = g s a) -> foldO f s l = foldO g s l.
Proof. by move=> h; elim: l s => //= a l IH s; rewrite h; case: (g s a) => //=. Qed.

Lemma sim_prob u b x : rel u b -> u_prob u x = b_prob b x.
Proof.
move=> [hb hd hr h1 h2 hl hh hH]; rewrite /u_prob /b_prob hl hh.
rewrite (insideE h1 h2 (leq0n _)) // subn0 -[if b_cw b is Some p then p else _]/(cw b).
rewrite (forallE _ (fun i => between (nth 0 x i) (nth 0 (cw b).1 i) (nth 0 (cw b).2 i))).
case: all => //=; case: ltnP => //= _; rewrite hH.
case hc: (b_cw b) => [[c w]|] //; rewrite /cw hc /= heightE; case: ifP => //= _.
by rewrite mul1r invr_ge0 ltNge; case: (0 <= volume w).
Qed.

Lemma sim_fill u b t : rel u b -> u_fill u t = b_sample b t.
Proof.
move=> [hb hd hr h1 h2 hl hh hH]; rewrite /u_fill /b_sample hl hh hd.
rewrite -[if b_cw b is Some p then p else _]/(cw b) (forallE _ (fun i => 0 <= nth 0 (cw b).2 i)).
set F := fun _ _ => _.
rewrite (@foldO_ext _ _ F (fun bf j => let! r := (let! l := vec_get (los (cw b)) j in
  let! h := vec_get (his (cw b)) j in runif l h (t j)) in vec_put bf j r)); last first.
  by move=> bf j; rewrite /F; case: (vec_get _ _) => //= ?; case: (vec_get _ _).
have -> := @fillE (fun j => let! l := vec_get (los (cw b)) j in let! h := vec_get (his (cw b)) j in
  runif l h (t j)) (fun i => 0 <= nth 0 (cw b).2 i)
  (fun i => nth 0 (cw b).1 i + (t i.+1 - 1 / 2%:R) * nth 0 (cw b).2 i) (b_dim b) 0%N (u_buf u).
- rewrite add0n take0 hb; case: all => //=.
  case: hr => hr; first by rewrite hr leqnn eqxx -hr -hb drop_size cats0.
  rewrite hr leqn0; case: eqP => // h0; rewrite h0 /= drop0.
  by have /size0nil -> : size (u_buf u) = 0%N by rewrite hb.
- move=> i hi; rewrite -!/(vec_get _ i.+1) !getE (size_his h1 h2) (size_los h1 h2).
  have hk : (i < b_dim b)%N by lia.
  rewrite hk /= (nth_his h1 h2 hk) (nth_los h1 h2 hk) /runif.
  set m := nth 0 _ _; set v := nth 0 _ _.
  have -> : (m - v / 2%:R <= m + v / 2%:R) = (0 <= v) by apply/idP/idP; lra.
  by case: (0 <= v) => //=; congr Ok; field.
by [].
Qed.

Lemma sim_at st sb i : List.Forall2 rel st sb -> simO rel (at_ st i) (at_ sb i).
Proof. by move=> h; elim: h i => [|u b st' sb' h _ IH] [|i] //=. Qed.
Lemma sim_put st sb i u b : List.Forall2 rel st sb -> rel u b ->
  simO (List.Forall2 rel) (put_ st i u) (put_ sb i b).
Proof.
move=> h hu; elim: h i => [|u1 b1 st' sb' h hs IH] [|i] //=; first by constructor.
by apply: simO_bind (IH i) _ => s1 s2 h12; constructor.
Qed.
Lemma sim_keep st sb i u b A B (P : B -> A -> Prop) (f : seq (uniform R) -> outcome B) q :
  List.Forall2 rel st sb -> at_ sb i = Ok b -> rel u b ->
  (forall st', List.Forall2 rel st' sb -> simO P (f st') q) -> simO P (obind (put_ st i u) f) q.
Proof.
move=> h hi hu hf; have := sim_put i h hu; rewrite (put_same hi).
by case: (put_ st i u) => //= st' h'; apply: hf.
Qed.
Lemma sim_rcons st sb u b : List.Forall2 rel st sb -> rel u b -> List.Forall2 rel (rcons st u) (rcons sb b).
Proof. by move=> h hu; elim: h => [|u1 b1 st1 sb1 h hs IH] /=; constructor => //; constructor. Qed.

Lemma rel_buf u b t bf : rel u b -> b_sample b t = Ok bf -> rel (u_with_buf u bf) b.
Proof.
move=> [hb hd hr h1 h2 hl hh hH]; rewrite /b_sample; case: ifP => // /andP[_ /eqP he] [<-].
by split=> //=; rewrite size_mkseq.
Qed.
Lemma sim_draws u b ts : rel u b ->
  simO (fun r l => r.1 = l /\ rel r.2 b) (u_draws u ts) (mapO (b_sample b) ts).
Proof.
elim: ts u => [|t ts IH] u h //=; rewrite (sim_fill t h).
case hs: (b_sample b t) => [bf||] //=.
apply: simO_bind (IH _ (rel_buf h hs)) _ => r l [<- hr] /=; by split.
Qed.
Lemma rel_new c w (room dim : nat) bf : size c = size w -> size c = dim -> size bf = room ->
  room = dim \/ room = 0%N ->
  rel (Un dim (los (c, w)) (his (c, w)) (foldl (@h_div R) (HNum 1) w) bf) (Box room dim (Some (c, w))).
Proof. by move=> h1 h2 h3 h4; split=> //=; rewrite -?h1. Qed.
Lemma rel_dim k : rel (u_new_dim R k) (Box k k None).
Proof.
have h0 : los (nseq k 0, nseq k 0) = nseq k 0 /\ his (nseq k 0, nseq k 0) = nseq k 0.
  rewrite /los /his /=; elim: k => //= k [-> ->]; by rewrite !mul0r subr0 addr0.
by case: h0 => h1 h2; split; rewrite /= ?size_nseq //; left.
Qed.
Lemma sim_set u b c w : rel u b -> simO rel (u_set u c w) (b_set b c w).
Proof.
move=> [hb hd hr h1 h2 hl hh hH]; rewrite /u_set /b_set /u_borders.
case: (size c =P size w) => //= hc; rewrite hd.
case: (b_dim b =P 0%N) => [h0|h0] /=.
  rewrite eqxx /=; apply: rel_new => //; right; case: hr => // ->; exact: h0.
case: (b_dim b =P size c) => //= h3; rewrite h3.
by apply: rel_new => //; rewrite -h3.
Qed.

Lemma sim_step st sb o : List.Forall2 rel st sb ->
  simO (fun r q => r.1 = q.1 /\ List.Forall2 rel r.2 q.2) (u_step st o) (b_step sb o).
Proof.
move=> h; case: o => [c w|k|i|i j|i c w|i|i|i x|i m t|i m ts].
- rewrite /= /u_new /u_borders; case: eqP => //= hc; split=> //; apply: sim_rcons => //.
  by apply: rel_new => //; rewrite ?size_nseq //; left.
- by split=> //; apply: sim_rcons => //; exact: rel_dim.
- by apply: simO_bind (sim_at i h) _ => u b hu; split=> //; exact: sim_rcons.
- apply: simO_bind (sim_at j h) _ => u b hu.
  by apply: simO_bind (sim_put i h hu) _ => s1 s2 h12.
- apply: simO_bind (sim_at i h) _ => u b hu.
  apply: simO_bind (sim_set c w hu) _ => u' b' hu'.
  by apply: simO_bind (sim_put i h hu') _ => s1 s2 h12.
- apply: simO_bind (sim_at i h) _ => u b hu; split=> //=; congr UVec.
  rewrite /u_center /b_center; case: hu => hb hd hr h1 h2 hl hh hH.
  rewrite hl hh; have -> : (if b_cw b is Some p then p.1 else nseq (b_dim b) 0) = (cw b).1.
    by rewrite /cw; case: (b_cw b).
  apply: (@eq_from_nth _ 0); rewrite size_map size_zip (size_los h1 h2) (size_his h1 h2) minnn //.
  move=> k hk; rewrite (nth_map (0, 0)) ?size_zip ?(size_los h1 h2) ?(size_his h1 h2) ?minnn //.
  rewrite nth_zip ?(size_los h1 h2) ?(size_his h1 h2) //= (nth_his h1 h2 hk) (nth_los h1 h2 hk).
  by set m := nth 0 _ _; set v := nth 0 _ _; lra.
- apply: simO_bind (sim_at i h) _ => u b hu; split=> //=; congr UVec.
  rewrite /u_width /b_width; case: hu => hb hd hr h1 h2 hl hh hH.
  rewrite hl hh; have -> : (if b_cw b is Some p then p.2 else nseq (b_dim b) 0) = (cw b).2.
    by rewrite /cw; case: (b_cw b).
  apply: (@eq_from_nth _ 0); rewrite size_map size_zip (size_los h1 h2) (size_his h1 h2) minnn ?h2 //.
  move=> k hk; rewrite (nth_map (0, 0)) ?size_zip ?(size_los h1 h2) ?(size_his h1 h2) ?minnn //.
  rewrite nth_zip ?(size_los h1 h2) ?(size_his h1 h2) //= (nth_his h1 h2 hk) (nth_los h1 h2 hk).
  by set m := nth 0 _ _; set v := nth 0 _ _; lra.
- apply: simO_bind (sim_at i h) _ => u b hu.
  by apply: simO_bind (simO_eq (sim_prob x hu)) _ => r q ->.
- rewrite /=; have := sim_at i h; case hi: (at_ sb i) => [b||]; case: (at_ st i) => [u||] //= hu.
  rewrite /u_sample; case: m => /=; try (by apply: (sim_keep h hi hu) => st' h').
  rewrite (sim_fill t hu); case hs: (b_sample b t) => [bf||] //=.
  by apply: (sim_keep h hi (rel_buf hu hs)) => st' h'.
rewrite /=; have := sim_at i h; case hi: (at_ sb i) => [b||]; case: (at_ st i) => [u||] //= hu.
rewrite /u_samples; case: m => /=; try (by apply: (sim_keep h hi hu) => st' h').
have := sim_draws ts hu; case: (u_draws u ts) => [[l u']||]; case: (mapO _ _) => [l'||] //= [-> hu'].
by apply: (sim_keep h hi hu') => st' h'.
Qed.
Lemma sim_run st sb os : List.Forall2 rel st sb -> (let! r := u_run st os in Ok r.1) = b_run sb os.
Proof.
elim: os st sb => [|o os IH] st sb h //=; have := sim_step o h.
case: (u_step st o) => [[r st']||]; case: (b_step sb o) => [[r' sb']||] //= [-> h'].
by rewrite -(IH _ _ h'); case: (u_run st' os) => [[rs st'']||].
Qed.

(** ** C57, C67: every program *)
(** The results of every program with any number of objects are those of boxes
    given by centre and width: what was set last, and nothing else, counts. *)
Theorem C57_history (os : seq (uop R)) : (let! r := u_run [::] os in Ok r.1) = b_run [::] os.
Proof. by apply: sim_run. Qed.

Lemma rel_u_new c w : size c = size w ->
  exists2 u, u_new c w = Ok u & rel u (Box (size c) (size c) (Some (c, w))).
Proof.
move=> h; rewrite /u_new /u_borders h eqxx /=; eexists; first by [].
by rewrite -h; apply: rel_new => //; rewrite ?size_nseq //; left.
Qed.

(** Centre and width are returned unchanged. *)
Theorem C57_round_trip c w : size c = size w ->
  exists2 u, u_new c w = Ok u & u_center u = c /\ u_width u = w.
Proof.
move=> h; have [u hu hr] := rel_u_new h; exists u => //.
have := sim_step (UCenter 0) (List.Forall2_cons _ _ hr (List.Forall2_nil _)).
have := sim_step (UWidth 0) (List.Forall2_cons _ _ hr (List.Forall2_nil _)).
by move=> /= [[->] _] [[->] _].
Qed.

Lemma volume_gt0 w : widths_pos w -> 0 < volume w.
Proof.
rewrite /volume; elim: w => [|a w IH] h; first by rewrite big_nil ltr01.
rewrite big_cons; apply: mulr_gt0; first by apply: h; rewrite mem_head.
by apply: IH => y hy; apply: h; rewrite inE hy orbT.
Qed.
Lemma betweenE (a m v : R) : between a m v = (`|a - m| <= v / 2%:R).
Proof. by rewrite /between ler_norml; apply/andP/andP => -[h1 h2]; split; lra. Qed.

(** The density: the inverse of the volume in the closed box, 0 outside. *)
Theorem C57_density c w x : size c = size w -> widths_pos w -> size x = size c ->
  exists2 u, u_new c w = Ok u &
    (in_box c w x -> u_prob u x = Ok (volume w)^-1) /\ (~ in_box c w x -> u_prob u x = Ok 0).
Proof.
move=> h hw hx; have [u hu hr] := rel_u_new h; exists u => //.
rewrite (sim_prob x hr) /b_prob /= hx minnn ltnn.
have -> : (0 \in w) = false by apply/negP => /hw; rewrite ltxx.
rewrite ltNge (ltW (volume_gt0 hw)) /=; split=> [[_ hi]|hn].
  have -> // : [forall i : 'I_(size c), between (nth 0 x i) (nth 0 c i) (nth 0 w i)].
  by apply/forallP => i; rewrite betweenE hi.
case: forallP => //= hi; case: hn; split=> // i hic.
by have := hi (Ordinal hic); rewrite betweenE.
Qed.

(** Density times volume is 1. *)
Theorem C57_mass c w u : widths_pos w -> u_new c w = Ok u ->
  exists2 d, u_prob u c = Ok d & d * volume w = 1.
Proof.
move=> hw hu; have h : size c = size w.
  by move: hu; rewrite /u_new /u_borders; case: eqP.
have [u' hu' [hd _]] := C57_density h hw erefl.
move: hu hu'; case: (u_new c w) => [u1||] // [<-] [e]; rewrite e hd; last first.
  split=> // i hi; rewrite subrr normr0 divr_ge0 ?ler0n // ltW //; apply: hw; apply: mem_nth; by rewrite -h.
by exists (volume w)^-1 => //; rewrite mulVf // gt_eqF // volume_gt0.
Qed.

(** Samples: for draws in [0,1] they lie in the box and are affine in the draws;
    every point of the box is the sample of some draws. *)
Theorem C57_sample c w t : size c = size w -> widths_pos w ->
  (forall j, (0 < j <= size c)%N -> 0 <= t j <= 1) ->
  exists u x u', [/\ u_new c w = Ok u, u_sample u DEFAULT t = Ok (Some x, u'), in_box c w x &
    forall i, (i < size c)%N -> nth 0 x i = nth 0 c i - nth 0 w i / 2%:R + t i.+1 * nth 0 w i].
Proof.
move=> h hw ht; have [u hu hr] := rel_u_new h.
have hwi i : (i < size c)%N -> 0 < nth 0 w i by move=> hi; apply: hw; apply: mem_nth; rewrite -h.
have hs : u_fill u t = Ok (mkseq (fun i => nth 0 c i + (t i.+1 - 1 / 2%:R) * nth 0 w i) (size c)).
  rewrite (sim_fill t hr) /b_sample /= eqxx andbT.
  by have -> : [forall i : 'I_(size c), 0 <= nth 0 w i] by apply/forallP => i; rewrite ltW // hwi.
exists u; eexists; eexists; split=> //; first by rewrite /u_sample hs.
  split; first by rewrite size_mkseq.
  move=> i hi; rewrite nth_mkseq // addrC addKr normrM (gtr0_norm (hwi i hi)) mulrC ler_pmul2l ?hwi //.
  have /andP[h0 h1] : 0 <= t i.+1 <= 1 by apply: ht; lia.
  by rewrite ler_norml; apply/andP; split; lra.
by move=> i hi; rewrite nth_mkseq //; field.
Qed.
Theorem C57_sample_onto c w x : size c = size w -> widths_pos w -> in_box c w x ->
  exists u t u', [/\ forall j, (0 < j <= size c)%N -> 0 <= t j <= 1,
    u_new c w = Ok u & u_sample u DEFAULT t = Ok (Some x, u')].
Proof.
move=> h hw [hx hi].
have hwi i : (i < size c)%N -> 0 < nth 0 w i by move=> hj; apply: hw; apply: mem_nth; rewrite -h.
pose t j := (nth 0 x j.-1 - nth 0 c j.-1) / nth 0 w j.-1 + 1 / 2%:R.
have ht j : (0 < j <= size c)%N -> 0 <= t j <= 1.
  move=> hj; have hj' : (j.-1 < size c)%N by lia.
  have := hi _ hj'; rewrite ler_norml /t => /andP[h1 h2].
  have w0 := hwi _ hj'.
  have a1 : - (1 / 2%:R) <= (nth 0 x j.-1 - nth 0 c j.-1) / nth 0 w j.-1 by rewrite ler_pdivl_mulr //; lra.
  have a2 : (nth 0 x j.-1 - nth 0 c j.-1) / nth 0 w j.-1 <= 1 / 2%:R by rewrite ler_pdivr_mulr //; lra.
  by apply/andP; split; lra.
have [u [x' [u' [h1 h2 [h3 _] h4]]]] := C57_sample h hw ht.
exists u, t, u'; split=> //; rewrite h2; congr (Ok (Some _, _)).
apply: (@eq_from_nth _ 0); rewrite h3 // => i hj; rewrite h4 // /t /=.
by field; rewrite gt_eqF // hwi.
Qed.

(** For draws of mean 1/2 the samples have the centre as their mean; their
    covariances are those of the draws times the widths. *)
Theorem C57_moments c w u (I : finType) (p : I -> R) (t : I -> nat -> R) (x : I -> seq R) (us : I -> uniform R) :
  widths_pos w -> u_new c w = Ok u -> (forall i, u_sample u DEFAULT (t i) = Ok (Some (x i), us i)) ->
  \sum_i p i = 1 -> forall a b : nat, (a < size c)%N -> (b < size c)%N ->
  \sum_i p i * t i a.+1 = 1 / 2%:R -> \sum_i p i * t i b.+1 = 1 / 2%:R ->
  \sum_i p i * nth 0 (x i) a = nth 0 c a /\
  \sum_i p i * ((nth 0 (x i) a - nth 0 c a) * (nth 0 (x i) b - nth 0 c b)) =
  nth 0 w a * nth 0 w b * \sum_i p i * ((t i a.+1 - 1 / 2%:R) * (t i b.+1 - 1 / 2%:R)).
Proof.
move=> hw hu hx hp a b ha hb hta htb; have h : size c = size w.
  by move: hu; rewrite /u_new /u_borders; case: eqP.
have [u' hu' hr] := rel_u_new h; move: hu hu' hx; case: (u_new c w) => [u1||] // [<-] [->] hx.
have xE i k : (k < size c)%N -> nth 0 (x i) k = nth 0 c k + (t i k.+1 - 1 / 2%:R) * nth 0 w k.
  move=> hk; have := hx i; rewrite /u_sample (sim_fill (t i) hr) /b_sample /=.
  by case: ifP => //= _ [<- _]; rewrite nth_mkseq.
split.
  under eq_bigr => i _ do rewrite (xE i a ha) mulrDr mulrA mulrBr.
  rewrite big_split /= -mulr_suml hp mul1r -mulr_suml sumrB hta -mulr_suml hp !mul1r subrr mul0r addr0 //.
rewrite mulr_sumr; apply: eq_bigr => i _; rewrite (xE i a ha) (xE i b hb); ring.
Qed.

(** ** C67 *)
(** An object made with a positive dimension and given centre and width later
    behaves like one made with them; before that its density is undefined. *)
Theorem C67_set_later k c w (os : seq (uop R)) : size c = k.+1 -> size w = k.+1 ->
  (let! r := u_run [::] [:: UNewDim k.+1, USet 0 c w & os] in Ok (behead r.1)) =
  (let! r := u_run [::] (UNew c w :: os) in Ok r.1).
Proof.
move=> hc hw.
have h1 := C57_history [:: UNewDim k.+1, USet 0 c w & os]; have h2 := C57_history (UNew c w :: os).
rewrite h2; move: h1; case: (u_run _ _) => [[rs st]||] //= => [h1|h1|h1].
all: move: h1; rewrite /b_set /= hc hw !eqxx /= => h1; move: h1.
all: by case: (b_run _ os) => //= r [->].
Qed.
Theorem C67_density_unset_refuted k : u_prob (u_new_dim R k) (nseq k 0) = UB.
Proof.
rewrite (sim_prob _ (rel_dim k)) /b_prob /= size_nseq minnn ltnn.
have -> // : [forall i : 'I_k, between (nth 0 (nseq k 0) i) (nth 0 (nseq k 0) i) (nth (0 : R) (nseq k 0) i)].
by apply/forallP => i; rewrite betweenE subrr normr0 nth_nseq if_same mul0r.
Qed.
(** The default constructor followed by [UniformSet]: centre, width and density
    are right, every sample is written out of range. *)
Theorem C67_default_then_set_refuted c w x t : size c = size w -> (0 < size c)%N ->
  exists2 u, u_set (u_new_dim R 0) c w = Ok u &
  [/\ u_center u = c, u_width u = w, u_sample u DEFAULT t = Abort &
      exists2 v, u_new c w = Ok v & u_prob u x = u_prob v x].
Proof.
move=> h hp; have := sim_set c w (rel_dim 0); rewrite /b_set /= h eqxx /=.
case: (u_set _ _ _) => [u||] //= hr; exists u => //.
have h1 := sim_step (UCenter 0) (List.Forall2_cons _ _ hr (List.Forall2_nil _)).
have h2 := sim_step (UWidth 0) (List.Forall2_cons _ _ hr (List.Forall2_nil _)).
move: h1 h2 => /= [[->] _] [[->] _]; split=> //.
  rewrite /u_sample (sim_fill t hr) /b_sample /= (_ : (size w == 0%N) = false) ?andbF //.
  by apply/eqP; move: hp; rewrite h; case: (size w).
by have [v hv hr'] := rel_u_new h; exists v => //; rewrite (sim_prob x hr) (sim_prob x hr') /b_prob /= h.
Qed.
(** A longer input fails unless one of the first coordinates is outside; a
    shorter one is compared on the coordinates it has. *)
Theorem C67_long_input c w x y : size c = size w -> in_box c w x -> (0 < size y)%N ->
  exists2 u, u_new c w = Ok u & u_prob u (x ++ y) = Abort.
Proof.
move=> h [hx hi] hy; have [u hu hr] := rel_u_new h; exists u => //.
rewrite (sim_prob _ hr) /b_prob /= size_cat hx.
have -> : minn (size c + size y) (size c) = size c by lia.
have -> : (size c < size c + size y)%N by lia.
have -> // : [forall i : 'I_(size c), between (nth 0 (x ++ y) i) (nth 0 c i) (nth 0 w i)].
by apply/forallP => i; rewrite betweenE nth_cat hx ltn_ord hi.
Qed.
Theorem C67_short_input_refuted c w : size c = size w -> widths_pos w ->
  exists2 u, u_new c w = Ok u & u_prob u [::] = Ok (volume w)^-1.
Proof.
move=> h hw; have [u hu hr] := rel_u_new h; exists u => //.
rewrite (sim_prob _ hr) /b_prob /= min0n.
have -> : (0 \in w) = false by apply/negP => /hw; rewrite ltxx.
rewrite ltNge (ltW (volume_gt0 hw)) /=.
by have -> : [forall i : 'I_0, between (nth 0 [::] i) (nth 0 c i) (nth 0 w i)] by apply/forallP => -[].
Qed.
(** [DimensionSet] (inherited) changes the number only: after an increase every
    sample fails. *)
Theorem C67_dimension_set c w u k t : u_new c w = Ok u -> (size c < k)%N ->
  u_sample (u_dim_set u k) DEFAULT t = Abort.
Proof.
move=> hu hk; have h : size c = size w by move: hu; rewrite /u_new /u_borders; case: eqP.
have [u' hu' hr] := rel_u_new h; move: hu hu'; case: (u_new c w) => [u1||] // [<-] [->] {u1}.
rewrite /u_sample /u_fill /=.
suff -> : forall j n, (j <= size c < j + n)%N -> forall bf, foldO (fun buf j => let! l := vec_get (u_lo u') j in
  let! h := vec_get (u_hi u') j in let! r := runif l h (t j) in vec_put buf j r) bf (iota j.+1 n) = Abort.
  by []. 
- by lia.
move=> j n; elim: n j => [|n IH] j hj bf; first by lia.
have [sl sh] : size (u_lo u') = size c /\ size (u_hi u') = size c.
  by case: hr => _ _ _ h1 h2 -> -> _; rewrite (size_los h1 h2) (size_his h1 h2).
rewrite /= -!/(vec_get _ j.+1) !getE sl sh; case: ltnP => //= hj'.
rewrite /runif; case: (_ <= _) => //=; rewrite /ub_put; case: ltnP => //= hb.
by rewrite (put_set_nth 0 _ hb) /=; apply: IH; lia.
Qed.
End Uniform.

(** ** Examples *)
Section Examples.
Let RQ := [realFieldType of rat].
Let q (a b : nat) : RQ := a%:R / b%:R.
(** centre (1, 2), widths (2, 4): the density is 1/8, the corner is inside, a
    point beyond is outside; then the box is replaced *)
Let prog : seq (uop RQ) := [:: UNew [:: q 1 1; q 2 1] [:: q 2 1; q 4 1]; UProb 0 [:: q 2 1; q 4 1];
  UProb 0 [:: q 2 1; q 5 1]; USample 0 DEFAULT (fun j => q j 4); USet 0 [:: q 5 1; q 5 1] [:: q 1 1; q 1 2];
  UProb 0 [:: q 2 1; q 4 1]; UProb 0 [:: q 5 1; q 5 1]; UWidth 0; UCopy 0; USet 1 [:: q 0 1; q 0 1] [:: q 1 1; q 1 1];
  UProb 0 [:: q 5 1; q 5 1]].
Let num (r : ures RQ) : seq RQ :=
  match r with UVal a => [:: a] | UVec v => v | UDrawn (Some v) => v | _ => [::] end.
Example C57_example :
  (if u_run [::] prog is Ok (r, _) then map num r == [:: [::]; [:: q 1 8]; [:: q 0 1];
    [:: q 1 2; q 2 1]; [::]; [:: q 0 1]; [:: q 2 1]; [:: q 1 1; q 1 2]; [::]; [::]; [:: q 2 1]] else false).
Proof. by vm_compute. Qed.
Example C57_hypotheses_example : let c := [:: q 1 1; q 2 1] in let w := [:: q 2 1; q 4 1] in
  [/\ size c = size w, widths_pos w, in_box c w [:: q 2 1; q 1 2] & ~ in_box c w [:: q 4 1; q 1 2]].
Proof.
split=> //.
- by move=> a; rewrite !inE => /orP[]/eqP->; vm_compute.
- by split=> // -[|[|i]] // _; vm_compute.
by case=> _ /(_ 0%N isT); vm_compute.
Qed.
Example C57_moments_example : let c := [:: q 1 1] in let w := [:: q 2 1] in
  exists u (x : bool -> seq RQ) us, [/\ u_new c w = Ok u,
  forall i : bool, u_sample u DEFAULT (fun _ => if i then q 1 1 else q 0 1) = Ok (Some (x i), us i) &
  \sum_(i : bool) q 1 2 * nth 0 (x i) 0 = q 1 1].
Proof.
move=> c w; have hw : widths_pos w by move=> a; rewrite !inE => /eqP->; vm_compute.
pose t (i : bool) (_ : nat) : RQ := if i then q 1 1 else q 0 1.
have ht (i : bool) j : (0 < j <= size c)%N -> 0 <= t i j <= 1 by move=> _; case: i; vm_compute.
have [u [x1 [u1 [h1 h2 _ _]]]] := @C57_sample RQ c w (t true) erefl hw (ht true).
have [u' [x0 [u0 [h1' h2' _ _]]]] := @C57_sample RQ c w (t false) erefl hw (ht false).
have e : u = u' by move: h1 h1'; case: (u_new c w) => [v||] // [<-] [<-].
rewrite -e in h2' h1'.
exists u, (fun i => if i then x1 else x0), (fun i => if i then u1 else u0).
have hx (i : bool) : u_sample u DEFAULT (t i) = Ok (Some (if i then x1 else x0), if i then u1 else u0) by case: i.
split=> //.
have hp : \sum_(i : bool) q 1 2 = 1 by rewrite big_bool; apply/eqP; vm_compute.
have hm : \sum_(i : bool) q 1 2 * t i 1%N = 1 / 2%:R by rewrite big_bool; apply/eqP; vm_compute.
have [h _] := C57_moments hw h1 hx hp (a := 0%N) (b := 0%N) isT isT hm hm.
exact: h.
Qed.
Let aborts A (m : outcome A) : bool := if m is Abort then true else false.
Let stops A (m : outcome A) : bool := if m is UB then true else false.
Example C67_example :
  [/\ stops (u_run [::] [:: UNewDim 1; UProb 0 [:: q 0 1]]),
      aborts (u_run [::] [:: UNewDim 0; USet 0 [:: q 1 1] [:: q 2 1]; USample 0 DEFAULT (fun _ => q 1 2)]),
      (if u_run [::] [:: UNewDim 1; USet 0 [:: q 1 1] [:: q 2 1]; USample 0 DEFAULT (fun _ => q 1 2)] is Ok (r, _)
       then map num r == [:: [::]; [::]; [:: q 1 1]] else false) &
      aborts (u_run [::] [:: UNew [:: q 1 1] [:: q 2 1]; UProb 0 [:: q 1 1; q 1 1]])].
Proof. by split; vm_compute. Qed.
End Examples.

Print Assumptions C57_history.
Print Assumptions C57_round_trip.
Print Assumptions C57_density.
Print Assumptions C57_mass.
Print Assumptions C57_sample.
Print Assumptions C57_sample_onto.
Print Assumptions C57_moments.
Print Assumptions C67_set_later.
Print Assumptions C67_density_unset_refuted.
Print Assumptions C67_default_then_set_refuted.
Print Assumptions C67_long_input.
Print Assumptions C67_short_input_refuted.
Print Assumptions C67_dimension_set.
