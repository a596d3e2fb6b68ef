(** * Proofs about the conditional table *)
From mathcomp Require Import all_ssreflect all_algebra.
From mathcomp Require Import ring zify.
From Verif Require Import OrdLra Outcome SpecProb ModelTables ProofsTables
  ModelCondPdf SpecCondPdf.
Set Implicit Arguments. Unset Strict Implicit. Unset Printing Implicit Defensive.
Import Order.TTheory GRing.Theory Num.Theory.
Local Open Scope ring_scope.

(** mixed-radix value *)
Fixpoint mr (args : seq int) (dims : seq nat) : int :=
  match dims, args with
  | d :: dims', a :: args' => a + d%:Z * mr args' dims'
  | _, _ => 0
  end.
Definition rng (args : seq int) (dims : seq nat) : bool :=
  (size args == size dims) && all (fun p => (0 <= p.1) && (p.1 < p.2%:Z)) (zip args dims).

Lemma rng_cons a args d dims :
  rng (a :: args) (d :: dims) = (0 <= a) && (a < d%:Z) && rng args dims.
Proof. by rewrite /rng /= eqSS; case: (_ == _) => //=; rewrite andbF. Qed.
Lemma in_rangeE n dims s args : in_range n dims s args = rng (s :: args) (n :: dims).
Proof. by rewrite rng_cons /rng /in_range !andbA. Qed.

Lemma mr_bound args dims : rng args dims -> 0 <= mr args dims < (\prod_(d <- dims) d)%N%:Z.
Proof.
elim: dims args => [|d dims IH] [|a args] //=; first by rewrite big_nil.
rewrite rng_cons => /andP [ha /IH]; rewrite big_cons PoszM => h.
by move: ha h; nia.
Qed.
Lemma mr_inj a1 a2 dims : rng a1 dims -> rng a2 dims -> mr a1 dims = mr a2 dims -> a1 = a2.
Proof.
elim: dims a1 a2 => [|d dims IH] [|a a1] [|b a2] //=.
rewrite !rng_cons => /andP [ha h1] /andP [hb h2] h.
have e : a = b.
  have : (a - b) = d%:Z * (mr a2 dims - mr a1 dims) by move: h; lia.
  move: ha hb; set t := (mr a2 dims - mr a1 dims).
  have [ht|[ht|ht]] : t = 0 \/ (1 <= t) \/ (t <= -1) by lia.
  - by rewrite ht; lia.
  - by nia.
  - by nia.
subst b; congr cons; apply: IH => //.
have hd : (0 < d%:Z) by move: ha; lia.
by apply: (mulfI (x := d%:Z)); lia.
Qed.
Lemma mr_surj dims k : (k < \prod_(d <- dims) d)%N -> exists2 args, rng args dims & mr args dims = k%:Z.
Proof.
elim: dims k => [|d dims IH] k; first by rewrite big_nil; exists [::] => //=; lia.
rewrite big_cons => hk.
have hd : (0 < d)%N by case: (d) hk.
have hk' : (k %/ d < \prod_(d <- dims) d)%N by rewrite ltn_divLR // mulnC.
case: (IH _ hk') => args h1 h2; exists ((k %% d)%N%:Z :: args).
  by rewrite rng_cons h1 andbT lez_nat ltz_nat ltn_pmod.
by rewrite /= h2 -PoszM -PoszD addnC mulnC -divn_eq.
Qed.

Lemma index_loopE i b args dims : (size dims <= size args)%N ->
  dc_index_loop i b args dims = Ok (i + b * mr args dims).
Proof.
elim: dims i b args => [|d dims IH] i b [|a args] //=; rewrite ?mulr0 ?addr0 //.
by rewrite ltnS => h; rewrite IH //; congr Ok; ring.
Qed.
Lemma index_loop_UB i b args dims : (size args < size dims)%N -> dc_index_loop i b args dims = UB.
Proof. by elim: dims i b args => [|d dims IH] i b [|a args] //= h; apply: IH. Qed.

Section Cond.
Variable R : realFieldType.
Variable eps : R.
Implicit Types (d : dcpdf R).

Lemma dc_indexE d s args : (size (dc_dims d) <= size args)%N ->
  dc_index d s args = Ok (mr (s :: args) (dc_n d :: dc_dims d)).
Proof. by move=> h; rewrite /dc_index index_loopE //=; congr Ok; ring. Qed.

Lemma foldl_muln a s : foldl muln a s = (a * \prod_(d <- s) d)%N.
Proof. by elim: s a => [|x s IH] a /=; rewrite ?big_nil ?muln1 // IH big_cons mulnA. Qed.
Lemma dc_new_wf n dims : dc_wf (dc_new R n dims).
Proof. by rewrite /dc_wf /dc_new /= size_nseq foldl_muln mul1n mulnC. Qed.

Lemma dc_index_range d s args : in_range (dc_n d) (dc_dims d) s args ->
  exists2 k, dc_index d s args = Ok k%:Z & (k < combos (dc_n d) (dc_dims d))%N.
Proof.
rewrite in_rangeE => h; have := mr_bound h; rewrite dc_indexE; last first.
  by case/andP: h => /= /eqP [->].
rewrite /combos big_cons; case: (mr _ _) => k; last by lia.
by move=> hk; exists k => //; lia.
Qed.
Lemma dc_index_inj d s1 a1 s2 a2 :
  in_range (dc_n d) (dc_dims d) s1 a1 -> in_range (dc_n d) (dc_dims d) s2 a2 ->
  dc_index d s1 a1 = dc_index d s2 a2 -> s1 = s2 /\ a1 = a2.
Proof.
rewrite !in_rangeE => h1 h2.
rewrite !dc_indexE; [|by case/andP: h2 => /= /eqP [->]|by case/andP: h1 => /= /eqP [->]].
move=> [] h; have [] : s1 :: a1 = s2 :: a2 by exact: mr_inj h1 h2 h.
by move=> -> ->.
Qed.
Lemma dc_index_surj d k : (k < combos (dc_n d) (dc_dims d))%N ->
  exists s args, in_range (dc_n d) (dc_dims d) s args /\ dc_index d s args = Ok k%:Z.
Proof.
move=> hk; have : (k < \prod_(x <- dc_n d :: dc_dims d) x)%N by rewrite big_cons.
case/mr_surj => -[|s args] // h1 h2; exists s, args; rewrite in_rangeE h1; split=> //.
by rewrite dc_indexE ?h2 //; case/andP: h1 => /= /eqP [->].
Qed.

(** set / get *)
Lemma dc_setE d v s args : dc_wf d -> in_range (dc_n d) (dc_dims d) s args ->
  exists k t, [/\ dc_index d s args = Ok k%:Z, (k < size (dc_tab d))%N,
    t = set_nth None (dc_tab d) k (Some v) & dc_set d v s args = Ok (DCPdf (dc_n d) (dc_dims d) t)].
Proof.
move=> hw hr; case: (dc_index_range hr) => k hk hlt; rewrite -hw in hlt.
exists k; eexists; split; [by []|by []|by []|].
by rewrite /dc_set hk /= (put_set_nth None).
Qed.
Lemma dc_set_wf d v s args d' : dc_wf d -> in_range (dc_n d) (dc_dims d) s args ->
  dc_set d v s args = Ok d' -> [/\ dc_wf d', dc_n d' = dc_n d & dc_dims d' = dc_dims d].
Proof.
move=> hw hr; case: (dc_setE v hw hr) => k [t [_ hk -> ->]] [<-]; split=> //.
by rewrite /dc_wf /= size_set_nth (maxn_idPr hk).
Qed.

Lemma dc_sets_ok d h : dc_wf d -> ok_hist (dc_n d) (dc_dims d) h ->
  exists d', [/\ dc_sets d h = Ok d', dc_wf d', dc_n d' = dc_n d, dc_dims d' = dc_dims d &
   forall s args k, in_range (dc_n d) (dc_dims d) s args -> dc_index d s args = Ok k%:Z ->
     nth None (dc_tab d') k =
     if last_written h s args is Some v then Some v else nth None (dc_tab d) k].
Proof.
elim: h d => [|[[v s0] a0] h IH] d hw /=; first by move=> _; exists d.
case/andP=> hr hh; case: (dc_setE v hw hr) => k0 [t [hk0 hlt ht hs]].
rewrite /dc_sets /= hs /=.
case: (dc_set_wf hw hr hs) => hw1 _ _.
case: (IH _ hw1 hh) => d' [h1 h2 h3 h4 h5]; exists d'; split=> // s args k hr' hk.
rewrite (h5 s args k) //; case: (last_written h s args) => //=.
rewrite ht nth_set_nth /=; case: eqP => [ek|nk].
  subst k; rewrite -hk0 in hk; case: (dc_index_inj hr' hr hk) => -> ->.
  by rewrite !eqxx.
case: ifP => // /andP [/eqP e1 /eqP e2]; subst; case: nk.
by move: hk; rewrite hk0 => -[].
Qed.

Lemma dc_get_hist d h s args d' : dc_wf d -> ok_hist (dc_n d) (dc_dims d) h ->
  in_range (dc_n d) (dc_dims d) s args -> dc_sets d h = Ok d' ->
  dc_get d' s args = match last_written h s args with
                     | Some v => mkProb v
                     | None => dc_get d s args end.
Proof.
move=> hw hh hr; case: (dc_sets_ok hw hh) => d2 [-> h2 h3 h4 h5] [e]; subst d'.
case: (dc_index_range hr) => k hk hlt.
have hk2 : dc_index d2 s args = Ok k%:Z by rewrite /dc_index h3 h4.
have hs2 : (k < size (dc_tab d2))%N by rewrite h2 h3 h4.
have hs : (k < size (dc_tab d))%N by rewrite hw.
rewrite /dc_get hk hk2 /= (at_nth None hs2) (at_nth None hs) /= (h5 s args k) //.
by case: (last_written h s args).
Qed.

(** sampling *)
Lemma dc_rowE d args row : dc_wf d -> (0 < dc_n d)%N ->
  in_range (dc_n d) (dc_dims d) 0 args -> row_is d args row ->
  nonneg row /\ dc_row d args = Ok row.
Proof.
move=> hw hn hr [hs hrow].
have hsz : (size (dc_dims d) <= size args)%N.
  by move: hr; rewrite in_rangeE => /andP [/= /eqP [->]].
have hget s : (s < dc_n d)%N -> mem_get (dc_tab d) (mr (0 :: args) (dc_n d :: dc_dims d) + s%:Z) = Ok (nth 0 row s) /\ 0 <= nth 0 row s.
  move=> /hrow; rewrite /dc_get dc_indexE //= add0r [in X in _ -> X]addrC; case: (mem_get _ _) => //= v; rewrite /mkProb.
  by case hv: (0 <= v) => //= -[<-].
split; first by apply/(all_nthP 0) => i; rewrite hs => /hget [].
rewrite /dc_row dc_indexE //=.
rewrite (@mapO_eq_ok _ _ _ (fun k => nth 0 row k)).
  by rewrite -hs map_nth_iota0 // take_size.
by move=> k; rewrite mem_iota add0n => /hget [].
Qed.

Lemma dc_sampleE d args row u : 0 <= eps -> dc_wf d -> (0 < dc_n d)%N ->
  in_range (dc_n d) (dc_dims d) 0 args -> row_is d args row -> 0 < total row ->
  0 < u <= 1 ->
  exists k, dc_sample1 eps d args u = Ok k%:Z /\ quantile [seq p / total row | p <- row] u k.
Proof.
move=> he hw hn hr hrow ht /andP [hu0 hu1]; have [hnn hre] := dc_rowE hw hn hr hrow.
case: hrow => hs _; rewrite /dc_sample1 hre /= sum_loopE gt_eqF //.
set q := map _ row.
have hq : size q = dc_n d by rewrite size_map.
have htq : total q = 1 by rewrite total_map_div divff // gt_eqF.
rewrite (at_nth 0) ?size_cum ?hq //= nth_cum ?hq // -hq take_size add0r htq.
rewrite /guard (_ : _ && _) /= ?set_last_cum //=; last by lra.
have hu1' : u <= total q by rewrite htq.
case: (scan_quantile hu0 hu1') => k [-> hk]; exists k; split=> //=.
by congr Ok; lia.
Qed.

Lemma dc_sample_zero_row d args row u : dc_wf d -> (0 < dc_n d)%N ->
  in_range (dc_n d) (dc_dims d) 0 args -> row_is d args row -> total row = 0 ->
  dc_sample1 eps d args u = Abort.
Proof.
move=> hw hn hr hrow ht; have [hnn hre] := dc_rowE hw hn hr hrow.
by rewrite /dc_sample1 hre /= sum_loopE ht eqxx.
Qed.
End Cond.
