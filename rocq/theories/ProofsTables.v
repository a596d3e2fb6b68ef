(** * Lemmas about running sums, the scan loop and Ripley's uniforms *)
From mathcomp Require Import all_ssreflect all_algebra.
From mathcomp Require Import ring zify.
From Verif Require Import OrdLra Outcome SpecProb ModelTables.
Set Implicit Arguments. Unset Strict Implicit. Unset Printing Implicit Defensive.
Import Order.TTheory GRing.Theory Num.Theory.
Local Open Scope ring_scope.

Section Tables.
Variable R : realFieldType.
Implicit Types (l c v : seq R) (u : R).
Local Notation above u := (fun x : R => (u <= x)%R).

Lemma total_nil : total ([::] : seq R) = 0. Proof. by rewrite /total big_nil. Qed.
Lemma total_cons x l : total (x :: l) = x + total l. Proof. by rewrite /total big_cons. Qed.
Lemma total_cat l1 l2 : total (l1 ++ l2) = total l1 + total l2. Proof. by rewrite /total big_cat. Qed.
Lemma total_seq1 (x : R) : total [:: x] = x. Proof. by rewrite /total big_seq1. Qed.
Lemma total_rcons l x : total (rcons l x) = total l + x.
Proof. by rewrite -cats1 total_cat total_seq1. Qed.
Lemma total_map_mul k l : total [seq x * k | x <- l] = total l * k.
Proof. by rewrite /total big_map big_distrl. Qed.
Lemma total_map_div k l : total [seq x / k | x <- l] = total l / k.
Proof. exact: total_map_mul. Qed.
Lemma total_nseq n (x : R) : total (nseq n x) = n%:R * x.
Proof.
elim: n => [|n IH]; first by rewrite total_nil mul0r.
by rewrite /= total_cons IH -[n.+1]add1n natrD mulrDl mul1r.
Qed.
Lemma total_const (T : Type) (x : R) (s : seq T) : total [seq x | _ <- s] = (size s)%:R * x.
Proof. by elim: s => [|a s IH] /=; rewrite ?total_nil ?mul0r // total_cons IH -[(size s).+1]add1n natrD mulrDl mul1r. Qed.

Lemma nonneg_cons x l : nonneg (x :: l) <-> 0 <= x /\ nonneg l.
Proof. by rewrite /nonneg /=; split=> [/andP|[-> ->]]. Qed.
Lemma nonneg_nth l k : nonneg l -> 0 <= nth 0 l k.
Proof.
move=> h; case: (ltnP k (size l)) => hk; last by rewrite nth_default.
by move/all_nthP: h => /(_ 0 k hk).
Qed.
Lemma nonneg_take k l : nonneg l -> nonneg (take k l).
Proof. by move=> h; apply/allP=> x /mem_take hx; move/allP: h; apply. Qed.
Lemma nonneg_drop k l : nonneg l -> nonneg (drop k l).
Proof. by move=> h; apply/allP=> x /mem_drop hx; move/allP: h; apply. Qed.
Lemma nonneg_cat l1 l2 : nonneg (l1 ++ l2) <-> nonneg l1 /\ nonneg l2.
Proof. by rewrite /nonneg all_cat; split=> [/andP|[-> ->]]. Qed.
Lemma total_ge0 l : nonneg l -> 0 <= total l.
Proof.
elim: l => [|x l IH]; first by rewrite total_nil.
by move/nonneg_cons=> [hx hl]; rewrite total_cons addr_ge0 // IH.
Qed.
Lemma total_take_drop k l : total (take k l) + total (drop k l) = total l.
Proof. by rewrite -total_cat cat_take_drop. Qed.
Lemma total_takeS k l : total (take k.+1 l) = total (take k l) + nth 0 l k.
Proof.
case: (ltnP k (size l)) => hk; first by rewrite (take_nth 0 hk) total_rcons.
by rewrite nth_default // addr0 !take_oversize // ltnW.
Qed.
Lemma total_take_mono j k l : nonneg l -> (j <= k)%N -> total (take j l) <= total (take k l).
Proof.
move=> hl /subnKC <-; elim: (k - j)%N => [|m IH]; first by rewrite addn0.
rewrite addnS total_takeS; have := nonneg_nth (j + m) hl; lra.
Qed.
Lemma total_eq0 l : nonneg l -> total l = 0 -> all (fun x => x == 0) l.
Proof.
elim: l => //= x l IH /nonneg_cons [hx hl]; rewrite total_cons => h.
have ht := total_ge0 hl; apply/andP; split; first by lra.
apply: IH => //; lra.
Qed.
Lemma nth_le_total l k : nonneg l -> nth 0 l k <= total l.
Proof.
move=> hl; rewrite -(total_take_drop k.+1) total_takeS.
have := total_ge0 (nonneg_take k hl); have := total_ge0 (nonneg_drop k.+1 hl); lra.
Qed.
Lemma nonneg_sum0 l : nonneg l -> ~~ (0 < total l) -> l = nseq (size l) 0.
Proof.
move=> hl h; have h0 := total_ge0 hl.
have {}h : total l = 0 by lra.
by apply/all_pred1P; exact: total_eq0.
Qed.

(** sum_loop / cum_loop *)
Lemma foldl_add (a : R) l : foldl (fun acc x => acc + x) a l = a + total l.
Proof. by elim: l a => [|x l IH] a /=; rewrite ?total_nil ?addr0 // IH total_cons addrA. Qed.
Lemma sum_loopE l : sum_loop l = total l.
Proof. by rewrite /sum_loop foldl_add add0r. Qed.

Lemma size_cum a l : size (cum_loop a l) = (size l).+1.
Proof. by elim: l a => //= x l IH a; rewrite IH. Qed.
Lemma nth_cum a l k : (k <= size l)%N -> nth 0 (cum_loop a l) k = a + total (take k l).
Proof.
elim: l a k => [|x l IH] a [|k] //=; rewrite ?total_nil ?addr0 //.
by move=> h; rewrite IH // total_cons addrA.
Qed.
Lemma cum_prefix l : prefix_sums l (cum_loop 0 l).
Proof. by split; [rewrite size_cum|move=> k hk; rewrite nth_cum // add0r]. Qed.
Lemma prefix_sums_uniq l c1 c2 : prefix_sums l c1 -> prefix_sums l c2 -> c1 = c2.
Proof.
move=> [s1 h1] [s2 h2]; apply: (@eq_from_nth _ 0); first by rewrite s1.
by move=> i; rewrite s1 ltnS => hi; rewrite h1 // h2.
Qed.
Lemma prefix_cum l c : prefix_sums l c -> c = cum_loop 0 l.
Proof. by move/prefix_sums_uniq; apply; exact: cum_prefix. Qed.
Lemma prefix_nondec l c : nonneg l -> prefix_sums l c -> nondecreasing c.
Proof.
move=> hl [hs hc] i j hij; rewrite hs ltnS => hj.
by rewrite !hc ?(leq_trans hij) // total_take_mono.
Qed.
Lemma prefix_first l c : prefix_sums l c -> nth 0 c 0 = 0.
Proof. by case=> _ h; rewrite h // take0 total_nil. Qed.
Lemma prefix_last l c : prefix_sums l c -> nth 0 c (size l) = total l.
Proof. by case=> _ h; rewrite h // take_size. Qed.
(** forcing the last entry to 1 changes nothing when the total is 1 *)
Lemma set_last_cum l : total l = 1 ->
  put_ (cum_loop 0 l) (size l) 1 = Ok (cum_loop 0 l).
Proof.
move=> h; rewrite (put_set_nth 0) ?size_cum //; congr Ok.
apply: (@eq_from_nth _ 0).
  by rewrite size_set_nth size_cum; apply/maxn_idPr.
move=> i hi; rewrite nth_set_nth /=; case: eqP => // ->.
by rewrite nth_cum // add0r take_size h.
Qed.

(** scan *)
Lemma scanE n u idx rest : has (above u) rest -> (idx + size rest <= n.+1)%N ->
  scan n u idx rest = Ok ((idx + find (above u) rest)%N,
                          drop (find (above u) rest) rest).
Proof.
elim: rest idx => //= x rest IH idx.
case: (leP u x) => [hx _ _|hx /= hh hi]; first by rewrite addn0.
by rewrite /guard (_ : (idx <= n)%N) /= ?IH ?addSn ?addnS //; lia.
Qed.
Lemma scan_UB n u idx rest : ~~ has (above u) rest -> (idx + size rest <= n.+1)%N ->
  scan n u idx rest = UB.
Proof.
elim: rest idx => //= x rest IH idx.
case: (leP u x) => [//|hx /= hh hi].
by rewrite /guard (_ : (idx <= n)%N) /= ?IH //; lia.
Qed.
Lemma scan_zero n u x rest : u <= x -> scan n u 0 (x :: rest) = Ok (0%N, x :: rest).
Proof. by rewrite /= => h; rewrite ltNge h. Qed.

(** what the found index means on a prefix-sum table *)
Lemma find_cum l u : 0 < u -> u <= total l ->
  exists k, [/\ find (above u) (cum_loop 0 l) = k.+1, quantile l u k
             & has (above u) (cum_loop 0 l)].
Proof.
move=> h0 h1; set p := (above u); set c := cum_loop 0 l.
have hh : has p c.
  apply/(has_nthP 0); exists (size l); first by rewrite size_cum.
  by rewrite nth_cum // add0r take_size.
have hf : (find p c < size c)%N by rewrite -has_find.
case hk : (find p c) => [|k].
  by have := nth_find 0 hh; rewrite hk nth_cum // take0 total_nil addr0 /p; lra.
exists k; split=> //.
have hkl : (k.+1 <= size l)%N by move: hf; rewrite hk size_cum.
have hb := @before_find _ 0 p c k; have ha := nth_find 0 hh.
rewrite hk /p in hb ha; move: hb ha.
rewrite /c !nth_cum ?(ltnW hkl) // !add0r => hb ha; split=> //.
by split=> //; rewrite ltNge hb // ltnSn.
Qed.

Lemma quantile_uniq l u j k : nonneg l -> quantile l u j -> quantile l u k -> j = k.
Proof.
move=> hl [hj [hj1 hj2]] [hk [hk1 hk2]].
case: (ltngtP j k) => // h.
  have := total_take_mono hl h; lra.
have := total_take_mono hl h; lra.
Qed.
Lemma quantile_pos l u k : quantile l u k -> 0 < nth 0 l k.
Proof. by move=> [_ []]; rewrite total_takeS; lra. Qed.
Lemma quantile_mono l u1 u2 j k : nonneg l -> u1 <= u2 ->
  quantile l u1 j -> quantile l u2 k -> (j <= k)%N.
Proof.
move=> hl hu [hj [hj1 hj2]] [hk [hk1 hk2]]; rewrite leqNgt; apply/negP=> h.
have := total_take_mono hl h; lra.
Qed.

Lemma scan_quantile l u : 0 < u -> u <= total l ->
  exists k, scan (size l) u 0 (cum_loop 0 l) = Ok (k.+1, drop k.+1 (cum_loop 0 l))
            /\ quantile l u k.
Proof.
move=> h0 h1; case: (find_cum h0 h1) => k [hf hq hh]; exists k; split=> //.
by rewrite scanE // ?size_cum // hf add0n.
Qed.

(** batch scan: started at position [i] of the table, for draws at least as
    large as a draw whose scan stopped at [i] *)
Lemma find_drop (p : pred R) c i : (i <= find p c)%N -> find p (drop i c) = (find p c - i)%N.
Proof.
elim: c i => [|x c IH] [|i] //=; rewrite ?subn0 //.
by case: (p x) => //= hi; rewrite IH // subSS.
Qed.
Lemma find_mono c u1 u2 : u1 <= u2 -> (find (above u1) c <= find (above u2) c)%N.
Proof.
move=> hu; apply: sub_find => x /= hx; lra.
Qed.
Lemma has_drop (p : pred R) c i : has p c -> (i <= find p c)%N -> has p (drop i c).
Proof.
elim: c i => [|x c IH] [|i] //=.
by case: (p x) => //= hh hi; apply: IH.
Qed.
Lemma scan_manyE n c us u0 : size c = n.+1 ->
  (forall u, u \in us -> has (above u) c) ->
  sorted <=%R (u0 :: us) ->
  let i0 := find (above u0) c in
  scan_many n us i0 (drop i0 c) = Ok [seq find (above u) c | u <- us].
Proof.
move=> hc; elim: us u0 => [|u us IH] u0 //= hh /andP [hu hs].
have hm := find_mono c hu.
have hhu : has (above u) c by apply: hh; rewrite mem_head.
rewrite scanE /=; [|exact: has_drop|]; last first.
  rewrite size_drop hc; have := find_size (above u0) c; rewrite hc; lia.
rewrite (find_drop hm) subnKC // drop_drop subnK // IH //.
by move=> v hv; apply: hh; rewrite inE hv orbT.
Qed.

(** Ripley's transform *)
Section Ripley.
Variable root : R -> nat -> R.
(** what is assumed of [pow(u,1/k)]: maps (0,1] into (0,1] *)
Hypothesis root01 : forall u k, 0 < u <= 1 -> (0 < k)%N -> 0 < root u k <= 1.

Lemma size_ripley us i : size (ripley root us i) = size us.
Proof. by elim: us i => [|u [|v us] IH] i //; move: (IH i.+1) => /= ->. Qed.
Lemma ripley_cons u us i : us != [::] ->
  ripley root (u :: us) i = root u i.+1 * head 0 (ripley root us i.+1) :: ripley root us i.+1.
Proof. by case: us. Qed.
Lemma ripley_props us i : all (fun u => 0 < u <= 1) us ->
  all (fun u => 0 < u <= 1) (ripley root us i) /\ sorted <=%R (ripley root us i).
Proof.
elim: us i => [|u us IH] i //=; case/andP=> hu hus.
case: us IH hus => [|v us] IH hus; first by split=> //=; rewrite root01.
have [ha hs] := IH i.+1 hus; have hr := size_ripley (v :: us) i.+1.
rewrite -/(ripley root (v :: us) i.+1); case: (ripley root (v :: us) i.+1) ha hs hr => // r rs.
move=> /= /andP [hr ->] hs _; rewrite andbT hs andbT.
have h := root01 hu (ltn0Sn i); split; nra.
Qed.

Lemma scan_many_quantiles l us : nonneg l -> total l = 1 -> all (fun u => 0 < u <= 1) us ->
  exists ks : seq nat,
    [/\ scan_many (size l) (ripley root us 0) 0 (cum_loop 0 l) = Ok (map S ks),
        size ks = size us, sorted leq ks &
        forall i, (i < size us)%N -> quantile l (nth 0 (ripley root us 0) i) (nth 0%N ks i)].
Proof.
move=> hl ht hall.
have [hra hrs] := ripley_props 0 hall.
have hsz := size_ripley us 0.
set c := cum_loop 0 l.
set rs := ripley root us 0 in hra hrs hsz *.
pose f := fun u : R => find (fun x : R => (u <= x)%R) c.
have hf u : u \in rs -> exists k, f u = k.+1 /\ quantile l u k.
  move=> hu; move/allP: hra => /(_ u hu) /andP [h0 h1].
  have h1' : u <= total l by rewrite ht.
  by case: (find_cum h0 h1') => k [hk hq _]; exists k.
have hscan : scan_many (size l) rs 0 c = Ok (map f rs).
  have h0 : 0%N = find (fun x : R => (0 <= x)%R) c by rewrite /c; case: (l) => /= *; rewrite lexx.
  have hcs : size c = (size l).+1 by rewrite /c size_cum.
  have := @scan_manyE (size l) c rs 0 hcs; rewrite /= -h0 drop0; apply.
    move=> u hu; move/allP: hra => /(_ u hu) /andP [h1 h2].
    have h1' : u <= total l by rewrite ht.
    by case: (find_cum h1 h1') => k [].
  case: {h0 f hf hsz} rs hra hrs => //= r rs' /andP [/andP [h _] _] ->; by rewrite ltW.
exists [seq (f u).-1 | u <- rs]; split.
- rewrite hscan -map_comp; congr Ok; apply/eq_in_map => x hx /=.
  by case: (hf x hx) => k [-> _].
- by rewrite size_map hsz.
- rewrite sorted_map; apply: (@sub_in_sorted _ (mem rs) <=%R) hrs; last by apply/allP.
  move=> x y hx hy /= hxy.
  have [k [-> hq]] := hf _ hx; have [j [-> hq']] := hf _ hy.
  exact: quantile_mono hxy hq hq'.
- move=> i hi; rewrite -hsz in hi; rewrite (nth_map 0) //.
  by have [k [-> hq]] := hf _ (mem_nth 0 hi).
Qed.
End Ripley.
End Tables.
