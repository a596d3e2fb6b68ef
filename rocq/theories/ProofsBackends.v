(** * Lemmas for the two back ends *)
From mathcomp Require Import all_ssreflect all_algebra.
From Verif Require Import Outcome ModelBackends SpecBackends.
Set Implicit Arguments. Unset Strict Implicit. Unset Printing Implicit Defensive.
Import Order.TTheory GRing.Theory Num.Theory.
Local Open Scope ring_scope.

(** ** Tables *)
Lemma nth_flat (A : Type) (d : A) (ss : seq (seq A)) i j : (i < size ss)%N -> (j < size (nth [::] ss i))%N ->
  nth d (flatten ss) (sumn (map size (take i ss)) + j) = nth d (nth [::] ss i) j.
Proof.
elim: ss i => [|s ss ih] [|i] //= hi hj; rewrite nth_cat; first by rewrite add0n hj.
by rewrite -addnA ltnNge leq_addr /= addKn; exact: ih.
Qed.
Lemma tri0 : tri 0 = 0%N. Proof. by []. Qed.
Lemma triS i : tri i.+1 = (tri i + i.+1)%N.
Proof. by rewrite /tri -(addn1 i) iotaD sumn_cat /= addn0 add1n addn1. Qed.
Lemma triE i : tri i = sumn (iota 1 i). Proof. by []. Qed.
Local Opaque tri.
Lemma leq_tri i j : (i <= j)%N -> (tri i <= tri j)%N.
Proof. by move=> h; rewrite -(subnK h); elim: (j - i)%N => [|k ih] //; rewrite addSn triS (leq_trans ih) // leq_addr. Qed.
Lemma tri_inj i j p q : (j <= i)%N -> (q <= p)%N -> (tri i + j = tri p + q)%N -> i = p /\ j = q.
Proof.
move=> hj hq e; suff ip : i = p by split=> //; move: e; rewrite ip => /addnI.
have h1 a b c d : (b <= a)%N -> (tri a + b = tri c + d)%N -> (a < c)%N -> False.
  move=> hb he /leq_tri; rewrite triS => h; have : (tri a + b < tri c)%N by apply: leq_trans h; rewrite ltn_add2l ltnS.
  by rewrite he ltnNge leq_addr.
case: (ltngtP i p) => // h; first by case: (h1 _ _ _ _ hj e h).
by case: (h1 _ _ _ _ hq (esym e) h).
Qed.
Lemma grid_inj c i j p q : (j < c)%N -> (q < c)%N -> (i * c + j = p * c + q)%N -> i = p /\ j = q.
Proof.
move=> hj hq e; have c0 : (0 < c)%N by apply: leq_ltn_trans hj.
split.
  by have := congr1 (fun x => x %/ c)%N e; rewrite !divnMDl // !divn_small // !addn0.
by have := congr1 (fun x => x %% c)%N e; rewrite !modnMDl !modn_small.
Qed.

Section S.
Variable R : realFieldType.
Implicit Types (f g : nat -> nat -> num R) (m p : mat R) (s t : bsym R).

Lemma bel_btab r c f i j : (i < r)%N -> (j < c)%N -> bel (btab r c f) i j = f i j.
Proof.
move=> hi hj; rewrite /bel /btab /=; set ss := [seq _ | i <- _].
have e k : (k < r)%N -> nth [::] ss k = [seq f k j | j <- iota 0 c] by move=> hk; rewrite (nth_map 0%N) ?size_iota // nth_iota.
have -> : (i * c)%N = sumn (map size (take i ss)).
  have -> : map size (take i ss) = nseq i c.
    rewrite /ss -map_take -map_comp; apply: (@eq_from_nth _ 0%N); rewrite size_map size_take size_iota hi ?size_nseq // => k hk.
    by rewrite (nth_map 0%N) ?size_take ?size_iota ?hi //= size_map size_iota nth_nseq hk.
  by rewrite sumn_nseq mulnC.
rewrite nth_flat ?size_map ?size_iota // ?e ?size_map ?size_iota //.
by rewrite (nth_map 0%N) ?size_iota // nth_iota.
Qed.
Lemma eel_etab r c f i j : (i < r)%N -> (j < c)%N -> eel (etab r c f) i j = f i j.
Proof. by move=> hi hj; rewrite -[LHS]/(bel (btab c r (fun j i => f i j)) j i) bel_btab. Qed.
Lemma sel_stab n f i j : (i < n)%N -> (j < n)%N -> sel (stab n f) i j = if (j <= i)%N then f i j else f j i.
Proof.
have main a b : (a < n)%N -> (b <= a)%N -> nth None (s_d (stab n f)) (tri a + b) = f a b.
  move=> ha hb; rewrite /stab /=; set ss := [seq _ | i <- _].
  have e k : (k < n)%N -> nth [::] ss k = [seq f k j | j <- iota 0 k.+1] by move=> hk; rewrite (nth_map 0%N) ?size_iota // nth_iota.
  have -> : tri a = sumn (map size (take a ss)).
    have -> : map size (take a ss) = map S (iota 0 a).
      rewrite /ss -map_take -map_comp take_iota (minn_idPl (ltnW ha)).
      by apply: eq_map => k /=; rewrite size_map size_iota.
    by rewrite (triE a) -(addn0 1%N) iotaDl.
  rewrite nth_flat ?size_map ?size_iota // e // ?size_map ?size_iota //.
  by rewrite (nth_map 0%N) ?size_iota // nth_iota.
by move=> hi hj; rewrite /sel; case: (leqP j i) => h; rewrite main // ltnW.
Qed.
Lemma sel_sym s i j : sel s i j = sel s j i.
Proof. by rewrite /sel; case: (ltngtP i j) => // ->. Qed.

(** ** Agreement *)
Section Agree.
Variable strict : bool.
Notation ag := (agree strict).
Lemma ag_refl A (a : option A) : ag a a.
Proof. by case: strict => //= x y -> [->]. Qed.
Lemma ag_none A (a : option A) : strict = false -> ag a None.
Proof. by rewrite /agree => ->. Qed.
Lemma ag_lift h (a b c d : num R) : ag a b -> ag c d -> ag (lift h a c) (lift h b d).
Proof.
rewrite /agree; case: strict => [-> -> //|h1 h2 x y].
by case: a h1 => [a|] //; case: b => [b|] // h1; case: c h2 => [c|] //; case: d => [d|] //= h2; rewrite (h1 _ _ erefl erefl) (h2 _ _ erefl erefl) => -> [].
Qed.
Lemma ag_pm o (a b c d : num R) : ag a b -> ag c d -> ag (pm o a c) (pm o b d).
Proof. by case: o; apply: ag_lift. Qed.
Lemma ag_calc o (a b c d : num R) : ag a b -> ag c d -> ag (calc o a c) (calc o b d).
Proof. by case: o; apply: ag_lift. Qed.
Lemma naddA : associative (@nadd R).
Proof. by case=> [a|] [b|] [c|] //=; rewrite addrA. Qed.
Lemma nadd0 (a : num R) : nadd a (Some 0) = a. Proof. by case: a => //= a; rewrite addr0. Qed.
Lemma n0add (a : num R) : nadd (Some 0) a = a. Proof. by case: a => //= a; rewrite add0r. Qed.
Lemma esumE (u : nat -> num R) ks : foldr (fun k acc => nadd (u k) acc) (Some 0) ks = foldl (fun acc k => nadd acc (u k)) (Some 0) ks.
Proof.
suff h a : nadd a (foldr (fun k acc => nadd (u k) acc) (Some 0) ks) = foldl (fun acc k => nadd acc (u k)) a ks by rewrite -h n0add.
by elim: ks a => [|k ks ih] a /=; rewrite ?nadd0 // -ih naddA.
Qed.
Lemma ag_sum (u w : nat -> num R) n : (forall k, (k < n)%N -> ag (u k) (w k)) -> ag (bsum u n) (esum w n).
Proof.
move=> h; rewrite /esum esumE /bsum.
have {}h k : k \in iota 0 n -> ag (u k) (w k) by rewrite mem_iota add0n => /h.
suff main a b : ag a b -> ag (foldl (fun acc k => nadd acc (u k)) a (iota 0 n)) (foldl (fun acc k => nadd acc (w k)) b (iota 0 n)).
  exact: main (ag_refl _).
elim: (iota 0 n) h a b => [|k ks ih] h a b hab //=.
by apply: ih => [i hi|]; [apply: h; rewrite inE hi orbT|apply: ag_lift (h _ (mem_head _ _))].
Qed.

(** equality tests: both are exact *)
Variable prec : R.
Lemma isapproxE d : isapprox prec d = (d == 0).
Proof.
rewrite /isapprox subr0 normr0 /Num.min; case: ifP => h; last by rewrite mulr0 normr_le0.
by move: h; rewrite ltNge normr_ge0.
Qed.
Lemma eallE (u : nat -> num R) ks : eall prec u ks = if all (fun k => isSome (u k)) ks then Some (all (fun k => u k == Some 0) ks) else None.
Proof.
elim: ks => [|k ks ih] //=; rewrite -/(eall _ _ _) ih; case: (u k) => [d|] //=.
by case: ifP => // _ /=; rewrite isapproxE.
Qed.
Lemma eallmE f r c : eallm prec f r c =
  if all (fun j => all (fun i => isSome (f i j)) (iota 0 r)) (iota 0 c) then Some (all (fun j => all (fun i => f i j == Some 0) (iota 0 r)) (iota 0 c)) else None.
Proof.
rewrite /eallm; elim: (iota 0 c) => [|j js ih] //=; rewrite ih eallE.
by case: ifP => // h; case: ifP.
Qed.
Lemma bnorm_some (u : nat -> num R) ks a : 0 <= a ->
  foldl (fun acc k => nmax acc (nabs (u k))) (Some a) ks =
  if all (fun k => isSome (u k)) ks then Some (foldl (fun acc k => Num.max acc `|odflt 0 (u k)|) a ks) else None.
Proof.
have none ls : foldl (fun acc k => nmax acc (nabs (u k))) None ls = None by elim: ls.
elim: ks a => [|k ks ih] a a0 //=; case: (u k) => [d|] //=.
by rewrite ih /Num.max; case: ifP => // h; rewrite (le_trans a0) // ltW.
Qed.
Lemma max0 (w : nat -> R) ks a : 0 <= a -> (forall k, k \in ks -> 0 <= w k) ->
  (foldl (fun acc k => Num.max acc (w k)) a ks == 0) = (a == 0) && all (fun k => w k == 0) ks.
Proof.
elim: ks a => [|k ks ih] a a0 hw /=; first by rewrite andbT.
have wk := hw k (mem_head _ _).
rewrite ih; last 2 first.
- by rewrite le_maxr a0.
- by move=> i hi; apply: hw; rewrite inE hi orbT.
rewrite andbA; congr andb; rewrite /Num.max; case: ltP => h.
  by rewrite andbC; case: eqP h => //= -> ; rewrite ltNge a0.
by case: (a =P 0) h => //= -> h; rewrite eq_le h wk.
Qed.
Lemma is0_bnorm (u : nat -> num R) n : is0 (bnorm u n) = if all (fun k => isSome (u k)) (iota 0 n) then Some (all (fun k => u k == Some 0) (iota 0 n)) else None.
Proof.
rewrite /bnorm bnorm_some //; case: ifP => //= hs; rewrite max0 // eqxx /=; congr Some.
by apply: eq_in_all => k /(allP hs); case: (u k) => //= d _; rewrite normr_eq0.
Qed.
Lemma bsum_abs (u : nat -> num R) ks a : 0 <= a ->
  foldl (fun acc k => nadd acc (nabs (u k))) (Some a) ks =
  if all (fun k => isSome (u k)) ks then Some (a + \sum_(k <- ks) `|odflt 0 (u k)|) else None.
Proof.
have none ls : foldl (fun acc k => nadd acc (nabs (u k))) None ls = None by elim: ls.
elim: ks a => [|k ks ih] a a0 //=; first by rewrite big_nil addr0.
case e : (u k) => [d|] //=; rewrite ih ?addr_ge0 //; case: ifP => // _.
by rewrite big_cons e /= addrA.
Qed.
Lemma is0_bnormm f r c : is0 (bnormm f r c) =
  if all (fun i => all (fun j => isSome (f i j)) (iota 0 c)) (iota 0 r) then Some (all (fun i => all (fun j => f i j == Some 0) (iota 0 c)) (iota 0 r)) else None.
Proof.
set row := fun i => if all (fun j => isSome (f i j)) (iota 0 c) then Some (\sum_(j <- iota 0 c) `|odflt 0 (f i j)|) else None.
have e ks a : foldl (fun acc i => nmax acc (bsum (fun j => nabs (f i j)) c)) a ks = foldl (fun acc i => nmax acc (nabs (row i))) a ks.
  elim: ks a => [|i ks ih] a //=; rewrite ih; congr (foldl _ (nmax a _) ks).
  rewrite /bsum bsum_abs // /row; case: ifP => //= _; rewrite add0r ger0_norm //.
  by apply: sumr_ge0 => j _.
rewrite /bnormm e -/(bnorm row r) is0_bnorm.
have -> : all (fun k => isSome (row k)) (iota 0 r) = all (fun i => all (fun j => isSome (f i j)) (iota 0 c)) (iota 0 r).
  by apply: eq_all => i /=; rewrite /row; case: ifP.
case: ifP => // hs; congr Some; apply: eq_in_all => i /(allP hs) hi; rewrite /row hi.
rewrite -[LHS]/(_ == 0) psumr_eq0 //; apply: eq_in_all => j /(allP hi) /=.
by case: (f i j) => //= d _; rewrite normr_eq0.
Qed.
Lemma all_swap (P : nat -> nat -> bool) r c : all (fun i => all (fun j => P i j) (iota 0 c)) (iota 0 r) = all (fun j => all (fun i => P i j) (iota 0 r)) (iota 0 c).
Proof.
apply/idP/idP => h; apply/allP => x hx; apply/allP => y hy.
  by exact: (allP (allP h _ hy) _ hx).
by exact: (allP (allP h _ hy) _ hx).
Qed.
Lemma ag_test (u w : nat -> num R) ks : (forall k, k \in ks -> ag (u k) (w k)) ->
  ag (if all (fun k => isSome (u k)) ks then Some (all (fun k => u k == Some 0) ks) else None)
     (if all (fun k => isSome (w k)) ks then Some (all (fun k => w k == Some 0) ks) else None).
Proof.
move=> h; rewrite /agree; move: h; rewrite /agree; case: strict => h.
  by rewrite (eq_in_all (a2 := fun k => isSome (w k))) => [|k /h -> //]; rewrite (eq_in_all (a1 := fun k => u k == _) (a2 := fun k => w k == Some 0)) => [|k /h -> //].
move=> x y; case: ifP => // hu; case: ifP => // hw [<-] [<-].
apply: eq_in_all => k hk; have := h k hk; move: (allP hu k hk) (allP hw k hk).
by case: (u k) => // a _; case: (w k) => // b _ /(_ _ _ erefl erefl) ->.
Qed.
Lemma ag_testm f g r c : (forall i j, (i < r)%N -> (j < c)%N -> ag (f i j) (g i j)) -> ag (is0 (bnormm f r c)) (eallm prec g r c).
Proof.
move=> h; rewrite is0_bnormm eallmE -(all_swap (fun i j => isSome (g i j))) -(all_swap (fun i j => g i j == Some 0)).
have e (P : nat -> nat -> bool) : all (fun i => all (fun j => P i j) (iota 0 c)) (iota 0 r) = all (fun k => P (k %/ c)%N (k %% c)%N) (iota 0 (r * c)).
  apply/idP/idP => a; apply/allP => x; rewrite mem_iota add0n => hx.
    have c0 : (0 < c)%N by case: (posnP c) hx => // ->; rewrite muln0.
    by apply: (allP (allP a _ _)); rewrite mem_iota add0n /= ?ltn_mod // ltn_divLR.
  apply/allP => y; rewrite mem_iota add0n => hy.
  have c0 : (0 < c)%N by apply: leq_ltn_trans hy.
  have := allP a (x * c + y)%N; rewrite divnMDl // divn_small // addn0 modnMDl modn_small //; apply.
  rewrite mem_iota add0n /=; apply: (@leq_trans (x.+1 * c)); last by rewrite leq_mul2r; move: hx => /= ->; rewrite orbT.
  by rewrite mulSn addnC ltn_add2r.
rewrite !e; apply: (ag_test (u := fun k => f (k %/ c)%N (k %% c)%N) (w := fun k => g (k %/ c)%N (k %% c)%N)) => k; rewrite mem_iota add0n => hk.
have c0 : (0 < c)%N by case: (posnP c) hk => // ->; rewrite muln0.
by apply: h; rewrite ?ltn_mod // ltn_divLR.
Qed.

(** ** Objects *)
Definition relv (v w : vec R) : Prop := [/\ v.1 = w.1, size v.2 = size w.2 & forall k, ag (vel v.2 k) (vel w.2 k)].
Definition relm m p : Prop := [/\ m_r m = m_r p, m_c m = m_c p & forall i j, (i < m_r m)%N -> (j < m_c m)%N -> ag (bel m i j) (eel p i j)].
Definition rels s p : Prop := [/\ s_n s = m_r p, s_n s = m_c p & forall i j, (i < s_n s)%N -> (j < s_n s)%N -> ag (sel s i j) (eel p i j)].
Definition relo (x : obj R (bsym R)) (y : obj R (mat R)) : Prop :=
  match x, y with OV v, OV w => relv v w | OM m, OM p => relm m p | OS s, OS p => rels s p | _, _ => False end.
Fixpoint relh (h : bheap R) (g : eheap R) : Prop :=
  match h, g with [::], [::] => True | x :: h', y :: g' => relo x y /\ relh h' g' | _, _ => False end.
Definition reln (a : outcome (bheap R * report R)) (b : outcome (eheap R * report R)) : Prop :=
  match a, b with
  | Ok x, Ok y => relh x.1 y.1 /\ agree_report strict x.2 y.2
  | Abort, Abort => True
  | _, _ => False
  end.
Lemma relh_get (h : bheap R) (g : eheap R) a : relh h g -> match hget h a, hget g a with Some x, Some y => relo x y | None, None => True | _, _ => False end.
Proof. by elim: h g a => [|x h ih] [|y g] [|a] //= [h1 h2] //; apply: ih. Qed.
Lemma relh_rcons (h : bheap R) (g : eheap R) x y : relh h g -> relo x y -> relh (rcons h x) (rcons g y).
Proof. by elim: h g => [|u h ih] [|w g] //= [h1 h2] h3; split=> //; apply: ih. Qed.
Lemma relh_put (h : bheap R) (g : eheap R) a x y : relh h g -> relo x y -> relh (hput h a x) (hput g a y).
Proof. by elim: h g a => [|u h ih] [|w g] [|a] //= [h1 h2] h3; split=> //; apply: ih. Qed.
Lemma relv_get (h : bheap R) (g : eheap R) a k l : relh h g -> (forall v w, relv v w -> reln (k v) (l w)) -> reln (let! v := getv h a in k v) (let! v := getv g a in l v).
Proof. by move=> /(@relh_get _ _ a) + H; rewrite /getv; case: (hget h a) => [[v|m|s]|]; case: (hget g a) => [[w|p|t]|] //=; apply: H. Qed.
Lemma relm_get (h : bheap R) (g : eheap R) a k l : relh h g -> (forall v w, relm v w -> reln (k v) (l w)) -> reln (let! v := getm h a in k v) (let! v := getm g a in l v).
Proof. by move=> /(@relh_get _ _ a) + H; rewrite /getm; case: (hget h a) => [[v|m|s]|]; case: (hget g a) => [[w|p|t]|] //=; apply: H. Qed.
Lemma rels_get (h : bheap R) (g : eheap R) a k l : relh h g -> (forall v w, rels v w -> reln (k v) (l w)) -> reln (let! v := gets h a in k v) (let! v := gets g a in l v).
Proof. by move=> /(@relh_get _ _ a) + H; rewrite /gets; case: (hget h a) => [[v|m|s]|]; case: (hget g a) => [[w|p|t]|] //=; apply: H. Qed.
Lemma reln_guard (b c : bool) k l : b = c -> (b -> reln (k tt) (l tt)) -> reln (let! u := guard b in k u) (let! u := guard c in l u).
Proof. by move=> <-; case: b => //= H; exact: H. Qed.
Lemma reln_push (h : bheap R) (g : eheap R) x y : relh h g -> relo x y -> reln (push h x) (push g y).
Proof. by move=> a b; split=> //; exact: relh_rcons. Qed.
Lemma reln_store (h : bheap R) (g : eheap R) a x y : relh h g -> relo x y -> reln (store h a x) (store g a y).
Proof. by move=> u b; split=> //; exact: relh_put. Qed.
Lemma reln_tell (h : bheap R) (g : eheap R) x y : relh h g -> agree_report strict x y -> reln (tell h x) (tell g y).
Proof. by []. Qed.

Lemma relv_tab b n u w : (forall k, (k < n)%N -> ag (u k) (w k)) -> relv (b, vtab n u) (b, vtab n w).
Proof.
move=> h; split=> //=; rewrite ?size_mkseq // => k; rewrite /vel /vtab.
case: (ltnP k n) => hk; first by rewrite !nth_mkseq //; exact: h.
by rewrite !nth_default ?size_mkseq //; exact: ag_refl.
Qed.
Lemma relv_map b u v w : (forall x y, ag x y -> ag (u x) (u y)) -> relv v w -> relv (b, map u v.2) (b, map u w.2).
Proof.
move=> h [_ e H]; split=> //=; rewrite ?size_map // => k; rewrite /vel.
case: (ltnP k (size v.2)) => hk; first by rewrite !(nth_map None) -?e //; apply: h; exact: H.
by rewrite !nth_default ?size_map -?e //; exact: ag_refl.
Qed.
Lemma relv_nseq b n x : relv (b, nseq n x) (b, nseq n x).
Proof. by split=> // k; exact: ag_refl. Qed.
Lemma relv_cat b v w v' w' : relv v w -> relv v' w' -> relv (b, v.2 ++ v'.2) (b, w.2 ++ w'.2).
Proof.
move=> [_ e H] [_ e' H']; split=> //=; first by rewrite !size_cat e e'.
by move=> k; rewrite /vel !nth_cat e; case: ifP => _; [exact: H|exact: H'].
Qed.
Lemma relv_put b v w i x : relv v w -> relv (b, set_nth None v.2 i x) (b, set_nth None w.2 i x).
Proof.
move=> [_ e H]; split=> //=; first by rewrite !size_set_nth e.
by move=> k; rewrite /vel !nth_set_nth /=; case: ifP => _; [exact: ag_refl|exact: H].
Qed.
Lemma relm_tab r c f g : (forall i j, (i < r)%N -> (j < c)%N -> ag (f i j) (g i j)) -> relm (btab r c f) (etab r c g).
Proof. by move=> h; split=> //= i j hi hj; rewrite bel_btab ?eel_etab //; exact: h. Qed.
Lemma rels_tab n f g : (forall i j, (i < n)%N -> (j < n)%N -> ag (f i j) (g i j)) -> (forall i j, f i j = f j i) -> rels (stab n f) (etab n n g).
Proof. by move=> h hs; split=> //= i j hi hj; rewrite sel_stab // eel_etab // (hs j i) if_same; exact: h. Qed.
Lemma relm_put m p i j x : relm m p -> (i < m_r m)%N -> (j < m_c m)%N ->
  relm (Mat (m_r m) (m_c m) (set_nth None (m_d m) (i * m_c m + j)%N x)) (Mat (m_r p) (m_c p) (set_nth None (m_d p) (j * m_r p + i)%N x)).
Proof.
move=> [er ec H] hi hj; split=> //= a b ha hb; rewrite /bel /eel /= !nth_set_nth /=.
have := H a b ha hb; rewrite /bel /eel.
case: eqP => [/(grid_inj hb hj)[-> ->]|n1]; first by rewrite eqxx => _; exact: ag_refl.
by case: eqP => // /(grid_inj _ _); rewrite -er => /(_ ha hi) [e1 e2]; case: n1; rewrite e1 e2.
Qed.
Definition sidx (i j : nat) : nat := if (j <= i)%N then (tri i + j)%N else (tri j + i)%N.
Lemma sidx_inj i j a b : sidx i j = sidx a b -> (i = a /\ j = b) \/ (i = b /\ j = a).
Proof.
rewrite /sidx; case: (leqP j i) => h1; case: (leqP b a) => h2 /tri_inj; rewrite ?h1 ?h2 ?(ltnW h1) ?(ltnW h2) => /(_ isT isT) [-> ->]; by [left|right].
Qed.
Lemma rels_diag s p i x : rels s p -> (i < s_n s)%N ->
  rels (BSym (s_n s) (set_nth None (s_d s) (sidx i i) x)) (Mat (m_r p) (m_c p) (set_nth None (m_d p) (i * m_r p + i)%N x)).
Proof.
move=> [er ec H] hi; split=> //= a b ha hb; rewrite /sel /eel /= !nth_set_nth /= -/(sidx a b).
have := H a b ha hb; rewrite /sel /eel -/(sidx a b) -er.
case: (sidx a b =P sidx i i) => [/sidx_inj[] [-> ->]|n1]; try by rewrite eqxx => _; exact: ag_refl.
by case: eqP => // /(grid_inj ha hi) [e1 e2]; case: n1; rewrite e1 e2.
Qed.
Lemma rels_two s p i j x : rels s p -> (i < s_n s)%N -> (j < s_n s)%N ->
  rels (BSym (s_n s) (set_nth None (set_nth None (s_d s) (sidx i j) x) (sidx j i) x))
       (Mat (m_r p) (m_c p) (set_nth None (set_nth None (m_d p) (j * m_r p + i)%N x) (i * m_r p + j)%N x)).
Proof.
move=> [er ec H] hi hj; split=> //= a b ha hb; rewrite /sel /eel /= !nth_set_nth /= !nth_set_nth /= -/(sidx a b).
have := H a b ha hb; rewrite /sel /eel -/(sidx a b) -er.
have -> : sidx j i = sidx i j by rewrite /sidx; case: (ltngtP i j) => // ->.
case: (sidx a b =P sidx i j) => [/sidx_inj[] [-> ->]|n1]; rewrite ?eqxx ?if_same; try by move=> _; rewrite ?if_same; exact: ag_refl.
case: eqP => [/(grid_inj ha hj) [e1 e2]|_]; first by case: n1; rewrite e1 e2 /sidx; case: (ltngtP i j) => // ->.
by case: eqP => // /(grid_inj ha hi) [e1 e2]; case: n1; rewrite e1 e2.
Qed.

Lemma pm_sym o s t i j : pm o (sel s i j) (sel t i j) = pm o (sel s j i) (sel t j i).
Proof. by rewrite (sel_sym s) (sel_sym t). Qed.
Arguments reln : simpl never.
Arguments push : simpl never.
Arguments store : simpl never.
Arguments tell : simpl never.
Arguments obind : simpl never.
Lemma step_ok (h : bheap R) (g : eheap R) k : relh h g -> portable_call k -> (strict -> fixed_size k) -> reln (boost h k) (eigen prec g k).
Proof.
move=> H; case: k => [b n|b n x|a b|a b|a b|a n|a i x|a i|a b|a x|o a b|o a b|o a x|o a x|a|a b|a b|a q r
  |r c|n a|a r c|a i j x|a i j|a b|a x|o a b|o a b|o a x|o a x|a b|a b|a|a i1 i2 j1 j2|a b|a b
  |n|n a|a n|a i j x|a i j|a b|a x|o a b|o a b|o a b|o a x|o a x|a b|a b|a b|a i1 i2 j1 j2|a r] //= pk st.
- by apply: reln_push H _; exact: relv_nseq.
- by apply: reln_push H _; exact: relv_nseq.
- apply: relv_get (H) _ => v w hv; apply: relv_get (H) _ => v' w' hw.
  case: (hv) (hw) => [e1 _ _] [e2 _ _]; apply: reln_guard => [|_]; first by rewrite e1 e2.
  by apply: reln_push H _; exact: relv_cat.
- apply: relv_get (H) _ => v w hv; apply: relv_get (H) _ => v' w' hw.
  case: (hv) (hw) => [e1 _ _] [e2 _ _]; apply: reln_guard => [|_]; first by rewrite e1 e2.
  by apply: reln_push H _; exact: relv_cat.
- apply: relv_get (H) _ => v w [e1 e2 hv]; apply: reln_store H _; rewrite e1 -e2.
  have E : strict = false by apply/negbTE/negP => /st.
  case: eqP => [->|ne]; first by rewrite take_size subnn cats0; split.
  split=> [//||k] /=; last by rewrite /vel nth_nseq if_same; exact: ag_none.
  rewrite size_cat size_take !size_nseq; case: ltnP => h1; last by rewrite subnKC.
  by rewrite (eqP (ltnW h1)) addn0.
- apply: relv_get (H) _ => v w hv; case: (hv) => [e1 e2 _]; apply: reln_guard => [|_]; first by rewrite e2.
  by rewrite e1; apply: reln_store H _; exact: relv_put.
- apply: relv_get (H) _ => v w [e1 e2 hv]; apply: reln_guard => [|_]; first by rewrite e2.
  by apply: reln_tell => //=; exact: hv.
- apply: relv_get (H) _ => v w [e1 e2 hv]; apply: relv_get (H) _ => v' w' [e1' e2' hw].
  apply: reln_guard => [|_]; first by rewrite e1 e1'.
  apply: reln_tell => //=; rewrite -e2 -e2'; case: eqP => //= _; first last.
    exact: ag_refl.
  by rewrite is0_bnorm eallE; apply: ag_test => k _; apply: ag_lift; [exact: hv|exact: hw].
- apply: relv_get (H) _ => v w [e1 e2 _]; rewrite e1 e2; apply: reln_store H _; exact: relv_nseq.
- apply: relv_get (H) _ => v w [e1 e2 hv]; apply: relv_get (H) _ => v' w' [e1' e2' hw].
  apply: reln_guard => [|_]; first by rewrite e1 e1' e2 e2'.
  by rewrite e1 e2; apply: reln_push H _; apply: relv_tab => k _; apply: ag_pm; [exact: hv|exact: hw].
- apply: relv_get (H) _ => v w [e1 e2 hv]; apply: relv_get (H) _ => v' w' [e1' e2' hw].
  apply: reln_guard => [|_]; first by rewrite e1 e1' e2 e2'.
  by rewrite e1 e2; apply: reln_store H _; apply: relv_tab => k _; apply: ag_pm; [exact: hv|exact: hw].
- apply: relv_get (H) _ => v w hv; case: (hv) => [-> _ _]; apply: reln_push H _; apply: relv_map hv => y z hyz.
  exact: ag_calc hyz (ag_refl _).
- apply: relv_get (H) _ => v w hv; case: (hv) => [-> _ _]; apply: reln_store H _; apply: relv_map hv => y z hyz.
  exact: ag_calc hyz (ag_refl _).
- by apply: relv_get (H) _ => v w [e1 e2 hv]; apply: reln_push H _; split=> //=; rewrite e1.
- apply: relv_get (H) _ => v w [e1 e2 hv]; apply: relv_get (H) _ => v' w' [e1' e2' hw].
  apply: reln_guard => [|_]; first by rewrite e1 e1'.
  by rewrite e2 e2'; apply: reln_push H _; apply: relm_tab => i j _ _; apply: ag_lift; [exact: hv|exact: hw].
- apply: relv_get (H) _ => v w [e1 e2 hv]; apply: relv_get (H) _ => v' w' [e1' e2' hw].
  apply: reln_guard => [|_]; first by rewrite e1 e1'.
  apply: reln_guard => [|_]; first by rewrite e2 e2'.
  by apply: reln_tell => //=; rewrite e2'; apply: ag_sum => k _; apply: ag_lift; [exact: hv|exact: hw].
- apply: relv_get (H) _ => v w [e1 e2 hv]; rewrite -e1 -e2 (leqW pk) /= ltn_eqF ?ltnS //=.
  by rewrite andbT; apply: reln_guard => // _; apply: reln_push H _; apply: relv_tab.
(* matrices *)
- by apply: reln_push H _; apply: relm_tab => i j _ _; exact: ag_refl.
- apply: relv_get (H) _ => v w [e1 e2 hv]; apply: reln_guard => // _.
  by rewrite e2; apply: reln_push H _; apply: relm_tab.
- apply: relm_get (H) _ => m p [e1 e2 hm]; apply: reln_store H _ => /=.
  have E : strict = false by apply/negbTE/negP => /st.
  rewrite -e1 -e2; case: eqP => [->|ne] /=; last by apply: relm_tab => i j _ _; exact: ag_none.
  case: eqP => [->|ne] /=; last by apply: relm_tab => i j _ _; exact: ag_none.
  by split=> //= i j hi hj; rewrite bel_btab // hi hj; apply: hm.
- apply: relm_get (H) _ => m p hm; case: (hm) => [e1 e2 _]; apply: reln_guard; first by rewrite e1 e2.
  by case/andP=> /andP[i0 hi] /andP[j0 hj]; apply: reln_store H _; apply: relm_put => //; rewrite prednK.
- apply: relm_get (H) _ => m p [e1 e2 hm]; apply: reln_guard; first by rewrite e1 e2.
  by case/andP=> /andP[i0 hi] /andP[j0 hj]; apply: reln_tell => //=; apply: hm; rewrite prednK.
- apply: relm_get (H) _ => m p [e1 e2 hm]; apply: relm_get (H) _ => m' p' [e1' e2' hm'].
  apply: reln_tell => //=; rewrite -e1 -e2 -e1' -e2'; case: eqP => /= [e3|_]; last exact: ag_refl.
  case: eqP => /= [e4|_]; last exact: ag_refl.
  by apply: ag_testm => i j hi hj; apply: ag_lift; [apply: hm|apply: hm'; rewrite -?e3 -?e4].
- by apply: relm_get (H) _ => m p [e1 e2 _]; rewrite e1 e2; apply: reln_store H _; apply: relm_tab => i j _ _; exact: ag_refl.
- apply: relm_get (H) _ => m p [e1 e2 hm]; apply: relm_get (H) _ => m' p' [e1' e2' hm'].
  apply: reln_guard; first by rewrite e1 e2 e1' e2'.
  case/andP=> /eqP e3 /eqP e4; rewrite -e1 -e2; apply: reln_push H _; apply: relm_tab => i j hi hj.
  by apply: ag_pm; [apply: hm|apply: hm'; rewrite -?e3 -?e4].
- apply: relm_get (H) _ => m p [e1 e2 hm]; apply: relm_get (H) _ => m' p' [e1' e2' hm'].
  apply: reln_guard; first by rewrite e1 e2 e1' e2'.
  case/andP=> /eqP e3 /eqP e4; rewrite -e1 -e2; apply: reln_store H _; apply: relm_tab => i j hi hj.
  by apply: ag_pm; [apply: hm|apply: hm'; rewrite -?e3 -?e4].
- apply: relm_get (H) _ => m p [e1 e2 hm]; rewrite -e1 -e2; apply: reln_push H _; apply: relm_tab => i j hi hj.
  by apply: ag_calc (ag_refl _); apply: hm.
- apply: relm_get (H) _ => m p [e1 e2 hm]; rewrite -e1 -e2; apply: reln_store H _; apply: relm_tab => i j hi hj.
  by apply: ag_calc (ag_refl _); apply: hm.
- apply: relm_get (H) _ => m p [e1 e2 hm]; apply: relm_get (H) _ => m' p' [e1' e2' hm'].
  apply: reln_guard; first by rewrite e2 e1'.
  move/eqP=> e3; rewrite -e1 -e2 -e2'; apply: reln_push H _; apply: relm_tab => i j hi hj; apply: ag_sum => k hk.
  by apply: ag_lift; [apply: hm|apply: hm'; rewrite -?e3].
- apply: relm_get (H) _ => m p [e1 e2 hm]; apply: relv_get (H) _ => v w [e1' e2' hv].
  apply: reln_guard; first by rewrite e1'.
  move=> _; apply: reln_guard; first by rewrite e2 e2'.
  move/eqP=> e3; rewrite -e1 -e2; apply: reln_push H _; apply: relv_tab => i hi; apply: ag_sum => k hk.
  by apply: ag_lift; [apply: hm|exact: hv].
- apply: relm_get (H) _ => m p [e1 e2 hm]; rewrite -e1 -e2; apply: reln_push H _; apply: relm_tab => i j hi hj.
  exact: hm.
- apply: relm_get (H) _ => m p [e1 e2 hm]; case/andP: pk => h1 h2.
  rewrite -e1 -e2 (leqW h1) (leqW h2) !ltn_eqF ?ltnS //= !andbT.
  apply: reln_guard; first by rewrite -!andbA; congr andb.
  rewrite -!andbA => /and4P[i0 hi j0 hj]; apply: reln_push H _; apply: relm_tab => i j h3 h4; apply: hm.
    by rewrite -addSn prednK //; apply: leq_trans hi; move: h3; rewrite ltn_subRL.
  by rewrite -addSn prednK //; apply: leq_trans hj; move: h4; rewrite ltn_subRL.
- apply: relm_get (H) _ => m p _; apply: rels_get (H) _ => s t [e1 e2 hs].
  by rewrite -e1 -e2; apply: reln_store H _; apply: relm_tab.
(* symmetric matrices *)
- by apply: reln_push H _; apply: rels_tab => // i j _ _; exact: ag_refl.
- apply: rels_get (H) _ => s t [e1 e2 hs]; apply: reln_store H _ => /=.
  have E : strict = false by apply/negbTE/negP => /st.
  rewrite -e1 -e2; case: eqP => [->|ne] /=; last first.
    by apply: rels_tab => [i j _ _|i j]; [exact: ag_none|rewrite andbC sel_sym].
  by split=> //= i j hi hj; rewrite sel_stab // hi hj /= (sel_sym s j i) if_same; apply: hs.
- apply: rels_get (H) _ => s t hs; case: (hs) => [e1 e2 _]; apply: reln_guard; first by rewrite -e1 -e2.
  rewrite -(eqP pk) andbb => /andP[i0 hi]; apply: reln_store H _.
  by apply: (rels_diag (Some x) hs); rewrite prednK.
- apply: rels_get (H) _ => s t [e1 e2 hs]; apply: reln_guard; first by rewrite -e1 -e2.
  by case/andP=> /andP[i0 hi] /andP[j0 hj]; apply: reln_tell => //=; apply: hs; rewrite prednK.
- apply: rels_get (H) _ => s t [e1 e2 hs]; apply: rels_get (H) _ => s' t' [e1' e2' hs'].
  apply: reln_tell => //=; rewrite -e1 -e2 -e1' -e2' orbb; case: eqP => /= [e3|_]; last exact: ag_refl.
  by apply: ag_testm => i j hi hj; apply: ag_lift; [apply: hs|apply: hs'; rewrite -?e3].
- apply: rels_get (H) _ => s t [e1 e2 hs]; rewrite -e1 -e2; apply: reln_store H _; apply: rels_tab => // i j _ _.
  exact: ag_refl.
- apply: rels_get (H) _ => s t [e1 e2 hs]; apply: rels_get (H) _ => s' t' [e1' e2' hs'].
  apply: reln_guard; first by rewrite -e1 -e2 -e1' -e2' andbb.
  move/eqP=> e3; rewrite -e1 -e2; apply: reln_push H _; apply: rels_tab => [i j hi hj|i j]; last exact: pm_sym.
  by apply: ag_pm; [apply: hs|apply: hs'; rewrite -?e3].
- apply: rels_get (H) _ => s t [e1 e2 hs]; apply: rels_get (H) _ => s' t' [e1' e2' hs'].
  apply: reln_guard; first by rewrite -e1 -e2 -e1' -e2' andbb.
  move/eqP=> e3; rewrite -e1 -e2; apply: reln_store H _; apply: rels_tab => [i j hi hj|i j]; last exact: pm_sym.
  by apply: ag_pm; [apply: hs|apply: hs'; rewrite -?e3].
- apply: rels_get (H) _ => s t [e1 e2 hs]; apply: relm_get (H) _ => m p [e1' e2' hm].
  apply: reln_guard; first by rewrite -e1 -e2 -e1' -e2'.
  case/andP=> /eqP e3 /eqP e4; rewrite -e1 -e2; apply: reln_push H _; apply: relm_tab => i j hi hj.
  by apply: ag_pm; [apply: hs|apply: hm; rewrite -?e3 -?e4].
- apply: rels_get (H) _ => s t [e1 e2 hs]; rewrite -e1 -e2; apply: reln_push H _; apply: rels_tab => [i j hi hj|i j].
    by apply: ag_calc (ag_refl _); apply: hs.
  by rewrite sel_sym.
- apply: rels_get (H) _ => s t [e1 e2 hs]; rewrite -e1 -e2; apply: reln_store H _; apply: rels_tab => [i j hi hj|i j].
    by apply: ag_calc (ag_refl _); apply: hs.
  by rewrite sel_sym.
- apply: rels_get (H) _ => s t [e1 e2 hs]; apply: relm_get (H) _ => m p [e1' e2' hm].
  apply: reln_guard; first by rewrite -e2 -e1'.
  move/eqP=> e3; rewrite -e1 -e2 -e2'; apply: reln_push H _; apply: relm_tab => i j hi hj; apply: ag_sum => k hk.
  by apply: ag_lift; [apply: hs|apply: hm; rewrite -?e3].
- apply: rels_get (H) _ => s t [e1 e2 hs]; apply: rels_get (H) _ => s' t' [e1' e2' hs'].
  apply: reln_guard; first by rewrite -e2 -e1'.
  move/eqP=> e3; rewrite -e1 -e2 -e2' -e3; apply: reln_push H _; apply: relm_tab => i j hi hj; apply: ag_sum => k hk.
  by apply: ag_lift; [apply: hs|apply: hs'; rewrite -?e3].
- apply: rels_get (H) _ => s t [e1 e2 hs]; apply: relv_get (H) _ => v w [e1' e2' hv].
  apply: reln_guard; first by rewrite e1'.
  move=> _; apply: reln_guard; first by rewrite -e2 e2'.
  move/eqP=> e3; rewrite -e1 -e2; apply: reln_push H _; apply: relv_tab => i hi; apply: ag_sum => k hk.
  by apply: ag_lift; [apply: hs|exact: hv].
- apply: rels_get (H) _ => s t [e1 e2 hs]; apply: reln_guard => // /andP[h1 h2]; rewrite -e1 -e2.
  apply: reln_guard => // hc; apply: reln_push H _; apply: relm_tab => i j h3 h4.
  have {hc} : [&& 0 < i1, i2 <= s_n s, 0 < j1 & j2 <= s_n s]%N.
    case/orP: hc => [/orP[] /eqP e|]; last by rewrite -!andbA.
      by move: h3; rewrite e subnn.
    by move: h4; rewrite e subnn.
  case/and4P=> i0 hi j0 hj; apply: hs.
    by rewrite -addSn prednK //; apply: leq_trans hi; move: h3; rewrite ltn_subRL.
  by rewrite -addSn prednK //; apply: leq_trans hj; move: h4; rewrite ltn_subRL.
- apply: rels_get (H) _ => s t [e1 e2 hs]; rewrite -e1 -e2; apply: reln_guard => // hc; apply: reln_push H _.
  apply: relv_tab => j hj; case/orP: hc => [/eqP e|/andP[r0 hr]]; first by move: hj; rewrite e.
  by apply: hs => //; rewrite prednK.
Qed.

Lemma hget_put (S : Type) (h : heap R S) a x y : hget h a = Some y -> hget (hput h a x) a = Some x.
Proof. by elim: h a => [|z h ih] [|a] //=; apply: ih. Qed.
Lemma hput_put (S : Type) (h : heap R S) a x y : hput (hput h a x) a y = hput h a y.
Proof. by elim: h a => [|z h ih] [|a] //=; rewrite ih. Qed.
Lemma two_ok (h : bheap R) (g : eheap R) a i j x : relh h g ->
  match boost h (SPut a i j x), eigen prec g (SPut a i j x) with
  | Ok u, Ok w => [/\ u.2 = Silent R, w.2 = Silent R & match boost u.1 (SPut a j i x), eigen prec w.1 (SPut a j i x) with
      | Ok u', Ok w' => [/\ relh u'.1 w'.1, u'.2 = Silent R & w'.2 = Silent R]
      | _, _ => False end]
  | Abort, Abort => True
  | _, _ => False
  end.
Proof.
move=> H; have := relh_get a H; rewrite /boost /eigen /gets.
case eh : (hget h a) => [[v|m|s]|]; case eg : (hget g a) => [[w|p|t]|] //= hs.
case: (hs) => [e1 e2 _]; rewrite /obind /guard /= -e1 -e2.
case: ifP => // /andP[/andP[i0 hi] /andP[j0 hj]] /=; split=> //.
rewrite (hget_put _ eh) (hget_put _ eg) /= j0 hj i0 hi /=.
split=> //; rewrite !hput_put; apply: relh_put => //=.
by have := @rels_two s t i.-1 j.-1 (Some x) hs; rewrite -e1 -e2 !prednK //; apply.
Qed.
Arguments boost : simpl never.
Arguments eigen : simpl never.
Lemma run_ok (p : seq (call R)) : portable p -> forall (h : bheap R) (g : eheap R), relh h g -> (strict -> all (@fixed_size R) p) ->
  agree_run strict (run (@boost R) h p) (run (eigen prec) g p).
Proof.
elim=> [|k q pk _ ih|a i j x q _ ih] h g H st //.
  have := step_ok H pk (fun e => proj1 (andP (st e))); rewrite /= /reln /obind.
  case: (boost h k) => [[h' r]||]; case: (eigen prec g k) => [[g' r']||] //= [H' hr].
  have := ih _ _ H' (fun e => proj2 (andP (st e))); rewrite /agree_run.
  by case: (run (@boost R) h' q) => [[h2 rs]||]; case: (run (eigen prec) g' q) => [[g2 rs']||] //= hq; split.
have := two_ok a i j x H; set k1 := SPut a i j x; set k2 := SPut a j i x.
rewrite -[run _ h _]/(let! r := boost h k1 in let! q := (let! r2 := boost r.1 k2 in let! q := run (@boost R) r2.1 q in Ok (q.1, r2.2 :: q.2)) in Ok (q.1, r.2 :: q.2)).
rewrite -[run _ g _]/(let! r := eigen prec g k1 in let! q := (let! r2 := eigen prec r.1 k2 in let! q := run (eigen prec) r2.1 q in Ok (q.1, r2.2 :: q.2)) in Ok (q.1, r.2 :: q.2)).
rewrite /obind; case: (boost h k1) => [[h' r]||]; case: (eigen prec g k1) => [[g' r']||] //= [-> ->].
case: (boost h' k2) => [[h2 r2]||]; case: (eigen prec g' k2) => [[g2 r2']||] //= [H2 -> ->].
have := ih _ _ H2 (fun e => proj2 (andP (proj2 (andP (st e))))); rewrite /agree_run.
by case: (run (@boost R) h2 q) => [[h3 rs]||]; case: (run (eigen prec) g2 q) => [[g3 rs']||].
Qed.
End Agree.
End S.
