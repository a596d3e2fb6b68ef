(** * Lemmas: the Boost back end refines matrix algebra *)
From mathcomp Require Import all_ssreflect all_algebra.
From Verif Require Import Outcome ModelBackends SpecBackends ProofsBackends SpecAlgebra.
Set Implicit Arguments. Unset Strict Implicit. Unset Printing Implicit Defensive.
Import Order.TTheory GRing.Theory Num.Theory.
Local Open Scope ring_scope.
Local Opaque tri.

Section S.
Variable R : realFieldType.
Implicit Types (A B : table R) (v w : vec R) (m p : mat R) (s t : bsym R) (h : bheap R) (g : seq (table R)).

(** ** Numbers *)
Lemma calcE o (a b : num R) : calc o a b = op o a b.
Proof. by case: o; case: a; case: b. Qed.
Lemma pmE o (a b : num R) : pm o a b = op (sign o) a b.
Proof. by case: o; case: a; case: b. Qed.
Lemma mulE (a b : num R) : nmul a b = op Times a b.
Proof. by case: a; case: b. Qed.
Lemma foldl_none (u : nat -> num R) ks : foldl (fun acc k => nadd acc (u k)) None ks = None.
Proof. by elim: ks. Qed.
Lemma bsumE (u : nat -> num R) n : bsum u n = if all (fun k => isSome (u k)) (iota 0 n) then Some (\sum_(k <- iota 0 n) odflt 0 (u k)) else None.
Proof.
suff main ks a : foldl (fun acc k => nadd acc (u k)) (Some a) ks = if all (fun k => isSome (u k)) ks then Some (a + \sum_(k <- ks) odflt 0 (u k)) else None.
  by rewrite /bsum main; case: ifP; rewrite // add0r.
elim: ks a => [|k ks ih] a /=; first by rewrite big_nil addr0.
case e : (u k) => [x|] /=; last by rewrite foldl_none.
by rewrite ih big_cons e /= addrA.
Qed.
Lemma all_iota (P : nat -> bool) n : all P (iota 0 n) = [forall k : 'I_n, P k].
Proof.
apply/allP/forallP => [H k|H k]; first by apply: H; rewrite mem_iota add0n /= ltn_ord.
by rewrite mem_iota add0n => /= hk; exact: (H (Ordinal hk)).
Qed.
Lemma bsum_total (u f : nat -> num R) n : (forall k, (k < n)%N -> u k = f k.+1) -> bsum u n = total f n.
Proof.
move=> h; rewrite bsumE /total /known all_iota.
rewrite (eq_forallb (P2 := fun k : 'I_n => isSome (f k.+1))); last by move=> k; rewrite h.
by case: ifP => // _; congr Some; rewrite -{1}(subn0 n) -/(index_iota 0 n) big_mkord; apply: eq_bigr => k _; rewrite h.
Qed.
Lemma forall1 (P : nat -> bool) : [forall i : 'I_1, P i] = P 0%N.
Proof. by apply/forallP/idP => [/(_ ord0)|h i] //; rewrite ord1. Qed.
Lemma total1 (f : nat -> num R) : total f 1 = f 1%N.
Proof. by rewrite /total /known (forall1 (fun k => isSome (f k.+1))) big_ord1; case: (f 1%N). Qed.

(** ** Objects *)
Definition relv v A : Prop := [/\ t_kind A = if v.1 then Row else Col, t_rows A = (if v.1 then 1%N else size v.2), t_cols A = (if v.1 then size v.2 else 1%N)
  & forall k, (k < size v.2)%N -> vel v.2 k = if v.1 then t_at A 1 k.+1 else t_at A k.+1 1].
Definition relm m A : Prop := [/\ t_kind A = Full, t_rows A = m_r m, t_cols A = m_c m & forall i j, (i < m_r m)%N -> (j < m_c m)%N -> bel m i j = t_at A i.+1 j.+1].
Definition rels s A : Prop := [/\ t_kind A = Sym, t_rows A = s_n s, t_cols A = s_n s & forall i j, (i < s_n s)%N -> (j < s_n s)%N -> sel s i j = t_at A i.+1 j.+1].
Definition relo (x : obj R (bsym R)) A : Prop := match x with OV v => relv v A | OM m => relm m A | OS s => rels s A end.
Fixpoint relh h g : Prop := match h, g with [::], [::] => True | x :: h', A :: g' => relo x A /\ relh h' g' | _, _ => False end.
Definition reln (a : outcome (bheap R * report R)) (b : outcome (seq (table R) * report R)) : Prop :=
  match a, b with
  | Ok x, Ok y => relh x.1 y.1 /\ x.2 = y.2
  | Abort, Abort => True
  | _, _ => False
  end.
Lemma relh_get h g a : relh h g -> match hget h a with Some x => exists A g', [/\ drop a g = A :: g', relo x A & (a < size h)%N] | None => drop a g = [::] end.
Proof.
elim: h g a => [|x h ih] [|A g] [|a] //= [h1 h2]; first by exists A, g.
by have := ih _ a h2; case: (hget h a).
Qed.
Lemma relh_push h g x A : relh h g -> relo x A -> relh (rcons h x) (g ++ [:: A]).
Proof. by elim: h g => [|u h ih] [|w g] //= [h1 h2] h3; split=> //; apply: ih. Qed.
Lemma relh_put h g a x A : relh h g -> (a < size h)%N -> relo x A -> relh (hput h a x) (take a g ++ A :: drop a.+1 g).
Proof.
elim: h g a => [|u h ih] [|w g] [|a] //= [h1 h2] ha h3; first by rewrite drop0.
by split=> //; apply: ih.
Qed.
Lemma relv_look h g a k l : relh h g -> (forall v A, (a < size h)%N -> relv v A -> reln (k v) (l A)) ->
  reln (let! v := getv h a in k v) (let! A := look is_vec g a in l A).
Proof.
move=> /(@relh_get _ _ a) + H; rewrite /getv /look; case: (hget h a) => [[v|m|s]|] /= => [[A [g' [-> hr ha]]]|[A [g' [-> hr ha]]]|[A [g' [-> hr ha]]]|-> //].
- by case: (hr) => -> _ _ _; case: (v.1) => /=; exact: H.
- by case: hr => -> .
- by case: hr => -> .
Qed.
Lemma relm_look h g a k l : relh h g -> (forall m A, (a < size h)%N -> relm m A -> reln (k m) (l A)) ->
  reln (let! m := getm h a in k m) (let! A := look is_full g a in l A).
Proof.
move=> /(@relh_get _ _ a) + H; rewrite /getm /look; case: (hget h a) => [[v|m|s]|] /= => [[A [g' [-> hr ha]]]|[A [g' [-> hr ha]]]|[A [g' [-> hr ha]]]|-> //].
- by case: hr => -> _ _ _; case: (v.1).
- by case: (hr) => -> _ _ _; exact: H.
- by case: hr => -> .
Qed.
Lemma rels_look h g a k l : relh h g -> (forall s A, (a < size h)%N -> rels s A -> reln (k s) (l A)) ->
  reln (let! s := gets h a in k s) (let! A := look is_sym g a in l A).
Proof.
move=> /(@relh_get _ _ a) + H; rewrite /gets /look; case: (hget h a) => [[v|m|s]|] /= => [[A [g' [-> hr ha]]]|[A [g' [-> hr ha]]]|[A [g' [-> hr ha]]]|-> //].
- by case: hr => -> _ _ _; case: (v.1).
- by case: hr => -> .
- by case: (hr) => -> _ _ _; exact: H.
Qed.
(** a row or a column is asked for *)
Definition kinds (P : bool -> bool) (P' : kind -> bool) : Prop := [/\ P' Col = P false, P' Row = P true, P' Full = false & P' Sym = false].
Lemma relv_look1 P P' h g a k l : kinds P P' -> relh h g -> (forall v A, (a < size h)%N -> P v.1 -> relv v A -> reln (k v) (l A)) ->
  reln (let! v := getv h a in guard (P v.1) ;; k v) (let! A := look P' g a in l A).
Proof.
move=> [p1 p2 p3 p4] /(@relh_get _ _ a) + H; rewrite /getv /look; case: (hget h a) => [[v|m|s]|] /= => [[A [g' [-> hr ha]]]|[A [g' [-> hr ha]]]|[A [g' [-> hr ha]]]|-> //].
- case: (hr) => -> _ _ _; have -> : P' (if v.1 then Row else Col) = P v.1 by case: (v.1).
  by rewrite /guard; case: ifP => //= hP; exact: H.
- by case: hr => ->; rewrite p3.
- by case: hr => ->; rewrite p4.
Qed.
Lemma relv_look2 P P' Q Q' h g a b k l : kinds P P' -> kinds Q Q' -> relh h g ->
  (forall v A w B, P v.1 -> relv v A -> Q w.1 -> relv w B -> reln (k v w) (l A B)) ->
  reln (let! v := getv h a in let! w := getv h b in guard (P v.1 && Q w.1) ;; k v w) (let! A := look P' g a in let! B := look Q' g b in l A B).
Proof.
move=> hP hQ hh H.
have side : reln (let! v := getv h a in guard (P v.1) ;; (let! w := getv h b in guard (Q w.1) ;; k v w)) (let! A := look P' g a in let! B := look Q' g b in l A B).
  apply: (relv_look1 hP hh) => v A ha pv hv; apply: (relv_look1 hQ hh) => w B hb qw hw; exact: H.
move: side; rewrite /getv; case: (hget h a) => [[v|m|s]|] //=; case: (P v.1) => //=.
by case: (hget h b) => [[w|m|s]|].
Qed.
Lemma reln_guard (b c : bool) k l : b = c -> (b -> reln (k tt) (l tt)) -> reln (let! u := guard b in k u) (let! u := guard c in l u).
Proof. by move=> <-; case: b => //= H; exact: H. Qed.
Lemma reln_new h g x A : relh h g -> relo x A -> reln (push h x) (new g A).
Proof. by move=> a b; split=> //; exact: relh_push. Qed.
Lemma reln_set h g a x A : relh h g -> (a < size h)%N -> relo x A -> reln (store h a x) (set g a A).
Proof. by move=> u ha b; split=> //; exact: relh_put. Qed.
Lemma reln_say h g x y : relh h g -> x = y -> reln (tell h x) (say g y).
Proof. by []. Qed.

Lemma relv_len v A : relv v A -> len A = size v.2.
Proof. by rewrite /len => -[-> -> -> _]; case: (v.1). Qed.
Lemma relv_row v A : relv v A -> is_row (t_kind A) = v.1.
Proof. by case=> -> _ _ _; case: (v.1). Qed.
Lemma relv_vat v A k : relv v A -> (k < size v.2)%N -> vat A k.+1 = vel v.2 k.
Proof. by move=> hv hk; rewrite /vat (relv_row hv); case: hv => _ _ _ /(_ _ hk) ->. Qed.
Lemma relv_vector b d n (f : nat -> num R) : size d = n -> (forall k, (k < n)%N -> vel d k = f k.+1) -> relv (b, d) (vector b n f).
Proof. by move=> <- h; case: b; split. Qed.
Lemma relm_tab r c f (F : nat -> nat -> num R) : (forall i j, (i < r)%N -> (j < c)%N -> f i j = F i.+1 j.+1) -> relm (btab r c f) (Table Full r c F).
Proof. by move=> h; split=> //= i j hi hj; rewrite bel_btab //; exact: h. Qed.
Lemma rels_tab n f (F : nat -> nat -> num R) : (forall i j, (j <= i < n)%N -> f i j = F i.+1 j.+1) -> (forall i j, (i < n)%N -> (j < n)%N -> F i.+1 j.+1 = F j.+1 i.+1) -> rels (stab n f) (square n F).
Proof.
move=> h hs; split=> //= i j hi hj; rewrite sel_stab //; case: leqP => ij; first by rewrite h ?ij.
by rewrite h ?hj ?(ltnW ij) //; exact: hs.
Qed.
Lemma rels_sym s A i j : rels s A -> (i < s_n s)%N -> (j < s_n s)%N -> t_at A i.+1 j.+1 = t_at A j.+1 i.+1.
Proof. by move=> [_ _ _ H] hi hj; rewrite -!H // sel_sym. Qed.
Lemma vel_tab n (f : nat -> num R) k : (k < n)%N -> vel (vtab n f) k = f k.
Proof. by move=> hk; rewrite /vel /vtab nth_mkseq. Qed.

(** ** Equality tests *)
Lemma sub0E (a b : num R) : isSome a -> isSome b -> (nsub a b == Some 0) = (a == b).
Proof. by case: a b => [x|] [y|] // _ _; rewrite -[LHS]/(x - y == 0) subr_eq0. Qed.
Lemma subSome (a b : num R) : isSome (nsub a b) = isSome a && isSome b.
Proof. by case: a b => [x|] [y|]. Qed.
Lemma equal_tab A B (f F : nat -> nat -> num R) r c : t_rows A = r -> t_cols A = c -> t_rows B = r -> t_cols B = c ->
  (forall i j, (i < r)%N -> (j < c)%N -> f i j = t_at A i.+1 j.+1) -> (forall i j, (i < r)%N -> (j < c)%N -> F i j = t_at B i.+1 j.+1) ->
  is0 (bnormm (fun i j => nsub (f i j) (F i j)) r c) = equal A B.
Proof.
move=> e1 e2 e3 e4 hf hF; rewrite is0_bnormm /equal /same e1 e2 e3 e4 !eqxx /=.
have aa (P : nat -> nat -> bool) : all (fun i => all (fun j => P i j) (iota 0 c)) (iota 0 r) = [forall i : 'I_r, forall j : 'I_c, P i j].
  by rewrite all_iota; apply: eq_forallb => i; rewrite all_iota.
rewrite !aa.
have -> : [forall i : 'I_r, forall j : 'I_c, isSome (nsub (f i j) (F i j))] = [forall i : 'I_r, forall j : 'I_c, isSome (t_at A i.+1 j.+1) && isSome (t_at B i.+1 j.+1)].
  by apply: eq_forallb => i; apply: eq_forallb => j; rewrite subSome hf // hF.
case: ifP => // /forallP hk; congr Some; apply: eq_forallb => i; apply: eq_forallb => j.
by have /forallP/(_ j)/andP[h1 h2] := hk i; rewrite hf // hF // sub0E.
Qed.
Lemma equal_vec v w A B : relv v A -> relv w B -> v.1 = w.1 -> size v.2 = size w.2 ->
  is0 (bnorm (fun k => nsub (vel v.2 k) (vel w.2 k)) (size v.2)) = equal A B.
Proof.
case: v w => [b d] [b' d'] [/= e1 e2 e3 hv] [/= e1' e2' e3' hw] eb ed.
rewrite is0_bnorm /equal /same e2 e3 e2' e3' -eb -ed !eqxx /= !all_iota; case: b e2 e3 hv eb e1 => e2 e3 hv eb e1; rewrite -eb in hw.
  rewrite (forall1 (fun i => [forall j : 'I_(size d), isSome (t_at A i.+1 j.+1) && isSome (t_at B i.+1 j.+1)])).
  rewrite (forall1 (fun i => [forall j : 'I_(size d), t_at A i.+1 j.+1 == t_at B i.+1 j.+1])).
  have -> : [forall k : 'I_(size d), isSome (nsub (vel d k) (vel d' k))] = [forall j : 'I_(size d), isSome (t_at A 1 j.+1) && isSome (t_at B 1 j.+1)].
    by apply: eq_forallb => j; rewrite subSome hv // hw // -ed.
  by case: ifP => // /forallP hk; congr Some; apply: eq_forallb => j; have /andP[h1 h2] := hk j; rewrite hv // hw -?ed // sub0E.
have -> : [forall k : 'I_(size d), isSome (nsub (vel d k) (vel d' k))] = [forall i : 'I_(size d), forall j : 'I_1, isSome (t_at A i.+1 j.+1) && isSome (t_at B i.+1 j.+1)].
  by apply: eq_forallb => i; rewrite (forall1 (fun j => isSome (t_at A i.+1 j.+1) && isSome (t_at B i.+1 j.+1))) subSome hv // hw // -ed.
case: ifP => // /forallP hk; congr Some; apply: eq_forallb => i; have /forallP/(_ ord0)/andP[h1 h2] := hk i.
by rewrite (forall1 (fun j => t_at A i.+1 j.+1 == t_at B i.+1 j.+1)) hv // hw -?ed // sub0E.
Qed.

(** ** [SymmetricMatrix(n, row)] *)
Lemma rows_inner n (x : nat -> num R) i js s a b : (b <= a)%N -> (i < n)%N ->
  nth None (s_d (foldl (fun s j => BSym n (set_nth None (s_d s) (if (j <= i)%N then (tri i + j)%N else (tri j + i)%N) (x j))) s js)) (tri a + b) =
  if (i == a) && (b \in js) then x b else if (i == b) && (a \in js) then x a else nth None (s_d s) (tri a + b).
Proof.
move=> ab hi; elim: js s => [|j js ih] s /=; first by rewrite !andbF.
rewrite ih /= nth_set_nth /= !inE.
have -> : ((tri a + b)%N == (if (j <= i)%N then (tri i + j)%N else (tri j + i)%N)) = ((i == a) && (j == b)) || ((i == b) && (j == a)).
  apply/eqP/orP => [|[/andP[/eqP-> /eqP->]|/andP[/eqP-> /eqP->]]]; last 2 first.
  - by rewrite ab.
  - by case: ltngtP ab => // ->.
  case: leqP => ij /tri_inj; first by case/(_ ab ij) => -> ->; rewrite !eqxx; left.
  by case/(_ ab (ltnW ij)) => -> ->; rewrite !eqxx; right.
rewrite (eq_sym j b) (eq_sym j a); case: (eqVneq i a) => [e1|n1]; case: (eqVneq i b) => [e2|n2] //=.
- by rewrite -e1 -e2; case: (eqVneq i j) => [->|ne] //=; rewrite ?if_same //; case: ifP.
- by case: (eqVneq b j) => [->|ne] //=; case: ifP.
- by case: (eqVneq a j) => [->|ne] //=; case: ifP.
Qed.
Lemma rows_outer n (x : nat -> num R) s k a b : (b <= a)%N -> (a < n)%N -> (k <= n)%N ->
  nth None (s_d (foldl (fun s i => foldl (fun s j => BSym n (set_nth None (s_d s) (if (j <= i)%N then (tri i + j)%N else (tri j + i)%N) (x j))) s (iota 0 n)) s (iota 0 k))) (tri a + b) =
  if (a < k)%N then x b else if (b < k)%N then x a else nth None (s_d s) (tri a + b).
Proof.
move=> ab an; elim: k => [|k ih] kn //.
rewrite -addn1 iotaD foldl_cat /= add0n rows_inner // !mem_iota !add0n /= an (leq_ltn_trans ab an) !andbT addn1 !ltnS ih ?(ltnW kn) //.
case: (ltngtP k a) => h /=.
- by case: (ltngtP k b).
- by case: eqP => // e; move: (leq_ltn_trans ab h); rewrite e ltnn.
- by [].
Qed.

Arguments reln : simpl never.
Arguments push : simpl never.
Arguments store : simpl never.
Arguments tell : simpl never.
Arguments new : simpl never.
Arguments set : simpl never.
Arguments say : simpl never.
Arguments obind : simpl never.
Lemma kN : kinds negb is_col. Proof. by []. Qed.
Lemma kI : kinds id is_row. Proof. by []. Qed.

Lemma pair_vec o v w A B : relv v A -> relv w B -> v.1 = w.1 -> size v.2 = size w.2 ->
  relv (v.1, vtab (size v.2) (fun k => pm o (vel v.2 k) (vel w.2 k))) (pairwise (sign o) A B).
Proof.
case: v w => [b d] [b' d'] [/= e1 e2 e3 hv] [/= e1' e2' e3' hw] eb ed; rewrite -eb -ed in e1' hw.
split=> /=; rewrite ?size_mkseq // => k hk; rewrite vel_tab // pmE hv // hw //; by case: (b).
Qed.
Lemma each_vec (u : num R -> num R) v A : relv v A -> relv (v.1, map u v.2) (each u A).
Proof.
case: v => [b d] [/= e1 e2 e3 hv]; split=> /=; rewrite ?size_map // => k hk.
by rewrite /vel (nth_map None) // -/(vel d k) hv //; case: (b).
Qed.
Lemma same_vec v w A B : relv v A -> relv w B -> v.1 = w.1 -> same A B = (size v.2 == size w.2).
Proof. by case: v w => [b d] [b' d'] [/= _ e2 e3 _] [/= _ e2' e3' _] eb; rewrite /same e2 e3 e2' e3' -eb; case: (b); rewrite eqxx ?andbT. Qed.
Lemma op_sym o s t A B i j : rels s A -> rels t B -> s_n s = s_n t -> (i < s_n s)%N -> (j < s_n s)%N ->
  op o (t_at A i.+1 j.+1) (t_at B i.+1 j.+1) = op o (t_at A j.+1 i.+1) (t_at B j.+1 i.+1).
Proof. by move=> ha hb e hi hj; rewrite (rels_sym ha hi hj) (rels_sym hb) -?e. Qed.
Lemma pair_mat o m p A B : relm m A -> relm p B -> (m_r m == m_r p) && (m_c m == m_c p) ->
  relm (btab (m_r m) (m_c m) (fun i j => pm o (bel m i j) (bel p i j))) (pairwise (sign o) A B).
Proof.
move=> [e1 e2 e3 hm] [e1' e2' e3' hp] /andP[/eqP e4 /eqP e5]; rewrite /pairwise e1' e2 e3; apply: relm_tab => i j hi hj.
by rewrite pmE hm // hp -?e4 -?e5.
Qed.
Lemma pair_sym o s t A B : rels s A -> rels t B -> s_n s == s_n t ->
  rels (stab (s_n s) (fun i j => pm o (sel s i j) (sel t i j))) (pairwise (sign o) A B).
Proof.
move=> hs ht /eqP e; case: (hs) (ht) => [e1 e2 e3 Hs] [e1' e2' e3' Ht]; rewrite /pairwise e1' e2 e3; apply: rels_tab => [i j /andP[ji hi]|i j hi hj].
  by rewrite pmE Hs ?Ht -?e // (leq_ltn_trans ji).
exact: op_sym hs ht e hi hj.
Qed.
Lemma each_mat (u : num R -> num R) m A : relm m A -> relm (btab (m_r m) (m_c m) (fun i j => u (bel m i j))) (each u A).
Proof. by move=> [e1 e2 e3 hm]; rewrite /each e1 e2 e3; apply: relm_tab => i j hi hj; rewrite hm. Qed.
Lemma each_sym (u : num R -> num R) s A : rels s A -> rels (stab (s_n s) (fun i j => u (sel s i j))) (each u A).
Proof.
move=> hs; case: (hs) => [e1 e2 e3 Hs]; rewrite /each e1 e2 e3; apply: rels_tab => [i j /andP[ji hi]|i j hi hj].
  by rewrite Hs // (leq_ltn_trans ji).
by rewrite (rels_sym hs).
Qed.
Lemma set_grid (d : seq (num R)) c i j a b x : (j < c)%N -> (b < c)%N ->
  nth None (set_nth None d (i * c + j)%N x) (a * c + b)%N = if (a == i) && (b == j) then x else nth None d (a * c + b)%N.
Proof.
move=> hj hb; rewrite nth_set_nth /=; case: eqP => [/(grid_inj hb hj)[-> ->]|ne]; first by rewrite !eqxx.
by case: andP => // -[/eqP e1 /eqP e2]; case: ne; rewrite e1 e2.
Qed.

Lemma rows_n n (x : nat -> num R) s js ks : s_n s = n ->
  s_n (foldl (fun s i => foldl (fun s j => BSym n (set_nth None (s_d s) (if (j <= i)%N then (tri i + j)%N else (tri j + i)%N) (x j))) s js) s ks) = n.
Proof.
elim: ks s => [|i ks ih] s //= hs; apply: ih.
by elim: js s hs => [|j js ih] s //= hs; apply: ih.
Qed.
Lemma part_ok (i1 i2 j1 j2 r c i j : nat) : (i1 == i2.+1) || (j1 == j2.+1) || ((0 < i1) && (i2 <= r) && (0 < j1) && (j2 <= c))%N ->
  (i < i2.+1 - i1)%N -> (j < j2.+1 - j1)%N ->
  [/\ (i1.-1 + i < r)%N, (j1.-1 + j < c)%N, (i1 + i.+1).-1 = (i1.-1 + i).+1 & (j1 + j.+1).-1 = (j1.-1 + j).+1].
Proof.
move=> h hi hj; case/orP: h => [/orP[]/eqP e|/andP[/andP[/andP[i0 ir] j0] jc]].
- by rewrite e subnn in hi.
- by rewrite e subnn in hj.
rewrite !addnS /= -!addSn !prednK //; split=> //.
  by apply: leq_trans ir; rewrite -ltnS -ltn_subRL.
by apply: leq_trans jc; rewrite -ltnS -ltn_subRL.
Qed.
Lemma guard2 T (b c : bool) (k : outcome T) : (let! _ := guard b in let! _ := guard c in k) = (let! _ := guard (b && c) in k).
Proof. by case: b. Qed.
Lemma step_alg h g k : relh h g -> reln (boost h k) (algebra g k).
Proof.
move=> H; case: k => [b n|b n x|a b|a b|a b|a n|a i x|a i|a b|a x|o a b|o a b|o a x|o a x|a|a b|a b|a q r
  |r c|n a|a r c|a i j x|a i j|a b|a x|o a b|o a b|o a x|o a x|a b|a b|a|a i1 i2 j1 j2|a b|a b
  |n|n a|a n|a i j x|a i j|a b|a x|o a b|o a b|o a b|o a x|o a x|a b|a b|a b|a i1 i2 j1 j2|a r] /=.
- by apply: reln_new H _; apply: relv_vector => [|k hk]; rewrite ?size_nseq // /vel nth_nseq if_same.
- by apply: reln_new H _; apply: relv_vector => [|k hk]; rewrite ?size_nseq // /vel nth_nseq hk.
- apply: relv_look2 kN kN (H) _ => v A w B /negbTE hv rv _ rw; apply: reln_new H _.
  rewrite /joined (relv_row rv) (relv_len rv) (relv_len rw) hv; apply: relv_vector => [|k hk]; first by rewrite size_cat.
  rewrite /vel nth_cat; case: ltnP => hl; first by rewrite (relv_vat rv).
  by rewrite subSn // (relv_vat rw) // -(ltn_add2l (size v.2)) subnKC.
- apply: relv_look2 kN kN (H) _ => v A w B /negbTE hv rv _ rw; apply: reln_new H _.
  rewrite /joined (relv_row rv) (relv_len rv) (relv_len rw) hv; apply: relv_vector => [|k hk]; first by rewrite size_cat.
  rewrite /vel nth_cat; case: ltnP => hl; first by rewrite (relv_vat rv).
  by rewrite subSn // (relv_vat rw) // -(ltn_add2l (size v.2)) subnKC.
- apply: relv_look2 kI kI (H) _ => v A w B hv rv _ rw; apply: reln_new H _.
  rewrite /joined (relv_row rv) (relv_len rv) (relv_len rw) hv; apply: relv_vector => [|k hk]; first by rewrite size_cat.
  rewrite /vel nth_cat; case: ltnP => hl; first by rewrite (relv_vat rv).
  by rewrite subSn // (relv_vat rw) // -(ltn_add2l (size v.2)) subnKC.
- apply: relv_look (H) _ => v A ha rv; apply: reln_set H ha _; rewrite (relv_row rv) (relv_len rv).
  have sz : size (take n v.2 ++ nseq (n - size v.2) (Some 0)) = n.
    rewrite size_cat size_take size_nseq; case: ltnP => h1; last by rewrite subnKC.
    by rewrite (eqP (ltnW h1)) addn0.
  apply: relv_vector => // k hk; rewrite /vel nth_cat size_take.
  case: (ltnP k (size v.2)) => h1; first by rewrite (relv_vat rv h1) /vel nth_take //; case: (ltnP n (size v.2)) => _; rewrite ?hk ?h1.
  have h2 : (size v.2 <= n)%N by apply: leq_trans h1 (ltnW hk).
  by rewrite (ltnNge n) h2 /= (ltnNge k) h1 /= nth_nseq ltn_sub2r // (leq_ltn_trans h1).
- apply: relv_look (H) _ => v A ha rv; apply: reln_guard; first by rewrite (relv_len rv).
  case/andP=> i0 hi; apply: reln_set H ha _; rewrite (relv_row rv).
  case: v rv hi => [[] d] [/= e1 e2 e3 hv] hi; split=> //=; rewrite ?size_set_nth ?prednK ?(maxn_idPr hi) // => k hk; rewrite /vel nth_set_nth /= -(eqSS k) prednK //; case: eqP => // _; exact: hv.
- apply: relv_look (H) _ => v A ha rv; apply: reln_guard; first by rewrite (relv_len rv).
  by case: i => // i /= hi; apply: reln_say (H) _; rewrite (relv_vat rv).
- apply: relv_look (H) _ => v A ha rv; apply: relv_look (H) _ => w B hb rw; apply: reln_guard; first by rewrite (relv_row rv) (relv_row rw).
  move/eqP=> e; apply: reln_say (H) _; congr Truth; case: eqP => /= [ed|/eqP ne]; first exact: equal_vec.
  by rewrite /equal (same_vec rv rw e) ne.
- apply: relv_look (H) _ => v A ha rv; apply: reln_set H ha _; have := each_vec (fun _ => Some x) rv.
  by have -> : map (fun _ : num R => Some x) v.2 = nseq (size v.2) (Some x) by elim: (v.2) => //= y d ->.
- apply: relv_look (H) _ => v A ha rv; apply: relv_look (H) _ => w B hb rw; apply: reln_guard.
    by rewrite (relv_row rv) (relv_row rw); case: eqP => //= e; rewrite (same_vec rv rw).
  by case/andP=> /eqP e /eqP ed; apply: reln_new H _; exact: pair_vec.
- apply: relv_look (H) _ => v A ha rv; apply: relv_look (H) _ => w B hb rw; apply: reln_guard.
    by rewrite (relv_row rv) (relv_row rw); case: eqP => //= e; rewrite (same_vec rv rw).
  by case/andP=> /eqP e /eqP ed; apply: reln_set H ha _; exact: pair_vec.
- apply: relv_look (H) _ => v A ha rv; apply: reln_new H _; rewrite (eq_map (fun y => calcE o y (Some x))); exact: each_vec.
- apply: relv_look (H) _ => v A ha rv; apply: reln_set H ha _; rewrite (eq_map (fun y => calcE o y (Some x))); exact: each_vec.
- apply: relv_look (H) _ => v A ha rv; apply: reln_new H _; case: v rv => [[] d] [/= e1 e2 e3 hv]; by split=> //=; rewrite ?e1.
- apply: relv_look2 kN kI (H) _ => v A w B /negbTE hv rv hw rw; apply: reln_new H _.
  case: rv rw => [e1 e2 e3 rv] [e1' e2' e3' rw]; rewrite hv hw in e1 e2 e3 rv e1' e2' e3' rw.
  rewrite /product e2 e3 e3'; apply: relm_tab => i j hi hj; rewrite total1 mulE rv // rw //.
- apply: relv_look2 kI kN (H) _ => v A w B hv rv /negbTE hw rw.
  case: rv rw => [e1 e2 e3 rv] [e1' e2' e3' rw]; rewrite hv hw in e1 e2 e3 rv e1' e2' e3' rw.
  apply: reln_guard; first by rewrite e3 e2'.
  move/eqP=> ed; apply: reln_say (H) _; congr Value; rewrite e3 ed; apply: bsum_total => k hk; rewrite mulE rv ?ed // rw //.
- apply: relv_look (H) _ => v A ha rv.
  rewrite guard2; apply: reln_guard => [|/andP[_ hin]]; first by rewrite /range (relv_len rv).
  apply: reln_new H _; rewrite (relv_row rv).
  have hk k : (k < r.+1 - q)%N -> (q.-1 + k < size v.2)%N /\ (q + k.+1).-1 = (q.-1 + k).+1.
    move=> hk; have q0 : (0 < q)%N by case/orP: hin => [/eqP ->|/andP[]].
    rewrite -{2}(prednK q0) addSn addnS /=; split=> //.
    case/orP: hin => [/eqP e|/andP[_ hr]]; first by rewrite e subnn in hk.
    by apply: leq_trans hr; rewrite -addSn prednK // -ltnS -ltn_subRL.
  case: v rv hin hk => [[] d] [/= e1 e2 e3 hv] hin hk; split=> //=; rewrite ?size_mkseq ?subSS ?subn0 // => k hlt; rewrite vel_tab //;
    have [h1 h2] := hk _ hlt; by rewrite hv // h2.
(* matrices *)
- by apply: reln_new H _; exact: relm_tab.
- apply: relv_look1 kI (H) _ => v A ha hv rv; case: rv => [e1 e2 e3 rv]; rewrite hv in e1 e2 e3 rv.
  by apply: reln_new H _; rewrite e3; apply: relm_tab => i j hi hj; rewrite rv.
- apply: relm_look (H) _ => m A ha [e1 e2 e3 rm]; apply: reln_set H ha _; apply: relm_tab => i j hi hj.
  by rewrite /inside e2 e3 /=; case: ifP => // /andP[h1 h2]; rewrite rm.
- apply: relm_look (H) _ => m A ha [e1 e2 e3 rm]; apply: reln_guard; first by rewrite /inside e2 e3.
  case/andP=> /andP[i0 hi] /andP[j0 hj]; apply: reln_set H ha _; split=> //= a1 b1 h1 h2.
  by rewrite /bel /= set_grid // ?prednK // -/(bel m a1 b1) rm // -{2}(prednK i0) -{2}(prednK j0) !eqSS.
- apply: relm_look (H) _ => m A ha [e1 e2 e3 rm]; apply: reln_guard; first by rewrite /inside e2 e3.
  by case: i j => [|i] [|j] //= => /andP[hi hj]; apply: reln_say (H) _; rewrite rm.
- apply: relm_look (H) _ => m A ha [e1 e2 e3 rm]; apply: relm_look (H) _ => p B hb [e1' e2' e3' rp]; apply: reln_say (H) _; congr Truth.
  case: (eqVneq (m_r m) (m_r p)) => /= [e4|n4]; last by rewrite /equal /same e2 e2' (negbTE n4).
  case: (eqVneq (m_c m) (m_c p)) => /= [e5|n5]; last by rewrite /equal /same e3 e3' (negbTE n5) andbF.
  by apply: equal_tab => //; rewrite ?e4 ?e5.
- by apply: relm_look (H) _ => m A ha rm; apply: reln_set H ha _; exact: (each_mat (fun _ => Some x) rm).
- apply: relm_look (H) _ => m A ha rm; apply: relm_look (H) _ => p B hb rp; apply: reln_guard; first by case: rm rp => _ e1 e2 _ [_ e3 e4 _]; rewrite /same e1 e2 e3 e4.
  by move=> e; apply: reln_new H _; exact: pair_mat.
- apply: relm_look (H) _ => m A ha rm; apply: relm_look (H) _ => p B hb rp; apply: reln_guard; first by case: rm rp => _ e1 e2 _ [_ e3 e4 _]; rewrite /same e1 e2 e3 e4.
  by move=> e; apply: reln_set H ha _; exact: pair_mat.
- apply: relm_look (H) _ => m A ha rm; apply: reln_new H _; have := each_mat (fun y => calc o y (Some x)) rm.
  by move=> [e1 e2 e3 h1]; split=> //= i j hi hj; rewrite h1 //= calcE.
- apply: relm_look (H) _ => m A ha rm; apply: reln_set H ha _; have := each_mat (fun y => calc o y (Some x)) rm.
  by move=> [e1 e2 e3 h1]; split=> //= i j hi hj; rewrite h1 //= calcE.
- apply: relm_look (H) _ => m A ha [e1 e2 e3 rm]; apply: relm_look (H) _ => p B hb [e1' e2' e3' rp]; apply: reln_guard; first by rewrite e3 e2'.
  move/eqP=> e; apply: reln_new H _; rewrite /product e2 e3'; apply: relm_tab => i j hi hj; rewrite e3; apply: bsum_total => k hk.
  by rewrite mulE rm // rp -?e.
- apply: relm_look (H) _ => m A ha [e1 e2 e3 rm]; apply: relv_look1 kN (H) _ => v B hb /negbTE hv [e1' e2' e3' rv]; rewrite hv in e1' e2' e3' rv.
  apply: reln_guard; first by rewrite e3 e2'.
  move/eqP=> e; apply: reln_new H _; rewrite /product e2 e3'; split=> //=; rewrite ?size_mkseq // => i hi; rewrite vel_tab // e3; apply: bsum_total => k hk.
  by rewrite mulE rm // rv -?e.
- apply: relm_look (H) _ => m A ha [e1 e2 e3 rm]; apply: reln_new H _; rewrite /transposed e1 e2 e3; apply: relm_tab => i j hi hj; exact: rm.
- apply: relm_look (H) _ => m A ha [e1 e2 e3 rm]; rewrite guard2; apply: reln_guard; first by rewrite /block e2 e3.
  case/andP=> _ hin; apply: reln_new H _; apply: relm_tab => i j hi hj; have [h1 h2 -> ->] := part_ok hin hi hj; exact: rm.
- apply: relm_look (H) _ => m A ha _; apply: rels_look (H) _ => s B hb [e1 e2 e3 rs]; apply: reln_set H ha _; rewrite e2 e3; exact: relm_tab.
- apply: relm_look (H) _ => m A ha [e1 e2 e3 rm]; apply: rels_look (H) _ => s B hb _; apply: reln_guard; first by rewrite e2 e3.
  move/eqP=> e; apply: reln_set H hb _; rewrite e2; apply: rels_tab => [i j /andP[ji hi]|i j hi hj]; last by rewrite maxnC minnC.
  by rewrite !maxnSS !minnSS (maxn_idPl ji) (minn_idPr ji) rm // -e (leq_ltn_trans ji).
(* symmetric matrices *)
- by apply: reln_new H _; exact: rels_tab.
- apply: relv_look1 kI (H) _ => v A ha hv rv; case: rv => [e1 e2 e3 rv]; rewrite hv in e1 e2 e3 rv; apply: reln_guard; first by rewrite e3.
  move/eqP=> e; apply: reln_new H _; split=> //=; try by rewrite rows_n.
  rewrite rows_n // => i j hi hj; rewrite /sel; case: (leqP j i) => ij.
    by rewrite rows_outer // hi rv ?e // ?minnSS ?(minn_idPr ij) // (leq_ltn_trans ij).
  by rewrite rows_outer ?(ltnW ij) // hj rv ?e // minnSS (minn_idPl (ltnW ij)).
- apply: rels_look (H) _ => s A ha rs; case: (rs) => [e1 e2 e3 Hs]; apply: reln_set H ha _; apply: rels_tab => [i j /andP[ji hi]|i j hi hj].
    by rewrite /inside e2 e3 /=; case: ifP => // /andP[h1 h2]; rewrite Hs.
  by rewrite /inside e2 e3 /= andbC; case: ifP => // /andP[h1 h2]; rewrite (rels_sym rs).
- apply: rels_look (H) _ => s A ha rs; case: (rs) => [e1 e2 e3 Hs]; apply: reln_guard; first by rewrite /inside e2 e3.
  case/andP=> /andP[i0 hi] /andP[j0 hj]; apply: reln_set H ha _; split=> //= a1 b1 h1 h2.
  rewrite /sel /= nth_set_nth /= -/(sidx a1 b1) -/(sidx i.-1 j.-1) -{3}(prednK i0) -{3}(prednK j0) -{2}(prednK i0) -{2}(prednK j0) !eqSS.
  have <- : (sidx a1 b1 == sidx i.-1 j.-1) = (a1 == i.-1) && (b1 == j.-1) || (a1 == j.-1) && (b1 == i.-1).
    apply/eqP/orP => [/sidx_inj[][-> ->]|[/andP[/eqP-> /eqP->]|/andP[/eqP-> /eqP->]]]; rewrite ?eqxx //; try (by [left|right]).
    by rewrite /sidx; case: ltngtP => // ->.
  by case: eqP => // _; rewrite -Hs.
- apply: rels_look (H) _ => s A ha [e1 e2 e3 rs]; apply: reln_guard; first by rewrite /inside e2 e3.
  by case: i j => [|i] [|j] //= => /andP[hi hj]; apply: reln_say (H) _; rewrite rs.
- apply: rels_look (H) _ => s A ha [e1 e2 e3 rs]; apply: rels_look (H) _ => t B hb [e1' e2' e3' rt]; apply: reln_say (H) _; congr Truth.
  case: (eqVneq (s_n s) (s_n t)) => /= [e4|n4]; last by rewrite /equal /same e2 e2' (negbTE n4).
  by apply: equal_tab => //; rewrite ?e4.
- by apply: rels_look (H) _ => s A ha rs; apply: reln_set H ha _; exact: (each_sym (fun _ => Some x) rs).
- apply: rels_look (H) _ => s A ha rs; apply: rels_look (H) _ => t B hb rt; apply: reln_guard; first by case: rs rt => _ e1 e2 _ [_ e3 e4 _]; rewrite /same e1 e2 e3 e4 andbb.
  by move=> e; apply: reln_new H _; exact: pair_sym.
- apply: rels_look (H) _ => s A ha rs; apply: rels_look (H) _ => t B hb rt; apply: reln_guard; first by case: rs rt => _ e1 e2 _ [_ e3 e4 _]; rewrite /same e1 e2 e3 e4 andbb.
  by move=> e; apply: reln_set H ha _; exact: pair_sym.
- apply: rels_look (H) _ => s A ha [e1 e2 e3 rs]; apply: relm_look (H) _ => m B hb [e1' e2' e3' rm]; apply: reln_guard; first by rewrite /same e2 e3 e2' e3'.
  case/andP=> /eqP e4 /eqP e5; apply: reln_new H _; rewrite /pairwise e1' e2 e3; apply: relm_tab => i j hi hj.
  by rewrite pmE rs // rm -?e4 -?e5.
- apply: rels_look (H) _ => s A ha rs; apply: reln_new H _; have := each_sym (fun y => calc o y (Some x)) rs.
  by move=> [e1 e2 e3 h1]; split=> //= i j hi hj; rewrite h1 //= calcE.
- apply: rels_look (H) _ => s A ha rs; apply: reln_set H ha _; have := each_sym (fun y => calc o y (Some x)) rs.
  by move=> [e1 e2 e3 h1]; split=> //= i j hi hj; rewrite h1 //= calcE.
- apply: rels_look (H) _ => s A ha [e1 e2 e3 rs]; apply: relm_look (H) _ => p B hb [e1' e2' e3' rp]; apply: reln_guard; first by rewrite e3 e2'.
  move/eqP=> e; apply: reln_new H _; rewrite /product e2 e3'; apply: relm_tab => i j hi hj; rewrite e3; apply: bsum_total => k hk.
  by rewrite mulE rs // rp -?e.
- apply: rels_look (H) _ => s A ha [e1 e2 e3 rs]; apply: rels_look (H) _ => t B hb [e1' e2' e3' rt]; apply: reln_guard; first by rewrite e3 e2'.
  move/eqP=> e; apply: reln_new H _; rewrite /product e2 e3' -e; apply: relm_tab => i j hi hj; rewrite e3; apply: bsum_total => k hk.
  by rewrite mulE rs // rt -?e.
- apply: rels_look (H) _ => s A ha [e1 e2 e3 rs]; apply: relv_look1 kN (H) _ => v B hb /negbTE hv [e1' e2' e3' rv]; rewrite hv in e1' e2' e3' rv.
  apply: reln_guard; first by rewrite e3 e2'.
  move/eqP=> e; apply: reln_new H _; rewrite /product e2 e3'; split=> //=; rewrite ?size_mkseq // => i hi; rewrite vel_tab // e3; apply: bsum_total => k hk.
  by rewrite mulE rs // rv -?e.
- apply: rels_look (H) _ => s A ha [e1 e2 e3 rs]; rewrite guard2; apply: reln_guard; first by rewrite /block e2 e3.
  case/andP=> _ hin; apply: reln_new H _; apply: relm_tab => i j hi hj; have [h1 h2 -> ->] := part_ok hin hi hj; exact: rs.
- apply: rels_look (H) _ => s A ha [e1 e2 e3 rs]; apply: reln_guard; first by rewrite e2.
  move=> hr; apply: reln_new H _; rewrite e3; split=> //=; rewrite ?size_mkseq // => j hj; rewrite vel_tab //.
  by case/orP: hr => [/eqP e|/andP[r0 hr]]; [rewrite e in hj|rewrite rs ?prednK].
Qed.

Arguments boost : simpl never.
Arguments algebra : simpl never.
Lemma run_alg (p : seq (call R)) h g : relh h g -> agree_run true (run (@boost R) h p) (run (@algebra R) g p).
Proof.
elim: p h g => [|k p ih] h g H //=; have := step_alg k H; rewrite /reln /obind.
case: (boost h k) => [[h' r]||]; case: (algebra g k) => [[g' r']||] //= [H' hr].
have := ih _ _ H'; rewrite /agree_run.
case: (run (@boost R) h' p) => [[h2 rs]||]; case: (run (@algebra R) g' p) => [[g2 rs']||] //= hq; split=> //.
by rewrite -hr; case: (r).
Qed.
Lemma strict_eq (rs ss : seq (report R)) : agree_reports true rs ss -> rs = ss.
Proof.
elim: rs ss => [|r rs ih] [|r' ss] //= [h1 /ih ->]; congr cons.
by case: r r' h1 => [|a|a] [|b|b] //= ->.
Qed.
End S.
