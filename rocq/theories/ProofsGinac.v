(** * Lemmas about symbolic expressions *)
From Coq Require Import Reals Lra.
From mathcomp Require Import all_ssreflect.
From Verif Require Import Outcome ModelGinac SpecGinac.
Set Implicit Arguments. Unset Strict Implicit. Unset Printing Implicit Defensive.
Local Open Scope R_scope.

Lemma den_ext rho rho' e : {in symbols e, rho =1 rho'} -> den rho e = den rho' e.
Proof.
elim: e => //= [s|a iha b ihb|a iha b ihb|a iha|a iha n|a iha|a iha|a iha] h; try by rewrite iha.
- by apply: h; rewrite inE.
- by rewrite iha ?ihb // => s hs; apply: h; rewrite mem_cat hs ?orbT.
- by rewrite iha ?ihb // => s hs; apply: h; rewrite mem_cat hs ?orbT.
Qed.
Lemma defined_ext rho rho' e : {in symbols e, rho =1 rho'} -> defined rho e -> defined rho' e.
Proof.
elim: e => //= [a iha b ihb|a iha b ihb|a iha] h.
- by move=> [ha hb]; split; [apply: iha|apply: ihb] => // s hs; apply: h; rewrite mem_cat hs ?orbT.
- by move=> [ha hb]; split; [apply: iha|apply: ihb] => // s hs; apply: h; rewrite mem_cat hs ?orbT.
- by move=> [ha hb]; split; [apply: iha|rewrite -(den_ext h)].
Qed.
Lemma upd_id rho s : upd rho s (rho s) =1 rho.
Proof. by move=> t; rewrite /upd; case: eqP => // ->. Qed.

(** substitution *)
Lemma subs_den rho s v e : rho s = v -> den rho (subs s v e) = den rho e.
Proof.
move=> h; elim: e => //= [t|a -> b ->|a -> b ->|a ->|a -> n|a ->|a ->|a ->] //.
by case: eqP => // ->; rewrite h.
Qed.
Lemma subs_defined rho s v e : rho s = v -> defined rho (subs s v e) <-> defined rho e.
Proof.
move=> h; elim: e => //= [t|a ha b hb|a ha b hb|a ha].
- by case: eqP.
- by rewrite ha hb.
- by rewrite ha hb.
- by rewrite ha (subs_den _ h).
Qed.
Lemma subs_symbols s v e : symbols (subs s v e) = [seq t <- symbols e | t != s].
Proof.
elim: e => //= [t|a -> b ->|a -> b ->] //; rewrite ?filter_cat //.
by case: eqP.
Qed.
Lemma subs_allP rho syms vals e : assigns rho syms vals -> exists e', [/\ subs_all syms vals e = Ok e',
  den rho e' = den rho e, defined rho e' <-> defined rho e & symbols e' = [seq t <- symbols e | t \notin syms]].
Proof.
move=> [sz h]; rewrite /subs_all.
suff key : forall n e, (n <= size syms)%N -> exists e',
  [/\ foldO (fun e j => let! s := at_ syms j in let! v := at_ vals j in Ok (subs s v e)) e (iota (size syms - n) n) = Ok e',
   den rho e' = den rho e, defined rho e' <-> defined rho e &
   symbols e' = [seq t <- symbols e | t \notin drop (size syms - n) syms]].
  by have [e' [h1 h2 h3 h4]] := key _ e (leqnn _); exists e'; move: h1 h4; rewrite subnn drop0.
elim=> [|n ih] {}e hn.
  exists e; split=> //; rewrite subn0 drop_size; apply/esym/all_filterP/allP => t _; by rewrite in_nil.
have lt : (size syms - n.+1 < size syms)%N by rewrite -subSn // subSS leq_subr.
rewrite /= (at_nth 0%N lt) /= (at_nth 0) -?sz //=.
have e1 : rho (nth 0%N syms (size syms - n.+1)) = nth 0 vals (size syms - n.+1) by apply: h.
have -> : (size syms - n.+1).+1 = (size syms - n)%N by rewrite -subSn // subSS.
have [|e' [h1 h2 h3 h4]] := ih (subs (nth 0%N syms (size syms - n.+1)) (nth 0 vals (size syms - n.+1)) e); first exact: ltnW.
exists e'; split=> //; first by rewrite h2 subs_den.
  by rewrite h3; exact: subs_defined.
rewrite h4 subs_symbols -filter_predI; apply: eq_filter => t /=.
rewrite (drop_nth 0%N lt) in_cons negb_or andbC; congr (_ && (_ \notin drop _ _)).
by rewrite -subSn // subSS.
Qed.

Lemma evalfP rho e : symbols e = [::] -> defined rho e /\ evalf e = Ok (den rho e) \/ ~ defined rho e /\ evalf e = Abort.
Proof.
have cat0 (s t : seq nat) : s ++ t = [::] -> s = [::] /\ t = [::] by case: s.
elim: e => //= [c|a iha b ihb|a iha b ihb|a iha|a iha n|a iha|a iha|a iha].
- by left.
- move/cat0 => [/iha [[ha ->]|[ha ->]] /ihb [[hb ->]|[hb ->]]] /=; first (by left); by right; split=> // -[].
- move/cat0 => [/iha [[ha ->]|[ha ->]] /ihb [[hb ->]|[hb ->]]] /=; first (by left); by right; split=> // -[].
- move/iha => [[ha ->]|[ha ->]] /=; last by right; split=> // -[].
  by case: Req_EM_T => hz; [right; split=> // -[_]|left].
- by move/iha => [[ha ->]|[ha ->]] /=; [left|right].
- by move/iha => [[ha ->]|[ha ->]] /=; [left|right].
- by move/iha => [[ha ->]|[ha ->]] /=; [left|right].
- by move/iha => [[ha ->]|[ha ->]] /=; [left|right].
Qed.

(** evaluation of a column of expressions *)
Lemma g_evalP g rho u x fs : assigns rho (g_u g) u -> assigns rho (g_x g) x ->
  (forall f, List.In f fs -> {subset symbols f <= g_u g ++ g_x g}) -> (forall f, List.In f fs -> defined rho f) ->
  g_eval g u x fs = Ok [seq den rho f | f <- fs].
Proof.
move=> hu hx; rewrite /g_eval; elim: fs => //= f fs ih hs hd.
have [f1 [-> d1 e1 s1]] := subs_allP f hu; have [f2 [h2 d2 e2 s2]] := subs_allP f1 hx.
rewrite /= h2 /=; have c : symbols f2 = [::].
  rewrite s2 s1 -filter_predI; apply/eqP; rewrite -(negbK (_ == _)) -has_filter; apply/negP => /hasP [t ht] /=.
  by have := hs _ (or_introl erefl) t ht; rewrite mem_cat => /orP [->|->]; rewrite ?andbF.
have := evalfP rho c; rewrite e2 e1 d2 d1 => -[[_ ->]|[[]]]; last by apply: hd; left.
by rewrite /= ih // => t ht; [apply: hs|apply: hd]; right.
Qed.

(** differentiation *)
Lemma diff_symbols s e : {subset symbols (diff s e) <= symbols e}.
Proof.
have sc (a b a' b' : seq nat) : {subset a <= a'} -> {subset b <= b'} -> {subset a ++ b <= a' ++ b'}.
  by move=> h h' t; rewrite !mem_cat => /orP [/h|/h'] ->; rewrite ?orbT.
have cc (a b : seq nat) : {subset b <= a} -> {subset a ++ b <= a} by move=> h t; rewrite mem_cat => /orP [|/h].
elim: e => //= [a iha b ihb|a iha b ihb|a iha|a iha n|a iha|a iha|a iha]; try exact: cc.
- exact: sc.
- move=> t; rewrite !mem_cat => /orP [/orP [/iha ->|->]|/orP [->|/ihb ->]]; by rewrite ?orbT.
- by move=> t; rewrite mem_cat => /orP [/iha|].
Qed.
Lemma diff_defined rho s e : defined rho e -> defined rho (diff s e).
Proof.
elim: e => //= [a iha b ihb|a iha b ihb|a iha|a iha n|a iha|a iha|a iha].
- by move=> [/iha ? /ihb ?].
- by move=> [ha hb]; do !split=> //; [exact: iha|exact: ihb].
- by move=> [ha hz]; do !split=> //; exact: iha.
- by move=> ha; do !split=> //; exact: iha.
- by move=> ha; do !split=> //; exact: iha.
- by move=> ha; do !split=> //; exact: iha.
- by move=> ha; do !split=> //; exact: iha.
Qed.
Lemma lim_ext f g x l l' : (forall t, f t = g t) -> l = l' -> derivable_pt_lim f x l -> derivable_pt_lim g x l'.
Proof. by move=> h -> hd eps he; have [d hh] := hd eps he; exists d => k k0 kd; rewrite -!h; exact: hh. Qed.
Lemma den_partial rho s e : defined rho e -> partial (fun r => den r e) rho s (den rho (diff s e)).
Proof.
have ex e' : den (upd rho s (rho s)) e' = den rho e' by apply: den_ext => t _; exact: upd_id.
rewrite /partial; elim: e => /= [c|t|a iha b ihb|a iha b ihb|a iha|a iha n|a iha|a iha|a iha].
- by move=> _; exact: derivable_pt_lim_const.
- move=> _; rewrite /upd; case: eqP => _; [exact: derivable_pt_lim_id|exact: derivable_pt_lim_const].
- by move=> [/iha ha /ihb hb]; exact: derivable_pt_lim_plus.
- move=> [/iha ha /ihb hb]; have := derivable_pt_lim_mult _ _ _ _ _ ha hb.
  by apply: lim_ext => //; rewrite !ex.
- move=> [/iha ha hz]; have := derivable_pt_lim_div _ _ _ _ _ (derivable_pt_lim_const 1 (rho s)) ha.
  rewrite ex => /(_ hz); apply: lim_ext => [t|]; first by rewrite /div_fct /fct_cte /Rdiv Rmult_1_l.
  by rewrite /fct_cte /Rsqr; field.
- move=> /iha ha; have := derivable_pt_lim_comp _ _ _ _ _ ha (derivable_pt_lim_pow (den (upd rho s (rho s)) a) n).
  by apply: lim_ext => //; rewrite ex.
- move=> /iha ha; have := derivable_pt_lim_comp _ _ _ _ _ ha (derivable_pt_lim_sin (den (upd rho s (rho s)) a)).
  by apply: lim_ext => //; rewrite ex.
- move=> /iha ha; have := derivable_pt_lim_comp _ _ _ _ _ ha (derivable_pt_lim_cos (den (upd rho s (rho s)) a)).
  by apply: lim_ext => //; rewrite ex; ring.
- move=> /iha ha; have := derivable_pt_lim_comp _ _ _ _ _ ha (derivable_pt_lim_exp (den (upd rho s (rho s)) a)).
  by apply: lim_ext => //; rewrite ex.
Qed.

(** an expression stays defined nearby *)
Lemma defined_near rho s e : defined rho e -> exists d : R, 0 < d /\ forall t, Rabs (t - rho s) < d -> defined (upd rho s t) e.
Proof.
have ex e' : den (upd rho s (rho s)) e' = den rho e' by apply: den_ext => t _; exact: upd_id.
have two (P Q : R -> Prop) : (exists d : R, 0 < d /\ forall t, Rabs (t - rho s) < d -> P t) ->
    (exists d : R, 0 < d /\ forall t, Rabs (t - rho s) < d -> Q t) ->
    exists d : R, 0 < d /\ forall t, Rabs (t - rho s) < d -> P t /\ Q t.
  move=> [d [d0 h]] [d' [d0' h']]; exists (Rmin d d'); split; first exact: Rmin_glb_lt.
  by move=> t ht; split; [apply: h|apply: h']; apply: Rlt_le_trans ht _; [exact: Rmin_l|exact: Rmin_r].
have one : exists d : R, 0 < d /\ forall t, Rabs (t - rho s) < d -> True by exists 1; split=> //; lra.
elim: e => //= [a iha b ihb|a iha b ihb|a iha].
- by move=> [/iha ha /ihb hb]; exact: two.
- by move=> [/iha ha /ihb hb]; exact: two.
move=> [ha hz]; apply: two; first exact: iha.
have hd := den_partial s ha; rewrite /partial in hd.
have ct : continuity_pt (fun t => den (upd rho s t) a) (rho s).
  by apply: derivable_continuous_pt; exists (den rho (diff s a)).
have pos : 0 < Rabs (den rho a) by exact: Rabs_pos_lt.
have [d [d0 h]] := ct (Rabs (den rho a)) pos.
exists d; split=> // t ht hz0; case: (Req_dec (rho s) t) => [e|ne].
  by move: hz0; rewrite -e ex.
have := h t; rewrite /= /R_dist /D_x /no_cond ex hz0 => /(_ (conj (conj I ne) ht)).
by rewrite Rminus_0_l Rabs_Ropp; lra.
Qed.
Lemma defined_near_all rho s (fs : seq expr) : (forall f, List.In f fs -> defined rho f) ->
  exists d : R, 0 < d /\ forall t, Rabs (t - rho s) < d -> forall f, List.In f fs -> defined (upd rho s t) f.
Proof.
elim: fs => [_|f fs ih h]; first by exists 1; split=> //; lra.
have [|d [d0 hd]] := ih; first by move=> f' hf; apply: h; right.
have [|d' [d0' hd']] := @defined_near rho s f; first by apply: h; left.
exists (Rmin d d'); split; first exact: Rmin_glb_lt.
by move=> t ht f' [<-|hf]; [apply: hd'|apply: hd] => //; apply: Rlt_le_trans ht _; [exact: Rmin_r|exact: Rmin_l].
Qed.
Lemma lim_near f g x l d : 0 < d -> (forall t, Rabs (t - x) < d -> f t = g t) -> derivable_pt_lim f x l -> derivable_pt_lim g x l.
Proof.
move=> d0 h hd eps he; have [[d' hd'] hh] := hd eps he.
have m0 : 0 < Rmin d d' by exact: Rmin_glb_lt.
exists (mkposreal _ m0) => k k0 /= kd; rewrite -!h; first apply: hh => //.
- exact: Rlt_le_trans kd (Rmin_r _ _).
- by rewrite Rminus_eq_0 Rabs_R0.
- rewrite (_ : x + k - x = k); last by ring. exact: Rlt_le_trans kd (Rmin_l _ _).
Qed.

(** assignments *)
Definition lookup (us xs : seq nat) (u x : seq R) : nat -> R := fun s =>
  if s \in us then nth 0 u (index s us) else nth 0 x (index s xs).
Lemma lookupP us xs u x : uniq (us ++ xs) -> size us = size u -> size xs = size x ->
  assigns (lookup us xs u x) us u /\ assigns (lookup us xs u x) xs x.
Proof.
rewrite cat_uniq => /and3P [uu /hasPn dj ux] su sx; split; split=> // j hj; rewrite /lookup.
  by rewrite mem_nth // index_uniq.
have h := dj _ (mem_nth 0%N hj); rewrite /= in h; by rewrite (negbTE h) index_uniq.
Qed.
Lemma assigns_set rho us xs u x i t : uniq (us ++ xs) -> assigns rho us u -> assigns rho xs x -> (i < size xs)%N ->
  assigns (upd rho (nth 0%N xs i) t) us u /\ assigns (upd rho (nth 0%N xs i) t) xs (set_nth 0 x i t).
Proof.
rewrite cat_uniq => /and3P [uu /hasPn dj ux] [su hu] [sx hx] hi; split; split=> //.
- move=> j hj; rewrite /upd; case: eqP => [e|_]; last exact: hu.
  by have := dj _ (mem_nth 0%N hi); rewrite -e /= mem_nth.
- by rewrite size_set_nth -sx; apply/esym/maxn_idPr.
- move=> j hj; rewrite /upd nth_set_nth /= nth_uniq //; case: eqP => // _; exact: hx.
Qed.

(** sums of reals *)
Lemma RplusA : associative Rplus. Proof. by move=> a b c; rewrite Rplus_assoc. Qed.
Lemma Rplus0 : right_id 0 Rplus. Proof. by move=> a; ring. Qed.
Canonical Rplus_law := Monoid.Law RplusA Rplus_0_l Rplus0.
Canonical Rplus_comlaw := Monoid.ComLaw Rplus_comm.
Lemma sum_r n (f : nat -> R) c : (\big[Rplus/0]_(0 <= i < n) f i) * c = \big[Rplus/0]_(0 <= i < n) (f i * c).
Proof. by elim/big_rec2: _ => [|i a b _ <-]; ring. Qed.
Lemma sum_l n (f : nat -> R) c : c * (\big[Rplus/0]_(0 <= i < n) f i) = \big[Rplus/0]_(0 <= i < n) (c * f i).
Proof. by elim/big_rec2: _ => [|i a b _ <-]; ring. Qed.
Lemma sum_eq n (f g : nat -> R) : (forall i, (i < n)%N -> f i = g i) -> \big[Rplus/0]_(0 <= i < n) f i = \big[Rplus/0]_(0 <= i < n) g i.
Proof. by move=> h; rewrite !big_mkord; apply: eq_bigr => i _; exact: h. Qed.
Lemma sandwich_sym n (D S : nat -> nat -> R) i j : (forall k l, (k < n)%N -> (l < n)%N -> S k l = S l k) ->
  let temp := fun i j => \big[Rplus/0]_(0 <= l < n) ((\big[Rplus/0]_(0 <= k < n) (D i k * S k l)) * D j l) in
  temp i j = temp j i.
Proof.
move=> hS temp; rewrite /temp.
transitivity (\big[Rplus/0]_(0 <= l < n) \big[Rplus/0]_(0 <= k < n) (D i k * S k l * D j l)).
  by apply: sum_eq => l _; rewrite sum_r.
rewrite exchange_big /=; apply: sum_eq => k hk; rewrite sum_r; apply: sum_eq => l hl; rewrite (hS k l) //; ring.
Qed.
Lemma sandwich_psd m n (D S : nat -> nat -> R) : psd_ n S ->
  psd_ m (fun i j => \big[Rplus/0]_(0 <= l < n) ((\big[Rplus/0]_(0 <= k < n) (D i k * S k l)) * D j l)).
Proof.
move=> hS z; have := hS (fun k => \big[Rplus/0]_(0 <= i < m) (z i * D i k)).
set a := (X in 0 <= X -> _); set b := (X in _ -> 0 <= X); suff -> : a = b by [].
have -> : b = \big[Rplus/0]_(0 <= i < m) \big[Rplus/0]_(0 <= j < m) \big[Rplus/0]_(0 <= k < n) \big[Rplus/0]_(0 <= l < n) (z i * D i k * S k l * (z j * D j l)).
  apply: sum_eq => i _; apply: sum_eq => j _; rewrite exchange_big sum_l sum_r; apply: sum_eq => l _.
  by rewrite sum_r sum_l sum_r; apply: sum_eq => k _; ring.
have -> : a = \big[Rplus/0]_(0 <= k < n) \big[Rplus/0]_(0 <= l < n) \big[Rplus/0]_(0 <= i < m) \big[Rplus/0]_(0 <= j < m) (z i * D i k * S k l * (z j * D j l)).
  apply: sum_eq => k _; apply: sum_eq => l _; rewrite !sum_r; apply: sum_eq => i _.
  by rewrite sum_l; apply: sum_eq => j _; ring.
transitivity (\big[Rplus/0]_(0 <= k < n) \big[Rplus/0]_(0 <= i < m) \big[Rplus/0]_(0 <= l < n) \big[Rplus/0]_(0 <= j < m) (z i * D i k * S k l * (z j * D j l))).
  by apply: sum_eq => k _; rewrite exchange_big.
rewrite exchange_big /=; apply: sum_eq => i _.
transitivity (\big[Rplus/0]_(0 <= k < n) \big[Rplus/0]_(0 <= j < m) \big[Rplus/0]_(0 <= l < n) (z i * D i k * S k l * (z j * D j l))).
  by apply: sum_eq => k _; rewrite exchange_big.
by rewrite exchange_big.
Qed.

Lemma foldO_cat A S (f : S -> A -> outcome S) s l1 l2 : foldO f s (l1 ++ l2) = (let! s' := foldO f s l1 in foldO f s' l2).
Proof. by elim: l1 s => //= a l ih s; case: (f s a) => //=. Qed.
Lemma set_nth_id (u : seq R) i : (i < size u)%N -> set_nth 0 u i (nth 0 u i) = u.
Proof.
move=> h; apply: (@eq_from_nth _ 0); first by rewrite size_set_nth; apply/maxn_idPr.
by move=> j hj; rewrite nth_set_nth /=; case: eqP => // ->.
Qed.
Lemma shift_inner g u i : (i < size (g_u g))%N -> size (g_u g) = size u -> size (g_mu g) = size (g_cond g) ->
  foldO (fun u j => let! a := at_ (g_u g) i in let! b := at_ (g_cond g) j in
      if a == b then let! m := at_ (g_mu g) j in let! v := at_ u i in put_ u i (v + m) else Ok u)
    u (iota 0 (size (g_cond g))) = Ok (set_nth 0 u i (nth 0 u i + noise_of (g_cond g) (g_mu g) (nth 0%N (g_u g) i))).
Proof.
move=> hi su sm; rewrite /noise_of.
suff key n : (n <= size (g_cond g))%N -> foldO (fun u j => let! a := at_ (g_u g) i in let! b := at_ (g_cond g) j in
      if a == b then let! m := at_ (g_mu g) j in let! v := at_ u i in put_ u i (v + m) else Ok u)
    u (iota 0 n) = Ok (set_nth 0 u i (nth 0 u i + \big[Rplus/0]_(0 <= j < n | nth 0%N (g_cond g) j == nth 0%N (g_u g) i) nth 0 (g_mu g) j)) by exact: key.
have hu : (i < size u)%N by rewrite -su.
elim: n => [|n ih] hn; first by rewrite /= big_geq // Rplus_0_r set_nth_id.
rewrite -addn1 iotaD foldO_cat ih ?(ltnW hn) // add0n /= (at_nth 0%N hi) /= (at_nth 0%N hn) /=.
rewrite big_mkcond /= [in RHS]big_mkcond addn1 big_nat_recr //= eq_sym; case: eqP => _; last by rewrite Rplus0.
have sz v : size (set_nth 0 u i v) = size u by rewrite size_set_nth; apply/maxn_idPr.
rewrite (at_nth 0) ?sm //= (at_nth 0) ?sz //= nth_set_nth /= eqxx (put_set_nth 0) ?sz //=; congr Ok.
rewrite -Rplus_assoc; apply: (@eq_from_nth _ 0) => [|j hj]; first by rewrite !size_set_nth maxnA maxnn.
by rewrite !nth_set_nth /= nth_set_nth /=; case: eqP.
Qed.
Lemma g_shiftP g u : size (g_u g) = size u -> size (g_mu g) = size (g_cond g) ->
  g_shift g u = Ok [seq nth 0 u i + noise_of (g_cond g) (g_mu g) (nth 0%N (g_u g) i) | i <- iota 0 (size u)].
Proof.
move=> su sm; rewrite /g_shift.
set f := fun u i => foldO _ u _.
suff key n : (n <= size u)%N -> foldO f u (iota 0 n) =
    Ok [seq nth 0 u i + (if (i < n)%N then noise_of (g_cond g) (g_mu g) (nth 0%N (g_u g) i) else 0) | i <- iota 0 (size u)].
  rewrite su key //; congr Ok; apply/eq_in_map => i; by rewrite mem_iota add0n => /andP [_ ->].
elim: n => [|n ih] hn.
  congr Ok; apply: (@eq_from_nth _ 0) => [|j hj]; first by rewrite size_map size_iota.
  by rewrite (nth_map 0%N) ?size_iota // nth_iota //= Rplus0.
rewrite -addn1 iotaD foldO_cat ih ?(ltnW hn) // add0n /= /f shift_inner ?su ?size_map ?size_iota //=; congr Ok.
apply: (@eq_from_nth _ 0) => [|j].
  by rewrite size_set_nth !size_map !size_iota; apply/maxn_idPr.
rewrite size_set_nth !size_map !size_iota (maxn_idPr hn) => hj.
rewrite nth_set_nth /= !(nth_map 0%N) ?size_iota // !nth_iota // !add0n ltnn addn1 ltnS.
case: eqP => [->|/eqP ne]; first by rewrite leqnn Rplus0.
by rewrite ltn_neqAle ne.
Qed.
