(** * Proofs about the histogram filter *)
From mathcomp Require Import all_ssreflect all_algebra.
From mathcomp Require Import ring zify.
From Verif Require Import OrdLra Outcome SpecProb ModelTables ProofsTables SpecBayes
  ModelDiscretePdf SpecDiscretePdf ProofsDiscretePdf ModelModels ModelFilter ProofsFilter ModelHistogram SpecHistogram.
Set Implicit Arguments. Unset Strict Implicit. Unset Printing Implicit Defensive.
Import Order.TTheory GRing.Theory Num.Theory.
Local Open Scope ring_scope.

Section BayesLemmas.
Variable R : realFieldType.
Implicit Types (p q : nat -> R) (fs : seq (factor R)).

(** one factor applied to an unnormalised vector *)
Definition fwd (n : nat) p (f : factor R) (j : nat) : R :=
  match f with Trans a => \sum_(i <- iota 0 n) a j i * p i | Like l => p j * l j end.

Lemma sum_ifr (A : Type) (s : seq A) (P : pred A) (F G : A -> R) (c : R) :
  (forall x, F x = c * G x) ->
  \sum_(x <- s) (if P x then F x else 0) = c * \sum_(x <- s) (if P x then G x else 0).
Proof. by move=> h; rewrite mulr_sumr; apply: eq_bigr => x _; case: (P x); rewrite ?h ?mulr0. Qed.

Lemma joint_step n p f fs j : joint n p (f :: fs) j = joint n (fwd n p f) fs j.
Proof.
rewrite /joint; case: f => [a|l] /=.
  under eq_bigr => x _.
    rewrite big_flatten big_map /=.
    under eq_bigr => y _ do rewrite big_map /=.
    over.
  rewrite exchange_big /=; apply: eq_bigr => y _.
  rewrite exchange_big /=; apply: eq_bigr => t _.
  case: ifP => _; last by rewrite big1.
  by rewrite mulr_suml; apply: eq_bigr => x _; rewrite mulrCA mulrA.
rewrite add0n; apply: eq_bigr => x _; apply: eq_bigr => t _.
by case: ifP => //; rewrite mulrA.
Qed.
Lemma joint_nil n p j : (j < n)%N -> joint n p [::] j = p j.
Proof.
move=> hj; rewrite /joint /=.
under eq_bigr => x _ do rewrite big_seq1 /= mulr1.
rewrite (bigD1_seq j) ?iota_uniq ?mem_iota //= eqxx big1 ?addr0 //.
by move=> i /negbTE ->.
Qed.
Lemma eq_joint n p q fs j : (forall i, (i < n)%N -> p i = q i) -> joint n p fs j = joint n q fs j.
Proof.
move=> h; rewrite /joint; apply: eq_big_seq => x; rewrite mem_iota add0n => /h e.
by apply: eq_bigr => t _; rewrite e.
Qed.
Lemma joint_scale n p c fs j : joint n (fun i => p i / c) fs j = joint n p fs j / c.
Proof.
rewrite /joint mulr_suml; apply: eq_bigr => x _; rewrite mulr_suml; apply: eq_bigr => t _.
by case: ifP; rewrite ?mul0r // mulrAC.
Qed.
Lemma evidence_step n p f fs : evidence n p (f :: fs) = evidence n (fwd n p f) fs.
Proof. by apply: eq_bigr => j _; exact: joint_step. Qed.
Lemma eq_evidence n p q fs : (forall i, (i < n)%N -> p i = q i) -> evidence n p fs = evidence n q fs.
Proof. by move=> h; apply: eq_bigr => j _; exact: eq_joint. Qed.
Lemma evidence_scale n p c fs : evidence n (fun i => p i / c) fs = evidence n p fs / c.
Proof. by rewrite /evidence mulr_suml; apply: eq_bigr => j _; exact: joint_scale. Qed.
Lemma evidence_zero n p fs : (forall i, (i < n)%N -> p i = 0) -> evidence n p fs = 0.
Proof.
move=> h; rewrite (@eq_evidence n p (fun=> 0)) // /evidence big1 // => j _; rewrite /joint big1 // => x _.
by rewrite big1 // => t _; rewrite mul0r; case: ifP.
Qed.
End BayesLemmas.

Section Loops.
Lemma foldO_cat A S (f : S -> A -> outcome S) s l1 l2 :
  foldO f s (l1 ++ l2) = (let! s' := foldO f s l1 in foldO f s' l2).
Proof. by elim: l1 s => //= x l1 IH s; case: (f s x) => //=. Qed.
Lemma put_cat A (l r : seq A) x y : put_ (l ++ x :: r) (size l) y = Ok (l ++ y :: r).
Proof. by elim: l => //= z l ->. Qed.
Lemma foldO_fill A (b : seq A -> nat -> outcome (seq A)) (g : nat -> A) (n : nat) (s : seq A) :
  (n <= size s)%N ->
  (forall k, (k < n)%N -> b (map g (iota 0 k) ++ drop k s) k = put_ (map g (iota 0 k) ++ drop k s) k (g k)) ->
  foldO b s (iota 0 n) = Ok (map g (iota 0 n) ++ drop n s).
Proof.
elim: n => [|n IH] hs h; first by rewrite drop0.
have e : iota 0 n.+1 = iota 0 n ++ [:: n] by rewrite -addn1 iotaD.
rewrite {1}e foldO_cat IH //=; [|exact: ltnW|by move=> k hk; apply: h; exact: ltnW].
rewrite h //.
have -> : put_ (map g (iota 0 n) ++ drop n s) n (g n) = Ok (map g (iota 0 n.+1) ++ drop n.+1 s); last by [].
rewrite e map_cat -catA /= (drop_nth (g n) hs).
have := put_cat (map g (iota 0 n)) (drop n.+1 s) (nth (g n) s n) (g n).
by rewrite size_map size_iota.
Qed.
Lemma foldO_sum (R : realFieldType) (f : nat -> outcome R) (g : nat -> R) (l : seq nat) (a : R) :
  {in l, forall i, f i = Ok (g i)} ->
  foldO (fun t i => let! x := f i in Ok (t + x)) a l = Ok (a + \sum_(i <- l) g i).
Proof.
elim: l a => [|i l IH] a h /=; first by rewrite big_nil addr0.
rewrite h ?mem_head //= IH ?big_cons ?addrA // => j hj; apply: h; by rewrite inE hj orbT.
Qed.
End Loops.

Section Hist.
Variables (R : realFieldType) (eps : R) (Z : Type).
Hypothesis eps0 : 0 <= eps.

(** the pdf after [ProbabilitiesSet(v)] *)
Definition normal (n : nat) (g : nat -> R) : dpdf R :=
  let v := [seq g j / \sum_(i <- iota 0 n) g i | j <- iota 0 n] in DPdf n v (cum_loop 0 v).
Lemma total_iota (g : nat -> R) n : total (map g (iota 0 n)) = \sum_(i <- iota 0 n) g i.
Proof. by rewrite /total big_map. Qed.
Lemma nonneg_iota (g : nat -> R) n : (forall i, (i < n)%N -> 0 <= g i) -> nonneg (map g (iota 0 n)).
Proof.
by move=> h; rewrite /nonneg all_map; apply/allP => i; rewrite mem_iota add0n => /h.
Qed.
Lemma normal_valid n g : (forall i, (i < n)%N -> 0 <= g i) -> 0 < \sum_(i <- iota 0 n) g i ->
  dp_valid (normal n g).
Proof.
move=> h0 h1; split; rewrite /= ?size_map ?size_iota //; last exact: cum_prefix.
rewrite (_ : [seq _ | _ <- _] = [seq x / total (map g (iota 0 n)) | x <- map g (iota 0 n)]).
  by apply: normalized_distribution; [exact: nonneg_iota|rewrite total_iota].
by rewrite -map_comp total_iota.
Qed.
Lemma dp_sets_iota d g n : dp_n d = n -> (forall i, (i < n)%N -> 0 <= g i) ->
  0 < \sum_(i <- iota 0 n) g i -> dp_sets eps d (map g (iota 0 n)) = Ok (true, normal n g).
Proof.
move=> hn h0 h1; rewrite dp_setsE ?total_iota ?size_map ?size_iota //; last exact: nonneg_iota.
by rewrite hn /normal -map_comp.
Qed.

Lemma sm_eval_sys n (m : hsys R) u a j i : sys_table n m u a -> (j < n)%N -> (i < n)%N ->
  sm_eval m j%:Z i%:Z u = Ok (a j i) /\ 0 <= a j i.
Proof.
move=> h hj hi; have := h j i hj hi; rewrite /sm_eval /sm_args /expected_args.
by case: (sm_noextra m) => //=; case: u {h}.
Qed.
Lemma sm_eval_meas n (m : hmeas R Z) z s l i : meas_table n m z s l -> (i < n)%N ->
  sm_eval m z i%:Z s = Ok (l i) /\ 0 <= l i.
Proof.
move=> h hi; have := h i hi; rewrite /sm_eval /sm_args /expected_args.
by case: (sm_noextra m) => //=; case: s {h}.
Qed.

Lemma hf_predictE (m : hsys R) u a d j : size (dp_vals d) = dp_n d -> sys_table (dp_n d) m u a ->
  (j < dp_n d)%N -> hf_predict m u (dp_vals d) (dp_n d) j = Ok (fwd (dp_n d) (probs d) (Trans a) j).
Proof.
move=> hs ht hj; rewrite /hf_predict.
have := @foldO_sum R (fun i : nat => let! p := sm_eval m j%:Z i%:Z u in let! q := at_ (dp_vals d) i in Ok (p * q))
  (fun i => a j i * probs d i) (iota 0 (dp_n d)) 0; rewrite add0r /fwd => <-.
  elim: (iota 0 _) (0 : R) => //= i s IH t.
  case: (sm_eval _ _ _ _) => //= p; case: (at_ _ _) => //= q; exact: IH.
move=> i; rewrite mem_iota add0n => hi; have [-> _] := sm_eval_sys ht hj hi.
by rewrite /= (at_nth 0) ?hs.
Qed.
Lemma fwd_ge0_sys n (m : hsys R) u a d j : nonneg (dp_vals d) -> sys_table n m u a -> (j < n)%N ->
  0 <= fwd n (probs d) (Trans a) j.
Proof.
move=> hnn ht hj; rewrite /fwd big_seq; apply: sumr_ge0 => i; rewrite mem_iota add0n => hi.
by apply: mulr_ge0; [case: (sm_eval_sys ht hj hi)|exact: nonneg_nth].
Qed.
(** what [SysUpdate] and [MeasUpdate] hand to [ProbabilitiesSet] *)
Lemma hf_sys_long (m : hsys R) u a np d : nonneg (dp_vals d) -> size (dp_vals d) = dp_n d ->
  (dp_n d <= size np)%N -> sys_table (dp_n d) m u a ->
  hf_sys eps m u (np, d) =
  (let new := map (fwd (dp_n d) (probs d) (Trans a)) (iota 0 (dp_n d)) ++ drop (dp_n d) np in
   let! r := dp_sets eps d new in Ok (new, r.2)).
Proof.
move=> hnn hs hnp ht; rewrite /hf_sys /=.
rewrite (@foldO_fill _ _ (fwd (dp_n d) (probs d) (Trans a)) (dp_n d)) ?hnp //.
move=> k hk; rewrite (hf_predictE hs ht hk) //= /mkProb /guard.
by have -> // : 0 <= fwd (dp_n d) (probs d) (Trans a) k by exact: fwd_ge0_sys ht hk.
Qed.
Lemma hf_sysE (m : hsys R) u a np d : nonneg (dp_vals d) -> size (dp_vals d) = dp_n d -> size np = dp_n d ->
  sys_table (dp_n d) m u a ->
  hf_sys eps m u (np, d) =
  (let new := map (fwd (dp_n d) (probs d) (Trans a)) (iota 0 (dp_n d)) in
   let! r := dp_sets eps d new in Ok (new, r.2)).
Proof.
move=> hnn hs hnp ht; rewrite (hf_sys_long hnn hs _ ht) ?hnp //.
by rewrite /= drop_oversize ?hnp // cats0.
Qed.
(** buffer of the wrong length *)
Lemma hf_sys_short (m : hsys R) u a np d : nonneg (dp_vals d) -> size (dp_vals d) = dp_n d ->
  (size np < dp_n d)%N -> sys_table (dp_n d) m u a -> hf_sys eps m u (np, d) = UB.
Proof.
move=> hnn hs hnp ht; rewrite /hf_sys /=.
rewrite -{2}(subnKC (ltnW hnp)) iotaD add0n foldO_cat.
rewrite (@foldO_fill _ _ (fwd (dp_n d) (probs d) (Trans a)) (size np)) //=.
  rewrite -(ltn_predK (_ : 0 < dp_n d - size np)%N) ?subn_gt0 //= (hf_predictE hs ht hnp) /= /mkProb /guard.
  have -> /= : 0 <= fwd (dp_n d) (probs d) (Trans a) (size np) by exact: fwd_ge0_sys ht hnp.
  by rewrite put_UB // size_cat size_map size_iota size_drop subnn addn0.
move=> k hk; have hk' := ltn_trans hk hnp; rewrite (hf_predictE hs ht hk') //= /mkProb /guard.
by have -> // : 0 <= fwd (dp_n d) (probs d) (Trans a) k by exact: fwd_ge0_sys ht hk'.
Qed.
Lemma hf_measE (m : hmeas R Z) z s l np d : nonneg (dp_vals d) -> size (dp_vals d) = dp_n d ->
  meas_table (dp_n d) m z s l ->
  hf_meas eps m (Some z) s (np, d) =
  (let! r := dp_sets eps d (map (fwd (dp_n d) (probs d) (Like l)) (iota 0 (dp_n d))) in Ok (np, r.2)).
Proof.
move=> hnn hs ht; rewrite /hf_meas /=.
rewrite (@foldO_fill _ _ (fwd (dp_n d) (probs d) (Like l)) (dp_n d)) ?hs //.
  by rewrite /= drop_oversize ?hs // cats0.
move=> k hk; have sk : size [seq fwd (dp_n d) (probs d) (Like l) i | i <- iota 0 k] = k by rewrite size_map size_iota.
rewrite (at_nth 0); last by rewrite size_cat size_drop sk hs subnKC // ltnW.
rewrite nth_cat sk ltnn subnn nth_drop addn0 /=.
have [-> hl] := sm_eval_meas ht hk; rewrite /= /mkProb /guard mulr_ge0 //.
exact: nonneg_nth.
Qed.

(** states of the object *)
Definition good (n : nat) (st : seq R * dpdf R) : Prop :=
  [/\ dp_valid st.2, dp_n st.2 = n & size st.1 = n].
Lemma fwd_ge0_meas n (m : hmeas R Z) z s l d j : nonneg (dp_vals d) -> meas_table n m z s l -> (j < n)%N ->
  0 <= fwd n (probs d) (Like l) j.
Proof. by move=> hnn ht hj; rewrite /fwd mulr_ge0 ?nonneg_nth //; case: (sm_eval_meas ht hj). Qed.

Lemma hf_sys_good (m : hsys R) u a st n : good n st -> sys_table n m u a ->
  0 < \sum_(j <- iota 0 n) fwd n (probs st.2) (Trans a) j ->
  exists np, hf_sys eps m u st = Ok (np, normal n (fwd n (probs st.2) (Trans a))) /\
             good n (np, normal n (fwd n (probs st.2) (Trans a))).
Proof.
case: st => np d [/= [hs [hnn ht1] hc] hn hnp] ht hpos; subst n.
rewrite (hf_sysE hnn hs hnp ht) /= dp_sets_iota //; last by move=> j; exact: fwd_ge0_sys ht.
eexists; split; first by [].
by split; rewrite /= ?size_map ?size_iota //; apply: normal_valid => // j; exact: fwd_ge0_sys ht.
Qed.
Lemma hf_meas_good (m : hmeas R Z) z s l st n : good n st -> meas_table n m z s l ->
  0 < \sum_(j <- iota 0 n) fwd n (probs st.2) (Like l) j ->
  hf_meas eps m (Some z) s st = Ok (st.1, normal n (fwd n (probs st.2) (Like l))) /\
  good n (st.1, normal n (fwd n (probs st.2) (Like l))).
Proof.
case: st => np d [/= [hs [hnn ht1] hc] hn hnp] ht hpos; subst n.
rewrite (hf_measE np hnn hs ht) /= dp_sets_iota //; last by move=> j; exact: fwd_ge0_meas ht.
split; first by [].
by split; rewrite //=; apply: normal_valid => // j; exact: fwd_ge0_meas ht.
Qed.
Lemma probs_normal n g j : (j < n)%N -> probs (normal n g) j = g j / \sum_(i <- iota 0 n) g i.
Proof. by move=> hj; rewrite /probs /= (nth_map 0%N) ?size_iota // nth_iota. Qed.

(** normalisation does not matter for what follows *)
Lemma joint_normal n g fs j : joint n (probs (normal n g)) fs j = joint n g fs j / \sum_(i <- iota 0 n) g i.
Proof. by rewrite -joint_scale; apply: eq_joint => i; exact: probs_normal. Qed.
Lemma evidence_normal n g fs : evidence n (probs (normal n g)) fs = evidence n g fs / \sum_(i <- iota 0 n) g i.
Proof. by rewrite -evidence_scale; apply: eq_evidence => i; exact: probs_normal. Qed.
Lemma sum_pos n (g : nat -> R) fs : (forall j, (j < n)%N -> 0 <= g j) -> evidence n g fs != 0 ->
  0 < \sum_(j <- iota 0 n) g j.
Proof.
move=> h0 hne; rewrite lt_neqAle eq_sym; apply/andP; split.
  apply: contra hne => /eqP h; rewrite evidence_zero // => i hi.
  have hn := nonneg_iota h0.
  have := total_eq0 hn; rewrite total_iota h => /(_ erefl) /allP /(_ (g i)) /=.
  by rewrite map_f ?mem_iota // => /(_ isT) /eqP.
by rewrite big_seq; apply: sumr_ge0 => j; rewrite mem_iota add0n; exact: h0.
Qed.
End Hist.

Section Calls.
Variables (R : realFieldType) (eps : R) (Z : Type).
Hypothesis eps0 : 0 <= eps.

(** [p'] is [p] pushed through [fs], up to a positive factor *)
Definition pushed n (p p' : nat -> R) (fs : seq (factor R)) : Prop :=
  exists2 K : R, 0 < K & forall rest j, joint n p' rest j = joint n p (fs ++ rest) j / K.
Lemma pushed_evidence n p p' fs rest : pushed n p p' fs -> evidence n p (fs ++ rest) != 0 ->
  evidence n p' rest != 0.
Proof.
move=> [K hK h] hne; rewrite /evidence; under eq_bigr => j _ do rewrite h.
by rewrite -mulr_suml mulf_neq0 // invr_neq0 // gt_eqF.
Qed.
Lemma pushed_cat n p p1 p2 f1 f2 : pushed n p p1 f1 -> pushed n p1 p2 f2 -> pushed n p p2 (f1 ++ f2).
Proof.
move=> [K1 h1 e1] [K2 h2 e2]; exists (K1 * K2); first exact: mulr_gt0.
by move=> rest j; rewrite e2 e1 invfM mulrA catA.
Qed.
Lemma pushed_nil n p : pushed n p p [::].
Proof. by exists 1; rewrite ?ltr01 // => rest j; rewrite divr1. Qed.

Lemma two_step_pushed n sm u mm (z : Z) s st t fs rest : good n st ->
  both_parts n sm u mm z s fs -> evidence n (probs st.2) (fs ++ rest) != 0 ->
  exists np d', [/\ hf_internal eps sm u mm (Some z) s (st.1, t, st.2) = Ok (true, (np, t, d')),
    good n (np, d') & pushed n (probs st.2) (probs d') fs].
Proof.
move=> hg [f1 [f2 [-> h1 h2]]]; rewrite -catA => hev; rewrite /hf_internal /two_step /=.
have [st1 [e1 hg1 hp1]] : exists st1, [/\ (if sm is Some m then hf_sys eps m u (st.1, st.2) else Ok (st.1, st.2)) = Ok st1,
    good n st1 & pushed n (probs st.2) (probs st1.2) f1].
  case: sm h1 => [m [a [ef hta]]|->] /=; last by exists st; split=> //; [case: (st)|exact: pushed_nil].
  rewrite ef /= evidence_step in hev.
  have hnn : nonneg (dp_vals st.2) by case: hg => [[_ []]].
  have hpos := sum_pos (fun j hj => fwd_ge0_sys hnn hta hj) hev.
  have [np [hs hg']] := hf_sys_good eps0 hg hta hpos.
  exists (np, normal n (fwd n (probs st.2) (Trans a))); split=> //.
  exists (\sum_(i <- iota 0 n) fwd n (probs st.2) (Trans a) i) => // r j.
  by rewrite ef /= joint_step joint_normal.
rewrite e1 /=; have hev2 := pushed_evidence hp1 hev.
case: mm h2 => [m [l [ef htl]]|->] /=; last first.
  by exists st1.1, st1.2; split=> //; rewrite cats0.
rewrite ef /= evidence_step in hev2.
have hnn : nonneg (dp_vals st1.2) by case: hg1 => [[_ []]].
have hpos := sum_pos (fun j hj => fwd_ge0_meas hnn htl hj) hev2.
have [hs hg'] := hf_meas_good eps0 hg1 htl hpos.
exists st1.1, (normal n (fwd n (probs st1.2) (Like l))); split=> //; first by rewrite hs.
apply: pushed_cat hp1 _; exists (\sum_(i <- iota 0 n) fwd n (probs st1.2) (Like l) i) => // r j.
by rewrite ef /= joint_step joint_normal.
Qed.

Notation hcall := (call (hsys R) (hmeas R Z) int Z).
Lemma internal_noz sm u st (z : Z) :
  hf_internal eps sm u (None : option (hmeas R Z)) (Some z) None st =
  hf_internal eps sm u (None : option (hmeas R Z)) None None st.
Proof. by []. Qed.
Lemma hf_internal_pushed n (c : hcall) st t fs rest : good n st ->
  stands_for n c fs -> evidence n (probs st.2) (fs ++ rest) != 0 ->
  let r := routed c in
  exists np d', [/\ hf_internal eps r.1.1.1.1 r.1.1.1.2 r.1.1.2 r.1.2 r.2 (st.1, t, st.2) = Ok (true, (np, t, d')),
    good n (np, d') & pushed n (probs st.2) (probs d') fs].
Proof.
move=> hg hc hev.
have sysonly sm u (fs0 : seq (factor R)) : sys_part n sm u fs0 -> evidence n (probs st.2) (fs0 ++ rest) != 0 ->
  exists np d', [/\ hf_internal eps sm u (None : option (hmeas R Z)) None None (st.1, t, st.2) = Ok (true, (np, t, d')),
    good n (np, d') & pushed n (probs st.2) (probs d') fs0].
  case: sm => [m [a [ef hta]]|->] /=; last first.
    by exists st.1, st.2; split=> //; exact: pushed_nil.
  rewrite ef /= evidence_step => hev'.
  have hnn : nonneg (dp_vals st.2) by case: hg => [[_ []]].
  have hpos := sum_pos (fun j hj => fwd_ge0_sys hnn hta hj) hev'.
  have [np [hs hg']] := hf_sys_good eps0 hg hta hpos.
  exists np, (normal n (fwd n (probs st.2) (Trans a))); split=> //.
    by rewrite /hf_internal /two_step /= (_ : (st.1, st.2) = st) ?hs //; case: (st).
  exists (\sum_(i <- iota 0 n) fwd n (probs st.2) (Trans a) i) => // r j.
  by rewrite joint_step joint_normal.
case: c hc => [sm u mm z s|sm mm z s|sm mm z|sm u mm z|sm u|sm|mm z s|mm z] /= hc.
- exact: two_step_pushed hg hc hev.
- exact: two_step_pushed hg hc hev.
- exact: two_step_pushed hg hc hev.
- exact: two_step_pushed hg hc hev.
- exact: sysonly hc hev.
- exact: sysonly hc hev.
- by apply: (two_step_pushed (sm := None) (u := None) t hg _ hev); exists [::], fs.
- by apply: (two_step_pushed (sm := None) (u := None) t hg _ hev); exists [::], fs.
Qed.
Notation hfilter := (heap (dpdf R) * filt (seq R))%type.
Definition is_good n (hf : hfilter) d := f_post hf = Ok d /\ good n (fl_priv hf.2, d).
Lemma hf_call_pushed n (c : hcall) (hf : hfilter) d fs rest : is_good n hf d ->
  stands_for n c fs -> evidence n (probs d) (fs ++ rest) != 0 ->
  exists hf' d', [/\ hf_call eps hf c = Ok (true, hf'), is_good n hf' d' & pushed n (probs d) (probs d') fs].
Proof.
move=> [hp hg] hc hev.
have [np [d' [h1 h2 h3]]] := hf_internal_pushed (fl_time hf.2) hg hc hev.
have [h' [e1 [e2 _]]] := f_updateE hp h1.
by exists (h', Filt (fl_prior hf.2) (fl_post hf.2) (fl_time hf.2) np), d'; rewrite /hf_call f_callE /= e1; split.
Qed.
Lemma hf_run_pushed n (cs : seq hcall) (hf : hfilter) d fss : is_good n hf d ->
  List.Forall2 (@stands_for R Z n) cs fss -> evidence n (probs d) (flatten fss) != 0 ->
  exists hf' d', [/\ runO (@hf_call R eps Z) hf cs = Ok (nseq (size cs) true, hf'), is_good n hf' d'
                   & pushed n (probs d) (probs d') (flatten fss)].
Proof.
move=> hg h; elim: h hf d hg => [|c fs cs' fss' hc _ IH] hf d hg hev.
  by exists hf, d; split=> //; exact: pushed_nil.
have [hf1 [d1 [h1 h2 h3]]] := hf_call_pushed hg hc hev.
have [hf2 [d2 [h4 h5 h6]]] := IH _ _ h2 (pushed_evidence h3 hev).
by exists hf2, d2; rewrite /= h1 /= h4 /=; split=> //; exact: pushed_cat h3 h6.
Qed.
Lemma pushed_final n (d d' : dpdf R) fs j : dp_valid d' -> dp_n d' = n -> pushed n (probs d) (probs d') fs ->
  (j < n)%N -> probs d' j = joint n (probs d) fs j / evidence n (probs d) fs.
Proof.
move=> [hs [_ ht] _] hn [K hK h].
have e i : (i < n)%N -> probs d' i = joint n (probs d) fs i / K.
  by move=> hi; have := h [::] i; rewrite joint_nil // cats0.
have : evidence n (probs d) fs = K; last by move=> -> /e.
have : \sum_(i <- iota 0 n) probs d' i = 1.
  rewrite -total_iota (_ : map _ _ = dp_vals d') //.
  apply: (@eq_from_nth _ 0); first by rewrite size_map size_iota hs hn.
  by move=> i; rewrite size_map size_iota => hi; rewrite (nth_map 0%N) ?size_iota // nth_iota.
rewrite /evidence; have -> : \sum_(i <- iota 0 n) probs d' i = \sum_(i <- iota 0 n) joint n (probs d) fs i / K.
  by apply: eq_big_seq => i; rewrite mem_iota => /e.
rewrite -mulr_suml => h1; have hK0 : K != 0 by rewrite gt_eqF.
by have := congr1 (fun x => x * K) h1; rewrite divfK // mul1r.
Qed.
End Calls.
