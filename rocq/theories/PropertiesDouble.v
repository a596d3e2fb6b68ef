(** * C79-C82: tables of probabilities in double arithmetic *)
From Coq Require Import ZArith Reals Lra Lia.
From Flocq Require Import Core.Core BinarySingleNaN.
From mathcomp Require Import all_ssreflect.
From Verif Require Import Outcome ModelDouble SpecDouble ProofsDouble.
Set Implicit Arguments. Unset Strict Implicit. Unset Printing Implicit Defensive.
Local Open Scope R_scope.
Local Opaque d0 d1 dprec dlit dadd dsub dmul ddiv dle dlt bpow IZR.

Lemma rsum_share v k : rsum (take k [seq v2R x / total v | x <- v]) = share v k.
Proof. by rewrite -map_take total_map. Qed.
Lemma norm_ok v : few (size v) -> goods v -> 0 < total v <= bpow radix2 1022 ->
  List.Forall2 (near (size v)) [seq v2R x / total v | x <- v] [seq ddiv x (d_sum v) | x <- v] /\
  d_normalize v = Ok (true, [seq ddiv x (d_sum v) | x <- v]).
Proof.
move=> hn hg [h0 h1]; have f := sum_fin hg hn h1; have hs := sum_pos hg f h0.
split; first by apply: F2_map => x hx; have [] := div_near hg hn f h0 hx.
rewrite /d_normalize; have -> : dlt d0 (d_sum v).
  by apply/dltP.
rewrite (@mapO_ok _ _ _ (fun x => ddiv x (d_sum v))) // => x hx.
by apply: prob_ok; have [[]] := div_near hg hn f h0 hx.
Qed.
Lemma near_abs n r p : few n -> near n r p -> Rabs (v2R p - r) <= r * ((INR n + 2) * / IZR (2 ^ 53)) + bpow radix2 (-1074).
Proof.
move=> hn [h0 _ [h1 h2]]; have [l1 l2] := lo_ge hn; have [i1 i2] := hi_le hn; have hu := uu_gt0.
have e : ee <= bpow radix2 (-1074) by rewrite /ee; have := bpow_gt_0 radix2 (-1074); lra.
move: (bpow _ _) e => E e; rewrite -uu_val Rmult_plus_distr_r; apply: Rabs_le.
have m1 : r * (1 - INR n * uu - uu) <= r * lo n by apply: Rmult_le_compat_l.
have m2 : r * hi n <= r * (1 + INR n * uu + 11 / 10 * uu) by apply: Rmult_le_compat_l.
by have := Rmult_le_pos _ _ h0 (Rlt_le _ _ hu); lra.
Qed.

(** ProbabilitiesSet never trips its check: the values and the table are the exact
    normalised ones up to rounding. *)
Theorem C79_set d v : size v = size (dd_v d) -> few (size v) -> goods v -> 0 < total v <= bpow radix2 1022 ->
  exists d', [/\ d_set_all d v = Ok (true, d'), size (dd_v d') = size v,
    forall i, (i < size v)%N -> let p := nth d0 (dd_v d') i in
      [/\ good p, v2R p <= 1 & Rabs (v2R p - exact v i) <= exact v i * ((INR (size v) + 2) * / IZR (2 ^ 53)) + bpow radix2 (-1074)],
    follows (size v) (share v) (dd_c d') & nth d0 (dd_c d') (size v) = d1].
Proof.
move=> hs hn hg ht; have [hF hN] := norm_ok hn hg ht; have [h0 h1] := ht.
set ps := [seq ddiv x (d_sum v) | x <- v] in hF hN; have hsz : size ps = size v by rewrite size_map.
have n0 : (0 < size v)%N by case: (v) h0 => //; rewrite /total /=; lra.
have hr : rsum [seq v2R x / total v | x <- v] = 1 by rewrite total_map /Rdiv Rinv_r //; lra.
have [hc hfol hl] := cum_ok n0 hn hF hsz hr; clear hr.
set c := set_nth d0 _ _ _ in hc hfol hl.
exists (DDisc ps c); split; last exact: hl.
- by rewrite /d_set_all hs eqxx [guard _]/= [obind (Ok _) _]/= hN /= hc.
- exact: hsz.
- clear hc hN hl => i hi; rewrite /= (nth_map d0) //; have hin : List.In (nth d0 v i) v.
    by clear -hi; elim: v i hi => [|x v IH] [|i] //= hi; [left|right; exact: IH].
  have [hne h1'] := div_near hg hn (sum_fin hg hn h1) h0 hin.
  by split=> //; [case: hne|exact: near_abs].
- clear hc hN hl; case: hfol => e1 e2 e3 e4; split=> // k hk; rewrite -rsum_share; exact: e3.
Qed.

(** A vector of zeros is rejected: false, the table stays. *)
Theorem C79_zero d v : size v = size (dd_v d) -> goods v -> total v = 0 -> d_set_all d v = Ok (false, DDisc v (dd_c d)).
Proof.
move=> hs hg ht; rewrite /d_set_all hs eqxx /= /d_normalize.
suff -> : dlt d0 (d_sum v) = false by [].
have hz : (v2R d0 + total v) * (1 + uu) ^ size v = 0 by rewrite v2R0 ht; ring.
have f : is_finite (d_sum v) = true.
  by apply: fold_fin => //; [exact: good0|rewrite hz; exact: bpow_ge_0].
have [[_ s0] _ [_ s1]] := fold_err good0 hg f.
by rewrite hz -/(d_sum v) in s1; apply/dltP => //; rewrite v2R0; lra.
Qed.

(** A sum of 2^1025 or more overflows; the check stops the program. *)
Lemma big_sum v : goods v -> few (size v) -> bpow radix2 1025 <= total v -> is_finite (d_sum v) = false.
Proof.
move=> hg hn h; case f: (is_finite (d_sum v)) => //.
have [_ _ [h1 _]] := fold_err good0 hg f; rewrite -/(d_sum v) v2R0 Rplus_0_l in h1.
have [_ ha] := fewP hn; have p := pow_lo (size v).
have hb : Rabs (v2R (d_sum v)) < bpow radix2 1024 by exact: abs_B2R_lt_emax.
have e : bpow radix2 1025 = bpow radix2 1024 * 2 by rewrite -[2]/(bpow radix2 1) -bpow_plus.
have hb0 := bpow_gt_0 radix2 1024; rewrite e in h; clear e.
move/Rabs_lt_inv: hb => hb.
have : bpow radix2 1024 * 2 * / 2 <= total v * (1 - uu) ^ size v by apply: Rmult_le_compat; lra.
lra.
Qed.
Definition pinf : double := B754_infinity false.
Local Transparent dadd ddiv dlt dle.
Lemma good_sign x : good x -> Bsign x = true -> v2R x = 0.
Proof.
case: x => [s|s||s m e h] //; rewrite /good /v2R /= => -[_ h0] es; subst s; exfalso.
have h1 : F2R (Float radix2 (Zneg m) e) < 0 by apply: F2R_lt_0.
rewrite /= in h0; lra.
Qed.
Lemma add_over x y : good x -> good y -> is_finite (dadd x y) = false -> dadd x y = pinf.
Proof.
move=> hx hy f; have [fx _] := hx; have [fy _] := hy.
have := Bplus_correct 53 1024 _ _ mode_NE x y fx fy; rewrite -/(dadd x y).
case: Rlt_bool_spec => [_ [_ [f' _]]|h [e es]]; first by rewrite f' in f.
have sx : Bsign x = false.
  case e1: (Bsign x) => //; move: h; rewrite -/(v2R x) -/(v2R y) (good_sign hx e1) (good_sign hy) -?es // Rplus_0_r round_0.
  by rewrite Rabs_R0 => h; have := bpow_gt_0 radix2 1024; lra.
have : B2SF (dadd x y) = SpecFloat.S754_infinity false by rewrite -sx; exact: e.
by case: (dadd x y) => [s|s||s m e' hb] //= [->].
Qed.
Lemma inf_add x : good x -> dadd pinf x = pinf.
Proof. by case: x => [s|s||s m e h] [] //. Qed.
Lemma fold_over v c : good c -> goods v -> is_finite (foldl dadd c v) = false -> foldl dadd c v = pinf.
Proof.
elim: v c => [|x v IH] c /=; first by case=> -> _ _.
move=> hc /goods_cons [hx hv] f; case f1: (is_finite (dadd c x)); first exact: IH (add_good hc hx f1) hv f.
rewrite (add_over hc hx f1); elim: v hv {IH f f1} => [|y v IH] // /goods_cons [hy /IH h].
exact: etrans (congr1 (fun z => foldl dadd z v) (inf_add hy)) h.
Qed.
Lemma div_inf x : good x -> good (ddiv x pinf) /\ v2R (ddiv x pinf) = 0.
Proof. by case: x => [s|s||s m e h] [] // _ _; rewrite /good /v2R /=; split; [split=> //|]; lra. Qed.
Lemma cum_zero ps : goods ps -> total ps = 0 -> d_cum ps = Abort.
Proof.
move=> gp tp.
have hz : (v2R d0 + total ps) * (1 + uu) ^ size ps = 0 by rewrite v2R0 tp; ring.
have f : is_finite (d_sum ps) = true by apply: fold_fin => //; [exact: good0|rewrite hz; exact: bpow_ge_0].
have [_ _ [_ s1]] := fold_err good0 gp f; rewrite hz -/(d_sum ps) in s1.
rewrite /d_cum last_prefix -/(d_sum ps).
have [f1 e1] := low_limit.
suff -> : dle (dsub d1 dprec) (d_sum ps) = false by [].
apply/dleP; [exact: f1|exact: f|]; lra.
Qed.
Theorem C79_overflow d v : size v = size (dd_v d) -> few (size v) -> goods v -> bpow radix2 1025 <= total v ->
  d_set_all d v = Abort.
Proof.
move=> hs hn hg ht; rewrite /d_set_all hs eqxx [guard _]/= [obind (Ok _) _]/= /d_normalize.
rewrite (fold_over good0 hg (big_sum hg hn ht) : d_sum v = pinf).
have -> : dlt d0 pinf by [].
rewrite (@mapO_ok _ _ _ (fun x => ddiv x pinf)); last by move=> x hx; apply: prob_ok; have [] := div_inf (hg x hx).
set ps := [seq ddiv x pinf | x <- v].
have gp : goods ps by move=> y /List.in_map_iff [x [<- /hg hx]]; have [] := div_inf hx.
have tp : total ps = 0.
  rewrite /ps /total; elim: (v) hg => [|x w IH] //= /goods_cons [hx /IH ->]; have [_ ->] := div_inf hx; lra.
by cbv beta iota zeta delta [obind fst snd]; rewrite (cum_zero gp tp).
Qed.
Local Opaque dadd ddiv dlt dle.

Lemma In_nseq (A : Type) n (x y : A) : List.In x (nseq n y) -> x = y.
Proof. by elim: n => //= n IH [->|]. Qed.
(** The constructor: the uniform table. *)
Theorem C79_new n : (0 < n)%N -> few n -> exists d, [/\ d_new n = Ok d, dd_v d = nseq n (ddiv d1 (dnat n)),
  good (ddiv d1 (dnat n)) /\ Rabs (v2R (ddiv d1 (dnat n)) - / INR n) <= / INR n * ((INR n + 2) * / IZR (2 ^ 53)) + bpow radix2 (-1074),
  follows n (fun k => INR k / INR n) (dd_c d) & nth d0 (dd_c d) n = d1].
Proof.
move=> n0 hn; have [hne h1] := uniform_near n0 hn.
have hN : 1 <= INR n by have := le_INR 1 n (elimT leP n0).
have hm : mapO d_prob (nseq n (ddiv d1 (dnat n))) = Ok (nseq n (ddiv d1 (dnat n))).
  rewrite (@mapO_ok _ _ _ id) ?map_id // => x hx; apply: prob_ok.
  by rewrite (In_nseq hx); case: hne.
have hr : rsum (nseq n (/ INR n)) = 1 by rewrite rsum_nseq Rinv_r //; lra.
have [hc hfol hl] := cum_ok n0 hn (F2_nseq n hne) (size_nseq _ _) hr; clear hr.
set c := set_nth d0 _ _ _ in hc hfol hl.
exists (DDisc (nseq n (ddiv d1 (dnat n))) c); split; last exact: hl.
- by rewrite /d_new hm [obind (Ok _) _]/= hc.
- by [].
- by clear hc hl hm; split; [case: hne|exact: near_abs].
- clear hc hl hm; case: hfol => e1 e2 e3 e4; split=> // k hk; have := e3 k hk.
  suff -> : take k (nseq n (/ INR n)) = nseq k (/ INR n) by rewrite rsum_nseq.
  by move: (/ INR n) => r; elim: k (n) hk => [|k IH] [|m] //= hk; rewrite IH.
Qed.

(** Sampling a table: the state lies where the exact cumulative sums put the draw. *)
Theorem C80_sample d n ex u : size (dd_v d) = n -> follows n ex (dd_c d) -> nth d0 (dd_c d) n = d1 ->
  is_finite u = true -> 0 < v2R u <= 1 ->
  exists s, [/\ d_sample d u = Ok (Some s), (s < n)%N, ex s - tol n < v2R u & v2R u <= ex s.+1 + tol n].
Proof.
move=> hs [e1 e2 e3 e4] hl fu [u0 u1].
have hle : v2R u <= v2R (nth d0 (dd_c d) n) by rewrite hl v2R1.
have fc k : (k < size (dd_c d))%N -> is_finite (nth d0 (dd_c d) k) = true.
  by rewrite e1 ltnS => /e3 [[]].
have hn : (n < size (dd_c d))%N by rewrite e1.
have [i [h1 h2 h3 h4]] := scan_ok fu fc hn hle (eq_leq e1 : (0 + size (dd_c d) <= n.+1)%N).
rewrite /d_sample hs h2; clear h2 hl; case: i h1 h3 h4 => [|s] h1 h3 h4; first by rewrite e2 in h3; lra.
exists s; split=> //.
  by have [_ /Rabs_le_inv] := e3 s (ltnW h1); have := h4 s (ltnSn s); lra.
by have [_ /Rabs_le_inv] := e3 s.+1 h1; lra.
Qed.
(** The draw 0 gives state -1. *)
Theorem C80_zero d n ex u : size (dd_v d) = n -> follows n ex (dd_c d) -> is_finite u = true -> v2R u = 0 ->
  d_sample d u = Ok None.
Proof.
move=> hs [e1 e2 e3 e4] fu u0; rewrite /d_sample; case: (dd_c d) e1 e2 e3 => [//|x c] e1 e2 e3 /=.
have [[fx _] _] := e3 0%N (leq0n _).
by case: dltP => //=; rewrite /= in e2; lra.
Qed.

(** A state drawn below [1 - tol n] has a positive probability. *)
Theorem C80_support d v d' u s : size v = size (dd_v d) -> few (size v) -> goods v -> 0 < total v <= bpow radix2 1022 ->
  d_set_all d v = Ok (true, d') -> is_finite u = true -> 0 < v2R u <= 1 - tol (size v) ->
  d_sample d' u = Ok (Some s) -> 0 < v2R (nth d0 v s).
Proof.
move=> hs hn hg ht; have [hF hN] := norm_ok hn hg ht; have [h0 h1] := ht.
set ps := [seq ddiv x (d_sum v) | x <- v] in hF hN; have hsz : size ps = size v by rewrite size_map.
have n0 : (0 < size v)%N by case: (v) h0 => //; rewrite /total /=; lra.
have hr : rsum [seq v2R x / total v | x <- v] = 1 by rewrite total_map /Rdiv Rinv_r //; lra.
have ent := entry hn hF hsz (Req_le _ _ hr).
have [gn en] := ent _ (leqnn (size v)).
rewrite rsum_share /share take_size /Rdiv Rinv_r in en; last lra.
move/Rabs_le_inv: en => en.
have [hc hfol hl] := cum_ok n0 hn hF hsz hr; clear hr.
set c := set_nth d0 _ _ _ in hc hfol hl.
have -> : d_set_all d v = Ok (true, DDisc ps c) by rewrite /d_set_all hs eqxx [guard _]/= [obind (Ok _) _]/= hN /= hc.
case: hfol => e1 e2 e3 e4; clear hc hN.
case=> <- fu [u0 u1]; have hle : v2R u <= v2R (nth d0 c (size v)) by have := tol_small hn; rewrite hl v2R1; lra.
have fc k : (k < size c)%N -> is_finite (nth d0 c k) = true by rewrite e1 ltnS => /e3 [[]].
have hlt : (size v < size c)%N by rewrite e1.
have [i [k1 k2 k3 k4]] := scan_ok fu fc hlt hle (eq_leq e1 : (0 + size c <= (size v).+1)%N).
rewrite /d_sample [dd_v _]/= hsz [dd_c _]/= k2 /= add0n; clear k2; case: i k1 k3 k4 => [//|i] k1 k3 k4 [es]; subst i.
set t := d_prefix d0 ps in gn en.
have ts : nth d0 c s = nth d0 t s by rewrite /c nth_set_nth /= ltn_eqF.
have h3 : v2R (nth d0 t s) < v2R (nth d0 t s.+1).
  have := k4 s (ltnSn s); rewrite ts => h; apply: Rlt_le_trans h _.
  move: k3; rewrite /c nth_set_nth /=; case: eqP => [->|//] _; lra.
have gs : good (nth d0 v s) by exact: goods_nth.
case: (Rle_lt_or_eq_dec 0 (v2R (nth d0 v s))) => // [|hz]; first by case: gs.
have fs := sum_fin hg hn h1; have sp := sum_pos hg fs h0.
exfalso; move: h3; rewrite /t !nth_prefix ?hsz ?(ltnW k1) // (take_nth d0) ?hsz // -cats1 foldl_cat /=.
set ps' := foldl dadd d0 (take s ps) => h3.
have [g1 _] := ent s (ltnW k1); have [g2 _] := ent s.+1 k1; move: g1 g2.
rewrite !nth_prefix ?hsz ?(ltnW k1) // (take_nth d0) ?hsz // -cats1 foldl_cat /= -/ps' => g1 [g2 _].
have gp : good (nth d0 ps s) by have [_ gg _] := near_sum hF; apply: goods_nth => //; rewrite hsz.
move: h3; rewrite (add0 g1 gp g2); first lra.
by rewrite /ps (nth_map d0) //; apply: div0 => //; lra.
Qed.

(** ** Particle sets: the last entry is not set to 1 *)
Lemma near_div1 n r p : near n r p -> near n r (ddiv p d1).
Proof. by case=> h1 h2 h3; have [g e] := div1 h2; split=> //; rewrite e. Qed.
Lemma F2_mapr (A B C : Type) (P : A -> B -> Prop) (Q : A -> C -> Prop) (f : B -> C) l1 l2 :
  (forall x y, P x y -> Q x (f y)) -> List.Forall2 P l1 l2 -> List.Forall2 Q l1 [seq f y | y <- l2].
Proof. by move=> h; elim=> [|x y l1' l2' hP _ IH] /=; constructor=> //; exact: h. Qed.
Lemma mcum_ok n rs ps : few n -> List.Forall2 (near n) rs ps -> size ps = n -> rsum rs <= 1 ->
  follows n (fun k => rsum (take k rs)) (m_cum ps d1).
Proof.
move=> hn hF hs hr; have hF' := F2_mapr (fun r p => @near_div1 n r p) hF.
have hs' : size [seq ddiv x d1 | x <- ps] = n by rewrite size_map.
split; first by rewrite /m_cum size_prefix hs'.
- by rewrite /m_cum nth_prefix // take0; exact: v2R0.
- exact: (entry hn hF' hs' hr).
- by move=> k hk; apply: (entry_mono hn hF' hs' hr); exact: ltnW.
Qed.
Theorem C81_update d w : size w = size (dm_w d) -> few (size w) -> goods w -> 0 < total w <= bpow radix2 1022 ->
  exists d', [/\ m_update d w = Ok (true, d'), size (dm_w d') = size w & follows (size w) (share w) (dm_c d')].
Proof.
move=> hs hn hg [h0 h1]; have f := sum_fin hg hn h1; have sp := sum_pos hg f h0.
have hF : List.Forall2 (near (size w)) [seq v2R x / total w | x <- w] [seq ddiv x (d_sum w) | x <- w].
  by apply: F2_map => x hx; have [] := div_near hg hn f h0 hx.
have hr : rsum [seq v2R x / total w | x <- w] <= 1 by rewrite total_map /Rdiv Rinv_r; lra.
have hsz : size [seq ddiv x (d_sum w) | x <- w] = size w by rewrite size_map.
have hfol := mcum_ok hn hF hsz hr.
have n0 : size w != 0%N by case: (w) h0 => //; rewrite /total /=; lra.
exists (DMC [seq ddiv x (d_sum w) | x <- w] (m_cum [seq ddiv x (d_sum w) | x <- w] d1)); split; [|exact: hsz|].
  rewrite /m_update n0 hs eqxx [guard _]/= [obind (Ok _) _]/= /m_normalize.
  have -> : dlt d0 (d_sum w) by apply/dltP.
  rewrite (@mapO_ok _ _ _ (fun x => ddiv x (d_sum w))) // => x hx.
  by apply: weight_ok; have [[]] := div_near hg hn f h0 hx.
by case: hfol => e1 e2 e3 e4; split=> // k hk; rewrite -rsum_share; exact: e3.
Qed.
Theorem C81_set n : (0 < n)%N -> few n -> exists d, [/\ m_set n = Ok (true, d), size (dm_w d) = n &
  follows n (fun k => INR k / INR n) (dm_c d)].
Proof.
move=> n0 hn; have [hne h1] := uniform_near n0 hn.
have hN : 1 <= INR n by have := le_INR 1 n (elimT leP n0).
have hr : rsum (nseq n (/ INR n)) <= 1 by rewrite rsum_nseq Rinv_r; lra.
have [e1 e2 e3 e4] := mcum_ok hn (F2_nseq n hne) (size_nseq _ _) hr.
exists (DMC (nseq n (ddiv d1 (dnat n))) (m_cum (nseq n (ddiv d1 (dnat n))) d1)); split; last split=> //.
- rewrite /m_set (@mapO_ok _ _ _ id) ?map_id // => x hx.
  by apply: weight_ok; rewrite (In_nseq hx); case: hne.
- exact: size_nseq.
- move=> k hk; have := e3 k hk.
  suff -> : take k (nseq n (/ INR n)) = nseq k (/ INR n) by rewrite rsum_nseq.
  by move: (/ INR n) => r; elim: k (n) hk => [|k IH] [|m] //= hk; rewrite IH.
Qed.
(** A draw below [1 - tol n] stays inside the table. *)
Theorem C81_sample d n ex u : size (dm_w d) = n -> follows n ex (dm_c d) -> ex n = 1 -> is_finite u = true ->
  0 < v2R u <= 1 - tol n ->
  exists s, [/\ m_sample d u = Ok s, (s < n)%N, ex s - tol n < v2R u & v2R u <= ex s.+1 + tol n].
Proof.
move=> hs [e1 e2 e3 e4] hl fu [u0 u1].
have hle : v2R u <= v2R (nth d0 (dm_c d) n) by have [_ /Rabs_le_inv] := e3 n (leqnn n); rewrite hl; lra.
clear hl; have fc k : (k < size (dm_c d))%N -> is_finite (nth d0 (dm_c d) k) = true by rewrite e1 ltnS => /e3 [[]].
have hn : (n < size (dm_c d))%N by rewrite e1.
have [i [h1 h2 h3 h4]] := scan_ok fu fc hn hle (eq_leq e1 : (0 + size (dm_c d) <= n.+1)%N).
rewrite /m_sample hs h2; clear h2; case: i h1 h3 h4 => [|s] h1 h3 h4; first by rewrite e2 in h3; lra.
exists s; split=> //.
  by have [_ /Rabs_le_inv] := e3 s (ltnW h1); have := h4 s (ltnSn s); lra.
by have [_ /Rabs_le_inv] := e3 s.+1 h1; lra.
Qed.
(** Fewer than 2^20 particles and a draw of the 32-bit generator. *)
Corollary C81_draw d w u : size w = size (dm_w d) -> (Z.of_nat (size w) < 2 ^ 20)%Z -> goods w ->
  0 < total w <= bpow radix2 1022 -> is_finite u = true -> 0 < v2R u <= 1 - / IZR (2 ^ 32) ->
  exists d' s, [/\ m_update d w = Ok (true, d'), m_sample d' u = Ok s & (s < size w)%N].
Proof.
move=> hs hn hg ht fu hu; have hn' : few (size w) by rewrite /few; lia.
have [d' [h1 h2 h3]] := C81_update hs hn' hg ht.
have hN : INR (size w) <= 1048575 by rewrite INR_IZR_INZ; apply: IZR_le; lia.
have hu' : 0 < v2R u <= 1 - tol (size w) by rewrite /tol; lra.
have he : share w (size w) = 1 by rewrite /share take_size /Rdiv Rinv_r //; lra.
have [s [h4 h5 _ _]] := C81_sample h2 h3 he fu hu'; by exists d', s.
Qed.

(** ** ProbabilitySet *)
Lemma nth_In (A : Type) (d : A) (l : seq A) k : (k < size l)%N -> List.In (nth d l k) l.
Proof. by elim: l k => [|x l IH] [|k] //= hk; [left|right; exact: IH]. Qed.
Lemma In_nth_ex (A : Type) (d : A) (l : seq A) x : List.In x l -> exists2 k, (k < size l)%N & nth d l k = x.
Proof. by elim: l => //= y l IH [->|/IH [k hk e]]; [exists 0%N|exists k.+1]. Qed.
(** a vector that sums to 1 up to [2^-31] passes the check of the table *)
Lemma near_one_cum n qs : few n -> size qs = n -> goods qs -> Rabs (total qs - 1) <= / 2147483648 + 20 * uu ->
  exists c, d_cum qs = Ok c.
Proof.
move=> hF qsz gq /Rabs_le_inv hT; have [_ hun] := fewP hF; have hu : 0 < uu < / 9007199254740991 by rewrite uu_val /=; lra.
have fs : is_finite (d_sum qs) = true.
  apply: sum_fin; [exact: gq|by rewrite qsz|].
  by apply: Rle_trans (_ : bpow radix2 2 <= _); [rewrite -[bpow _ _]/4; lra|apply: bpow_le; lia].
have [_ _ [s1 s2]] := fold_err good0 gq fs; rewrite -/(d_sum qs) v2R0 Rplus_0_l qsz in s1 s2.
have p1 := pow_lo n; have p2 := pow_hi (n := n).
have hw : / (1 - INR n * uu) <= 1 + / 2147483648 + / 1000000000000.
  apply: (Rmult_le_reg_r (1 - INR n * uu)); first lra.
  by rewrite Rinv_l; nra.
have [lf lv] := low_limit; have [hf' hv] := high_limit.
have T0 : 0 <= total qs by exact: total_ge0.
have t1 : total qs * (1 - / 2147483648) <= v2R (d_sum qs).
  apply: Rle_trans s1; apply: Rmult_le_compat_l; [exact: T0|lra].
have t2 : v2R (d_sum qs) <= total qs * (1 + / 2147483648 + / 1000000000000).
  apply: Rle_trans s2 _; apply: Rmult_le_compat_l; [exact: T0|have := p2; lra].
rewrite /d_cum last_prefix -/(d_sum qs).
have -> : dle (dsub d1 dprec) (d_sum qs) by apply/dleP; [exact: lf|exact: fs|lra].
have -> : dle (d_sum qs) (dadd d1 dprec) by apply/dleP; [exact: fs|exact: hf'|lra].
clear fs lf hf'; rewrite [guard _]/= [obind (Ok _) _]/=; eexists; apply: (put_set_nth d0).
by rewrite size_prefix.
Qed.
Section Set1.
Variables (ps : seq double) (i : nat) (a : double) (dl : R).
Let n := size ps.
Let old := v2R (nth d0 ps i).
Hypotheses (hi : (i < size ps)%N) (hg : goods ps) (hF : few n) (ht : Rabs (total ps - 1) <= dl).
Hypotheses (ga : good a) (a1 : v2R a <= 1) (gap : dl + / IZR (2 ^ 53) <= / IZR (2 ^ 31) * (1 - old)).
Let A := 1 - v2R a.
Let O := 1 - old.
Let G := A / O.
Let f := ddiv (dsub d1 a) (dsub d1 (nth d0 ps i)).
Let hu : 0 < uu < / 9007199254740991. Proof. by rewrite uu_val /=; lra. Qed.
Let hn0 : 0 <= INR n. Proof. exact: pos_INR. Qed.
Let old0 : 0 <= old. Proof. by have [] := goods_nth hg hi. Qed.
Let dl0 : 0 <= dl. Proof. exact: Rle_trans (Rabs_pos _) ht. Qed.
Let gap' : dl + uu <= / 2147483648 * O. Proof. by rewrite uu_val. Qed.
Let hO : 0 < O <= 1. Proof. by move: gap'; rewrite /O; have := old0; have := hu; have := dl0; lra. Qed.
Let hA : 0 <= A <= 1. Proof. by rewrite /A; case: ga; lra. Qed.
Let hGO : G * O = A. Proof. by rewrite /G /Rdiv Rmult_assoc Rinv_l ?Rmult_1_r //; lra. Qed.
Let hG0 : 0 <= G. Proof. by rewrite /G; apply: Rmult_le_pos; [lra|apply/Rlt_le/Rinv_0_lt_compat; lra]. Qed.
Let hGn : dl * G + uu * G <= / 2147483648.
Proof. by have := hGO; have := Rmult_le_compat_r G _ _ hG0 gap'; have := hA; move: (uu) (G * O) => u' g; nra. Qed.
Let dlG : 0 <= dl * G. Proof. exact: Rmult_le_pos. Qed.
Let hG : G <= 4194304.
Proof. by have := dlG; have := hGn; rewrite uu_val /=; lra. Qed.
Let b1000 : 16777216 <= bpow radix2 1000.
Proof. by apply: Rle_trans (_ : bpow radix2 24 <= _); [rewrite -IZR_Zpower //=; lra|exact: bpow_le]. Qed.
Lemma factor : good f /\ G * (1 - 5 * uu) - ee <= v2R f <= G * (1 + 5 * uu) + ee.
Proof.
have go : good (nth d0 ps i) by exact: goods_nth.
have o1 : v2R (nth d0 ps i) <= 1 by have := hO; rewrite /O /old; lra.
have [gD] := sub1 ga a1; have [gV] := sub1 go o1; rewrite -/A -/old -/O.
set D := v2R (dsub d1 a); set V := v2R (dsub d1 (nth d0 ps i)) => -[v1 v2] [x1 x2].
have V0 : 0 < V by have := Rmult_lt_0_compat O (1 - uu); lra.
have qV : D / V * V = D by rewrite /Rdiv Rmult_assoc Rinv_l ?Rmult_1_r //; lra.
have q2 : D / V <= G * (1 + 3 * uu).
  apply: (Rmult_le_reg_r V) => //; rewrite qV.
  apply: Rle_trans (_ : G * (1 + 3 * uu) * (O * (1 - uu)) <= _); last by apply: Rmult_le_compat_l => //; apply: Rmult_le_pos; lra.
  have -> : G * (1 + 3 * uu) * (O * (1 - uu)) = A * ((1 + 3 * uu) * (1 - uu)) by rewrite -hGO; ring.
  by apply: Rle_trans x2 _; apply: Rmult_le_compat_l; [lra|nra].
have q1 : G * (1 - 3 * uu) <= D / V.
  apply: (Rmult_le_reg_r V) => //; rewrite qV.
  apply: Rle_trans (_ : G * (1 - 3 * uu) * (O * (1 + uu)) <= _); first by apply: Rmult_le_compat_l => //; apply: Rmult_le_pos; lra.
  have -> : G * (1 - 3 * uu) * (O * (1 + uu)) = A * ((1 - 3 * uu) * (1 + uu)) by rewrite -hGO; ring.
  by apply: Rle_trans x1; apply: Rmult_le_compat_l; [lra|nra].
have q3 : D / V <= bpow radix2 1000.
  apply: Rle_trans q2 _; apply: Rle_trans b1000.
  have := Rmult_le_pos _ _ hG0 (Rlt_le _ _ (proj1 hu)); have := Rmult_le_compat_l G uu 1 hG0; lra.
have [gf [f1 f2]] := div_gen gD gV V0 q3; rewrite -/D -/V -/f in gf f1 f2; split=> //; split.
  apply: Rle_trans f1; apply: Rplus_le_compat_r; apply: Rle_trans (_ : G * (1 - 3 * uu) * (1 - uu) <= _).
    rewrite Rmult_assoc; apply: Rmult_le_compat_l => //; nra.
  by apply: Rmult_le_compat_r => //; lra.
apply: Rle_trans f2 _; apply: Rplus_le_compat_r; apply: Rle_trans (_ : G * (1 + 3 * uu) * (1 + uu) <= _).
  by apply: Rmult_le_compat_r => //; lra.
rewrite Rmult_assoc; apply: Rmult_le_compat_l => //; nra.
Qed.

Let q x := dmul x f.
Let P := total ps - old.
Let small : 0 < ee <= / 1267650600228229401496703205376. Proof. by split; [exact: ee_gt0|exact: ee_small]. Qed.
Let hun : 0 <= INR n * uu <= / 2147483648. Proof. by have [] := fewP hF. Qed.
Let hen : 0 <= INR n * ee <= uu.
Proof.
have [h _] := fewP hF; split; first by apply: Rmult_le_pos; lra.
apply: Rle_trans (_ : 4194304 * / 1267650600228229401496703205376 <= _); last by rewrite uu_val /=; lra.
by apply: Rmult_le_compat; lra.
Qed.
Let hF2 : v2R f <= 4194305.
Proof. by have [_ [_ h]] := factor; have := Rmult_le_compat_l G uu (/ 9007199254740991) hG0; lra. Qed.
Let ht' : - dl <= total ps - 1 <= dl. Proof. exact: Rabs_le_inv ht. Qed.
Let dl1 : dl <= / 2147483648. Proof. by have := gap'; have := hO; have := hu; lra. Qed.
Let le2 x : List.In x ps -> 0 <= v2R x <= 2.
Proof.
move=> hx; have [_ h0] := hg hx; split=> //.
have [k hk <-] := In_nth_ex d0 hx; have := total_nth hg hk; have := ht'; have := dl1; lra.
Qed.
Lemma scaled x : List.In x ps -> good (q x) /\ v2R x * (v2R f * (1 - uu)) - ee <= v2R (q x) <= v2R x * (v2R f * (1 + uu)) + ee.
Proof.
move=> hx; have [gf _] := factor; have h2 := le2 hx.
have := mul_gen (hg hx) gf; rewrite -!Rmult_assoc; apply.
apply: Rle_trans b1000; case: gf => _ f0.
apply: Rle_trans (_ : 2 * 4194305 <= _); last lra.
by apply: Rmult_le_compat; lra.
Qed.
(** each entry is the old one times [(1 - a) / (1 - old)] *)
Lemma scaled_err x : List.In x ps -> Rabs (v2R (q x) - v2R x * G) <= v2R x * G * (8 * uu) + bpow radix2 (-1072).
Proof.
move=> hx; have [_ [h1 h2]] := scaled hx; have [[_ f0] [f1 f2]] := factor; have [x0 x2] := le2 hx.
have -> : bpow radix2 (-1072) = 8 * ee.
  by rewrite /ee -Rmult_assoc (_ : 8 * / 2 = 4); [rewrite -[4]/(bpow radix2 2) -bpow_plus|lra].
move: (v2R x) (v2R (q x)) (v2R f) h1 h2 f0 f1 f2 x0 x2 => X Q F h1 h2 f0 f1 f2 x0 x2.
have hXG : 0 <= X * G by apply: Rmult_le_pos.
apply: Rabs_le; split.
  have m : G * (1 - 8 * uu) - ee <= F * (1 - uu).
    apply: Rle_trans (_ : (G * (1 - 5 * uu) - ee) * (1 - uu) <= _); last by apply: Rmult_le_compat_r; lra.
    have : G * (1 - 8 * uu) <= G * ((1 - 5 * uu) * (1 - uu)) by apply: Rmult_le_compat_l => //; nra.
    by have := Rmult_le_pos ee uu; lra.
  have := Rmult_le_compat_l _ _ _ x0 m; have := Rmult_le_compat_r ee _ _ (Rlt_le _ _ (proj1 small)) x2; lra.
have m : F * (1 + uu) <= G * (1 + 8 * uu) + 2 * ee.
  apply: Rle_trans (_ : (G * (1 + 5 * uu) + ee) * (1 + uu) <= _); first by apply: Rmult_le_compat_r; lra.
  have : G * ((1 + 5 * uu) * (1 + uu)) <= G * (1 + 8 * uu) by apply: Rmult_le_compat_l => //; nra.
  by have := Rmult_le_compat_l ee uu 1; lra.
have := Rmult_le_compat_l _ _ _ x0 m; have := Rmult_le_compat_r ee _ _ (Rlt_le _ _ (proj1 small)) x2; lra.
Qed.
Let qs := set_nth d0 [seq q x | x <- ps] i a.
Lemma qs_good : goods qs.
Proof.
move=> x /(In_nth_ex d0) [k]; rewrite /qs size_set_nth size_map (maxn_idPr hi) => hk <-.
rewrite nth_set_nth /=; case: eqP => [//|_]; rewrite (nth_map d0) //.
by have [] := scaled (nth_In d0 hk).
Qed.
(** the exact sum of the new entries *)
Lemma qs_total : Rabs (total qs - 1) <= dl * G + 20 * uu.
Proof.
have [T1 T2] := upd_sum a hi (fun x hx => (proj2 (scaled hx))).
rewrite -/qs -/old -/P -/n in T1 T2; have [[_ f0] [f1 f2]] := factor.
have P0 : 0 <= P by rewrite /P; have := total_nth hg hi; rewrite -/old; lra.
have P2 : P <= 2 by rewrite /P; have := ht'; have := dl1; have := old0; lra.
have PG : A - dl * G <= P * G <= A + dl * G.
  have hP : O - dl <= P <= O + dl by rewrite /P /O; have := ht'; lra.
  by have := Rmult_le_compat_r G _ _ hG0 (proj1 hP); have := Rmult_le_compat_r G _ _ hG0 (proj2 hP); have := hGO; lra.
have PG0 : 0 <= P * G by exact: Rmult_le_pos.
have U2 : P * (v2R f * (1 + uu)) <= P * G + P * G * (7 * uu) + 4 * ee.
  have m : v2R f * (1 + uu) <= G * (1 + 7 * uu) + 2 * ee.
    apply: Rle_trans (_ : (G * (1 + 5 * uu) + ee) * (1 + uu) <= _); first by apply: Rmult_le_compat_r; lra.
    have : G * ((1 + 5 * uu) * (1 + uu)) <= G * (1 + 7 * uu) by apply: Rmult_le_compat_l => //; nra.
    by have := Rmult_le_compat_l ee uu 1; lra.
  have := Rmult_le_compat_l _ _ _ P0 m; have := Rmult_le_compat_r ee _ _ (Rlt_le _ _ (proj1 small)) P2; lra.
have U1 : P * G - P * G * (7 * uu) - 4 * ee <= P * (v2R f * (1 - uu)).
  have m : G * (1 - 7 * uu) - 2 * ee <= v2R f * (1 - uu).
    apply: Rle_trans (_ : (G * (1 - 5 * uu) - ee) * (1 - uu) <= _); last by apply: Rmult_le_compat_r; lra.
    have : G * (1 - 7 * uu) <= G * ((1 - 5 * uu) * (1 - uu)) by apply: Rmult_le_compat_l => //; nra.
    by have := Rmult_le_pos ee uu; lra.
  have := Rmult_le_compat_l _ _ _ P0 m; have := Rmult_le_compat_r ee _ _ (Rlt_le _ _ (proj1 small)) P2; lra.
have e4 : 4 * ee <= uu by rewrite uu_val /=; lra.
have hgn := hGn; have uG : 0 <= uu * G by apply: Rmult_le_pos; lra.
have PGu : P * G * (7 * uu) <= 2 * (7 * uu) by apply: Rmult_le_compat_r; lra.
by apply: Rabs_le; rewrite /A in PG *; lra.
Qed.
Let qsz : size qs = n. Proof. by rewrite /qs size_set_nth size_map (maxn_idPr hi). Qed.
Lemma qs_cum : exists c, d_cum qs = Ok c.
Proof.
have uG : 0 <= uu * G by apply: Rmult_le_pos; lra.
by apply: (near_one_cum hF qsz qs_good); have := qs_total; have := hGn; lra.
Qed.
Lemma set_runs c : exists d', [/\ d_set (DDisc ps c) i a = Ok (true, d') & dd_v d' = qs].
Proof.
suff h c' : d_cum qs = Ok c' -> d_set (DDisc ps c) i a = Ok (true, DDisc qs c').
  by have [c' hc] := qs_cum; exists (DDisc qs c'); split; [exact: h|exact: erefl].
have hin := nth_In d0 hi; have go := hg hin.
rewrite /d_set [dd_v _]/= hi [guard _]/= [obind (Ok _) _]/=.
have -> : dle a d1 by have [fa _] := ga; have [f1 _] := good1; apply/dleP => //; rewrite v2R1.
rewrite [guard _]/= [obind (Ok _) _]/=.
rewrite (at_nth d0 hi).
rewrite [obind (Ok _) _]/=.
have -> : deq (nth d0 ps i) d1 = false.
  have [fo _] := go; have [f1 _] := good1; rewrite /deq Beqb_correct // -/(v2R d1) v2R1.
  by rewrite -/(v2R (nth d0 ps i)); apply: Req_bool_false => e; have := hO; rewrite /O /old e; lra.
have hm : mapO (fun x => d_prob (dmul x f)) ps = Ok [seq q x | x <- ps].
  by apply: mapO_ok => x hx; apply: prob_ok; have [] := scaled hx.
rewrite [~~ false]/=; cbv iota zeta; rewrite -/f hm [obind (Ok _) _]/=; clear hm.
have hi' : (i < size [seq q x | x <- ps])%N by rewrite size_map.
rewrite (put_set_nth d0 _ hi') -/qs [obind (Ok _) _]/= => ->; exact: erefl.
Qed.
End Set1.

(** ProbabilitySet: entry [i] becomes [a], the others are scaled by
    [(1 - a) / (1 - old)], provided the sum was close enough to 1 for the factor. *)
Theorem C82_set d i a dl : let n := size (dd_v d) in let old := v2R (nth d0 (dd_v d) i) in
  (i < n)%N -> few n -> goods (dd_v d) -> Rabs (total (dd_v d) - 1) <= dl -> good a -> v2R a <= 1 ->
  dl + / IZR (2 ^ 53) <= / IZR (2 ^ 31) * (1 - old) ->
  exists d', [/\ d_set d i a = Ok (true, d'), size (dd_v d') = n, nth d0 (dd_v d') i = a /\ goods (dd_v d'),
    forall j, (j < n)%N -> j <> i -> let ex := v2R (nth d0 (dd_v d) j) * ((1 - v2R a) / (1 - old)) in
      Rabs (v2R (nth d0 (dd_v d') j) - ex) <= ex * (8 * / IZR (2 ^ 53)) + bpow radix2 (-1072) &
    Rabs (total (dd_v d') - 1) <= dl * ((1 - v2R a) / (1 - old)) + 20 * / IZR (2 ^ 53)].
Proof.
case: d => ps c; rewrite [dd_v _]/=.
move=> n old hi hF hg ht ga a1 gap; have [d' [e1 e2]] := set_runs hi hg hF ht ga a1 gap c.
exists d'; rewrite e2; split.
- exact: e1.
- by clear e1; rewrite size_set_nth size_map (maxn_idPr hi).
- clear e1; split; [by rewrite nth_set_nth /= eqxx|apply: qs_good; eassumption].
- clear e1 e2 => j hj ji; rewrite nth_set_nth /=; case: eqP => // _; rewrite (nth_map d0) // -uu_val.
  by apply: (scaled_err hi hg hF ht ga a1 gap); exact: nth_In.
- clear e1; rewrite -uu_val; apply: qs_total; eassumption.
Qed.
(** After ProbabilitiesSet: enough that [1 - old >= (n + 3) / 2^22]. *)
Corollary C82_after_set d v d1' i a : let n := size v in
  size v = size (dd_v d) -> few n -> goods v -> 0 < total v <= bpow radix2 1022 -> d_set_all d v = Ok (true, d1') ->
  (i < n)%N -> good a -> v2R a <= 1 -> INR n + 3 <= IZR (2 ^ 22) * (1 - v2R (nth d0 (dd_v d1') i)) ->
  exists d', d_set d1' i a = Ok (true, d') /\ nth d0 (dd_v d') i = a.
Proof.
move=> n hs hn hg ht; have [hF hN] := norm_ok hn hg ht; have [h0 h1] := ht.
set ps := [seq ddiv x (d_sum v) | x <- v] in hF hN; have hsz : size ps = n by rewrite size_map.
have n0 : (0 < n)%N by rewrite /n; case: (v) h0 => //; rewrite /total /=; lra.
have hr : rsum [seq v2R x / total v | x <- v] = 1 by rewrite total_map /Rdiv Rinv_r //; lra.
have [hc hfol hl] := cum_ok n0 hn hF hsz hr; clear hl hfol.
have [_ hgp tp] := near_sum hF; rewrite hr hsz in tp; clear hr.
set c := set_nth d0 _ _ _ in hc.
have -> : d_set_all d v = Ok (true, DDisc ps c) by rewrite /d_set_all hs eqxx [guard _]/= [obind (Ok _) _]/= hN /= hc.
clear hc hN => -[<-] hi ga a1 gap; rewrite [dd_v _]/= in gap.
have := @C82_set (DDisc ps c) i a ((INR n + 2) * uu); rewrite [dd_v _]/= hsz; cbv zeta.
have [hn1 hn2] := fewP hn; have e0 := ee_gt0; have e1 := ee_small.
have [l1 l2] := lo_ge hn; have [i1 i2] := hi_le hn; rewrite -/n in hn1 hn2 l1 l2 i1 i2.
have en : 0 <= INR n * ee <= / 2 * uu.
  split; first by apply: Rmult_le_pos; [exact: pos_INR|lra].
  apply: Rle_trans (_ : 4194304 * / IZR (2 ^ 100) <= _); last by rewrite uu_val /=; lra.
  by apply: Rmult_le_compat => //; [exact: pos_INR|lra].
have hT : Rabs (total ps - 1) <= (INR n + 2) * uu by apply: Rabs_le; move: tp; rewrite !Rmult_1_l -/n; have := uu_gt0; lra.
have hgap : (INR n + 2) * uu + / IZR (2 ^ 53) <= / IZR (2 ^ 31) * (1 - v2R (nth d0 ps i)).
  by move: gap; move: (v2R _) => o; rewrite uu_val /=; lra.
by case/(_ hi hn hgp hT ga a1 hgap) => d' [e2 _ [e3 _] _ _]; exists d'; split; [exact: e2|exact: e3].
Qed.
Lemma total_one c n i a : (i < n)%N -> total (set_nth d0 (nseq n c) i a) = v2R a + INR (n - 1) * v2R c.
Proof.
case: n => // n; rewrite ltnS subn1 [n.+1.-1]/=.
have hc m : total (nseq m c) = INR m * v2R c.
  by elim: m => [|m IH]; [rewrite /total /=; lra|rewrite S_INR [nseq _ _]/= total_cons IH; lra].
elim: n i => [|n IH] [|i] // hi; first by rewrite /total /=; lra.
  by rewrite -[set_nth _ _ _ _]/(a :: nseq n.+1 c) total_cons hc.
by rewrite -[set_nth _ _ _ _]/(c :: set_nth d0 (nseq n.+1 c) i a) total_cons IH // S_INR; lra.
Qed.
(** A state of probability exactly 1: the rest is shared equally. *)
Theorem C82_one d i a : let n := size (dd_v d) in (i < n)%N -> (1 < n)%N -> few n ->
  is_finite (nth d0 (dd_v d) i) = true -> v2R (nth d0 (dd_v d) i) = 1 -> good a -> v2R a <= 1 ->
  exists d', [/\ d_set d i a = Ok (true, d'), size (dd_v d') = n, nth d0 (dd_v d') i = a &
    forall j, (j < n)%N -> j <> i -> let ex := (1 - v2R a) / INR (n - 1) in
      good (nth d0 (dd_v d') j) /\ Rabs (v2R (nth d0 (dd_v d') j) - ex) <= ex * (3 * / IZR (2 ^ 53)) + bpow radix2 (-1074)].
Proof.
case: d => ps c0; cbv zeta; rewrite [dd_v _]/=; set n := size ps => hi n1 hF fo o1 ga a1.
have hu : 0 < uu < / 9007199254740991 by rewrite uu_val /=; lra.
have hF' : few (n - 1).
  by apply: Z.le_trans hF; apply: inj_le; apply/leP; exact: leq_subr.
have n1' : (0 < n - 1)%N by rewrite subn_gt0.
have [hn1 hn2] := fewP hF; have [_ hn3] := fewP hF'.
have [fN eN] := dnat_val hF'.
have gN : good (dnat (n - 1)) by split; [exact: fN|rewrite eN; exact: pos_INR].
have hN : 1 <= INR (n - 1) by have := le_INR 1 (n - 1) (elimT leP n1').
have [gD [D1 D2]] := sub1 ga a1; set D := dsub d1 a in gD D1 D2.
have hA : 0 <= 1 - v2R a <= 1 by case: ga => _; lra.
have hAu := Rmult_le_pos _ _ (proj1 hA) (Rlt_le _ _ (proj1 hu)).
have hAu' := Rmult_le_compat_r uu _ _ (Rlt_le _ _ (proj1 hu)) (proj2 hA).
set m := INR (n - 1) in hN eN hn3; have m0 : 0 < / m by apply: Rinv_0_lt_compat; lra.
have m1 : / m <= 1 by rewrite -Rinv_1; apply: Rinv_le_contravar; lra.
set w := / m in m0 m1; have mw : m * w = 1 by rewrite /w Rinv_r //; lra.
have hq : v2R D / v2R (dnat (n - 1)) <= bpow radix2 1000.
  rewrite eN /Rdiv -/m -/w; apply: Rle_trans (_ : 2 * 1 <= _); first by apply: Rmult_le_compat; case: gD; lra.
  by apply: Rle_trans (_ : bpow radix2 1 <= _); [rewrite -[bpow _ _]/2; lra|apply: bpow_le].
have N0 : 0 < v2R (dnat (n - 1)) by rewrite eN -/m; lra.
have [gc [c1 c2]] := div_gen gD gN N0 hq; set c := ddiv D (dnat (n - 1)) in gc c1 c2.
rewrite eN /Rdiv -/m -/w in c1 c2.
set A := 1 - v2R a in hA hAu hAu' D1 D2; set e := A * w.
have he : 0 <= e by apply: Rmult_le_pos; lra.
have c1' : e * (1 - 3 * uu) - ee <= v2R c.
  apply: Rle_trans c1; apply: Rplus_le_compat_r; apply: Rle_trans (_ : A * (1 - uu) * w * (1 - uu) <= _).
    have -> : A * (1 - uu) * w * (1 - uu) = e * ((1 - uu) * (1 - uu)) by rewrite /e; ring.
    by apply: Rmult_le_compat_l => //; nra.
  by apply: Rmult_le_compat_r; [lra|]; apply: Rmult_le_compat_r; [lra|exact: D1].
have c2' : v2R c <= e * (1 + 3 * uu) + ee.
  apply: Rle_trans c2 _; apply: Rplus_le_compat_r; apply: Rle_trans (_ : A * (1 + uu) * w * (1 + uu) <= _).
    by apply: Rmult_le_compat_r; [lra|]; apply: Rmult_le_compat_r; [lra|exact: D2].
  have -> : A * (1 + uu) * w * (1 + uu) = e * ((1 + uu) * (1 + uu)) by rewrite /e; ring.
  by apply: Rmult_le_compat_l => //; nra.
set qs := set_nth d0 (nseq n c) i a.
have qsz : size qs = n by rewrite /qs size_set_nth size_nseq (maxn_idPr hi).
have gq : goods qs.
  move=> x /(In_nth_ex d0) [k]; rewrite qsz => hk <-; rewrite nth_set_nth /=; case: eqP => [//|_].
  by rewrite nth_nseq hk.
have me : m * e = A by rewrite /e -Rmult_assoc (Rmult_comm m) Rmult_assoc mw Rmult_1_r.
have hT : Rabs (total qs - 1) <= 5 * uu.
  rewrite /qs total_one // -/m; apply: Rabs_le.
  have e0 := ee_gt0; have e1 := ee_small.
  have en : 0 <= m * ee <= uu.
    split; first by apply: Rmult_le_pos; lra.
    apply: Rle_trans (_ : 4194304 * / IZR (2 ^ 100) <= _); last by rewrite uu_val /=; lra.
    by have [? _] := fewP hF'; apply: Rmult_le_compat => //; lra.
  have m0' : 0 <= m by lra.
  have := Rmult_le_compat_l m _ _ m0' c1'; have := Rmult_le_compat_l m _ _ m0' c2'.
  have -> : m * (e * (1 + 3 * uu) + ee) = A + 3 * (A * uu) + m * ee by rewrite -me; ring.
  have -> : m * (e * (1 - 3 * uu) - ee) = A - 3 * (A * uu) - m * ee by rewrite -me; ring.
  have -> : v2R a = 1 - A by rewrite /A; lra.
  lra.
have hT' : Rabs (total qs - 1) <= / 2147483648 + 20 * uu by lra.
have hex := near_one_cum hF qsz gq hT'; clear hT hT'.
have er : d_set (DDisc ps c0) i a = let! c' := d_cum qs in Ok (true, DDisc qs c').
  rewrite /d_set [dd_v _]/= hi [guard _]/= [obind (Ok _) _]/=.
  have -> : dle a d1 by have [fa _] := ga; have [f1 _] := good1; apply/dleP; [exact: fa|exact: f1|rewrite v2R1].
  rewrite [guard _]/= [obind (Ok _) _]/= (at_nth d0 hi) [obind (Ok _) _]/=.
  have -> : deq (nth d0 ps i) d1 = true.
    have [f1 _] := good1; rewrite /deq Beqb_correct; [|exact: fo|exact: f1].
    by rewrite -/(v2R d1) v2R1 -/(v2R (nth d0 ps i)); exact: Req_bool_true o1.
  rewrite [~~ true]/=; cbv iota zeta; rewrite -/n -/D -/c (@mapO_ok _ _ _ (fun _ => c)); last by move=> x _; exact: prob_ok.
  rewrite [obind (Ok _) _]/=.
  have hs (l : seq double) : [seq c | _ <- l] = nseq (size l) c by clear; elim: l => //= x l ->.
  rewrite hs -/n.
  have hi' : (i < size (nseq n c))%N by rewrite size_nseq.
  by rewrite (put_set_nth d0 _ hi') -/qs [obind (Ok _) _]/=.
case: hex => c' hc; rewrite hc in er; exists (DDisc qs c'); split; [exact: er|exact: qsz|by clear; rewrite /= nth_set_nth /= eqxx|].
clear er hc o1 fo fN => j hj ji; rewrite [dd_v _]/= /qs nth_set_nth /=; case: eqP => // _; rewrite nth_nseq hj; split=> //.
have -> : (1 - v2R a) / INR (n - 1) = e by [].
have -> : bpow radix2 (-1074) = 2 * ee by rewrite /ee; lra.
by apply: Rabs_le; have := ee_gt0; rewrite -uu_val; lra.
Qed.

(** ** Findings *)
Local Transparent bpow IZR. Local Opaque is_finite d_new d_set_all d_sample d_set.
Definition is_ok_true (A : Type) (o : outcome (bool * A)) : bool := if o is Ok (true, _) then true else false.
(** Weights 1 (seven times) and 0: seven rounded seventh parts add up to 1 - 2^-52;
    the table is closed with 1 after the state of probability 0, and the draw
    1 - 2^-53 returns it. *)
Definition seven : seq double := nseq 7 d1 ++ [:: d0].
Definition near1 : double := dlit (2 ^ 53 - 1) (-53).
Definition drawn : outcome (option nat) :=
  let! d := d_new 8 in let! r := d_set_all d seven in d_sample r.2 near1.
Theorem C80_last_refuted :
  ~ (forall n d v d' u s, d_new n = Ok d -> size v = n -> goods v -> d_set_all d v = Ok (true, d') ->
     is_finite u = true -> 0 < v2R u < 1 -> d_sample d' u = Ok (Some s) -> 0 < v2R (nth d0 v s)).
Proof.
move=> H.
have h : drawn = Ok (Some 7%N) by vm_compute.
have ht : is_ok_true (let! d := d_new 8 in d_set_all d seven) by vm_compute.
move: h ht; rewrite /drawn; case e: (d_new 8) => [d| |]; [|discriminate|discriminate].
cbv beta iota delta [obind].
case e1: (d_set_all d seven) => [[[] d']| |].
2-4: discriminate.
cbv beta iota delta [obind snd] => h _.
have [|fu vu] := @v2R_SF near1 false 9007199254740991 (-53); first by vm_compute.
have gs : goods seven.
  clear; move=> x h; have {}h : x = d1 \/ x = d0 by case: h; intuition.
  by case: h => ->; [exact: good1|exact: good0].
have hu : 0 < v2R near1 < 1 by clear -vu; rewrite vu /F2R /=; lra.
have := H 8%N d seven d' near1 7%N e erefl gs e1 fu hu h.
clear; rewrite -[nth _ _ _]/d0 v2R0; lra.
Qed.

(** The probabilities 1, 1e-9 and 3e-9 are accepted; changing the first to 0.5 then
    stops the program: 1 - old has lost its digits. *)
Definition tiny : seq double := [:: d1; ddiv d1 (dlit 1000000000 0); ddiv (dlit 3 0) (dlit 1000000000 0)].
Definition half : double := dlit 1 (-1).
Theorem C82_set_refuted :
  ~ (forall n d v d' i a, d_new n = Ok d -> size v = n -> goods v -> d_set_all d v = Ok (true, d') ->
     (i < n)%N -> good a -> v2R a <= 1 -> exists r, d_set d' i a = Ok r).
Proof.
move=> H.
have ht : is_ok_true (let! d := d_new 3 in d_set_all d tiny) by vm_compute.
have h : (let! d := d_new 3 in let! r := d_set_all d tiny in d_set r.2 0 half) = Abort by vm_compute.
move: h ht; case e: (d_new 3) => [d| |]; [|discriminate|discriminate].
cbv beta iota delta [obind]; case e1: (d_set_all d tiny) => [[[] d']| |].
2-4: discriminate.
cbv beta iota delta [obind snd] => h _.
have [|f1 v1] := @v2R_SF (nth d0 tiny 1) false 4835703278458517 (-82); first by vm_compute.
have [|f2 v2] := @v2R_SF (nth d0 tiny 2) false 7253554917687775 (-81); first by vm_compute.
have [|f3 v3] := @v2R_SF half false 4503599627370496 (-53); first by vm_compute.
have gs : goods tiny.
  clear h e e1; move=> x h; have {h} [->|[->|->]] : x = d1 \/ x = nth d0 tiny 1 \/ x = nth d0 tiny 2 by case: h; intuition.
  - exact: good1.
  - by split; [exact: f1|rewrite v1; exact: F2R_ge_0].
  - by split; [exact: f2|rewrite v2; exact: F2R_ge_0].
have gh : good half by split; [exact: f3|rewrite v3; exact: F2R_ge_0].
have [|r] := H 3%N d tiny d' 0%N half e erefl gs e1 erefl gh; first by clear -v3; rewrite v3 /F2R /=; lra.
rewrite h; discriminate.
Qed.

(** ** Concrete cases *)
Definition three : seq double := [:: dlit 1 0; dlit 2 0; dlit 5 0].
Lemma three_vals : [/\ goods three, total three = 8 & few (size three)].
Proof.
have [|f1 v1] := @v2R_SF (dlit 1 0) false 4503599627370496 (-52); first by vm_compute.
have [|f2 v2] := @v2R_SF (dlit 2 0) false 4503599627370496 (-51); first by vm_compute.
have [|f3 v3] := @v2R_SF (dlit 5 0) false 5629499534213120 (-50); first by vm_compute.
split; last by rewrite /few /=; lia.
  move=> x h; have {h} [->|[->|->]] : x = dlit 1 0 \/ x = dlit 2 0 \/ x = dlit 5 0 by case: h; intuition.
  - by split; [exact: f1|rewrite v1; exact: F2R_ge_0].
  - by split; [exact: f2|rewrite v2; exact: F2R_ge_0].
  - by split; [exact: f3|rewrite v3; exact: F2R_ge_0].
rewrite /total [rsum _]/= v1 v2 v3; clear; rewrite /F2R /=; lra.
Qed.
Lemma big8 : 8 <= bpow radix2 1022.
Proof. by rewrite -[8]/(bpow radix2 3); apply: bpow_le. Qed.
Definition blank (n : nat) : ddisc := DDisc (nseq n d0) [::].
Local Opaque bpow IZR.
Example C79_example : exists d', [/\ d_set_all (blank 3) three = Ok (true, d'), follows 3 (share three) (dd_c d') &
  Rabs (v2R (nth d0 (dd_v d') 0) - / 8) <= / 8 * (5 * / IZR (2 ^ 53)) + bpow radix2 (-1074)].
Proof.
have [hg ht hF] := three_vals; have b8 := big8.
have hp : 0 < total three <= bpow radix2 1022 by rewrite ht; split; [lra|exact: b8].
have [d' [h1 h2 h3 h4 h5]] := C79_set (erefl : size three = size (dd_v (blank 3))) hF hg hp.
exists d'; split; [exact: h1|exact: h4|].
have [_ _] := h3 0%N isT; rewrite /exact ht.
have [|f1 v1] := @v2R_SF (dlit 1 0) false 4503599627370496 (-52); first by vm_compute.
have -> : v2R (nth d0 three 0) = 1 by rewrite -[nth _ _ _]/d1 v2R1.
have -> : 1 / 8 = / 8 by lra.
by have -> : INR (size three) + 2 = 5 by rewrite /=; lra.
Qed.
Definition outc (o : outcome (bool * ddisc)) : option bool := if o is Ok r then Some r.1 else None.
Definition huge : double := dlit (2 ^ 53 - 1) 971.
Example C79_overflow_example : d_set_all (blank 3) (nseq 3 huge) = Abort.
Proof.
have [|f v] := @v2R_SF huge false 9007199254740991 971; first by vm_compute.
have g : good huge by split; [exact: f|rewrite v; exact: F2R_ge_0].
apply: C79_overflow; [by []|by rewrite /few /=; lia|by move=> x hx; rewrite (In_nseq (hx : List.In x (nseq 3 huge)))|].
clear f; rewrite /total [rsum _]/= v /F2R; cbn [Fnum Fexp cond_Zopp].
rewrite (_ : bpow radix2 1025 = IZR (2 ^ 54) * bpow radix2 971); first by have := bpow_ge_0 radix2 971; move: (bpow _ _) => b; rewrite /=; lra.
by rewrite -[IZR (2 ^ 54)]/(bpow radix2 54) -bpow_plus.
Qed.
(** DiscretePdf(3) set to 1 : 2 : 5; draws 1/16, 1/4, 3/8, 1/2 and 1 *)
Definition draws : seq (option nat) :=
  [seq (if (let! r := d_set_all (blank 3) three in d_sample r.2 u) is Ok s then s else None)
  | u <- [:: dlit 1 (-4); dlit 1 (-2); dlit 3 (-3); dlit 1 (-1); d1]].
Example C80_example : draws = [:: Some 0; Some 1; Some 1; Some 2; Some 2]%N.
Proof. by vm_compute. Qed.
Definition mdraws : seq nat :=
  [seq (if (let! r := m_update (DMC (nseq 3 d0) [::]) three in m_sample r.2 u) is Ok s then s else 9%N)
  | u <- [:: dlit 1 (-4); dlit 1 (-2); dlit 3 (-3); dlit 1 (-1); dlit (2 ^ 32 - 1) (-32)]].
Example C81_example : mdraws = [:: 0; 1; 1; 2; 2]%N.
Proof. by vm_compute. Qed.
Example C81_draw_example : exists d' s,
  [/\ m_update (DMC (nseq 3 d0) [::]) three = Ok (true, d'), m_sample d' (dlit 1 (-1)) = Ok s & (s < 3)%N].
Proof.
have [hg ht hF] := three_vals; have b8 := big8.
have hp : 0 < total three <= bpow radix2 1022 by rewrite ht; split; [lra|exact: b8].
have [|f v] := @v2R_SF (dlit 1 (-1)) false 4503599627370496 (-53); first by vm_compute.
apply: (C81_draw _ _ hg hp f) => //.
have -> : v2R (dlit 1 (-1)) = / 2 by rewrite v; clear; rewrite /F2R; cbn [Fnum Fexp cond_Zopp]; rewrite -[bpow _ _]/(/ IZR (Zpower_pos 2 53)) /=; lra.
by rewrite /=; lra.
Qed.
Example C82_example : exists d' d2, [/\ d_set_all (blank 3) three = Ok (true, d'), d_set d' 0 half = Ok (true, d2) &
  nth d0 (dd_v d2) 0 = half].
Proof.
have [hg ht hF] := three_vals; have b8 := big8.
have hp : 0 < total three <= bpow radix2 1022 by rewrite ht; split; [lra|exact: b8].
have [|f v] := @v2R_SF half false 4503599627370496 (-53); first by vm_compute.
have vh : v2R half = / 2 by rewrite v; clear; rewrite /F2R; cbn [Fnum Fexp cond_Zopp]; rewrite -[bpow _ _]/(/ IZR (Zpower_pos 2 53)) /=; lra.
have gh : good half by split; [exact: f|rewrite v; exact: F2R_ge_0].
have [d' [h1 _ h3]] := C79_example.
have [||d2 [h4 h5]] := C82_after_set (erefl : size three = size (dd_v (blank 3))) hF hg hp h1 (erefl : (0 < size three)%N) gh.
- by rewrite vh; lra.
- have hb : bpow radix2 (-1074) <= / 2 by rewrite -[/ 2]/(bpow radix2 (-1)); apply: bpow_le.
  have := Rabs_le_inv _ _ h3; clear -hb; move: (v2R _) (bpow _ _) hb => p b hb; rewrite /= => h; lra.
by exists d', d2; split; [exact: h1|exact: h4|exact: h5].
Qed.
Example C82_one_example : exists d2, d_set (DDisc [:: d1; d0; d0] [::]) 0 half = Ok (true, d2) /\ nth d0 (dd_v d2) 0 = half.
Proof.
have [|f v] := @v2R_SF half false 4503599627370496 (-53); first by vm_compute.
have vh : v2R half = / 2 by rewrite v; clear; rewrite /F2R; cbn [Fnum Fexp cond_Zopp]; rewrite -[bpow _ _]/(/ IZR (Zpower_pos 2 53)) /=; lra.
have gh : good half by split; [exact: f|rewrite v; exact: F2R_ge_0].
have [f1 _] := good1.
have h3 : few 3 by rewrite /few /=; lia.
have [|d2 [h1 _ h2 _]] := @C82_one (DDisc [:: d1; d0; d0] [::]) 0 half isT isT h3 f1 v2R1 gh; first by rewrite vh; lra.
by exists d2; split; [exact: h1|exact: h2].
Qed.
Print Assumptions C79_set.
Print Assumptions C79_zero.
Print Assumptions C79_overflow.
Print Assumptions C79_new.
Print Assumptions C80_sample.
Print Assumptions C80_zero.
Print Assumptions C80_support.
Print Assumptions C80_last_refuted.
Print Assumptions C81_update.
Print Assumptions C81_set.
Print Assumptions C81_sample.
Print Assumptions C81_draw.
Print Assumptions C82_set.
Print Assumptions C82_after_set.
Print Assumptions C82_one.
Print Assumptions C82_set_refuted.
