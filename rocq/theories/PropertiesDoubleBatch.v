(** * C83: batch (Ripley) sampling in double arithmetic *)
From Coq Require Import ZArith Reals Lra Lia.
From Flocq Require Import Core.Core BinarySingleNaN.
From mathcomp Require Import all_ssreflect.
From Verif Require Import Outcome ModelDouble SpecDouble ProofsDouble PropertiesDouble.
Set Implicit Arguments. Unset Strict Implicit. Unset Printing Implicit Defensive.
Local Open Scope R_scope.
Local Opaque d0 d1 dprec dlit dadd dsub dmul ddiv dle dlt bpow IZR.

Lemma sane_cons root u us : sane root (u :: us) ->
  (forall k, (0 < k)%N -> good (root u k) /\ 0 < v2R (root u k) <= 1) /\ sane root us.
Proof. by move=> h; split=> [k|v k hv]; apply: h; [left|right]. Qed.
Lemma ordered_pos root us i : sane root us -> 0 < head 1 (ordered root us i) <= 1.
Proof.
elim: us i => [|u us IH] i /=; first lra.
by case/sane_cons => /(_ i.+1 isT) [_ h] /(IH i.+1) h2; nra.
Qed.
Lemma ripleyE root u us i : us <> [::] -> d_ripley root (u :: us) i = dmul (root u i.+1) (head d0 (d_ripley root us i.+1)) :: d_ripley root us i.+1.
Proof. by case: us. Qed.
Lemma ripley_size root us i : size (d_ripley root us i) = size us.
Proof. by elim: us i => [|u [|v us] IH] i //; rewrite ripleyE // [LHS]/= IH. Qed.
Lemma ripley_ok root us i : sane root us -> us <> [::] ->
  [/\ goods (d_ripley root us i), rising [seq v2R x | x <- d_ripley root us i],
      forall x, List.In x (d_ripley root us i) -> v2R x <= 1 &
      List.Forall2 (fun x e => Rabs (v2R x - e) <= 2 * INR (size us) * uu) (d_ripley root us i) (ordered root us i)].
Proof.
have hu : 0 < uu < / 9007199254740991 by rewrite uu_val /=; lra.
have he : 0 < ee <= uu.
  by split; [exact: ee_gt0|apply: Rle_trans ee_small _; rewrite uu_val /=; lra].
elim: us i => [|u us IH] i // /sane_cons [/(_ i.+1 isT) [g h] hs] _; have [->|nn] : us = [::] \/ us <> [::] by case: (us); [left|right].
  rewrite /=; split=> //; try by move=> x [<-|].
    by move=> x [<-|//]; lra.
  by constructor=> //; rewrite Rmult_1_r Rminus_eq_0 Rabs_R0; lra.
have [g1 r1 l1 f1] := IH i.+1 hs nn; rewrite ripleyE //.
set xs := d_ripley root us i.+1 in g1 r1 l1 f1 *; have ex : xs <> [::].
  by move=> h0; apply: nn; have := ripley_size root us i.+1; rewrite -/xs h0; case: (us).
case: xs g1 r1 l1 f1 ex => [|x xs] // g1 r1 l1 f1 _; rewrite [head _ _]/=.
have gx : good x by apply: g1; left. have x1 : v2R x <= 1 by apply: l1; left.
have [gm lm em] := mul_le g gx (proj2 h) x1.
split.
- by move=> y [<- //|hy]; exact: g1.
- by split.
- by move=> y [<-|hy]; [lra|exact: l1].
rewrite [size _]/= S_INR; have hn := pos_INR (size us); have hnu := Rmult_le_pos _ _ hn (Rlt_le _ _ (proj1 hu)).
rewrite [ordered _ _ _]/=; case: (ordered root us i.+1) (ordered_pos i.+1 hs) f1 => [|e es] he1 f1; first by inversion f1.
inversion f1 as [|a b c d e1 e2]; subst; rewrite /= in he1; constructor; last first.
  constructor; first by lra.
  by elim: e2 => [|y z ys zs h1 _ h2]; constructor=> //; lra.
rewrite [head _ _]/=; have /Rabs_le_inv e1' := e1; case: gx => _ x0.
move: (v2R (root u i.+1)) (v2R x) (v2R (dmul _ _)) h x1 x0 lm em e1' => r X Y h x1 x0 lm em e1'.
have rX : 0 <= r * X <= 1 by split; [apply: Rmult_le_pos; lra|nra].
have rXu : 0 <= r * X * uu <= uu by split; [apply: Rmult_le_pos; lra|nra].
have d1' : r * (X - e) <= 2 * INR (size us) * uu by nra.
have d2' : - (2 * INR (size us) * uu) <= r * (X - e) by nra.
by apply: Rabs_le; lra.
Qed.
(** no underflow: the smallest value is at least half the exact product *)
Lemma ripley_low root us i : sane root us -> us <> [::] -> few (size us) ->
  bpow radix2 (-1000) <= head 1 (ordered root us i) ->
  forall x, List.In x (d_ripley root us i) -> 0 < v2R x.
Proof.
have hu : 0 < uu < / 9007199254740991 by rewrite uu_val /=; lra.
have he : ee <= bpow radix2 (-1000) * (/ 4 * uu).
  have -> : ee = bpow radix2 (-1000) * bpow radix2 (-75) by rewrite -bpow_plus /ee -[/ 2]/(bpow radix2 (-1)) -bpow_plus.
  by apply: Rmult_le_compat_l; [exact: bpow_ge_0|rewrite -[bpow _ _]/(/ IZR (Zpower_pos 2 75)) uu_val /=; lra].
have hb := bpow_gt_0 radix2 (-1000); move: (bpow radix2 (-1000)) he hb => B he hb.
move=> hs nn hn; have [_ hn2] := fewP hn.
suff H : B <= head 1 (ordered root us i) -> [/\ head 1 (ordered root us i) * (1 - 2 * (INR (size us) * uu)) <= v2R (head d0 (d_ripley root us i)) & forall x, List.In x (d_ripley root us i) -> 0 < v2R x].
  by case/H.
clear hn; elim: us i hs nn hn2 => [|u us IH] i // /sane_cons [/(_ i.+1 isT) [g h] hs] _ hn2.
have [->|nn] : us = [::] \/ us <> [::] by case: (us); [left|right].
  rewrite /= => hB; split; last by move=> x [<-|//]; lra.
  by have := Rmult_le_compat_l _ _ _ (Rlt_le _ _ (proj1 h)) (Rlt_le _ _ (proj1 hu)); lra.
have [g1 r1 l1 f1] := ripley_ok i.+1 hs nn; rewrite ripleyE // [ordered _ _ _]/=.
have hp := ordered_pos i.+1 hs.
have hn1 := pos_INR (size us); have hnu := Rmult_le_pos _ _ hn1 (Rlt_le _ _ (proj1 hu)).
rewrite [head _ (_ :: _)]/= [head _ (_ :: _)]/= => hB.
have hB' : B <= head 1 (ordered root us i.+1) by apply: Rle_trans hB _; nra.
rewrite [size _]/= S_INR in hn2 *.
have [|h1 h2] := IH i.+1 hs nn _ hB'; first lra.
have [hx hx1] : good (head d0 (d_ripley root us i.+1)) /\ v2R (head d0 (d_ripley root us i.+1)) <= 1.
  have := ripley_size root us i.+1; case: (d_ripley _ _ _) g1 l1 => [|x xs] g1 l1; first by case: (us) nn.
  by move=> _; split; [apply: g1|apply: l1]; left.
have [gm lm [em _]] := mul_le g hx (proj2 h) hx1.
have key : v2R (root u i.+1) * head 1 (ordered root us i.+1) * (1 - 2 * ((INR (size us) + 1) * uu)) <= v2R (dmul (root u i.+1) (head d0 (d_ripley root us i.+1))).
  apply: Rle_trans em.
  move: (v2R (root _ _)) (v2R (head _ _)) (head 1 _) (INR (size us)) h h1 hp hB hB' hn1 hnu hn2 => r X e m h h1 hp hB hB' hn1 hnu hn2.
  have e1 : ee <= r * e * (/ 4 * uu) by apply: Rle_trans he _; apply: Rmult_le_compat_r; lra.
  have e2 : r * e * (1 - 2 * (m * uu)) <= r * X by rewrite Rmult_assoc; apply: Rmult_le_compat_l; lra.
  have e3 : r * e * (1 - 2 * (m * uu)) * (1 - uu) <= r * X * (1 - uu) by apply: Rmult_le_compat_r; lra.
  have e4 : r * e * (1 - 2 * ((m + 1) * uu)) <= r * e * ((1 - 2 * (m * uu)) * (1 - uu) - / 4 * uu).
    by apply: Rmult_le_compat_l; [apply: Rmult_le_pos; lra|nra].
  lra.
split=> // x [<-|hx2]; last exact: h2.
apply: Rlt_le_trans key; apply: Rmult_lt_0_compat; lra.
Qed.

Lemma rising_le x xs : rising (x :: xs) -> forall y, List.In y xs -> x <= y.
Proof.
elim: xs x => [|z xs IH] x //= [h1 h2] y [<- //|hy].
by apply: Rle_trans h1 _; exact: (IH z).
Qed.
Lemma rising_tl x xs : rising (x :: xs) -> rising xs.
Proof. by case: xs => [|y xs] //= []. Qed.
Definition lands (c : seq double) (j : nat) (x : double) (i : nat) : Prop :=
  [/\ (i <= j)%N, v2R x <= v2R (nth d0 c i) & forall k, (k < i)%N -> v2R (nth d0 c k) < v2R x].
Lemma many_ok n c xs idx j : (forall k, (k < size c)%N -> is_finite (nth d0 c k) = true) -> size c = n.+1 -> (j <= n)%N ->
  rising [seq v2R x | x <- xs] -> (forall x, List.In x xs -> is_finite x = true /\ v2R x <= v2R (nth d0 c j)) ->
  (forall x k, List.In x xs -> (k < idx)%N -> v2R (nth d0 c k) < v2R x) -> (idx <= n)%N ->
  exists l, [/\ d_scan_many n xs idx (drop idx c) = Ok l, List.Forall2 (lands c j) xs l & path leq idx l].
Proof.
move=> fc hs hj; elim: xs idx => [|x xs IH] idx hr hx hlt hi; first by exists [::]; split.
have [fx lx] : is_finite x = true /\ v2R x <= v2R (nth d0 c j) by apply: hx; left.
have hij : (idx <= j)%N.
  by rewrite leqNgt; apply/negP => h; have := hlt x j (or_introl erefl) h; lra.
have fc' k : (k < size (drop idx c))%N -> is_finite (nth d0 (drop idx c) k) = true.
  by rewrite size_drop nth_drop hs => h; apply: fc; rewrite hs; move: h; rewrite ltn_subRL.
have hj' : (j - idx < size (drop idx c))%N by rewrite size_drop hs ltn_sub2r // ltnS.
have lx' : v2R x <= v2R (nth d0 (drop idx c) (j - idx)) by rewrite nth_drop subnKC.
have hsz : (idx + size (drop idx c) <= n.+1)%N by rewrite size_drop hs subnKC // leqW.
have [i [h1 h2 h3 h4]] := scan_ok fx fc' hj' lx' hsz.
have hb k : (k < idx + i)%N -> v2R (nth d0 c k) < v2R x.
  case: (ltnP k idx) => h hk; first by apply: hlt => //; left.
  by have := h4 (k - idx)%N; rewrite nth_drop subnKC //; apply; rewrite ltn_subLR.
have hle : (idx + i <= j)%N by rewrite -(subnKC hij) leq_add2l.
have [||||l [k1 k2 k3]] := IH (idx + i)%N.
- exact: rising_tl hr.
- by move=> y hy; apply: hx; right.
- move=> y k hy hk; apply: Rlt_le_trans (hb k hk) _; apply: (rising_le hr).
  by apply: List.in_map.
- exact: leq_trans hle hj.
exists (idx + i :: l)%N; split.
- by rewrite [LHS]/= h2 [obind (Ok _) _]/= addKn drop_drop (addnC i) k1.
- constructor; last exact: k2.
  by split=> //; move: h3; rewrite nth_drop.
- by rewrite /= leq_addr.
Qed.

Lemma lands_place n ex c w xs es l : follows n ex c -> List.Forall2 (lands c n) xs l ->
  (forall x, List.In x xs -> 0 < v2R x) -> List.Forall2 (fun x e => Rabs (v2R x - e) <= w) xs es ->
  exists2 l', l = [seq s.+1 | s <- l'] &
    List.Forall2 (fun x s => (s < n)%N /\ ex s - tol n - w < x <= ex s.+1 + tol n + w) es l'.
Proof.
move=> [e1 e2 e3 e4] h; elim: h es => [|x i xs' l' [h1 h2 h3] _ IH] es hp hf.
  by exists [::] => //; inversion hf; constructor.
inversion hf as [|y e ys es' he hes]; subst.
have hp' y : List.In y xs' -> 0 < v2R y by move=> hy; apply: hp; right.
have [l'' -> hl] := IH es' hp' hes.
have x0 : 0 < v2R x by apply: hp; left.
case: i h1 h2 h3 => [|s] h1 h2 h3; first by rewrite e2 in h2; lra.
exists (s :: l'') => //; constructor=> //; split=> //.
have [_ /Rabs_le_inv a1] := e3 s (ltnW h1); have [_ /Rabs_le_inv a2] := e3 s.+1 h1.
by have := h3 s (ltnSn s); move/Rabs_le_inv: he; lra.
Qed.
Lemma path_map0 l' : path leq 0%N [seq s.+1 | s <- l'] -> sorted leq l'.
Proof.
case: l' => [|s l'] //= h; elim: l' s h => [|t l' IH] s //= /andP [h1 h2]; rewrite ltnS in h1.
by rewrite h1 /=; exact: IH h2.
Qed.

Lemma ripley_top root us i x : us <> [::] -> rising [seq v2R x | x <- d_ripley root us i] ->
  List.In x (d_ripley root us i) -> v2R x <= v2R (root (last d0 us) (i + size us)%N).
Proof.
elim: us i x => [|u us IH] i x // _.
have [->|nn] : us = [::] \/ us <> [::] by case: (us); [left|right].
  by move=> _ /= [<-|//]; rewrite addn1; lra.
rewrite ripleyE // => r; have -> : last d0 (u :: us) = last d0 us by case: (us) nn.
have hh : List.In (head d0 (d_ripley root us i.+1)) (d_ripley root us i.+1).
  by have := ripley_size root us i.+1; case: (d_ripley _ _ _) => [|y ys] /=; [case: (us) nn|left].
have IH' := IH i.+1 _ nn (rising_tl r); rewrite addnS -addSn => -[<-|/IH' //].
apply: Rle_trans (IH' _ hh); apply: (rising_le r); exact: List.in_map hh.
Qed.
(** DiscretePdf: the table ends with 1, every batch is in range. *)
Theorem C83_discrete root d n ex us : size (dd_v d) = n -> follows n ex (dd_c d) -> nth d0 (dd_c d) n = d1 ->
  us <> [::] -> few (size us) -> sane root us -> bpow radix2 (-1000) <= head 1 (ordered root us 0) ->
  let w := 2 * INR (size us) * / IZR (2 ^ 53) in
  exists l, [/\ d_samples root d us = Ok [seq Some s | s <- l], sorted leq l &
    List.Forall2 (fun x s => (s < n)%N /\ ex s - tol n - w < x <= ex s.+1 + tol n + w) (ordered root us 0) l].
Proof.
move=> hs hfol hl nn hn sa hlow w; have [e1 _ e3 _] := hfol.
have [g r l1 f] := ripley_ok 0 sa nn; have pos := ripley_low sa nn hn hlow; rewrite uu_val -/w in f.
have fc k : (k < size (dd_c d))%N -> is_finite (nth d0 (dd_c d) k) = true by rewrite e1 ltnS => /e3 [[]].
have hx x : List.In x (d_ripley root us 0) -> is_finite x = true /\ v2R x <= v2R (nth d0 (dd_c d) n).
  by move=> h; rewrite hl v2R1; split; [case: (g x h)|exact: l1].
clear hl; have hlt x k : List.In x (d_ripley root us 0) -> (k < 0)%N -> v2R (nth d0 (dd_c d) k) < v2R x by [].
have [l [k1 k2 k3]] := many_ok fc e1 (leqnn n) r hx hlt (leq0n n); rewrite drop0 in k1.
have [l' el hl] := lands_place hfol k2 pos f; exists l'; split; [|by apply: path_map0; rewrite -el|exact: hl].
rewrite /d_samples hs; case: (us) nn k1 => // u us' _ ->; rewrite el [obind (Ok _) _]/= -map_comp; exact: erefl.
Qed.
(** MCPdf: the largest value must stay below the end of the table. *)
Theorem C83_particles root d n ex us : size (dm_w d) = n -> follows n ex (dm_c d) -> ex n = 1 ->
  us <> [::] -> few (size us) -> sane root us -> bpow radix2 (-1000) <= head 1 (ordered root us 0) ->
  v2R (root (last d0 us) (size us)) <= 1 - tol n ->
  let w := 2 * INR (size us) * / IZR (2 ^ 53) in
  exists l, [/\ m_samples root d us = Ok l, sorted leq l &
    List.Forall2 (fun x s => (s < n)%N /\ ex s - tol n - w < x <= ex s.+1 + tol n + w) (ordered root us 0) l].
Proof.
move=> hs hfol hl nn hn sa hlow htop w; have [e1 _ e3 _] := hfol.
have [g r l1 f] := ripley_ok 0 sa nn; have pos := ripley_low sa nn hn hlow; rewrite uu_val -/w in f.
have fc k : (k < size (dm_c d))%N -> is_finite (nth d0 (dm_c d) k) = true by rewrite e1 ltnS => /e3 [[]].
have top x : List.In x (d_ripley root us 0) -> v2R x <= v2R (root (last d0 us) (size us)) := ripley_top nn r.
have hx x : List.In x (d_ripley root us 0) -> is_finite x = true /\ v2R x <= v2R (nth d0 (dm_c d) n).
  move=> h; split; first by case: (g x h).
  by have [_ /Rabs_le_inv] := e3 n (leqnn n); rewrite hl; have := top x h; lra.
clear hl; have hlt x k : List.In x (d_ripley root us 0) -> (k < 0)%N -> v2R (nth d0 (dm_c d) k) < v2R x by [].
have [l [k1 k2 k3]] := many_ok fc e1 (leqnn n) r hx hlt (leq0n n); rewrite drop0 in k1.
have [l' el hl] := lands_place hfol k2 pos f; exists l'; split; [|by apply: path_map0; rewrite -el|exact: hl].
rewrite /m_samples hs; case: (us) nn k1 => // u us' _ ->; rewrite el [obind (Ok _) _]/=.
by clear; elim: l' => //= s l' ->.
Qed.

(** ** Finding: the table of a particle set is overrun *)
Lemma many_ub n c xs idx : (forall x, List.In x c -> is_finite x = true) ->
  (exists2 x, List.In x xs & is_finite x = true /\ forall y, List.In y c -> v2R y < v2R x) ->
  forall l, d_scan_many n xs idx c <> Ok l.
Proof.
move=> fc [x hx [fx hlt]]; elim: xs c idx fc hx hlt => [|y xs IH] c idx fc // [e|hx] hlt l.
  subst y.
  suff h i : d_scan n x idx c <> Ok i by rewrite [d_scan_many _ _ _ _]/=; case: (d_scan n x idx c) h => // i /(_ i).
  elim: c idx fc hlt {l} => [|z c IHc] idx fc hlt; first by [].
  rewrite /=; have fz : is_finite z = true by apply: fc; left.
  case: (dltP fz fx) => h; last by case: h; apply: hlt; left.
  case: (idx <= n)%N; last by [].
  by apply: IHc => t ht; [apply: fc|apply: hlt]; right.
rewrite [d_scan_many _ _ _ _]/=; case: (d_scan n y idx c) => [i| |] //; rewrite [obind (Ok _) _]/=.
have sub t : List.In t (drop (i - idx) c) -> List.In t c.
  by rewrite -{2}(cat_take_drop (i - idx) c) => h; apply: List.in_or_app; right.
suff h l' : d_scan_many n xs i (drop (i - idx) c) <> Ok l' by case: (d_scan_many _ _ _ _) h => // l' /(_ l').
by apply: IH => // t ht; [apply: fc; exact: sub|apply: hlt; exact: sub].
Qed.
Lemma ripley_last root us u i : List.In (root u (i + size us).+1) (d_ripley root (rcons us u) i).
Proof.
elim: us i => [|v us IH] i; first by left; rewrite addn0.
by rewrite [rcons _ _]/= ripleyE; [right; rewrite [size _]/= addnS -addSn|case: (us)].
Qed.
Definition n10k : nat := Z.to_nat 10000.
Definition top32 : double := dlit (2 ^ 32 - 1) (-32).
Definition bound : double := dlit 9007199254740200 (-53).
Lemma table10k : all (fun y => is_finite y && dlt y bound) (m_cum (nseq n10k (ddiv d1 (dnat n10k))) d1).
Proof. vm_cast_no_check (erefl true). Qed.
Lemma n10k_INR : INR n10k = 10000.
Proof. by rewrite INR_IZR_INZ /n10k Z2Nat.id. Qed.
Lemma n10k_few : (0 < n10k)%N /\ few n10k.
Proof. by split; [apply/ltP; apply: INR_lt; rewrite n10k_INR /=; lra|rewrite /few /n10k Z2Nat.id; lia]. Qed.
Local Opaque n10k.
Lemma mset_val n : (0 < n)%N -> few n ->
  m_set n = Ok (true, DMC (nseq n (ddiv d1 (dnat n))) (m_cum (nseq n (ddiv d1 (dnat n))) d1)).
Proof.
move=> n0 hn; have [hne h1] := uniform_near n0 hn.
rewrite /m_set (@mapO_ok _ _ _ id) ?map_id // => x hx.
by apply: weight_ok; rewrite (In_nseq hx); case: hne.
Qed.
Lemma root_near k r : (0 < k)%N -> 0 < r -> INR k = 10000 -> r ^ k = 1 - / 4294967296 -> 1 - / 20000000000000 <= r.
Proof.
move=> k0 r0 hk hr; case: (Rle_lt_dec (1 - / 20000000000000) r) => // h; exfalso.
have h1 : r ^ k <= (1 - / 20000000000000) ^ k by apply: pow_incr; lra.
have h2 : (1 - / 20000000000000) ^ k * (1 + / 20000000000000) ^ k <= 1.
  by rewrite -Rpow_mult_distr -[X in _ <= X](pow1 k); apply: pow_incr; lra.
have h3 := poly k (/ 20000000000000); rewrite hk in h3; have {}h3 := h3 ltac:(lra).
by rewrite hr in h1; nra.
Qed.
Local Transparent bpow IZR.
Lemma top32_val : is_finite top32 = true /\ v2R top32 = 1 - / 4294967296.
Proof.
have [|f v] := @v2R_SF top32 false 9007199252643840 (-53); first by vm_compute.
by split; [exact: f|rewrite v; clear; rewrite /F2R /=; lra].
Qed.
Lemma bound_val : is_finite bound = true /\ v2R bound <= 1 - / 12000000000000.
Proof.
have [|f v] := @v2R_SF bound false 9007199254740200 (-53); first by vm_compute.
by split; [exact: f|rewrite v; clear; rewrite /F2R /=; lra].
Qed.
Local Opaque bpow IZR.
(** 10000 equally weighted particles: the table ends at 1 - 844 * 2^-53.  Whatever the
    other draws are, a last draw of 1 - 2^-32 runs over the end of the table. *)
Theorem C83_overrun root us : roots root -> (size us).+1 = n10k ->
  exists d, m_set n10k = Ok (true, d) /\ forall l, m_samples root d (rcons us top32) <> Ok l.
Proof.
move=> hro hs; have [n0 hn] := n10k_few; have tab := table10k.
exists (DMC (nseq n10k (ddiv d1 (dnat n10k))) (m_cum (nseq n10k (ddiv d1 (dnat n10k))) d1)).
split; first exact: mset_val; move: tab; rewrite /m_samples [dm_w _]/= [dm_c _]/=.
move: (m_cum _ _) (size (nseq _ _)) => c m tab l.
have [ft vt] := top32_val; have [fb vb] := bound_val.
have ht : 0 < v2R top32 <= 1 by rewrite vt; lra.
have [fr [r [r0 rk ra]]] := hro top32 n10k ft ht n0; rewrite vt in rk.
have rn := root_near n0 r0 n10k_INR rk; clear rk.
have tab' y : List.In y c -> is_finite y = true /\ v2R y < v2R bound.
  move=> hy; have : is_finite y && dlt y bound.
    by elim: c tab hy => // z c IH /= /andP [h1 h2] [<- //|]; exact: IH.
  by case/andP => fy; case: (dltP fy fb).
have := @many_ub m c (d_ripley root (rcons us top32) 0) 0 (fun y hy => proj1 (tab' y hy)).
case: (rcons us top32) (ripley_last root us top32 0) => [|u us'] hin; first by case: hin.
rewrite add0n hs in hin.
have hex : exists2 x, List.In x (d_ripley root (u :: us') 0) & is_finite x = true /\ forall y, List.In y c -> v2R y < v2R x.
  exists (root top32 n10k); [exact: hin|split; first exact: fr].
  move=> y /tab' [_ hy]; have /Rabs_le_inv [h1 _] := ra; rewrite /= in h1; lra.
move/(_ hex); clear hex; case: (d_scan_many _ _ _ _) => [l'| |] h; [by case: (h l')|discriminate|discriminate].
Qed.

(** such a root exists: round the exact root to a multiple of [2^-53] *)
Local Transparent dlit.
Lemma lit53 m : (0 <= m <= 2 ^ 53)%Z -> is_finite (dlit m (-53)) = true /\ v2R (dlit m (-53)) = IZR m * / IZR (2 ^ 53).
Proof.
move=> hm; have e : F2R (Float radix2 m (-53)) = IZR m * / IZR (2 ^ 53) by [].
have hm' : 0 <= IZR m <= IZR (2 ^ 53) by split; apply: IZR_le; lia.
have g : rnd (IZR m * / IZR (2 ^ 53)) = IZR m * / IZR (2 ^ 53).
  case: (Z.eq_dec m (2 ^ 53)) => [->|ne].
    by rewrite Rinv_r; [apply: round_generic; apply: (@generic_format_bpow radix2 (FLT_exp (-1074) 53) 0); rewrite /FLT_exp; lia|rewrite /=; lra].
  by apply: round_generic; apply: generic_format_FLT; exists (Float radix2 m (-53)) => //=; lia.
have := binary_normalize_correct 53 1024 _ _ mode_NE m (-53) false; cbv zeta; rewrite -/(dlit m (-53)) e.
rewrite -[round _ _ _ _]/(rnd (IZR m * / IZR (2 ^ 53))) g; case: Rlt_bool_spec => [_ [e1 [f1 _]] //|].
have hb : 1 < bpow radix2 1024 by apply: (@bpow_lt radix2 0 1024).
rewrite Rabs_pos_eq /=; rewrite /= in hm'; lra.
Qed.
Local Opaque dlit.
Definition some_root (u : double) (k : nat) : double := dlit (ZnearestE (Rpower (v2R u) (/ INR k) * IZR (2 ^ 53))) (-53).
Lemma roots_exist : roots some_root.
Proof.
move=> u k _ hu k0; have hk : 1 <= INR k by have := le_INR 1 k (elimT leP k0).
set r := Rpower (v2R u) (/ INR k); have r0 : 0 < r by exact: exp_pos.
have rk : r ^ k = v2R u by rewrite -Rpower_pow // /r Rpower_mult Rinv_l ?Rpower_1; lra.
have r1 : r <= 1.
  case: (Rle_lt_dec r 1) => // h; exfalso.
  have := poly k (r - 1); rewrite (_ : 1 + (r - 1) = r); last lra.
  by rewrite rk => /(_ ltac:(lra)); nra.
set z := ZnearestE (r * IZR (2 ^ 53)).
have hz : Rabs (r * IZR (2 ^ 53) - IZR z) <= / 2 by exact: Znearest_half.
have hz' : (0 <= z <= 2 ^ 53)%Z.
  move/Rabs_le_inv: hz; rewrite /= => hz; split.
    by apply: (Z.lt_succ_r 0 z).1; apply: lt_IZR; rewrite succ_IZR; lra.
  by apply: (Z.lt_succ_r z _).1; apply: lt_IZR; rewrite succ_IZR /=; lra.
have [f v] := lit53 hz'; split; first exact: f.
exists r; split=> //; rewrite /some_root -/r -/z v; move/Rabs_le_inv: hz; rewrite /= => hz.
by apply: Rabs_le; lra.
Qed.
Lemma In_tops (A : Type) m (x y : A) : List.In x (rcons (nseq m y) y) -> x = y.
Proof. by elim: m => [|m IH] /= [->|] //. Qed.
Theorem C83_overrun_refuted :
  ~ (forall root n d us, roots root -> (0 < n)%N -> few n -> m_set n = Ok (true, d) -> size us = n ->
     (forall u, List.In u us -> draw32 u) -> exists l, m_samples root d us = Ok l).
Proof.
move=> H; have [n0 hn] := n10k_few; set us := nseq n10k.-1 top32.
have hs : (size us).+1 = n10k by rewrite size_nseq prednK.
have [d [h1 h2]] := C83_overrun roots_exist hs.
have [|u|l] := H some_root n10k d (rcons us top32) roots_exist n0 hn h1; last exact: (h2 l).
  by rewrite size_rcons.
move=> hu; rewrite (In_tops hu).
exists (2 ^ 32 - 1)%Z; split; [exact: erefl|clear; lia].
Qed.

(** ** Concrete case: DiscretePdf(3) set to 1 : 2 : 5, three draws of 1/2 *)
Definition sq_root (u : double) (k : nat) : double := u.
Lemma half_vals : good half /\ v2R half = / 2.
Proof.
have [|f v] := @v2R_SF half false 4503599627370496 (-53); first by vm_compute.
have e : v2R half = / 2 by rewrite v; clear; rewrite /F2R; cbn [Fnum Fexp cond_Zopp]; rewrite -[bpow _ _]/(/ IZR (Zpower_pos 2 53)) /=; lra.
by split; [split; [exact: f|rewrite e; lra]|].
Qed.
Example C83_example : exists d l, [/\ d_set_all (blank 3) three = Ok (true, d),
  d_samples sq_root d [:: half; half; half] = Ok [seq Some s | s <- l] & size l = 3%N].
Proof.
have [hg ht hF] := three_vals; have b8 := big8; have [gh vh] := half_vals.
have hp : 0 < total three <= bpow radix2 1022 by rewrite ht; split; [lra|exact: b8].
have [d [h1 h2 h3 h4 h5]] := C79_set (erefl : size three = size (dd_v (blank 3))) hF hg hp.
have sa : sane sq_root [:: half; half; half].
  move=> u k hu _; rewrite /sq_root; have -> : u = half by case: hu; intuition.
  by split; [exact: gh|rewrite vh; lra].
have lo : bpow radix2 (-1000) <= head 1 (ordered sq_root [:: half; half; half] 0).
  rewrite [ordered _ _ _]/= [head _ _]/= /sq_root vh.
  by apply: Rle_trans (_ : bpow radix2 (-3) <= _); [apply: bpow_le; lia|rewrite -[bpow _ _]/(/ IZR (Zpower_pos 2 3)) /=; lra].
have fw : few (size [:: half; half; half]) by rewrite /few /=; lia.
have [|l [k1 k2 k3]] := C83_discrete h2 h4 h5 _ fw sa lo; first discriminate.
exists d, l; split; [exact: h1|exact: k1|].
by clear -k3; inversion k3 as [|a b c e _ k4]; inversion k4 as [|a' b' c' e' _ k5]; inversion k5 as [|a2 b2 c2 e2 _ k6]; inversion k6.
Qed.
Example C83_particles_example : exists d l, [/\ m_set 3 = Ok (true, d),
  m_samples sq_root d [:: half; half] = Ok l & sorted leq l].
Proof.
have [gh vh] := half_vals; have f3 : few 3 by rewrite /few /=; lia.
have [d [h1 h2 h3]] := @C81_set 3 isT f3.
have sa : sane sq_root [:: half; half].
  move=> u k hu _; rewrite /sq_root; have -> : u = half by case: hu; intuition.
  by split; [exact: gh|rewrite vh; lra].
have lo : bpow radix2 (-1000) <= head 1 (ordered sq_root [:: half; half] 0).
  rewrite [ordered _ _ _]/= [head _ _]/= /sq_root vh.
  by apply: Rle_trans (_ : bpow radix2 (-2) <= _); [apply: bpow_le; lia|rewrite -[bpow _ _]/(/ IZR (Zpower_pos 2 2)) /=; lra].
have fw : few (size [:: half; half]) by rewrite /few /=; lia.
have e1 : INR 3 / INR 3 = 1 by rewrite /Rdiv Rinv_r //=; lra.
have [||l [k1 k2 k3]] := C83_particles h2 h3 e1 _ fw sa lo; first discriminate.
  rewrite /sq_root [last _ _]/= vh /tol /=; clear; lra.
by exists d, l; split; [exact: h1|exact: k1|exact: k2].
Qed.
Definition bdraws : seq (option nat) :=
  if (let! r := d_set_all (blank 3) three in d_samples sq_root r.2 [:: half; half; half]) is Ok l then l else [::].
Example C83_run : bdraws = [:: Some 0; Some 1; Some 2]%N.
Proof. by vm_compute. Qed.
Print Assumptions C83_discrete.
Print Assumptions C83_particles.
Print Assumptions C83_overrun.
Print Assumptions C83_overrun_refuted.
