(** * Rounding-error lemmas for ModelDouble *)
From Coq Require Import ZArith Reals Lra Lia.
From Flocq Require Import Core.Core BinarySingleNaN Relative Plus_error.
From mathcomp Require Import all_ssreflect.
From Verif Require Import Outcome ModelDouble SpecDouble.
Set Implicit Arguments. Unset Strict Implicit. Unset Printing Implicit Defensive.
Local Open Scope R_scope.

(** unit roundoff and half the smallest subnormal *)
Definition uu : R := / 2 * bpow radix2 (-52).
Definition ee : R := / 2 * bpow radix2 (-1074).

Notation rnd := (round radix2 (FLT_exp (-1074) 53) ZnearestE).
Lemma uu_val : uu = / IZR (2 ^ 53).
Proof. rewrite /uu /=; lra. Qed.
Lemma uu_gt0 : 0 < uu. Proof. rewrite uu_val /=; lra. Qed.
Lemma ee_gt0 : 0 < ee.
Proof. rewrite /ee; have := bpow_gt_0 radix2 (-1074); lra. Qed.
Lemma ee_small : ee <= / IZR (2 ^ 100).
Proof.
have h : bpow radix2 (-1074) <= bpow radix2 (-100) by apply: bpow_le.
have e : bpow radix2 (-100) = / IZR (2 ^ 100) by [].
have := bpow_gt_0 radix2 (-1074); rewrite /ee; rewrite e in h; lra.
Qed.
Lemma fmt (x : double) : generic_format radix2 (FLT_exp (-1074) 53) (v2R x).
Proof. exact: (generic_format_B2R 53 1024). Qed.
Lemma v2R0 : v2R d0 = 0. Proof. by []. Qed.
Lemma good0 : good d0. Proof. by split; rewrite // v2R0; lra. Qed.
Lemma v2R1 : v2R d1 = 1.
Proof. by rewrite /v2R /d1 /= /F2R /=; lra. Qed.
Lemma good1 : good d1. Proof. by split; rewrite // v2R1; lra. Qed.
Lemma dleP x y : is_finite x = true -> is_finite y = true -> reflect (v2R x <= v2R y) (dle x y).
Proof. move=> hx hy; rewrite /dle Bleb_correct //; apply: (iffP idP) => [|h]; first by case: Rle_bool_spec. exact: Rle_bool_true. Qed.
Lemma dltP x y : is_finite x = true -> is_finite y = true -> reflect (v2R x < v2R y) (dlt x y).
Proof. move=> hx hy; rewrite /dlt Bltb_correct //; apply: (iffP idP) => [|h]; first by case: Rlt_bool_spec. exact: Rlt_bool_true. Qed.
Lemma rnd_ge0 x : 0 <= x -> 0 <= rnd x.
Proof. by move=> h; rewrite -[0](round_0 radix2 (FLT_exp (-1074) 53) ZnearestE); apply: round_le. Qed.

(** ** Addition *)
Lemma inf_SF s (x : double) : B2SF x = SpecFloat.S754_infinity s -> is_finite x = false.
Proof. by case: x. Qed.
Lemma addE x y : good x -> good y -> is_finite (dadd x y) = true -> v2R (dadd x y) = rnd (v2R x + v2R y).
Proof.
move=> [fx hx] [fy hy] f; have := Bplus_correct 53 1024 _ _ mode_NE x y fx fy; rewrite -/(dadd x y).
case: Rlt_bool_spec => _; first by case.
by case=> /= e _; rewrite (inf_SF e) in f.
Qed.
Lemma add_fin x y : good x -> good y -> v2R x + v2R y <= bpow radix2 1023 -> is_finite (dadd x y) = true.
Proof.
move=> [fx hx] [fy hy] h; have := Bplus_correct 53 1024 _ _ mode_NE x y fx fy; rewrite -/(dadd x y).
case: Rlt_bool_spec => [_ []|] //; first by move=> _ [].
rewrite -/(v2R x) -/(v2R y) -[round _ _ _ _]/(rnd (v2R x + v2R y)) Rabs_pos_eq; last by apply: rnd_ge0; lra.
have : rnd (v2R x + v2R y) <= bpow radix2 1023.
  apply: round_le_generic => //; apply: generic_format_bpow; rewrite /FLT_exp; lia.
have : bpow radix2 1023 < bpow radix2 1024 by apply: bpow_lt.
lra.
Qed.
Lemma add_good x y : good x -> good y -> is_finite (dadd x y) = true -> good (dadd x y).
Proof. by move=> hx hy f; split=> //; rewrite addE //; apply: rnd_ge0; case: hx hy => _ ? [_ ?]; lra. Qed.
Lemma add_err x y : good x -> good y -> is_finite (dadd x y) = true ->
  (v2R x + v2R y) * (1 - uu) <= v2R (dadd x y) <= (v2R x + v2R y) * (1 + uu).
Proof.
move=> hx hy f; rewrite addE //.
have [eps [h ->]] := FLT_plus_error_N_ex radix2 (-1074) 53 (fun z => negb (Z.even z)) _ _ (fmt x) (fmt y).
have hu : u_ro radix2 53 = uu by [].
have h2 : Rabs eps <= uu.
  apply: Rle_trans h _; rewrite hu; have := uu_gt0 => h0.
  apply: (Rmult_le_reg_r (1 + uu)); first by lra.
  rewrite /Rdiv Rmult_assoc Rinv_l; [nra|lra].
have : 0 <= v2R x + v2R y by case: hx hy => _ ? [_ ?]; lra.
have /Rabs_le_inv : Rabs eps <= uu by [].
by move: (v2R x + v2R y) => s; nra.
Qed.
Lemma add_ge x y : good x -> good y -> is_finite (dadd x y) = true -> v2R x <= v2R (dadd x y).
Proof.
move=> hx hy f; rewrite addE //; apply: round_ge_generic; first exact: fmt.
by case: hy => _ ?; lra.
Qed.
Lemma add_ge2 x y : good x -> good y -> is_finite (dadd x y) = true -> v2R y <= v2R (dadd x y).
Proof.
move=> hx hy f; rewrite addE //; apply: round_ge_generic; first exact: fmt.
by case: hx => _ ?; lra.
Qed.
Lemma add_inf x y : is_finite x = false -> is_finite y = true -> is_finite (dadd x y) = false.
Proof. by case: x => [s|s||s m e h] //; case: y. Qed.

(** ** Division by a sum *)
Lemma div_val x s : good x -> good s -> 0 < v2R s -> v2R x <= v2R s ->
  [/\ good (ddiv x s), v2R (ddiv x s) <= 1 &
    v2R x / v2R s * (1 - uu) - ee <= v2R (ddiv x s) <= v2R x / v2R s * (1 + uu) + ee].
Proof.
move=> [fx hx] [fs hs] h0 hle.
have hq : 0 <= v2R x / v2R s <= 1.
  split; first by apply: Rmult_le_pos => //; apply/Rlt_le/Rinv_0_lt_compat.
  by apply: (Rmult_le_reg_r (v2R s)) => //; rewrite /Rdiv Rmult_assoc Rinv_l; lra.
have hr : 0 <= rnd (v2R x / v2R s) <= 1.
  split; first by apply: rnd_ge0; lra.
  by apply: round_le_generic; [rewrite -v2R1; exact: fmt|lra].
have hne : B2R s <> 0 by rewrite -/(v2R s); lra.
have := Bdiv_correct 53 1024 _ _ mode_NE x s hne; rewrite -/(ddiv x s) -/(v2R x) -/(v2R s).
rewrite -[round _ _ _ _]/(rnd (v2R x / v2R s)); case: Rlt_bool_spec => [_ [e [f _]]|]; last first.
  rewrite Rabs_pos_eq; last lra.
  have : bpow radix2 0 < bpow radix2 1024 by apply: bpow_lt.
  rewrite [bpow _ 0]/=; lra.
have [eps [eta [h1 [h2 [_ h3]]]]] := error_N_FLT radix2 (-1074) 53 (erefl _ : (0 < 53)%Z) (fun z => negb (Z.even z)) (v2R x / v2R s).
rewrite /good f /v2R e; split; [by split=> //; lra|lra|].
rewrite h3; move/Rabs_le_inv: h1; move/Rabs_le_inv: h2; rewrite -/ee -/uu.
by move: (v2R x / v2R s) hq => q hq h1 h2; nra.
Qed.

(** ** Sums *)
Lemma goods_cons x v : goods (x :: v) -> good x /\ goods v.
Proof. by move=> h; split=> [|y hy]; apply: h; [left|right]. Qed.
Lemma goods_take k v : goods v -> goods (take k v).
Proof.
elim: v k => [|x v IH] [|k] //= /goods_cons [hx hv] y /= [<- //|hy]; exact: IH hy.
Qed.
Lemma goods_nth v i : goods v -> (i < size v)%N -> good (nth d0 v i).
Proof. by elim: v i => [|x v IH] [|i] //= /goods_cons [hx hv] h //; exact: IH. Qed.
Lemma total_ge0 v : goods v -> 0 <= total v.
Proof. rewrite /total; elim: v => [|x v IH] /= h; [lra|]; have [[_ ?] /IH] := goods_cons h; lra. Qed.
Lemma total_take v k : goods v -> total (take k v) <= total v.
Proof.
rewrite /total; elim: v k => [|x v IH] [|k] h; try by rewrite /=; lra.
  by have := total_ge0 h; rewrite /total /=.
by have [[_ ?] /(IH k)] := goods_cons h; rewrite /=; lra.
Qed.
Lemma total_nth v i : goods v -> (i < size v)%N -> v2R (nth d0 v i) <= total v.
Proof.
elim: v i => [|x v IH] [|i] // /goods_cons [hx hv] h; rewrite /total /= -/(total v).
  by have := total_ge0 hv; lra.
by have := IH i hv h; case: hx; lra.
Qed.
Lemma fold_fin_inv v c : goods v -> is_finite (foldl dadd c v) = true -> is_finite c = true.
Proof.
elim: v c => [|x v IH] c //= /goods_cons [[fx _] hv] /(IH _ hv).
by case e: (is_finite c) => //; rewrite add_inf.
Qed.
Lemma pow_le1 n : 0 < (1 - uu) ^ n <= 1.
Proof. by have := uu_gt0; have : uu < 1 by [rewrite uu_val /=; lra]; elim: n => [|n IH] /= h1 h0; [lra|]; have := IH h1 h0; nra. Qed.
Lemma pow_ge1 n : 1 <= (1 + uu) ^ n.
Proof. by have := uu_gt0; elim: n => [|n IH] h; rewrite /=; [lra|]; have := IH h; nra. Qed.
Lemma fold_err v c : good c -> goods v -> is_finite (foldl dadd c v) = true ->
  [/\ good (foldl dadd c v), v2R c <= v2R (foldl dadd c v) &
   (v2R c + total v) * (1 - uu) ^ size v <= v2R (foldl dadd c v) <= (v2R c + total v) * (1 + uu) ^ size v].
Proof.
elim: v c => [|x v IH] c hc; first by rewrite /total /=; split=> //; lra.
move=> /goods_cons [hx hv] /= f; have f1 := fold_fin_inv hv f.
have [h1 h2 [h3 h4]] := IH _ (add_good hc hx f1) hv f; split=> //; first by have := add_ge hc hx f1; lra.
have [e1 e2] := add_err hc hx f1; have ht := total_ge0 hv.
have p1 := pow_le1 (size v); have p2 := pow_ge1 (size v); have hu := uu_gt0.
rewrite /total /= -/(total v) -Rplus_assoc.
have hs : 0 <= v2R c + v2R x by case: hc hx => _ ? [_ ?]; lra.
have q1 : (v2R c + v2R x + total v) * (1 - uu) <= v2R (dadd c x) + total v by nra.
have q2 : v2R (dadd c x) + total v <= (v2R c + v2R x + total v) * (1 + uu) by nra.
rewrite -!Rmult_assoc; split; [apply: Rle_trans h3|apply: Rle_trans h4 _]; apply: Rmult_le_compat_r => //; lra.
Qed.
Lemma fold_fin v c : good c -> goods v -> (v2R c + total v) * (1 + uu) ^ size v <= bpow radix2 1023 ->
  is_finite (foldl dadd c v) = true.
Proof.
elim: v c => [|x v IH] c hc; first by case: hc.
move=> /goods_cons [hx hv] /=; rewrite /total /= -/(total v) -Rplus_assoc -Rmult_assoc => h.
have hu := uu_gt0; have ht := total_ge0 hv; have p2 := pow_ge1 (size v).
have hs : 0 <= v2R c + v2R x by case: hc hx => _ ? [_ ?]; lra.
have f : is_finite (dadd c x) = true.
  apply: add_fin => //; apply: Rle_trans h; rewrite Rmult_assoc; have : 1 <= (1 + uu) * (1 + uu) ^ size v by nra.
  by move: (_ * _) => w hw; nra.
apply: IH => //; first exact: add_good.
have [e1 e2] := add_err hc hx f.
by apply: Rle_trans h; apply: Rmult_le_compat_r; [lra|nra].
Qed.
Lemma size_prefix c v : size (d_prefix c v) = (size v).+1.
Proof. by elim: v c => [|x v IH] c //=; rewrite IH. Qed.
Lemma nth_prefix c v k : (k <= size v)%N -> nth d0 (d_prefix c v) k = foldl dadd c (take k v).
Proof. by elim: v c k => [|x v IH] c [|k] //= h; rewrite IH. Qed.
Lemma last_prefix c v : last d0 (d_prefix c v) = foldl dadd c v.
Proof. by rewrite -(nth_last d0) size_prefix /= nth_prefix // take_size. Qed.

(** ** Powers of the unit roundoff *)
Lemma pow_lo n : 1 - INR n * uu <= (1 - uu) ^ n.
Proof.
have hu := uu_gt0; elim: n => [|n IH]; first by rewrite /=; lra.
rewrite S_INR [_ ^ n.+1]/=; have := pow_le1 n; have h1 : uu < 1 by rewrite uu_val /=; lra.
have hn := pos_INR n; move: ((1 - uu) ^ n) (INR n) hn IH => p m hn IH hp.
apply: (Rle_trans _ ((1 - uu) * (1 - m * uu))); last by apply: Rmult_le_compat_l => //; lra.
by have := Rmult_le_pos _ _ hn (Rle_0_sqr uu); rewrite /Rsqr; nra.
Qed.
Lemma pow_hi n : INR n * uu < 1 -> (1 + uu) ^ n <= / (1 - INR n * uu).
Proof.
move=> h; apply: (Rmult_le_reg_r (1 - INR n * uu)); first lra.
rewrite Rinv_l; last lra.
have h1 : (1 + uu) ^ n * (1 - uu) ^ n <= 1.
  rewrite -Rpow_mult_distr; apply: Rle_trans (_ : 1 ^ n <= _); last by rewrite pow1; lra.
  by apply: pow_incr; have := uu_gt0; have : uu < 1 by [rewrite uu_val /=; lra]; nra.
by apply: Rle_trans h1; apply: Rmult_le_compat_l (pow_lo n); have := pow_ge1 n; lra.
Qed.
Lemma fewP n : few n -> INR n <= 4194304 /\ 0 <= INR n * uu <= / 2147483648.
Proof.
rewrite /few => h; have h1 : INR n <= 4194304 by rewrite INR_IZR_INZ; apply: IZR_le.
have := pos_INR n; rewrite uu_val /=; split=> //; split; first by apply: Rmult_le_pos; lra.
lra.
Qed.

(** ** Accuracy of a table built from nearly exact entries *)
Section Near.
Variable n : nat.
Hypothesis hn : few n.
Let a := INR n * uu.
Definition lo : R := (1 - uu) * (1 - INR n * uu).
Definition hi : R := (1 + uu) * / (1 - INR n * uu).
Definition near (r : R) (p : double) : Prop := [/\ 0 <= r, good p & r * lo - ee <= v2R p <= r * hi + ee].
Let ha : 0 <= a <= / 2147483648. Proof. by have [] := fewP hn. Qed.
Let hu : 0 < uu < / 9007199254740991. Proof. by rewrite uu_val /=; lra. Qed.
Let haa : a * a <= / 512 * uu.
Proof.
have [h1 _] := fewP hn; have h0 := pos_INR n; rewrite {1}/a.
have : INR n * a <= 4194304 * / 2147483648 by apply: Rmult_le_compat => //; case: ha.
by move: a => b; nra.
Qed.
Let hinv : 1 <= / (1 - a) <= 1 + a + 2 * (a * a).
Proof.
split; first by rewrite -Rinv_1; apply: Rinv_le_contravar; lra.
apply: (Rmult_le_reg_r (1 - a)); first lra.
rewrite Rinv_l; last lra.
have : 0 <= a * a * (1 - 2 * a) by apply: Rmult_le_pos; [nra|lra].
lra.
Qed.
Lemma lo_ge : 1 - a - uu <= lo <= 1. Proof. rewrite /lo -/a; nra. Qed.
Lemma hi_le : 1 <= hi <= 1 + a + 11 / 10 * uu.
Proof.
rewrite /hi -/a; move: (/ (1 - a)) hinv => w hw; split; first nra.
have : (1 + uu) * w <= (1 + uu) * (1 + a + 2 * (a * a)) by nra.
by nra.
Qed.
Lemma near_sum rs ps : List.Forall2 near rs ps -> [/\ 0 <= rsum rs, goods ps &
  rsum rs * lo - INR (size ps) * ee <= total ps <= rsum rs * hi + INR (size ps) * ee].
Proof.
elim=> [|r p rs' ps' [h0 h1 h2] _ [h3 h4 h5]]; first by rewrite /total /=; split=> //; lra.
split; first by rewrite /=; lra.
  by move=> x /= [<- //|]; exact: h4.
by rewrite [size _]/= S_INR /total /= -/(total ps'); lra.
Qed.
Lemma fold_acc rs ps : List.Forall2 near rs ps -> (size ps <= n)%N -> rsum rs <= 1 ->
  good (d_sum ps) /\ Rabs (v2R (d_sum ps) - rsum rs) <= tol n.
Proof.
move=> hf hs hr; have [h0 hg [h1 h2]] := near_sum hf.
have hk : INR (size ps) <= INR n by apply: le_INR; apply/leP.
have hk0 := pos_INR (size ps); have [hN _] := fewP hn.
have hka : INR (size ps) * uu <= a by rewrite /a; nra.
have he : 0 <= INR (size ps) * ee <= / 1000 * uu.
  have := ee_gt0 => e0; split; first by apply: Rmult_le_pos; lra.
  apply: Rle_trans (_ : 4194304 * / IZR (2 ^ 100) <= _); last by rewrite uu_val /=; lra.
  by apply: Rmult_le_compat => //; [lra|lra|exact: ee_small].
have [l1 l2] := lo_ge; have [i1 i2] := hi_le.
have p1 := pow_le1 (size ps); have p2 := pow_lo (size ps); have p5 : 1 - a <= (1 - uu) ^ size ps by lra.
have p3 := pow_ge1 (size ps); have p4 : (1 + uu) ^ size ps <= / (1 - a).
  by apply: Rle_trans (pow_hi _) _; [lra|apply: Rinv_le_contravar; lra].
have ht := total_ge0 hg.
have hf1 : is_finite (d_sum ps) = true.
  apply: fold_fin => //; first exact: good0.
  rewrite v2R0 Rplus_0_l; apply: Rle_trans (_ : 2 * 2 <= _).
    by apply: Rmult_le_compat => //; nra.
  have -> : 2 * 2 = bpow radix2 2 by rewrite /=; lra.
  exact: bpow_le.
have [g1 _ [s1 s2]] := fold_err good0 hg hf1; split=> //.
rewrite -/(d_sum ps) v2R0 !Rplus_0_l in s1 s2.
apply: Rabs_le; rewrite /tol -uu_val Rmult_plus_distr_r Rmult_assoc -/a.
have haa' := haa; have hinv' := hinv.
clear hf hg hf1 g1 hk hk0 hN hka hs p2.
have m1 : rsum rs * (1 - a - uu) <= rsum rs * lo by apply: Rmult_le_compat_l.
have m2 : rsum rs * hi <= rsum rs * (1 + a + 11 / 10 * uu) by apply: Rmult_le_compat_l.
have m3 : rsum rs * (a + 11 / 10 * uu) <= 1 * (a + 11 / 10 * uu) by apply: Rmult_le_compat_r; lra.
have m4 : rsum rs * (a + uu) <= 1 * (a + uu) by apply: Rmult_le_compat_r; lra.
have t2 : total ps <= rsum rs + (a + 11 / 10 * uu) + / 1000 * uu by lra.
have t1 : rsum rs - (a + uu) - / 1000 * uu <= total ps by lra.
have t3 : total ps <= 1 + a + 2 * uu by lra.
have ua : uu * a <= uu * / 2147483648 by apply: Rmult_le_compat_l; lra.
have ua0 : 0 <= uu * a by apply: Rmult_le_pos; lra.
have aa0 : 0 <= a * a by apply: Rmult_le_pos; lra.
have m5 : a * total ps <= a * (1 + a + 2 * uu) by apply: Rmult_le_compat_l; lra.
have m6 : (a * a) * total ps <= (a * a) * (1 + a + 2 * uu) by apply: Rmult_le_compat_l; lra.
have m7 : (a * a) * (1 + a + 2 * uu) <= (a * a) * 2 by apply: Rmult_le_compat_l; lra.
split.
  have q2 : total ps * (1 - a) <= v2R (d_sum ps) by apply: Rle_trans s1; apply: Rmult_le_compat_l => //; lra.
  lra.
have q2 : v2R (d_sum ps) <= total ps * (1 + a + 2 * (a * a)) by apply: Rle_trans s2 _; apply: Rmult_le_compat_l => //; lra.
lra.
Qed.
End Near.

(** ** The table *)
Lemma F2_take (A B : Type) (P : A -> B -> Prop) k l1 l2 : List.Forall2 P l1 l2 -> List.Forall2 P (take k l1) (take k l2).
Proof. by move=> h; elim: h k => [|x y l1' l2' hP h IH] [|k] /=; constructor. Qed.
Lemma F2_size (A B : Type) (P : A -> B -> Prop) l1 l2 : List.Forall2 P l1 l2 -> size l1 = size l2.
Proof. by elim=> //= ? ? ? ? _ _ ->. Qed.
Lemma F2_map (A B C : Type) (P : B -> C -> Prop) (f : A -> B) (g : A -> C) l :
  (forall x, List.In x l -> P (f x) (g x)) -> List.Forall2 P [seq f x | x <- l] [seq g x | x <- l].
Proof.
elim: l => [|x l IH] /= h; first by constructor.
by constructor; [apply: h; left|apply: IH => y hy; apply: h; right].
Qed.
Lemma rsum_take_le rs k : (forall r, List.In r rs -> 0 <= r) -> rsum (take k rs) <= rsum rs.
Proof.
elim: rs k => [|x rs IH] [|k] h; rewrite /=; try lra.
  have hx : 0 <= x by apply: h; left.
  have := IH 0%N (fun r hr => h r (or_intror hr)); rewrite take0 /=; lra.
by have := IH k (fun r hr => h r (or_intror hr)); lra.
Qed.
Lemma F2_ge0 n rs ps : List.Forall2 (near n) rs ps -> forall r, List.In r rs -> 0 <= r.
Proof. by elim=> //= r p rs' ps' [h _ _] _ IH x [<- //|]; exact: IH. Qed.
(** numerical value of a double given by its digits *)
Lemma v2R_SF (x : double) s m e : B2SF x = SpecFloat.S754_finite s m e ->
  is_finite x = true /\ v2R x = F2R (Float radix2 (cond_Zopp s (Zpos m)) e).
Proof. by move=> h; rewrite -is_finite_SF_B2SF /v2R -SF2R_B2SF h. Qed.
Lemma low_limit : is_finite (dsub d1 dprec) = true /\ / 2 <= v2R (dsub d1 dprec) <= 1 - 0.000000000999.
Proof.
have [|f ->] := @v2R_SF (dsub d1 dprec) false 9007199245733793 (-53); first by vm_compute.
split; first exact: f.
by rewrite /F2R /=; lra.
Qed.
Lemma high_limit : is_finite (dadd d1 dprec) = true /\ 1 + 0.000000000999 <= v2R (dadd d1 dprec).
Proof.
have [|f ->] := @v2R_SF (dadd d1 dprec) false 4503599631874096 (-52); first by vm_compute.
split; first exact: f.
by rewrite /F2R /=; lra.
Qed.
Lemma tol_small n : few n -> 0 < tol n < 0.000000000999.
Proof. by move=> /fewP [h _]; have h0 := pos_INR n; rewrite /tol /=; lra. Qed.
Local Opaque d0 d1 dprec dlit dadd dsub dmul ddiv dle dlt.
Section Table.
Variables (n : nat) (rs : seq R) (ps : seq double).
Hypotheses (hn : few n) (hf : List.Forall2 (near n) rs ps) (hs : size ps = n) (hr : rsum rs <= 1).
Let c := d_prefix d0 ps.
Lemma entry k : (k <= n)%N -> good (nth d0 c k) /\ Rabs (v2R (nth d0 c k) - rsum (take k rs)) <= tol n.
Proof.
move=> hk; rewrite /c nth_prefix ?hs //; apply: fold_acc => //; first exact: F2_take.
- by rewrite size_takel ?hs.
- by apply: Rle_trans hr; apply: rsum_take_le; exact: F2_ge0 hf.
Qed.
Lemma entry_mono k : (k < n)%N -> v2R (nth d0 c k) <= v2R (nth d0 c k.+1).
Proof.
move=> hk; have [[f _] _] := entry hk; have [g1 _] := entry (ltnW hk).
move: f g1; rewrite /c !nth_prefix ?hs // ?(ltnW hk) //.
rewrite (take_nth d0) ?hs // -cats1 foldl_cat /= => f g.
have [_ hg _] := near_sum hf.
by apply: add_ge => //; apply: goods_nth; rewrite ?hs.
Qed.
End Table.

(** ** Normalisation *)
Lemma fold_mem v c x : good c -> goods v -> is_finite (foldl dadd c v) = true -> List.In x v ->
  v2R x <= v2R (foldl dadd c v).
Proof.
elim: v c => [|y v IH] c //= hc /goods_cons [hy hv] f; have f1 := fold_fin_inv hv f.
have [g1 g2 _] := fold_err (add_good hc hy f1) hv f.
case=> [<-|]; last exact: IH (add_good hc hy f1) hv f.
by have := add_ge2 hc hy f1; lra.
Qed.
Lemma sum_pos v : goods v -> is_finite (d_sum v) = true -> 0 < total v -> 0 < v2R (d_sum v).
Proof.
move=> hg f h; have [_ _ [h1 _]] := fold_err good0 hg f; rewrite v2R0 Rplus_0_l in h1.
by apply: Rlt_le_trans h1; apply: Rmult_lt_0_compat => //; case: (pow_le1 (size v)).
Qed.
Lemma sum_fin v : goods v -> few (size v) -> total v <= bpow radix2 1022 -> is_finite (d_sum v) = true.
Proof.
move=> hg hn h; apply: fold_fin => //; first exact: good0.
have [_ [h1 h2]] := fewP hn; rewrite v2R0 Rplus_0_l.
have -> : bpow radix2 1023 = bpow radix2 1022 * 2 by rewrite -[2]/(bpow radix2 1) -bpow_plus.
move: (bpow radix2 1022) h => B h.
apply: Rmult_le_compat => //; [exact: total_ge0|by have := pow_ge1 (size v); lra|].
apply: Rle_trans (pow_hi _) _; first lra.
by rewrite -[2]Rinv_inv; apply: Rinv_le_contravar; lra.
Qed.
Lemma div_near v x : goods v -> few (size v) -> is_finite (d_sum v) = true -> 0 < total v -> List.In x v ->
  near (size v) (v2R x / total v) (ddiv x (d_sum v)) /\ v2R (ddiv x (d_sum v)) <= 1.
Proof.
move=> hg hn f h hx; have [gs _ [s1 s2]] := fold_err good0 hg f; rewrite -/(d_sum v) v2R0 Rplus_0_l in gs s1 s2.
have hs := sum_pos hg f h; have gx := hg x hx.
have [g1 g2 [e1 e2]] := div_val gx gs hs (fold_mem good0 hg f hx); split=> //.
have hq : 0 <= v2R x / total v by apply: Rmult_le_pos; [case: gx|apply/Rlt_le/Rinv_0_lt_compat].
split=> //; have [_ ha] := fewP hn; have hu := uu_gt0; have hu1 : uu < 1 by rewrite uu_val /=; lra.
set a := INR (size v) * uu in ha *.
have p1 := pow_lo (size v); have p0 := pow_le1 (size v); have p2 := pow_ge1 (size v).
have p3 : (1 + uu) ^ size v <= / (1 - a) by apply: pow_hi; rewrite -/a; lra.
have b1 : v2R x / v2R (d_sum v) <= v2R x / total v * / (1 - a).
  rewrite /Rdiv Rmult_assoc; apply: Rmult_le_compat_l; first by case: gx.
  rewrite -Rinv_mult; apply: Rinv_le_contravar; first by apply: Rmult_lt_0_compat; lra.
  by apply: Rle_trans s1; apply: Rmult_le_compat_l; rewrite -/a in p1; lra.
have b2 : v2R x / total v * (1 - a) <= v2R x / v2R (d_sum v).
  rewrite /Rdiv Rmult_assoc; apply: Rmult_le_compat_l; first by case: gx.
  rewrite -[1 - a]Rinv_inv -Rinv_mult; apply: Rinv_le_contravar => //.
  by apply: Rle_trans s2 _; apply: Rmult_le_compat_l; lra.
rewrite /lo /hi -/a; split.
  apply: Rle_trans e1; apply: Rplus_le_compat_r; rewrite (Rmult_comm (1 - uu)) -Rmult_assoc.
  by apply: Rmult_le_compat_r; lra.
apply: Rle_trans e2 _; apply: Rplus_le_compat_r; rewrite (Rmult_comm (1 + uu)) -Rmult_assoc.
by apply: Rmult_le_compat_r; lra.
Qed.

(** ** Whole tables *)
Lemma total_map v s : rsum [seq v2R x / s | x <- v] = total v / s.
Proof. by rewrite /total; elim: v => [|x v IH] /=; [rewrite /Rdiv Rmult_0_l|rewrite IH /Rdiv; ring]. Qed.
Lemma cum_ok n rs ps : (0 < n)%N -> few n -> List.Forall2 (near n) rs ps -> size ps = n -> rsum rs = 1 ->
  let c := set_nth d0 (d_prefix d0 ps) n d1 in
  [/\ d_cum ps = Ok c, follows n (fun k => rsum (take k rs)) c & nth d0 c n = d1].
Proof.
move=> n0 hn hf hs hr c; have hr' : rsum rs <= 1 by lra.
have en := entry hn hf hs hr'; have mo := entry_mono hn hf hs hr'.
have [lf lv] := low_limit; have [hf' hv] := high_limit; have ht := tol_small hn.
have [gn en'] := en n (leqnn n); rewrite take_oversize ?hr in en'; last by rewrite (F2_size hf) hs.
have el : last d0 (d_prefix d0 ps) = nth d0 (d_prefix d0 ps) n by rewrite last_prefix (nth_prefix _ (eq_leq (esym hs))) -{1}hs take_size.
split; last by rewrite /c nth_set_nth /= eqxx.
  rewrite /d_cum el; move/Rabs_le_inv: en' => en'.
  move: (dsub d1 dprec) (dadd d1 dprec) lf lv hf' hv => A B lf lv hf' hv.
  have -> : dle A (nth d0 (d_prefix d0 ps) n) by apply/dleP; [exact: lf|by case: gn|lra].
  have -> /= : dle (nth d0 (d_prefix d0 ps) n) B by apply/dleP; [by case: gn|exact: hf'|lra].
  by rewrite /c -hs; apply: put_set_nth; rewrite size_prefix.
have {ht} h0 : 0 <= tol n by lra.
clear lf lv hf' hv gn en' el hr'; split.
- by rewrite /c size_set_nth size_prefix hs; apply/maxn_idPr.
- rewrite /c nth_set_nth /= eq_sym (gtn_eqF n0) (nth_prefix _ (leq0n _)) take0; exact: v2R0.
- move=> k hk; rewrite /c nth_set_nth /=; case: eqP => [->|_]; last exact: en.
  rewrite take_oversize ?(F2_size hf) ?hs // hr; split; first exact: good1.
  by rewrite v2R1 Rminus_eq_0 Rabs_R0.
- move=> k hk; rewrite /c !nth_set_nth /=; have /eqP hk1 : k != n by rewrite ltn_eqF // ltnW.
  have /negbTE -> : k.+1 != n by rewrite ltn_eqF.
  by case: eqP hk1 => // _ _; apply: mo; exact: ltnW.
Qed.
Lemma mapO_ok (A B : Type) (f : A -> outcome B) (g : A -> B) l : (forall x, List.In x l -> f x = Ok (g x)) ->
  mapO f l = Ok [seq g x | x <- l].
Proof.
elim: l => [|x l IH] //= h; rewrite h; last by left.
by rewrite /= IH // => y hy; apply: h; right.
Qed.
Lemma prob_ok x : good x -> d_prob x = Ok x.
Proof.
move=> [f h]; rewrite /d_prob f; have -> // : dle d0 x by apply/dleP.
Qed.
Lemma weight_ok x : good x -> d_weight x = Ok x.
Proof. by move=> [f h]; rewrite /d_weight; have -> // : dle d0 x by apply/dleP. Qed.

(** ** Equal entries *)
Local Transparent dlit.
Lemma dnat_val n : few n -> is_finite (dnat n) = true /\ v2R (dnat n) = INR n.
Proof.
rewrite /few => hn; have e : F2R (Float radix2 (Z.of_nat n) 0) = INR n by rewrite /F2R /= Rmult_1_r -INR_IZR_INZ.
have g : rnd (INR n) = INR n.
  apply: round_generic; apply: generic_format_FLT; exists (Float radix2 (Z.of_nat n) 0) => //.
  by rewrite /=; lia.
have := binary_normalize_correct 53 1024 _ _ mode_NE (Z.of_nat n) 0 false; cbv zeta.
rewrite -/(dlit (Z.of_nat n) 0) -/(dnat n) e -[round _ _ _ _]/(rnd (INR n)) g.
case: Rlt_bool_spec => [_ [h1 [h2 _]] //|]; rewrite Rabs_pos_eq; last exact: pos_INR.
have : INR n <= bpow radix2 22 by rewrite -IZR_Zpower // INR_IZR_INZ; apply: IZR_le.
have : bpow radix2 22 < bpow radix2 1024 by apply: bpow_lt.
by move: (bpow radix2 22) (bpow radix2 1024) => x y; lra.
Qed.
Lemma uniform_near n : (0 < n)%N -> few n -> near n (/ INR n) (ddiv d1 (dnat n)) /\ v2R (ddiv d1 (dnat n)) <= 1.
Proof.
move=> n0 hn; have [f e] := dnat_val hn; have h1 : 1 <= INR n by have := le_INR 1 n (elimT leP n0); rewrite /=.
have gn : good (dnat n) by split; [exact: f|rewrite e; lra].
have hp : 0 < v2R (dnat n) by rewrite e; lra.
have hle : v2R d1 <= v2R (dnat n) by rewrite e v2R1; lra.
have [g hl [e1 e2]] := div_val good1 gn hp hle.
split; last exact: hl.
have hq : 0 <= / INR n by apply/Rlt_le/Rinv_0_lt_compat; lra.
have hq2 : v2R d1 / v2R (dnat n) = / INR n by rewrite e v2R1 /Rdiv Rmult_1_l.
rewrite hq2 in e1 e2; have [_ ha] := fewP hn; have hu := uu_gt0; have hu1 : uu < 1 by rewrite uu_val /=; lra.
split=> //; split.
  apply: Rle_trans e1; apply: Rplus_le_compat_r; apply: Rmult_le_compat_l => //.
  rewrite /lo; nra.
apply: Rle_trans e2 _; apply: Rplus_le_compat_r; apply: Rmult_le_compat_l => //; rewrite /hi.
have : 1 <= / (1 - INR n * uu) by rewrite -Rinv_1; apply: Rinv_le_contravar; lra.
nra.
Qed.
Lemma F2_nseq (A B : Type) (P : A -> B -> Prop) n x y : P x y -> List.Forall2 P (nseq n x) (nseq n y).
Proof. by move=> h; elim: n => [|n IH] /=; constructor. Qed.
Lemma rsum_nseq n r : rsum (nseq n r) = INR n * r.
Proof. by elim: n => [|n IH]; [rewrite /=; lra|rewrite [nseq _ _]/= [rsum _]/= IH S_INR; lra]. Qed.

(** ** Searching a table *)
Lemma scan_ok n c u idx j : is_finite u = true -> (forall k, (k < size c)%N -> is_finite (nth d0 c k) = true) ->
  (j < size c)%N -> v2R u <= v2R (nth d0 c j) -> (idx + size c <= n.+1)%N ->
  exists i, [/\ (i <= j)%N, d_scan n u idx c = Ok (idx + i)%N, v2R u <= v2R (nth d0 c i) &
    forall k, (k < i)%N -> v2R (nth d0 c k) < v2R u].
Proof.
move=> fu; elim: c idx j => [|x c IH] idx j //= fc hj hle hs.
have fx : is_finite x = true := fc 0%N isT; have fc' k : (k < size c)%N -> is_finite (nth d0 c k) = true := fc k.+1.
case: (dltP fx fu) => hx; last by exists 0%N; split=> //; [rewrite addn0|rewrite /=; lra].
have -> /= : (idx <= n)%N by rewrite -ltnS; apply: leq_trans hs; rewrite addnS ltnS leq_addr.
case: j hj hle => [|j] hj hle; first by rewrite /= in hle; lra.
rewrite addnS -addSn in hs; have [i [h1 h2 h3 h4]] := IH idx.+1 j fc' hj hle hs.
by exists i.+1; split=> //; [rewrite h2 addSnnS|case=> //].
Qed.
Lemma div1 x : good x -> good (ddiv x d1) /\ v2R (ddiv x d1) = v2R x.
Proof.
move=> [f h]; have h1 : B2R d1 <> 0 by rewrite -/(v2R d1) v2R1; lra.
have e : rnd (v2R x / v2R d1) = v2R x by rewrite v2R1 /Rdiv Rinv_1 Rmult_1_r; apply: round_generic; exact: fmt.
have := Bdiv_correct 53 1024 _ _ mode_NE x d1 h1; rewrite -/(ddiv x d1) -/(v2R x) -/(v2R d1).
rewrite -[round _ _ _ _]/(rnd (v2R x / v2R d1)) e; case: Rlt_bool_spec => [_ [e1 [f1 _]]|].
  by rewrite /good f1 /v2R e1.
by rewrite Rabs_pos_eq // => h2; have := abs_B2R_lt_emax _ _ x; rewrite -/(v2R x) Rabs_pos_eq //; lra.
Qed.
Lemma div0 x s : good x -> v2R x = 0 -> v2R s <> 0 -> v2R (ddiv x s) = 0.
Proof.
move=> [f h] e hs; have := Bdiv_correct 53 1024 _ _ mode_NE x s hs; rewrite -/(ddiv x s) -/(v2R x) -/(v2R s) e.
have -> : round radix2 (SpecFloat.fexp 53 1024) (round_mode mode_NE) (0 / v2R s) = 0.
  by rewrite /Rdiv Rmult_0_l round_0.
case: Rlt_bool_spec => [_ [h1 _] //|]; rewrite Rabs_R0; have := bpow_gt_0 radix2 1024; lra.
Qed.
Lemma add0 c x : good c -> good x -> is_finite (dadd c x) = true -> v2R x = 0 -> v2R (dadd c x) = v2R c.
Proof. by move=> hc hx f e; rewrite addE // e Rplus_0_r; apply: round_generic; exact: fmt. Qed.

(** ** Changing one entry *)
Local Transparent dsub dmul.
Lemma sub1 x : good x -> v2R x <= 1 ->
  good (dsub d1 x) /\ (1 - v2R x) * (1 - uu) <= v2R (dsub d1 x) <= (1 - v2R x) * (1 + uu).
Proof.
move=> [fx hx] h1; have [f1 _] := good1.
have fo : generic_format radix2 (FLT_exp (-1074) 53) (- v2R x) by apply: generic_format_opp; exact: fmt.
have [eps [h e]] := FLT_plus_error_N_ex radix2 (-1074) 53 (fun z => negb (Z.even z)) _ _ (fmt d1) fo.
have h2 : Rabs eps <= uu.
  apply: Rle_trans h _; rewrite -[u_ro _ _]/uu; have := uu_gt0 => h0.
  apply: (Rmult_le_reg_r (1 + uu)); first by lra.
  rewrite /Rdiv Rmult_assoc Rinv_l; [nra|lra].
have hr : 0 <= rnd (1 - v2R x) <= 1.
  split; first by apply: rnd_ge0; lra.
  by apply: round_le_generic; [rewrite -v2R1; exact: fmt|lra].
rewrite v2R1 -[1 + - v2R x]/(1 - v2R x) in e.
have := Bminus_correct 53 1024 _ _ mode_NE d1 x f1 fx; rewrite -/(dsub d1 x) -/(v2R x) -/(v2R d1) v2R1.
rewrite -[round _ _ _ _]/(rnd (1 - v2R x)); case: Rlt_bool_spec => [_ [e1 [f2 _]]|]; last first.
  rewrite Rabs_pos_eq; last lra.
  have : bpow radix2 0 < bpow radix2 1024 by apply: bpow_lt.
  rewrite [bpow _ 0]/=; lra.
rewrite /good f2 /v2R e1; split; first by split=> //; lra.
have hq : 0 <= 1 - v2R x by lra.
rewrite e; move/Rabs_le_inv: h2; move: (1 - v2R x) hq => q hq h2; nra.
Qed.
Lemma div_gen x s : good x -> good s -> 0 < v2R s -> v2R x / v2R s <= bpow radix2 1000 ->
  good (ddiv x s) /\ v2R x / v2R s * (1 - uu) - ee <= v2R (ddiv x s) <= v2R x / v2R s * (1 + uu) + ee.
Proof.
move=> [fx hx] [fs hs] h0 hle.
have hq : 0 <= v2R x / v2R s by apply: Rmult_le_pos => //; apply/Rlt_le/Rinv_0_lt_compat.
have hr : 0 <= rnd (v2R x / v2R s) <= bpow radix2 1000.
  split; first by apply: rnd_ge0.
  by apply: round_le_generic => //; apply: generic_format_bpow; rewrite /FLT_exp; lia.
have hne : B2R s <> 0 by rewrite -/(v2R s); lra.
have := Bdiv_correct 53 1024 _ _ mode_NE x s hne; rewrite -/(ddiv x s) -/(v2R x) -/(v2R s).
rewrite -[round _ _ _ _]/(rnd (v2R x / v2R s)); case: Rlt_bool_spec => [_ [e [f _]]|]; last first.
  rewrite Rabs_pos_eq; last by case: hr.
  have hb : bpow radix2 1000 < bpow radix2 1024 by apply: bpow_lt.
  by move=> h; exfalso; case: hr => _ hr; apply: (Rlt_irrefl (bpow radix2 1024)); apply: Rle_lt_trans h _; apply: Rle_lt_trans hr _.
have [eps [eta [h1 [h2 [_ h3]]]]] := error_N_FLT radix2 (-1074) 53 (erefl _ : (0 < 53)%Z) (fun z => negb (Z.even z)) (v2R x / v2R s).
rewrite /good f /v2R e; split; first by split=> //; case: hr.
rewrite h3; move/Rabs_le_inv: h1; move/Rabs_le_inv: h2; rewrite -/ee -/uu; clear hle hr.
by move: (v2R x / v2R s) hq => q hq h1 h2; nra.
Qed.
Lemma mul_gen x y : good x -> good y -> v2R x * v2R y <= bpow radix2 1000 ->
  good (dmul x y) /\ v2R x * v2R y * (1 - uu) - ee <= v2R (dmul x y) <= v2R x * v2R y * (1 + uu) + ee.
Proof.
move=> [fx hx] [fy hy] hle.
have hq : 0 <= v2R x * v2R y by apply: Rmult_le_pos.
have hr : 0 <= rnd (v2R x * v2R y) <= bpow radix2 1000.
  split; first by apply: rnd_ge0.
  by apply: round_le_generic => //; apply: generic_format_bpow; rewrite /FLT_exp; lia.
have := Bmult_correct 53 1024 _ _ mode_NE x y; rewrite -/(dmul x y) -/(v2R x) -/(v2R y).
rewrite -[round _ _ _ _]/(rnd (v2R x * v2R y)); case: Rlt_bool_spec => [_ [e [f _]]|]; last first.
  rewrite Rabs_pos_eq; last by case: hr.
  have hb : bpow radix2 1000 < bpow radix2 1024 by apply: bpow_lt.
  by move=> h; exfalso; case: hr => _ hr; apply: (Rlt_irrefl (bpow radix2 1024)); apply: Rle_lt_trans h _; apply: Rle_lt_trans hr _.
have [eps [eta [h1 [h2 [_ h3]]]]] := error_N_FLT radix2 (-1074) 53 (erefl _ : (0 < 53)%Z) (fun z => negb (Z.even z)) (v2R x * v2R y).
rewrite /good f fx fy /v2R e; split; first by split=> //; case: hr.
rewrite h3; move/Rabs_le_inv: h1; move/Rabs_le_inv: h2; rewrite -/ee -/uu; clear hle hr.
by move: (v2R x * v2R y) hq => q hq h1 h2; nra.
Qed.
(** a product of numbers of [0,1] is at most each factor *)
Lemma mul_le x y : good x -> good y -> v2R x <= 1 -> v2R y <= 1 ->
  [/\ good (dmul x y), v2R (dmul x y) <= v2R y &
      v2R x * v2R y * (1 - uu) - ee <= v2R (dmul x y) <= v2R x * v2R y * (1 + uu) + ee].
Proof.
move=> gx gy x1 y1; have [fx x0] := gx; have [fy y0] := gy.
have p1 : v2R x * v2R y <= v2R y by have := Rmult_le_compat_r _ _ _ y0 x1; lra.
have b : v2R x * v2R y <= bpow radix2 1000.
  by apply: Rle_trans p1 _; apply: Rle_trans y1 _; apply: (@bpow_le radix2 0 1000); lia.
have [g e] := mul_gen gx gy b; split=> //.
have hr : 0 <= rnd (v2R x * v2R y) <= v2R y.
  split; first by apply: rnd_ge0; exact: Rmult_le_pos.
  by apply: round_le_generic => //; exact: fmt.
have := Bmult_correct 53 1024 _ _ mode_NE x y; rewrite -/(dmul x y) -/(v2R x) -/(v2R y).
rewrite -[round _ _ _ _]/(rnd (v2R x * v2R y)); case: Rlt_bool_spec => [_ [e1 _]|]; first by rewrite {1}/v2R e1; case: hr.
rewrite Rabs_pos_eq; last by case: hr.
have := bpow_lt radix2 0 1024; rewrite -[bpow radix2 0]/1; move: (bpow _ _) => B hB hh; exfalso.
have : 1 < B by apply: hB; lia.
lra.
Qed.
Local Opaque dsub dmul.
Lemma total_cons x v : total (x :: v) = v2R x + total v. Proof. by []. Qed.
Lemma upd_sum (q : double -> double) l h ps i a : (i < size ps)%N ->
  (forall x, List.In x ps -> v2R x * l - ee <= v2R (q x) <= v2R x * h + ee) ->
  (total ps - v2R (nth d0 ps i)) * l - INR (size ps) * ee <=
  total (set_nth d0 [seq q x | x <- ps] i a) - v2R a <= (total ps - v2R (nth d0 ps i)) * h + INR (size ps) * ee.
Proof.
have := ee_gt0 => e0; elim: ps i => [|x ps IH] i // hi hq.
have hx : v2R x * l - ee <= v2R (q x) <= v2R x * h + ee by apply: hq; left.
have hq' y : List.In y ps -> v2R y * l - ee <= v2R (q y) <= v2R y * h + ee by move=> hy; apply: hq; right.
rewrite [size _]/= S_INR; case: i hi => [|i] hi; last first.
  have := IH i hi hq'; rewrite [map _ (x :: ps)]/= [nth _ (x :: ps) _]/= [set_nth _ (q x :: _) _ _]/= !total_cons => h1.
  lra.
rewrite [map _ (x :: ps)]/= [nth _ (x :: ps) _]/= [set_nth _ (q x :: _) _ _]/= !total_cons; suff : total ps * l - INR (size ps) * ee <= total [seq q y | y <- ps] <= total ps * h + INR (size ps) * ee by lra.
elim: ps hq' {IH hq hi} => [|y ps IH] hq; first by rewrite /total /=; lra.
have hy : v2R y * l - ee <= v2R (q y) <= v2R y * h + ee by apply: hq; left.
have := IH (fun z hz => hq z (or_intror hz)); rewrite [map _ (y :: ps)]/= [size (y :: ps)]/= S_INR !total_cons; lra.
Qed.
