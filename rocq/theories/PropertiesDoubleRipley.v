(** * C83 for the draws of the 32-bit generator: the ordered uniforms do not underflow *)
From Coq Require Import ZArith Reals Lra Lia.
From Flocq Require Import Core.Core BinarySingleNaN.
From mathcomp Require Import all_ssreflect.
From Verif Require Import Outcome ModelDouble SpecDouble ProofsDouble PropertiesDouble PropertiesDoubleBatch.
Set Implicit Arguments. Unset Strict Implicit. Unset Printing Implicit Defensive.
Local Open Scope R_scope.

Fixpoint harm (n : nat) : R := if n is m.+1 then harm m + / INR m.+1 else 0.
Lemma harm_ln n : (0 < n)%N -> harm n <= 1 + ln (INR n).
Proof.
case: n => // n _; elim: n => [|n IH]; first by rewrite /= ln_1; lra.
have eh : harm n.+2 = harm n.+1 + / INR n.+2 by [].
rewrite {}eh; move: (harm n.+1) IH => H IH.
have h1 : 0 < INR n.+1 by apply: lt_0_INR; lia.
have h2 : 0 < INR n.+2 by apply: lt_0_INR; lia.
have e : INR n.+2 = INR n.+1 + 1 by rewrite (S_INR n.+1).
have i2 : 0 < / INR n.+2 by exact: Rinv_0_lt_compat.
suff : / INR n.+2 <= ln (INR n.+2) - ln (INR n.+1) by lra.
have -> : ln (INR n.+2) - ln (INR n.+1) = - ln (INR n.+1 * / INR n.+2) by rewrite ln_mult // ln_Rinv //; lra.
have hq : 0 < INR n.+1 * / INR n.+2 by apply: Rmult_lt_0_compat.
have hle : INR n.+1 * / INR n.+2 <= exp (- / INR n.+2).
  apply: Rle_trans (exp_ineq1_le _); have -> : INR n.+1 = INR n.+2 - 1 by lra.
  by rewrite Rmult_minus_distr_r Rinv_r; lra.
case: hle => [h|->]; last by rewrite ln_exp; lra.
by have := ln_increasing _ _ hq h; rewrite ln_exp; lra.
Qed.
Lemma few_ln n : (0 < n)%N -> few n -> ln (INR n) <= 22 * ln 2.
Proof.
move=> n0 hn; have [h _] := fewP hn; have h1 : 0 < INR n by apply: lt_0_INR; apply/ltP.
have -> : 22 * ln 2 = ln 4194304.
  have -> : 4194304 = 2 ^ 22 by rewrite /=; lra.
  rewrite ln_pow; last lra.
  by congr Rmult; rewrite /=; lra.
case: h => [h|->]; last lra.
by apply: Rlt_le; apply: ln_increasing.
Qed.
Lemma ln2 : / 2 < ln 2 < 1.
Proof.
split; first exact: ln_lt_2.
apply: exp_lt_inv; rewrite exp_ln; last lra.
by have := exp_ineq1 1; lra.
Qed.
Lemma root_low k r : (0 < k)%N -> 0 < r -> / 4294967296 <= r ^ k <= 1 -> exp (- (32 * ln 2) * / INR k) <= r /\ / 4294967296 <= r <= 1.
Proof.
move=> k0 r0 [h h1]; have hk : 0 < INR k by apply: lt_0_INR; apply/ltP.
have r1 : r <= 1.
  case: (Rle_lt_dec r 1) => // hr; exfalso.
  have := poly k (r - 1); rewrite (_ : 1 + (r - 1) = r); last lra.
  by move=> /(_ ltac:(lra)); nra.
have rr : r ^ k <= r.
  case: k k0 {h h1 hk} => // k _; rewrite /=; have : r ^ k <= 1.
    by rewrite -(pow1 k); apply: pow_incr; lra.
  by nra.
split; last lra.
rewrite -(exp_ln _ r0); case: (Rle_lt_dec (- (32 * ln 2) * / INR k) (ln r)) => [[hh|->]|hh]; [by apply/Rlt_le/exp_increasing|lra|exfalso].
have h2 : INR k * ln r < - (32 * ln 2).
  by have := Rmult_lt_compat_l _ _ _ hk hh; rewrite [_ * / INR k]Rmult_comm -Rmult_assoc Rinv_r; lra.
have h3 : ln (r ^ k) = INR k * ln r by rewrite ln_pow.
have h4 : - (32 * ln 2) = ln (/ 4294967296).
  rewrite ln_Rinv; last lra.
  have -> : 4294967296 = 2 ^ 32 by rewrite /=; lra.
  rewrite ln_pow; last lra.
  by congr Ropp; congr Rmult; rewrite /=; lra.
rewrite -h3 h4 in h2; have hp : 0 < r ^ k by exact: pow_lt.
have hq : 0 < / 4294967296 by lra.
by have := ln_lt_inv _ _ hp hq h2; lra.
Qed.
Lemma factor_low r x : / 4294967296 <= r -> r - / 1125899906842624 <= x -> r * exp (- / 131072) <= x.
Proof.
move=> h1 h2; have e1 : exp (- / 131072) <= 1 - / 262144.
  rewrite exp_Ropp; have : 1 + / 131072 <= exp (/ 131072) by exact: exp_ineq1_le.
  move=> h; apply: Rle_trans (_ : / (1 + / 131072) <= _); last lra.
  by apply: Rinv_le_contravar => //; lra.
have e0 := exp_pos (- / 131072).
have : r * exp (- / 131072) <= r * (1 - / 262144) by apply: Rmult_le_compat_l; lra.
lra.
Qed.
Lemma draw_val u : draw32 u -> is_finite u = true /\ / 4294967296 <= v2R u <= 1 - / 4294967296.
Proof.
move=> [k [-> hk]]; have e : F2R (Float radix2 k (-32)) = IZR k * / 4294967296 by [].
have hk' : 1 <= IZR k <= 4294967295 by split; apply: IZR_le; lia.
have g : round radix2 (FLT_exp (-1074) 53) ZnearestE (IZR k * / 4294967296) = IZR k * / 4294967296.
  by apply: round_generic; apply: generic_format_FLT; exists (Float radix2 k (-32)) => //=; lia.
have := binary_normalize_correct 53 1024 prec53 emax1024 mode_NE k (-32) false; cbv zeta.
rewrite -/(dlit k (-32)) e -[round _ _ _ _]/(round radix2 (FLT_exp (-1074) 53) ZnearestE (IZR k * / 4294967296)) g.
case: Rlt_bool_spec => [_ [e1 [f1 _]]|]; first by split; [exact: f1|rewrite /v2R e1; lra].
have hb : 1 < bpow radix2 1024 by apply: (@bpow_lt radix2 0 1024).
rewrite Rabs_pos_eq; move: (bpow _ _) hb => b; lra.
Qed.
Local Opaque d0 d1 dprec dlit dadd dsub dmul ddiv dle dlt bpow.
Section Draws.
Variables (root : double -> nat -> double) (us : seq double).
Hypotheses (hr : roots root) (h1 : below1 root) (hd : forall u, List.In u us -> draw32 u).
Lemma one_low u k : List.In u us -> (0 < k)%N -> good (root u k) /\ exp (- (32 * ln 2) * / INR k - / 131072) <= v2R (root u k) <= 1.
Proof.
move=> hu k0; have [f hv] := draw_val (hd hu).
have [fr [r [r0 rk /Rabs_le_inv ra]]] := hr f ltac:(lra) k0.
have [l1 l2] := @root_low k r k0 r0 ltac:(rewrite rk; lra).
have ra' : r - / 1125899906842624 <= v2R (root u k) by move: ra; rewrite /=; lra.
have := factor_low (proj1 l2) ra' => fl.
have e : exp (- (32 * ln 2) * / INR k - / 131072) <= v2R (root u k).
  by apply: Rle_trans fl; rewrite /Rminus exp_plus; apply: Rmult_le_compat_r l1; exact/Rlt_le/exp_pos.
split; last by split=> //; apply: h1 => //; lra.
by split=> //; apply: Rle_trans e; exact/Rlt_le/exp_pos.
Qed.
Lemma draws_sane : sane root us.
Proof. by move=> u k hu k0; have [g [l h]] := one_low hu k0; split=> //; split=> //; apply: Rlt_le_trans l; exact: exp_pos. Qed.
Lemma ordered_low i : exp (- (32 * ln 2) * (harm (i + size us) - harm i) - INR (size us) * / 131072) <= head 1 (ordered root us i).
Proof.
have hlow := one_low; elim: us hlow i => [|u vs IH] hlow i.
  by rewrite [head _ _]/= addn0 Rminus_eq_0 Rmult_0_r Rmult_0_l Rminus_eq_0 exp_0; lra.
rewrite [ordered _ _ _]/= [head _ (_ :: _)]/= [size _]/= addnS -addSn S_INR.
have [_ [l _]] := hlow u i.+1 (or_introl erefl) isT.
have l2 := IH (fun v k hv => hlow v k (or_intror hv)) i.+1.
have -> : - (32 * ln 2) * (harm (i.+1 + size vs) - harm i) - (INR (size vs) + 1) * / 131072 =
  (- (32 * ln 2) * / INR i.+1 - / 131072) + (- (32 * ln 2) * (harm (i.+1 + size vs) - harm i.+1) - INR (size vs) * / 131072).
  have eh : harm i.+1 = harm i + / INR i.+1 by [].
  by rewrite eh; ring.
rewrite exp_plus; apply: Rmult_le_compat => //; exact/Rlt_le/exp_pos.
Qed.
Lemma no_underflow : us <> [::] -> few (size us) -> bpow radix2 (-1000) <= head 1 (ordered root us 0).
Proof.
move=> nn hn; apply: Rle_trans (ordered_low 0).
have n0 : (0 < size us)%N by case: (us) nn.
have hh := harm_ln n0; have hl := few_ln n0 hn; have [hN _] := fewP hn; have [a b] := ln2.
have -> : bpow radix2 (-1000) = exp (- (1000 * ln 2)).
  rewrite bpow_powerRZ /powerRZ -[Pos.to_nat 1000]/1000%N -Rpower_pow; last by rewrite /=; lra.
  by rewrite /Rpower exp_Ropp; congr (/ exp (_ * _)); rewrite ?INR_IZR_INZ.
rewrite add0n /= Rminus_0_r; set X := _ - _.
suff h : - (1000 * ln 2) <= X by case: h => [h|->]; [apply/Rlt_le/exp_increasing|lra].
have q : ln 2 * harm (size us) <= ln 2 * (1 + 22 * ln 2) by apply: Rmult_le_compat_l; lra.
rewrite /X; move: (ln 2) (harm _) (INR _) a b q hN => L H N a b q hN; nra.
Qed.
End Draws.

(** DiscretePdf: every batch of up to 2^22 draws is sampled correctly. *)
Theorem C83_discrete32 root d n ex us : size (dd_v d) = n -> follows n ex (dd_c d) -> nth d0 (dd_c d) n = d1 ->
  us <> [::] -> few (size us) -> roots root -> below1 root -> (forall u, List.In u us -> draw32 u) ->
  let w := 2 * INR (size us) * / IZR (2 ^ 53) in
  exists l, [/\ d_samples root d us = Ok [seq Some s | s <- l], sorted leq l &
    List.Forall2 (fun x s => (s < n)%N /\ ex s - tol n - w < x <= ex s.+1 + tol n + w) (ordered root us 0) l].
Proof.
move=> hs hf hl nn hn hr h1 hd; apply: C83_discrete => //; [exact: draws_sane|exact: no_underflow].
Qed.
(** Particle sets: safe as long as (number of samples) * (2 * particles + 10) is at most
    2^21, e.g. 1000 samples from 1000 particles. *)
Lemma last_low k r u : (0 < k)%N -> 0 < r -> r ^ k = u -> u <= 1 - / 4294967296 -> INR k * (1 - r) >= / 4294967296.
Proof.
move=> k0 r0 hr hu; case: (Rle_lt_dec r 1) => h1; last first.
  by have := poly k (r - 1); rewrite (_ : 1 + (r - 1) = r); [move=> /(_ ltac:(lra)); have := pos_INR k; nra|lra].
suff : 1 - INR k * (1 - r) <= r ^ k by rewrite hr; lra.
clear hr k0; elim: k => [|k IH]; first by rewrite /=; lra.
rewrite S_INR [r ^ _]/=; have hk := pos_INR k.
apply: Rle_trans (_ : r * (1 - INR k * (1 - r)) <= _); last by apply: Rmult_le_compat_l; lra.
have : 0 <= INR k * ((1 - r) * (1 - r)) by apply: Rmult_le_pos => //; apply: Rmult_le_pos; lra.
lra.
Qed.
Theorem C83_particles32 root d n ex us : size (dm_w d) = n -> follows n ex (dm_c d) -> ex n = 1 ->
  us <> [::] -> few (size us) -> roots root -> below1 root -> (forall u, List.In u us -> draw32 u) ->
  (Z.of_nat (size us) * (2 * Z.of_nat n + 10) <= 2 ^ 21)%Z ->
  let w := 2 * INR (size us) * / IZR (2 ^ 53) in
  exists l, [/\ m_samples root d us = Ok l, sorted leq l &
    List.Forall2 (fun x s => (s < n)%N /\ ex s - tol n - w < x <= ex s.+1 + tol n + w) (ordered root us 0) l].
Proof.
move=> hs hf hl nn hn hr h1 hd hz; apply: C83_particles => //; [exact: draws_sane|exact: no_underflow|].
have n0 : (0 < size us)%N by case: (us) nn.
have hin : List.In (last d0 us) us by case: (us) nn => // u vs _; elim: vs u => [|v vs IH] u /=; [left|right; exact: IH].
have [f hv] := draw_val (hd _ hin).
have [fr [r [r0 rk /Rabs_le_inv ra]]] := hr _ _ f ltac:(lra) n0.
have := last_low n0 r0 rk (proj2 hv) => hk.
have hN : 0 < INR (size us) by apply: lt_0_INR; apply/ltP.
have hz' : INR (size us) * (2 * INR n + 10) <= 2097152.
  by rewrite !INR_IZR_INZ -mult_IZR -plus_IZR -mult_IZR; apply: IZR_le.
have hp := pos_INR n.
suff : tol n + / 1125899906842624 <= 1 - r by move: ra; rewrite /=; lra.
apply: (Rmult_le_reg_l _ _ _ hN); apply: Rle_trans (Rge_le _ _ hk).
have -> : INR (size us) * (tol n + / 1125899906842624) = INR (size us) * (2 * INR n + 10) * / 9007199254740992.
  have e8 : / 1125899906842624 = 8 * / 9007199254740992 by lra.
  by rewrite /tol -[IZR (2 ^ 53)]/9007199254740992 e8; ring.
lra.
Qed.
Lemma some_below1 : below1 some_root.
Proof.
move=> u k f hu k0; have [fr [r [r0 rk /Rabs_le_inv ra]]] := roots_exist f hu k0.
have hk : 1 <= INR k by have := le_INR 1 k (elimT leP k0).
have r1 : Rpower (v2R u) (/ INR k) <= 1.
  rewrite /Rpower -exp_0; have : ln (v2R u) <= 0.
    by rewrite -ln_1; case: hu => h0 [h|->]; [apply/Rlt_le/ln_increasing|lra].
  move=> h; have hi : 0 < / INR k by apply: Rinv_0_lt_compat; lra.
  have : / INR k * ln (v2R u) <= 0 by nra.
  by case=> [h2|->]; [apply/Rlt_le/exp_increasing|lra].
rewrite /some_root; set z := ZnearestE _.
have p0 : 0 < Rpower (v2R u) (/ INR k) by exact: exp_pos.
have hz : Rabs (Rpower (v2R u) (/ INR k) * IZR (2 ^ 53) - IZR z) <= / 2 by exact: Znearest_half.
have hz' : (0 <= z <= 2 ^ 53)%Z.
  move/Rabs_le_inv: hz; rewrite /= => hz; split.
    by apply: (Z.lt_succ_r 0 z).1; apply: lt_IZR; rewrite succ_IZR; lra.
  by apply: (Z.lt_succ_r z _).1; apply: lt_IZR; rewrite succ_IZR /=; lra.
have [_ ->] := lit53 hz'; have : IZR z <= IZR (2 ^ 53) by apply: IZR_le; lia.
by rewrite /=; lra.
Qed.
(** Resampling up to 1000 equally weighted particles never leaves the table (10000 can:
    [C83_overrun]). *)
Theorem C83_thousand root n us : roots root -> below1 root -> (0 < n)%N -> (Z.of_nat n <= 1000)%Z -> size us = n ->
  (forall u, List.In u us -> draw32 u) ->
  exists d l, [/\ m_set n = Ok (true, d), m_samples root d us = Ok l, sorted leq l & size l = n].
Proof.
move=> hr h1 n0 hn hs hd; have fw : few n by rewrite /few; lia.
have [d [k1 k2 k3]] := C81_set n0 fw.
have e1 : INR n / INR n = 1 by apply: Rinv_r; apply: not_0_INR; apply/eqP; rewrite -lt0n.
have nn : us <> [::] by move=> e; move: n0; rewrite -hs e.
rewrite -hs in fw; have hz : (Z.of_nat (size us) * (2 * Z.of_nat n + 10) <= 2 ^ 21)%Z by rewrite hs; nia.
have [l [l1 l2 l3]] := C83_particles32 k2 k3 e1 nn fw hr h1 hd hz.
exists d, l; split; [exact: k1|exact: l1|exact: l2|].
have eo i : size (ordered root us i) = size us.
  by clear; elim: us i => [|u us IH] i //=; rewrite IH.
rewrite -hs -(eo 0%N); clear -l3.
by elim: l3 => // a b c e _ _ /= ->.
Qed.
(** A first draw of 0 is fatal for a particle set, and gives the value -1 (no state) for
    a DiscretePdf. *)
Lemma mul0 x y : is_finite x = true -> v2R x = 0 -> is_finite y = true -> is_finite (dmul x y) = true /\ v2R (dmul x y) = 0.
Proof.
move=> fx x0 fy; have := Bmult_correct 53 1024 prec53 emax1024 mode_NE x y.
rewrite -/(v2R x) x0 Rmult_0_l round_0 Rabs_R0 Rlt_bool_true; last exact: bpow_gt_0.
by move=> [e [f _]]; split; [rewrite f fx fy|exact: e].
Qed.
Lemma ripley_zero root u us : is_finite (root u 1%N) = true -> v2R (root u 1%N) = 0 ->
  is_finite (head d1 (d_ripley root us 1)) = true ->
  exists x l, [/\ d_ripley root (u :: us) 0 = x :: l, is_finite x = true & v2R x = 0].
Proof.
move=> f e fh; case: us fh => [|v us] fh; first by exists (root u 1%N), [::]; split; [|exact: f|exact: e].
have [|f2 e2] := @mul0 (root u 1%N) (head d0 (d_ripley root (v :: us) 1)) f e.
  by move: fh; case: (us).
eexists _, _; split; [exact: erefl|exact: f2|exact: e2].
Qed.
Theorem C83_zero root n ex u us : is_finite (root u 1%N) = true -> v2R (root u 1%N) = 0 ->
  is_finite (head d1 (d_ripley root us 1)) = true ->
  (forall d, follows n ex (dm_c d) -> forall l, m_samples root d (u :: us) <> Ok l) /\
  (forall d, follows n ex (dd_c d) -> forall l, d_samples root d (u :: us) = Ok l -> head (Some 0%N) l = None).
Proof.
move=> f e fh; have [x [l' [hx fx ex0]]] := ripley_zero f e fh.
have scan c m : follows n ex c -> d_scan_many m (x :: l') 0 c = let! l := d_scan_many m l' 0 c in Ok (0%N :: l).
  case=> e1 e2 e3 _; case: c e1 e2 e3 => [//|y c] e1 e2 e3; rewrite [d_scan_many _ _ _ _]/=.
  have [[fy _] _] := e3 0%N (leq0n _); have -> : dlt y x = false.
    by apply/dltP; [exact: fy|exact: fx|move: e2; rewrite /= ex0 => ->; lra].
  by [].
split=> d hd l; rewrite /m_samples /d_samples hx (scan _ _ hd); case: (d_scan_many _ _ _ _) => [k| |] //=.
by case=> <-.
Qed.
(** Concrete case: 1000 draws of 1 - 2^-32, with a root that meets the hypotheses. *)
Definition n1k : nat := Z.to_nat 1000.
Example C83_thousand_example : exists d l, [/\ m_set n1k = Ok (true, d),
  m_samples some_root d (nseq n1k top32) = Ok l, sorted leq l & size l = n1k].
Proof.
have hz : Z.of_nat n1k = 1000%Z by rewrite /n1k Z2Nat.id.
have n0 : (0 < n1k)%N by apply/ltP; move: hz; move: n1k => k hk; lia.
move: n1k hz n0 => n hz n0.
apply: C83_thousand => //; [exact: roots_exist|exact: some_below1|lia|by rewrite size_nseq|].
move=> u hu; rewrite (In_nseq hu); exists (2 ^ 32 - 1)%Z; split; [exact: erefl|clear; lia].
Qed.
Example C83_discrete32_example : exists d l, [/\ d_set_all (blank 3) three = Ok (true, d),
  d_samples some_root d [:: top32; top32; half] = Ok [seq Some s | s <- l] & sorted leq l].
Proof.
have [hg ht hF] := three_vals; have b8 := big8.
have hp : 0 < total three <= bpow radix2 1022 by rewrite ht; split; [lra|exact: b8].
have [d [h1 h2 h3 h4 h5]] := C79_set (erefl : size three = size (dd_v (blank 3))) hF hg hp.
have fw : few (size [:: top32; top32; half]) by rewrite /few /=; lia.
have top : draw32 top32 by exists (2 ^ 32 - 1)%Z; split; [exact: erefl|clear; lia].
have hd u : List.In u [:: top32; top32; half] -> draw32 u.
  move=> [<-|[<-|[<-|[]]]]; [exact: top|exact: top|].
  exists (2 ^ 31)%Z; split; last by clear; lia.
  by apply: B2SF_inj; vm_compute.
have [|l [k1 k2 k3]] := C83_discrete32 h2 h4 h5 _ fw roots_exist some_below1 hd; first discriminate.
by exists d, l; split; [exact: h1|exact: k1|exact: k2].
Qed.
(** Concrete case: draws 0 and 1/2 from 3 particles. *)
Lemma zero_draw : is_finite d0 = true /\ v2R d0 = 0.
Proof. by split; [vm_compute|exact: v2R0]. Qed.
Example C83_zero_example d : follows 3 (fun k => INR k / INR 3) (dm_c d) -> forall l, m_samples sq_root d [:: d0; half] <> Ok l.
Proof.
have [f v] := zero_draw; have [[fh _] _] := half_vals.
have [h _] := @C83_zero sq_root 3 (fun k => INR k / INR 3) d0 [:: half] f v fh; exact: h.
Qed.
Print Assumptions C83_discrete32.
Print Assumptions C83_particles32.
Print Assumptions C83_thousand.
Print Assumptions C83_zero.
