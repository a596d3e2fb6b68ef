(** * C107: how often each number is drawn over all outputs of the 32-bit generator *)
From Coq Require Import ZArith Reals Lra Lia.
From Flocq Require Import Core.Core BinarySingleNaN.
From mathcomp Require Import all_ssreflect.
From Verif Require Import Outcome ModelDouble SpecDouble SpecDoubleHist ProofsDouble PropertiesDouble PropertiesDoubleHist.
From Verif Require Import ModelDoubleFreq SpecDoubleFreq ProofsDoubleFreq.
Set Implicit Arguments. Unset Strict Implicit. Unset Printing Implicit Defensive.
Local Open Scope R_scope.
Local Opaque d0 d1 dprec dlit dadd dsub dmul ddiv dle dlt bpow IZR draws.

(** ** Shares *)
Lemma share0 v : share v 0 = 0. Proof. by rewrite /share take0 /total /=; rewrite /Rdiv Rmult_0_l. Qed.
Lemma share1 v : 0 < total v -> share v (size v) = 1. Proof. by move=> h; rewrite /share take_size; field; lra. Qed.
Lemma total_rcons v x : total (rcons v x) = total v + v2R x.
Proof. by rewrite /total; elim: v => [|y v IH] /=; [lra|rewrite IH; lra]. Qed.
Lemma shareS v s : (s < size v)%N -> 0 < total v -> share v s.+1 - share v s = exact v s.
Proof. by move=> hs h; rewrite /share /exact (take_nth d0 hs) total_rcons; field; lra. Qed.
Lemma share_mono v : goods v -> 0 < total v -> forall k, (k < size v)%N -> share v k <= share v k.+1.
Proof.
move=> hg h k hk; have := shareS hk h; have : 0 <= exact v k; last lra.
apply: Rmult_le_pos; last by apply: Rlt_le; apply: Rinv_0_lt_compat.
by have [] := hg _ (nth_In d0 hk).
Qed.
Lemma uniform_mono n : (0 < n)%N -> forall k, (k < n)%N -> INR k / INR n <= INR k.+1 / INR n.
Proof.
move=> n0 k _; apply: Rmult_le_compat_r; last by rewrite S_INR; lra.
by apply: Rlt_le; apply: Rinv_0_lt_compat; apply: lt_0_INR; apply/ltP.
Qed.
Lemma u32_pos k : (0 < k)%N -> (Z.of_nat k < 2 ^ 32)%Z -> is_finite (u32 k) = true /\ 0 < v2R (u32 k) <= 1 - / IZR (2 ^ 32).
Proof.
move=> k0 hk; have [f ->] := u32_val hk; split; first exact: f.
have W0 : 0 < / IZR (2 ^ 32) by apply: Rinv_0_lt_compat; apply: IZR_lt.
have W1 : IZR (2 ^ 32) * / IZR (2 ^ 32) = 1 by apply: Rinv_r; apply: not_0_IZR.
have h1 : 1 <= INR k by have := le_INR 1 k (elimT leP k0).
have h2 : INR k <= IZR (2 ^ 32) - 1 by rewrite INR_Z -minus_IZR; apply: IZR_le; lia.
split; first by apply: Rmult_lt_0_compat; [lra|exact: W0].
have := Rmult_le_compat_r _ _ _ (Rlt_le _ _ W0) h2; rewrite Rmult_minus_distr_r W1; lra.
Qed.
Lemma u32_zero : is_finite (u32 0) = true /\ v2R (u32 0) = 0.
Proof. have [|f ->] := @u32_val 0; first by clear; lia. by split; [exact: f|rewrite /= Rmult_0_l]. Qed.

Lemma scan_lt n u idx rest i : d_scan n u idx rest = Ok i -> (i < idx + size rest)%N.
Proof.
elim: rest idx => [//|c rest IH] idx /=; case: (dlt c u); last by case=> <-; rewrite addnS ltnS leq_addr.
by case: (idx <= n)%N => //= /IH; rewrite addSnnS.
Qed.
(** ** Discrete pdf *)
Lemma disc_share d n ex : size (dd_v d) = n -> follows n ex (dd_c d) -> nth d0 (dd_c d) n = d1 ->
  0 <= ex 0%N -> ex n <= 1 -> (forall k, (k < n)%N -> ex k <= ex k.+1) ->
  forall s, (s < n)%N -> in_share n (ex s.+1 - ex s) (times (fun u => got_state (d_sample d u)) s).
Proof.
move=> hs hf hl h0 h1 hm; apply: times_share; [exact: h0|exact: h1|exact: hm| |].
  by have [f z] := u32_zero; rewrite (C80_zero hs hf f z).
move=> k k0 hk; have [f [u0 u1]] := u32_pos k0 hk.
have W0 : 0 < / IZR (2 ^ 32) by apply: Rinv_0_lt_compat; apply: IZR_lt.
have [|s [e a b c]] := C80_sample hs hf hl f; first by split; [exact: u0|lra].
by exists s; rewrite e; split; [exact: erefl|split; [exact: a|split; [exact: b|exact: c]]].
Qed.
(** after [ProbabilitiesSet(v)]: state [s] is drawn as often as its share of [v] says *)
Theorem C107_discrete d v d' : size v = size (dd_v d) -> few (size v) -> goods v -> 0 < total v <= bpow radix2 1022 ->
  d_set_all d v = Ok (true, d') -> forall s, (s < size v)%N ->
  in_share (size v) (exact v s) (times (fun u => got_state (d_sample d' u)) s).
Proof.
move=> hs hn hg ht e s hk; have [d2 [e2 z _ f l]] := C79_set hs hn hg ht; have [t0 _] := ht.
have ed : d2 = d' by move: e2; rewrite e => -[]. subst d2; rewrite -(shareS hk t0).
apply: (disc_share z f l); [by rewrite share0; lra|by rewrite (share1 t0); lra|exact: share_mono|exact: hk].
Qed.
(** a new pdf *)
Theorem C107_new n d : (0 < n)%N -> few n -> d_new n = Ok d -> forall s, (s < n)%N ->
  in_share n (/ INR n) (times (fun u => got_state (d_sample d u)) s).
Proof.
move=> n0 hn e s hs; have [d2 [e2 v _ f l]] := C79_new n0 hn.
have ed : d2 = d by move: e2; rewrite e => -[]. subst d2.
have hN : 0 < INR n by apply: lt_0_INR; apply/ltP.
have -> : / INR n = INR s.+1 / INR n - INR s / INR n by rewrite S_INR; field; lra.
have z : size (dd_v d) = n by rewrite v size_nseq.
apply: (disc_share z f l); [by rewrite /Rdiv /= Rmult_0_l; lra|by rewrite /Rdiv Rinv_r; lra|exact: uniform_mono|exact: hs].
Qed.
(** the average of a function of the state over all draws *)
Theorem C107_average d v d' g G : size v = size (dd_v d) -> few (size v) -> goods v -> 0 < total v <= bpow radix2 1022 ->
  d_set_all d v = Ok (true, d') -> (forall s, (s < size v)%N -> Rabs (g s) <= G) ->
  Rabs (average (fun u => got_state (d_sample d' u)) g - over (size v) (fun s => exact v s * g s)) <=
  INR (size v) * G * (1 + (INR (size v) + 1) / IZR (2 ^ 19)) / IZR (2 ^ 32).
Proof.
move=> hs hn hg ht e hG; apply: times_average; [|exact: C107_discrete hs hn hg ht e|exact: hG].
have [d2 [e2 z _ [f1 _ _ _] _]] := C79_set hs hn hg ht.
have ed : d2 = d' by move: e2; rewrite e => -[]. subst d2.
move=> u s; rewrite /d_sample; case es: (d_scan _ _ _ _) => [[|i]| |] //= [<-].
by have := scan_lt es; rewrite f1 ltnS.
Qed.
(** with fewer than 2^20 states a state of probability 0 is never drawn *)
Theorem C107_never d v d' s : size v = size (dd_v d) -> (Z.of_nat (size v) < 2 ^ 20)%Z -> goods v -> 0 < total v <= bpow radix2 1022 ->
  d_set_all d v = Ok (true, d') -> v2R (nth d0 v s) = 0 -> times (fun u => got_state (d_sample d' u)) s = 0%N.
Proof.
move=> hs hn hg ht e hz; have hn' : few (size v) by rewrite /few; lia.
apply: times_never => k hk.
have [d2 [e2 z _ f l]] := C79_set hs hn' hg ht.
have ed : d2 = d' by move: e2; rewrite e => -[]. subst d2.
case: (posnP k) => [->|k0].
  by have [fu zu] := u32_zero; rewrite (C80_zero z f fu zu).
have [fu [u0 u1]] := u32_pos k0 hk.
have hN : INR (size v) <= 1048575 by rewrite INR_Z; apply: IZR_le; lia.
have hu : 0 < v2R (u32 k) <= 1 - tol (size v).
  split; first exact: u0.
  apply: Rle_trans u1 _; rewrite /tol; have -> : IZR (2 ^ 53) = 9007199254740992 by []. have -> : IZR (2 ^ 32) = 4294967296 by []. lra.
move=> eg; case es: (d_sample d' (u32 k)) eg => [[t|]| |] eg; [|discriminate eg|discriminate eg|discriminate eg].
case: eg => et; subst t.
by have := C80_support hs hn' hg ht e fu hu es; rewrite hz; lra.
Qed.

(** ** Particles *)
Lemma part_share d n ex : (Z.of_nat n < 2 ^ 20)%Z -> size (dm_w d) = n -> follows n ex (dm_c d) -> ex n = 1 ->
  0 <= ex 0%N -> (forall k, (k < n)%N -> ex k <= ex k.+1) ->
  forall s, (s < n)%N -> in_share n (ex s.+1 - ex s) (times (fun u => got (m_sample d u)) s).
Proof.
move=> hn hs hf hl h0 hm; apply: times_share; [exact: h0|by rewrite hl; lra|exact: hm| |].
  have [f z] := u32_zero; case: hf => f1 f2 f3 _; rewrite /m_sample; case: (dm_c d) f1 f2 f3 => [//|x c] f1 f2 f3 /=.
  by have [[fx _] _] := f3 0%N (leq0n _); rewrite /= in f2; case: dltP => //=; lra.
move=> k k0 hk; have [f [u0 u1]] := u32_pos k0 hk.
have hN : INR n <= 1048575 by rewrite INR_Z; apply: IZR_le; lia.
have hu : 0 < v2R (u32 k) <= 1 - tol n.
  split; first exact: u0.
  apply: Rle_trans u1 _; rewrite /tol; have -> : IZR (2 ^ 53) = 9007199254740992 by []. have -> : IZR (2 ^ 32) = 4294967296 by []. lra.
have [s [e a b c]] := C81_sample hs hf hl f hu.
by exists s; rewrite e; split; [exact: erefl|split; [exact: a|split; [exact: b|exact: c]]].
Qed.
(** after [ListOfSamplesUpdate] with weights [w] *)
Theorem C107_particles d w d' : size w = size (dm_w d) -> (Z.of_nat (size w) < 2 ^ 20)%Z -> goods w ->
  0 < total w <= bpow radix2 1022 -> m_update d w = Ok (true, d') -> forall s, (s < size w)%N ->
  in_share (size w) (exact w s) (times (fun u => got (m_sample d' u)) s).
Proof.
move=> hs hn hg ht e s hk; have hn' : few (size w) by rewrite /few; lia.
have [d2 [e2 z f]] := C81_update hs hn' hg ht; have [t0 _] := ht.
have ed : d2 = d' by move: e2; rewrite e => -[]. subst d2; rewrite -(shareS hk t0).
by apply: (part_share hn z f); [exact: share1|rewrite share0; lra|exact: share_mono|exact: hk].
Qed.
(** equal weights *)
Theorem C107_equal n d : (0 < n)%N -> (Z.of_nat n < 2 ^ 20)%Z -> m_set n = Ok (true, d) -> forall s, (s < n)%N ->
  in_share n (/ INR n) (times (fun u => got (m_sample d u)) s).
Proof.
move=> n0 hn e s hs; have hn' : few n by rewrite /few; lia.
have [d2 [e2 z f]] := C81_set n0 hn'; have ed : d2 = d by move: e2; rewrite e => -[]. subst d2.
have hN : 0 < INR n by apply: lt_0_INR; apply/ltP.
have -> : / INR n = INR s.+1 / INR n - INR s / INR n by rewrite S_INR; field; lra.
by apply: (part_share hn z f); [rewrite /Rdiv Rinv_r; lra|rewrite /Rdiv /= Rmult_0_l; lra|exact: uniform_mono|exact: hs].
Qed.

(** ** Conditional table *)
Lemma c_sample_eq row : few (size row) -> goods row -> 0 < total row <= bpow radix2 1022 ->
  exists d, d_set_all (DDisc row [::]) row = Ok (true, d) /\ forall u, c_sample row u = d_sample d u.
Proof.
move=> hn hg ht; have [d [e z _ _ _]] := C79_set (erefl : size row = size (dd_v (DDisc row [::]))) hn hg ht.
exists d; split; first exact: e.
have [_ hN] := norm_ok hn hg ht; move: e; rewrite /d_set_all eqxx [guard _]/= [obind (Ok _) _]/= hN [obind (Ok _) _]/= /c_sample.
case: (d_cum _) => [c| |] //= [ed]; subst d => u; by rewrite /d_sample /= size_map.
Qed.
Theorem C107_conditional row s : few (size row) -> goods row -> 0 < total row <= bpow radix2 1022 -> (s < size row)%N ->
  in_share (size row) (exact row s) (times (fun u => got_state (c_sample row u)) s).
Proof.
move=> hn hg ht hs; have [d [e h]] := c_sample_eq hn hg ht.
have -> : times (fun u => got_state (c_sample row u)) s = times (fun u => got_state (d_sample d u)) s.
  by rewrite /times; apply: eq_count => u; rewrite h.
exact: (C107_discrete (erefl : size row = size (dd_v (DDisc row [::]))) hn hg ht e).
Qed.
(** a row of zeros: the assertion fails *)
Lemma zero_form (x : double) : good x -> v2R x = 0 -> exists b, x = B754_zero b.
Proof.
case: x => [b|b| |b m e h] [f _] hz; [by exists b|discriminate f|discriminate f|].
by have := eq_0_F2R radix2 _ _ hz; case: (b).
Qed.
Local Transparent ddiv dadd.
Lemma div_zeros (x y : double) : good x -> good y -> v2R x = 0 -> v2R y = 0 -> ddiv x y = B754_nan.
Proof. by move=> gx gy hx hy; have [b ->] := zero_form gx hx; have [c ->] := zero_form gy hy. Qed.
Lemma add_nan (x : double) : dadd B754_nan x = B754_nan. Proof. by []. Qed.
Lemma add_nan' (x : double) : dadd x B754_nan = B754_nan. Proof. by case: x. Qed.
Lemma fold_nan v : foldl dadd B754_nan v = B754_nan.
Proof. by elim: v => [//|x v IH]; exact: IH. Qed.
Local Opaque ddiv dadd.
Theorem C107_zero_row row u : (0 < size row)%N -> goods row -> total row = 0 -> c_sample row u = Abort.
Proof.
case: row => [//|x row] _ hg hz; have gx : good x by apply: hg; left.
have gr : goods row by move=> y hy; apply: hg; right.
have [tr hx] : 0 <= total row /\ v2R x = 0.
  have := total_ge0 gr; rewrite total_cons in hz; case: gx => _ h; lra.
have [f vz] : good (d_sum (x :: row)) /\ v2R (d_sum (x :: row)) = 0.
  have hz' : (v2R d0 + total (x :: row)) * (1 + uu) ^ size (x :: row) = 0 by rewrite v2R0 hz; ring.
  have f : is_finite (d_sum (x :: row)) = true.
    by apply: (fold_fin good0 hg); rewrite hz'; exact: bpow_ge_0.
  have [g _ [_ s1]] := fold_err good0 hg f; rewrite hz' -/(d_sum (x :: row)) in s1.
  by split; [exact: g|case: g => _ g; rewrite -/(d_sum (x :: row)) in g; lra].
rewrite /c_sample; move: (d_sum _) f vz => z gz vz; rewrite /d_cum last_prefix [map _ _]/= (div_zeros gx gz hx vz).
rewrite [foldl _ _ _]/= add_nan' fold_nan.
by have -> : dle (dsub d1 dprec) B754_nan = false by case: (dsub d1 dprec).
Qed.

(** ** Mixture: component sampled by [SampleFrom] after [WeightsSet(w)] *)
Theorem C107_mixture d w d' : size w = size (dd_v d) -> few (size w) -> goods w -> 0 < total w <= bpow radix2 1022 ->
  x_set d w = Ok (true, d') -> forall s, (s < size w)%N ->
  in_share (size w) (exact w s) (times (fun u => got (x_sample d' u)) s).
Proof.
move=> hs hn hg ht e s hk.
have -> : times (fun u => got (x_sample d' u)) s = times (fun u => got_state (d_sample d' u)) s.
  rewrite /times; apply: eq_count => u; rewrite /x_sample /d_sample; by case: (d_scan _ _ _ _) => [[|i]| |].
exact: (C107_discrete hs hn hg ht e).
Qed.

(** ** A case: three states with weights 1, 2, 1 *)
Definition quarters : seq double := [:: d1; dlit 2 0; d1].
Local Transparent bpow IZR.
Lemma two_val : good (dlit 2 0) /\ v2R (dlit 2 0) = 2.
Proof.
have [|f v] := @v2R_SF (dlit 2 0) false 4503599627370496 (-51); first by vm_compute.
have e : v2R (dlit 2 0) = 2 by rewrite v /F2R /=; lra.
by split; [split; [exact: f|rewrite e; lra]|exact: e].
Qed.
Local Opaque bpow IZR.
Example C107_case : exists d, d_set_all (DDisc quarters [::]) quarters = Ok (true, d) /\
  Rabs (INR (times (fun u => got_state (d_sample d u)) 1) - 2147483648) <= 2.
Proof.
have [g2 v2] := two_val.
have gq : goods quarters by move=> x [<-|[<-|[<-|[]]]]; [exact: good1|exact: g2|exact: good1].
have tq : total quarters = 4 by rewrite /quarters !total_cons v2R1 v2 /total /=; lra.
have fq : few (size quarters) by rewrite /few /=; lia.
have ht : 0 < total quarters <= bpow radix2 1022.
  by rewrite tq; split; [lra|apply: Rle_trans (_ : bpow radix2 2 <= _); [rewrite -IZR_Zpower //=; lra|apply: bpow_le; lia]].
have es : size quarters = size (dd_v (DDisc quarters [::])) by [].
have [d [e _ _ _ _]] := C79_set es fq gq ht; exists d; split; first exact: e.
have := C107_discrete es fq gq ht e (isT : (1 < size quarters)%N).
rewrite /in_share /exact tq [nth _ _ _]/= v2 [size _]/= => h.
apply: Rle_trans (_ : 1 + (INR 3 + 1) / IZR (2 ^ 19) <= _); last first.
  have -> : IZR (2 ^ 19) = 524288 by []. by rewrite /=; lra.
have e4 : IZR (2 ^ 32) * (2 / 4) = 2147483648 by have -> : IZR (2 ^ 32) = 4294967296 by []; field.
by rewrite e4 in h; exact: h.
Qed.
Print Assumptions C107_discrete.
Print Assumptions C107_new.
Print Assumptions C107_average.
Print Assumptions C107_never.
Print Assumptions C107_particles.
Print Assumptions C107_equal.
Print Assumptions C107_conditional.
Print Assumptions C107_zero_row.
Print Assumptions C107_mixture.
