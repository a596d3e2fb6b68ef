(** * The singular value decomposition as a whole (lemmas for C86) *)
From mathcomp Require Import all_ssreflect all_algebra.
From mathcomp Require Import ring zify.
From Verif Require Import OrdLra Outcome ModelSVD SpecSVD ProofsSVD ProofsSVDBid ProofsSVDAcc ProofsSVDRot ProofsSVDIter ProofsSVDSweep.
Set Implicit Arguments. Unset Strict Implicit. Unset Printing Implicit Defensive.
Import Order.TTheory GRing.Theory Num.Theory.
Local Open Scope ring_scope.

Section Run.
Variables (R : rcfType) (m n : nat) (eqv : R -> R -> bool) (tol anorm : R).
Variables (U0 : 'M[R]_(m, n)) (V0 B0 : 'M[R]_n).
Implicit Types (F G U V : arr2 R) (w rv : arr1 R) (st : sstate R).
Hypothesis tol0 : 0 <= tol.
Hypothesis an0 : 0 <= anorm.
Hypothesis hB0 : bb anorm (2%:R * anorm) B0.
Hypothesis eqv_refl : eqv anorm anorm.
Hypothesis eqv_close : close_le eqv tol.
Notation rep := (rep tol anorm U0 V0 B0).

Definition sinv k N st : Prop :=
  [/\ rep N (s_U st) (s_V st) (bid (s_w st) (cut k (s_rv st))), s_rv st 1%N = 0 & forall l, (k < l <= n)%N -> 0 <= s_w st l].

(** after the cancellation *)
Lemma settleP k N st flag p : (0 < k <= n)%N -> sinv k N st -> N.+1%:R * tol < 2%:R^-1 ->
  (0 < p <= k)%N -> (forall l, (p < l <= k)%N -> s_rv st l != 0 /\ s_w st l.-1 != 0) ->
  (if flag then (1 < p)%N /\ eqv (`|s_w st p.-1 + anorm|) anorm else eqv (`|s_rv st p| + anorm) anorm) ->
  let: (w, rv, U) := if flag then cancel eqv anorm p.-1 (iota p (k.+1 - p)) 0 1 (s_w st) (s_rv st) (s_U st)
                     else (s_w st, s_rv st, s_U st) in
  [/\ rep (N + 3) U (s_V st) (bid w (cut k (set1 rv p 0))), rv 1%N = 0,
   forall l, (k < l)%N -> w l = s_w st l,
   forall l, (p <= l < k)%N -> w l != 0 & forall l, (p < l <= k)%N -> rv l != 0].
Proof.
case: st => w rv U V /= hk [/= hr r1 wp] hN hp hnz.
have wn l : (p <= l < k)%N -> w l != 0 by move=> hl; have [|_] := hnz l.+1 => //; clear -hl; lia.
have rn l : (p < l <= k)%N -> rv l != 0 by move=> /hnz [].
case: flag => [[p1 hw]|hw]; last first.
  split=> //; case: (leqP p 1) => hp1.
    apply: (rep_mono tol0 an0 (leq_addr 3 N)); apply: rep_ext hr => a l ha hl; rewrite /bid /cut /set1.
    case: (a =P l) => // _; case: (a.+1 =P l) => // al; case: ifP => // _; rewrite ifN_eq //; clear -al hp1 hp ha; lia.
  apply: (rep_mono tol0 an0 (_ : (N.+1 <= _)%N)); first by clear; lia.
  have i1 : (0 < p.-1 <= n)%N by clear -hp hk hp1; lia.
  have i2 : (0 < p <= n)%N by clear -hp hk; lia.
  apply: (rep_drop tol0 an0 eqv_refl i1 i2) hr.
    move=> a l ha hl nal; rewrite /bid /cut /set1; case: (a =P l) => // _; case: (a.+1 =P l) => // al; case: ifP => // _; rewrite ifN_eq //; clear -al nal hp1 ha; lia.
  rewrite /bid /cut /set1; have -> : (p.-1 == p) = false by clear -hp1; lia.
  have -> : (p.-1.+1 == p) by clear -hp1; lia.
  have -> : (p <= k)%N by clear -hp; lia.
  by rewrite eqxx subr0; exact: neg_rv hw.
set nm := p.-1; have nm0 : (0 < nm)%N by rewrite /nm; clear -p1; lia.
have nmp : (nm < p)%N by rewrite /nm; clear -p1; lia.
have kn : (k <= n)%N by clear -hk; lia.
have nmn : (0 < nm <= n)%N by clear -hp nm0 nmp kn; lia.
have pk : (p <= k)%N by clear -hp; lia.
have wt : `|w nm| <= tol * anorm.
  apply: (neg_w tol0 an0 eqv_close hN) hw.
  by have := rep_entry tol0 an0 hB0 eqv_refl nmn nmn hr; rewrite /bid eqxx.
have hr1 : rep N.+1 U V (Fc nm k p (1 * rv p) w (set1 rv p (0 * rv p))).
  apply: (rep_drop tol0 an0 eqv_refl nmn nmn) hr => //; last first.
    by rewrite /Fc /bid !eqxx ltn_eqF //= subr0.
  move=> a l ha hl nal; rewrite /Fc /bid /cut /set1 mul1r; case: (a =P nm) => an.
    have -> : (a == l) = false by apply/negP => /eqP e; move: nal; rewrite -e an !eqxx.
    have -> : (a.+1 == l) = (l == p) by rewrite an /nm prednK ?(ltnW p1) // eq_sym.
    by case: (l =P p) => [->|_] //=; rewrite pk.
  case: (a =P l) => // _; case: (a.+1 =P l) => // al; case: ifP => // _; rewrite ifN_eq //; apply/eqP => e; apply: an.
  by rewrite /nm -e -al.
have hlen : (p + (k.+1 - p) = k.+1)%N by rewrite subnKC // leqW.
have := cancelP tol0 an0 eqv_refl eqv_close kn nm0 hlen nmp hr1 wn rn.
case: (cancel _ _ _ _ _ _ _ _ _) => [[w' rv'] U'] [q1 q2 q3 q4 q5].
have rp : rv' p = 0 by rewrite q3 // mul0r.
split=> //.
- have -> : (N + 3 = N.+3)%N by rewrite addn3.
  apply: (rep_drop tol0 an0 eqv_refl nmn nmn) q1 => //; last first.
    have [|ew _] := q2 nm; first by rewrite nmp.
    by rewrite /Fc /bid !eqxx ltnn andbF sub0r normrN ew.
  move=> a l ha hl nal; rewrite /Fc /bid /cut /set1; case: (a =P nm) => an.
    have -> : (a == l) = false by apply/negP => /eqP e; move: nal; rewrite -e an !eqxx.
    have -> : (a.+1 == l) = (l == p) by rewrite an /nm prednK ?(ltnW p1) // eq_sym.
    by rewrite ltnn andbF; case: (l =P p) => [->|_] //=; rewrite if_same.
  case: (a =P l) => // _; case: (a.+1 =P l) => // al; case: ifP => // _; case: eqP => // ->.
  by rewrite rp.
- by have [|_ ->] := q2 1%N; rewrite ?p1.
- by move=> l hl; have [|-> _] := q2 l; rewrite ?hl ?orbT.
Qed.

Lemma convergeP k N st p w rv U : (0 < k <= n)%N -> sinv k N st -> p = k ->
  rep (N + 3) U (s_V st) (bid w (cut k (set1 rv p 0))) -> rv 1%N = 0 -> (forall l, (k < l)%N -> w l = s_w st l) ->
  exists b st', [/\ (if w k < 0 then Ok (true, SState (set1 w k (- w k)) rv U (fun i l => if l == k then - s_V st i l else s_V st i l))
    else Ok (true, SState w rv U (s_V st))) = Ok (b, st'), exists F, rep (N + 3) (s_U st') (s_V st') F & b -> sinv k.-1 (N + 3) st'].
Proof.
move=> hk [_ _ wp] -> h1 h2 h3.
have pos w' : (forall l, (k < l)%N -> w' l = w l) -> 0 <= w' k -> forall l, (k.-1 < l <= n)%N -> 0 <= w' l.
  move=> hw h0 l hl; have : (k < l)%N || (l == k) by clear -hl hk; lia.
  by case/orP => [kl|/eqP -> //]; rewrite hw // h3 // wp // kl; clear -hl; lia.
have hc l : cut k (set1 rv k 0) l = cut k.-1 rv l :> R.
  rewrite /cut /set1; have : (l == k) || (l <= k.-1)%N || (k < l)%N by clear; lia.
  by case/orP => [/orP [/eqP ->|hl]|hl]; bdec.
case: ltP => wk; last first.
  exists true, (SState w rv U (s_V st)); split=> //; first by exists (bid w (cut k (set1 rv k 0))).
  by move=> _; split=> //=; [apply: rep_ext h1 => a l _ _; rewrite /bid hc|exact: pos].
exists true, (SState (set1 w k (- w k)) rv U (negc k (s_V st))); have h4 := rep_neg k h1.
split=> //; first by exists (negc k (bid w (cut k (set1 rv k 0)))).
move=> _; split=> //=.
- apply: rep_ext h4 => a l ha hl; rewrite /negc /bid hc //; case: (l =P k) => [->|lk].
    case: (a =P k) => [_|_]; first by rewrite /set1 eqxx.
    by rewrite /cut; bdec; rewrite !if_same oppr0.
  by rewrite {1}/set1; have -> : (l == k) = false by apply/eqP.
- by apply: pos => [l hl|]; rewrite /set1 ?eqxx ?oppr_ge0 ?ltW // ifN_eq //; clear -hl; lia.
Qed.

Lemma iterateP k left : (0 < k <= n)%N -> forall N st, sinv k N st -> (N + 3 * left.+1)%:R * tol < 2%:R^-1 ->
  exists b st', [/\ iterate eqv anorm k left st = Ok (b, st'), exists F, rep (N + 3 * left.+1) (s_U st') (s_V st') F &
    b -> sinv k.-1 (N + 3 * left.+1) st'].
Proof.
move=> hk; elim: left => [|left ih] N st hs hN.
all: have k0 : (0 < k)%N by clear -hk; lia.
all: have hN1 : N.+1%:R * tol < 2%:R^-1 by apply: le_lt_trans hN; apply: ler_wpmul2r => //; rewrite ler_nat; clear; lia.
all: have [flag [p [e1 e2 e3 e4]]] := split_spec tol0 an0 eqv_refl (s_w st) k0 (let: And3 _ h _ := hs in h).
all: rewrite /= e1 /=.
all: have := settleP hk hs hN1 e2 e3 e4.
all: case: (if flag then _ else _) => [[w rv] U] [h1 h2 h3 h4 h5].
all: have [_ _ wp] := hs.
- case: (p =P k) => [pk|pk]; last first.
    by exists false, (SState w rv U (s_V st)); split=> //; exists (bid w (cut k (set1 rv p 0))).
  rewrite muln1; exact: (convergeP hk hs pk h1 h2 h3).
- case: (p =P k) => [pk|pk].
    have [b [st' [-> [F hF] hb]]] := convergeP hk hs pk h1 h2 h3; exists b, st'; split=> //.
      by exists F; apply: (rep_mono tol0 an0) hF; clear; lia.
    move=> /hb [q1 q2 q3]; split=> //; apply: (rep_mono tol0 an0) q1; clear; lia.
  have pk1 : (0 < p < k)%N by clear -e2 pk; lia.
  have kn : (k <= n)%N by clear -hk; lia.
  have p0 : (0 < p)%N by clear -pk1; lia.
  have hlen : (p + (k - p) = k)%N by rewrite subnKC //; clear -pk1; lia.
  have hF : rep (N + 3) U (s_V st) (Fs p k p 1 1 (shift p k w rv) (w p) w rv).
    by apply: rep_ext h1 => a l /andP [a0 _] /andP [l0 _]; rewrite Fs_init.
  have hw l : (p < l < k)%N -> w l != 0 by move=> hl; apply: h4; clear -hl; lia.
  have := sweepP kn p0 hlen (leqnn p) (fun _ => oner_neq0 _) hF hw h5.
  case: (sweep _ _ _ _ _ _ _ _ _) => [[[[[f x] w'] rv'] U'] V'] [[c' [s' q1]] q2].
  have [||b [st' [-> hF' hb]]] := ih (N + 3)%N (SState (set1 w' k x) (set1 (set1 rv' p 0) k f) U' V').
  + split=> /=.
    * by apply: rep_ext q1 => a l /andP [a0 _] /andP [l0 _]; rewrite Fs_end.
    * rewrite /set1 ltn_eqF; last by clear -pk1; lia.
      case: ifP => // p1; have [|_ ->] := q2 1%N => //; clear -p1 p0; lia.
    * move=> l hl; have lk : (l == k) = false by clear -hl; lia.
      have [|e _] := q2 l; first by clear -hl; lia.
      by rewrite /set1 lk e h3 ?wp //; clear -hl; lia.
  + by have -> : (N + 3 + 3 * left.+1 = N + 3 * left.+2)%N by clear; lia.
  have e : (N + 3 + 3 * left.+1 = N + 3 * left.+2)%N by clear; lia.
  by exists b, st'; split=> //; rewrite -e.
Qed.

Lemma diag_cons k ks st : diagonalise eqv anorm (k :: ks) st =
  let! r := iterate eqv anorm k max_iter.-1 st in if r.1 then diagonalise eqv anorm ks r.2 else Ok r.
Proof. by []. Qed.
Lemma diagonaliseP k : (k <= n)%N -> forall N st, sinv k N st -> (N + 3 * (max_iter * k))%:R * tol < 2%:R^-1 ->
  exists b st', [/\ diagonalise eqv anorm (rev (iota 1 k)) st = Ok (b, st'),
    exists F, rep (N + 3 * (max_iter * k)) (s_U st') (s_V st') F &
    b -> sinv 0 (N + 3 * (max_iter * k)) st'].
Proof.
elim: k => [|k ih] hk N st hs hN.
  by exists true, st; rewrite muln0 addn0; split=> //; case: hs => h _ _; exists (bid (s_w st) (cut 0 (s_rv st))).
rewrite rev_iotaS diag_cons.
have e : max_iter.-1.+1 = max_iter by [].
have e2 : (N + 3 * max_iter + 3 * (max_iter * k) = N + 3 * (max_iter * k.+1))%N by rewrite mulnS; clear; lia.
have [||b [st' [-> hF hb]]] := @iterateP k.+1 max_iter.-1 _ N st hs.
- by rewrite hk.
- apply: le_lt_trans hN; apply: ler_wpmul2r => //; rewrite ler_nat e -e2; clear; lia.
rewrite e in hF hb; case: b hb => hb; rewrite {1}/obind [fst _]/= [snd _]/=.
  have [||b [st2 [-> hF2 hb2]]] := ih _ (N + 3 * max_iter)%N st' (hb isT); [exact: ltnW|by rewrite e2|].
  by exists b, st2; split=> //; rewrite -e2.
exists false, st'; split=> //; case: hF => F hF; exists F; apply: (rep_mono tol0 an0) hF; rewrite -e2; clear; lia.
Qed.
End Run.
