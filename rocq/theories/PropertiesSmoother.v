(** * Properties of the smoothers (C53-C55) *)
From mathcomp Require Import all_ssreflect all_algebra.
From mathcomp Require Import ring zify.
From Verif Require Import Outcome OrdLra SpecProb SpecMatrix ModelMatrix ProofsMatrix ModelFilter ProofsFilter ModelKalman SpecKalman
  ProofsKalman ModelSmoother SpecSmoother ProofsSmoother.
Set Implicit Arguments. Unset Strict Implicit. Unset Printing Implicit Defensive.
Import Order.TTheory GRing.Theory Num.Theory.
Local Open Scope ring_scope.

Lemma runO_cat Op S (step : S -> Op -> outcome (bool * S)) ops1 ops2 s fl1 s1 :
  runO step s ops1 = Ok (fl1, s1) ->
  runO step s (ops1 ++ ops2) = let! r := runO step s1 ops2 in Ok (fl1 ++ r.1, r.2).
Proof.
elim: ops1 s fl1 s1 => [|o ops1 IH] s fl1 s1 /=; first by case=> <- <-; case: (runO _ _ _) => //= -[].
case: (step s o) => //= -[b s'] /=; case e: (runO step s' ops1) => [[fl2 s2]| |] //= [<- <-].
by rewrite (IH _ _ _ e); case: (runO _ _ _).
Qed.

Lemma runO1 Op S (step : S -> Op -> outcome (bool * S)) s o b s' :
  step s o = Ok (b, s') -> runO step s [:: o] = Ok ([:: b], s').
Proof. by move=> /= ->. Qed.

Section RTS.
Variables (R : realFieldType) (U : Type) (n : nat).
Implicit Types (g s : gauss R n) (i : info R n) (hf : heap (gauss R n) * filt unit) (fp : nat) (u : option U).

Lemma rts_one hf (a : asys R U n) u fp s g s' : f_post hf = Ok s -> h_get hf.1 fp = Ok g ->
  rts_sys a u s g = Ok s' ->
  exists hf', [/\ rts_call hf (back_call a u fp) = Ok (true, hf'), f_post hf' = Ok s', hf'.2 = hf.2 &
    forall j, j <> fl_post hf.2 -> h_get hf'.1 j = h_get hf.1 j].
Proof.
move=> hs hg hr; have hi v : v = u -> rts_internal (Some a) v s g = Ok (true, s').
  by move=> ->; rewrite /rts_internal /= hr.
case: u hr hi => [v|] hr hi; have [hf' h] := b_updateE hs hg (hi _ erefl); by exists hf'.
Qed.

(** ** C53: smoothing
    The covariance stays symmetric and positive semidefinite, and does not grow
    if the successor's did not grow over its prediction.  Any model. *)
Theorem C53_covariance hf (a : asys R U n) u fp s g : f_post hf = Ok s -> h_get hf.1 fp = Ok g -> supplied a u ->
  psd_noise a -> psd (g_cov g) -> psd (g_cov s) ->
  let P' := jac a u (g_mu s) *m g_cov g *m (jac a u (g_mu s))^T + noise a u (g_mu s) in P' \in unitmx ->
  exists hf' s', [/\ rts_call hf (back_call a u fp) = Ok (true, hf'), f_post hf' = Ok s', symmetric (g_cov s'),
    psd (g_cov s') & (mle (g_cov s) P' -> mle (g_cov s') (g_cov g))].
Proof.
move=> hs hg hu hQ hP hS P' hP'; have hq : psd (noise a u (g_mu s)) by apply: hQ.
set F := jac a u (g_mu s) in P' hP' *; set Q := noise a u (g_mu s) in P' hP' hq *.
have e := rts_sysE hu (proj1 hP) (proj1 hS) (proj1 hq) hP'.
have [hf' [h1 h2 _ _]] := rts_one hs hg e; exists hf'; eexists.
set K := gain (g_cov g) F Q in e h1 h2 *.
have p1 : psd (g_cov g - K *m P' *m K^T).
  have -> : K *m P' *m K^T = K *m F *m g_cov g by rewrite KHP //; [case: hP|case: hq].
  rewrite /K -joseph_gain //; [|by case: hP|by case: hq].
  by apply: psdD; exact: psd_cong.
have p2 : psd (g_cov g - K *m (P' - g_cov s) *m K^T).
  have -> : g_cov g - K *m (P' - g_cov s) *m K^T = (g_cov g - K *m P' *m K^T) + K *m g_cov s *m K^T.
    by rewrite mulmxBr mulmxBl opprB addrA addrAC.
  by apply: psdD => //; exact: psd_cong.
split; [exact: h1|exact: h2|by case: p2|exact: p2|] => hm.
rewrite /mle /= -/F -/Q -/K -/(innov_cov _ _ _) -/P'.
have -> : g_cov g - (g_cov g - K *m (P' - g_cov s) *m K^T) = K *m (P' - g_cov s) *m K^T by rewrite opprB addrC subrK.
exact: psd_cong.
Qed.

(** linear model: a successor about which nothing new was learned changes
    nothing *)
Theorem C53_fixed hf (a : asys R U n) u fp g : f_post hf = Ok (predicted g (val a u (g_mu g)) (jac a u (g_mu g)) (noise a u (g_mu g))) ->
  h_get hf.1 fp = Ok g -> supplied a u -> linear_model a -> psd_noise a -> symmetric (g_cov g) ->
  jac a u (g_mu g) *m g_cov g *m (jac a u (g_mu g))^T + noise a u (g_mu g) \in unitmx ->
  exists2 hf', rts_call hf (back_call a u fp) = Ok (true, hf') & f_post hf' = Ok g.
Proof.
move=> hs hg hu [A [b [C hl]]] hQ sP hP'; set s := predicted _ _ _ _ in hs.
have hq x : psd (noise a u x) by apply: hQ.
have [ej en] : jac a u (g_mu s) = jac a u (g_mu g) /\ noise a u (g_mu s) = noise a u (g_mu g).
  have [_ j1 n1] := hl (g_mu s) (given a u); have [_ j2 n2] := hl (g_mu g) (given a u).
  by rewrite /jac /noise j1 j2 n1 n2.
have sS : symmetric (g_cov s) by apply: innov_sym => //; case: (hq (g_mu g)).
have := rts_sysE hu sP sS (proj1 (hq (g_mu s))); rewrite ej en => /(_ hP'); rewrite /innov_cov !subrr mulmx0 mulmx0 mul0mx addr0 subr0 => e.
have [hf' [h1 h2 _ _]] := rts_one hs hg e; exists hf' => //.
by rewrite h2; case: (g).
Qed.

(** linear model [x' = A x + b + w]: if the successor is its prediction plus
    linear information [i] (whatever was measured later), the result is the
    filtered state plus the same information *)
Theorem C53_exact hf (a : asys R U n) u fp g A b Q i : f_post hf = Ok (learn (moved g A b Q) i) ->
  h_get hf.1 fp = Ok g -> supplied a u ->
  (forall x, [/\ val a u x = A *m x + b, jac a u x = A & noise a u x = Q]) -> psd Q -> psd (g_cov g) -> pd (in_R i) ->
  A *m g_cov g *m A^T + Q \in unitmx ->
  exists2 hf', rts_call hf (back_call a u fp) = Ok (true, hf') & f_post hf' = Ok (learn g (through A b Q i)).
Proof.
move=> hs hg hu hl hQ hP hi hP'; set s := learn _ _ in hs.
have sS : symmetric (g_cov s) by case: (psd_learn (psd_moved A b hP hQ) hi).
have [_ ej en] := hl (g_mu s); have [ev _ _] := hl (g_mu g).
have := rts_sysE hu (proj1 hP) sS; rewrite ej en ev => /(_ (proj1 hQ) hP').
rewrite /s rts_learn //; [|by case: hP|by case: hQ] => e.
by have [hf' [h1 h2 _ _]] := rts_one hs hg e; exists hf'.
Qed.

Lemma size_forward g (ts : seq (lstep R n)) : size (forward g ts) = size ts.
Proof. by elim: ts g => //= t ts IH g; rewrite IH. Qed.

(** the whole backward pass over a linear problem: after smoothing with the
    filtered states [g0], ..., latest first, the posterior is [g0] plus all
    information of the later steps *)
Theorem C53_batch hf g0 (ts : seq (lstep R n)) (ps : seq nat) :
  psd (g_cov g0) -> (forall t, List.In t ts -> good_step t) -> f_post hf = Ok (last g0 (forward g0 ts)) ->
  size ps = size ts -> (forall k, (k < size ts)%N -> h_get hf.1 (nth 0 ps k)%N = Ok (nth g0 (g0 :: forward g0 ts) k)) ->
  ~~ (fl_post hf.2 \in ps) ->
  exists2 hf', runO (@rts_call R U n) hf (rev [seq back_call (step_model U q.1) None q.2 | q <- zip ts ps]) = Ok (nseq (size ts) true, hf') &
    f_post hf' = Ok (learn g0 (later ts)).
Proof.
move=> hP ht hf0 hsz hps hnp.
suff [hf' [h1 h2 _ _]] : exists hf', [/\ runO (@rts_call R U n) hf (rev [seq back_call (step_model U q.1) None q.2 | q <- zip ts ps]) =
    Ok (nseq (size ts) true, hf'), f_post hf' = Ok (learn g0 (later ts)), hf'.2 = hf.2 &
    forall j, j <> fl_post hf.2 -> h_get hf'.1 j = h_get hf.1 j] by exists hf'.
elim: ts g0 ps hP ht hf0 hsz hps hnp => [|t ts IH] g0 [|p ps] //= hP ht hf0 hsz hps hnp.
  by exists hf; rewrite learn_nothing.
case: hsz => hsz; have [hQ hR] : good_step t by apply: ht; left.
set g1 := learn _ _ in hf0 hps.
have hM := psd_moved (ls_F t) (ls_b t) hP (pd_psd hQ).
have hP1 : psd (g_cov g1) by exact: psd_learn.
have ht' : forall t, List.In t ts -> good_step t by move=> k hk; apply: ht; right.
move: hnp; rewrite inE negb_or => /andP[np nps].
have [|hf1 [r1 p1 q1 o1]] := IH g1 ps hP1 ht' hf0 hsz _ nps.
  move=> k hk; rewrite (hps k.+1) //=; congr Ok; apply: set_nth_default.
  by rewrite /= size_forward ltnS ltnW.
have hp : h_get hf1.1 p = Ok g0 by rewrite o1; [exact: (hps 0%N)|apply/eqP; rewrite eq_sym].
have hi : pd (in_R (later ts)) by exact: pd_later.
have es : learn g1 (later ts) = learn (moved g0 (ls_F t) (ls_b t) (ls_Q t)) (both (ls_meas t) (later ts)) by exact: learn_both.
have hu : innov_cov (g_cov g0) (ls_F t) (ls_Q t) \in unitmx by apply: pd_unit; apply: pdD_psd => //; exact: psd_cong.
have sS : symmetric (g_cov (learn g1 (later ts))) by case: (psd_learn hP1 hi).
have hs : supplied (step_model U t) None by left.
have e := @rts_sysE R U n (step_model U t) None (learn g1 (later ts)) g0 hs (proj1 hP) sS (proj1 hQ) hu.
have {e} : rts_sys (step_model U t) None (learn g1 (later ts)) g0 =
    Ok (learn g0 (through (ls_F t) (ls_b t) (ls_Q t) (both (ls_meas t) (later ts)))).
  rewrite e; congr Ok; rewrite [jac _ _ _]/= [noise _ _ _]/= [val _ _ _]/= es; apply: rts_learn => //; [by case: hP|by case: hQ].
move=> e; have [hf2 [c2 p2 q2 o2]] := rts_one p1 hp e.
exists hf2; split=> //; last 2 first.
- by rewrite q2.
- by move=> j hj; rewrite o2 ?q1 // o1.
by rewrite rev_cons -cats1 (runO_cat _ r1) (runO1 c2) [LHS]/=; congr (Ok (_, _)); elim: (size ts) => //= k ->.
Qed.

(** ** C54 (finding)
    A smoothed successor equal to the prediction from the filtered state carries
    no information.  The mean is indeed unchanged, but the covariance changes by
    the difference of the derivative at the filtered state and at the predicted
    state. *)
Theorem C54_prediction hf (a : asys R U n) u fp g :
  let s := predicted g (val a u (g_mu g)) (jac a u (g_mu g)) (noise a u (g_mu g)) in
  let F1 := jac a u (g_mu g) in let F2 := jac a u (g_mu s) in
  f_post hf = Ok s -> h_get hf.1 fp = Ok g -> supplied a u -> psd_noise a -> noise a u (g_mu s) = noise a u (g_mu g) ->
  symmetric (g_cov g) -> F2 *m g_cov g *m F2^T + noise a u (g_mu s) \in unitmx ->
  let K := gain (g_cov g) F2 (noise a u (g_mu s)) in
  exists2 hf', rts_call hf (back_call a u fp) = Ok (true, hf') &
    f_post hf' = Ok (Gauss (g_mu g) (g_cov g + K *m (F1 *m g_cov g *m F1^T - F2 *m g_cov g *m F2^T) *m K^T)).
Proof.
move=> s F1 F2 hs hg hu hQ en sP hP' K.
have hq x : psd (noise a u x) by apply: hQ.
have sS : symmetric (g_cov s) by apply: innov_sym => //; case: (hq (g_mu g)).
have e := rts_sysE hu sP sS (proj1 (hq (g_mu s))) hP'.
have [hf' [h1 h2 _ _]] := rts_one hs hg e; exists hf' => //; rewrite h2 -/F2 -/K.
congr (Ok (Gauss _ _)); first by rewrite /s /= subrr mulmx0 addr0.
rewrite [g_cov s]/= -en /innov_cov -/F1; have e2 (A B C : 'M[R]_n) : A + C - (B + C) = - (B - A) by rewrite opprB opprD addrACA subrr addr0.
by rewrite e2 mulmxN mulNmx opprK.
Qed.
End RTS.

Section Scalar.
Variables (R : realFieldType) (U : Type).
Implicit Types (g : gauss R 1) (hf : heap (gauss R 1) * filt unit).
(** one dimension: the covariance stays only if the two derivatives have the
    same square or the second one vanishes; it grows if the derivative at the
    filtered state is the steeper one *)
Theorem C54_scalar hf (a : asys R U 1) u fp g (p q f1 f2 : R) :
  let s := predicted g (val a u (g_mu g)) (jac a u (g_mu g)) (noise a u (g_mu g)) in
  f_post hf = Ok s -> h_get hf.1 fp = Ok g -> supplied a u -> psd_noise a -> 0 < p -> 0 < q ->
  [/\ g_cov g = p%:M, noise a u (g_mu g) = q%:M, noise a u (g_mu s) = q%:M, jac a u (g_mu g) = f1%:M & jac a u (g_mu s) = f2%:M] ->
  exists hf' p', [/\ rts_call hf (back_call a u fp) = Ok (true, hf'), f_post hf' = Ok (Gauss (g_mu g) p'%:M),
    p' == p = (f2 == 0) || (f1 ^+ 2 == f2 ^+ 2) & (p < p') = (f2 != 0) && (f2 ^+ 2 < f1 ^+ 2)].
Proof.
move=> s hs hg hu hQ p0 q0 [eP en1 en2 ej1 ej2].
have sP : symmetric (g_cov g) by rewrite /symmetric eP tr_scalar_mx.
have d0 : 0 < f2 ^+ 2 * p + q by apply: ltr_spaddr => //; apply: mulr_ge0; [exact: sqr_ge0|exact: ltW].
have eS : jac a u (g_mu s) *m g_cov g *m (jac a u (g_mu s))^T + noise a u (g_mu s) = (f2 ^+ 2 * p + q)%:M.
  by rewrite ej2 eP en2 tr_scalar_mx -!scalar_mxM -raddfD /=; congr (_%:M); rewrite mulrAC -expr2.
have hS : jac a u (g_mu s) *m g_cov g *m (jac a u (g_mu s))^T + noise a u (g_mu s) \in unitmx.
  by rewrite eS unitmxE det_scalar1 unitfE gt_eqF.
have [|hf' c1 c2] := C54_prediction hs hg hu hQ _ sP hS; first by rewrite en1 en2.
pose k := p * f2 / (f2 ^+ 2 * p + q); pose p' := p + k ^+ 2 * (f1 ^+ 2 - f2 ^+ 2) * p.
have ek : gain (g_cov g) (jac a u (g_mu s)) (noise a u (g_mu s)) = k%:M.
  by rewrite /gain /innov_cov eS ej2 eP tr_scalar_mx invmx_scalar -!scalar_mxM.
exists hf', p'; split=> //.
- rewrite c2 ek -/s ej1 ej2 eP !tr_scalar_mx -!scalar_mxM -raddfB /= -!scalar_mxM -raddfD /=.
  by congr (Ok (Gauss _ _%:M)); rewrite /p'; ring.
- rewrite /p' -subr_eq0 addrAC subrr add0r (mulf_eq0 _ p) (mulf_eq0 (k ^+ 2)) (gt_eqF p0) orbF subr_eq0; congr (_ || _).
  by rewrite expf_eq0 /= /k (mulf_eq0 (p * f2)) (mulf_eq0 p) invr_eq0 (gt_eqF p0) (gt_eqF d0) orbF.
- rewrite /p' ltr_addl pmulr_lgt0 //.
  case: (eqVneq f2 0) => [f20|f20] /=; first by rewrite /k f20 mulr0 mul0r expr0n mul0r ltxx.
  have kn : k != 0 by apply: mulf_neq0; [apply: mulf_neq0 => //|rewrite invr_eq0]; rewrite gt_eqF.
  have k0 : 0 < k ^+ 2 by rewrite exprn_even_gt0.
  by rewrite pmulr_rgt0 // subr_gt0.
Qed.
End Scalar.

(** x' = x^2 + w at x = 2 with variances 1 *)
Section Ex.
Let RQ := [realFieldType of rat].
Let sq : asys RQ unit 1 := AModel true (fun x _ => (x 0 0 ^+ 2)%:M) (fun x _ => (2%:R * x 0 0)%:M) (fun _ _ => 1%:M).
Let g : gauss RQ 1 := Gauss (2%:R)%:M 1%:M.
Theorem C54_refuted : exists hf fp s g', [/\ f_post hf = Ok s, h_get hf.1 fp = Ok g,
    s = predicted g (val sq None (g_mu g)) (jac sq None (g_mu g)) (noise sq None (g_mu g)),
    exists2 hf', rts_call hf (back_call sq None fp) = Ok (true, hf') & f_post hf' = Ok g' &
    g_cov g' <> g_cov g].
Proof.
pose s := predicted g (val sq None (g_mu g)) (jac sq None (g_mu g)) (noise sq None (g_mu g)).
pose hf : heap (gauss RQ 1) * filt unit := ([:: Some s; Some g], Filt 0%N 0%N 0%N tt).
have hQ : psd_noise sq by move=> x v /=; apply: pd_psd; exact: pd1.
have hu : supplied sq None by left.
have ex (x : rat) : (x%:M : 'M[rat]_1) 0 0 = x by rewrite mxE eqxx mulr1n.
have es : g_mu s = (4%:R)%:M by rewrite /s /= /val /= ex.
have hj : [/\ g_cov g = 1%:M, noise sq None (g_mu g) = 1%:M, noise sq None (g_mu s) = 1%:M,
    jac sq None (g_mu g) = (4%:R)%:M & jac sq None (g_mu s) = (8%:R)%:M].
  by split=> //; rewrite ?es /jac /= ex; congr (_%:M).
have [hf' [p' [c1 c2 c3 _]]] := @C54_scalar RQ unit hf sq None 1%N g 1 1 4%:R 8%:R erefl erefl hu hQ ltr01 ltr01 hj.
exists hf, 1%N, s, (Gauss (g_mu g) p'%:M); split=> //; first by exists hf'.
rewrite /= => /matrixP/(_ 0 0); rewrite !ex => h; move: c3; rewrite h eqxx; by vm_compute.
Qed.

(** random walk [x' = x + w] from mean 0 and variance 1, measured as 3 with
    variance 1 after the step: the filter has mean 2, variance 2/3 then, the
    smoothed state before the step has mean 1, variance 2/3 *)
Let q (a b : nat) : rat := a%:R / b%:R.
Let g0 : gauss RQ 1 := Gauss 0%:M 1%:M.
Let meas : info RQ 1 := Info (3%:R)%:M 1%:M 0%:M 1%:M.
Let t : lstep RQ 1 := LStep 1%:M 0%:M 1%:M meas.
Let ex_cor (m p h r z Z : rat) : corrected (Gauss (m%:M : 'cV_1) p%:M) z%:M Z%:M h%:M r%:M =
  Gauss (m + p * h / (h * p * h + r) * (z - Z))%:M (p - p * h / (h * p * h + r) * h * p)%:M :> gauss RQ 1.
Proof.
rewrite /corrected /=; have -> : gain p%:M h%:M r%:M = (p * h / (h * p * h + r))%:M :> 'M[rat]_1.
  by rewrite /gain /innov_cov !tr_scalar_mx -!scalar_mxM -raddfD invmx_scalar -scalar_mxM.
by rewrite -!raddfB -!scalar_mxM -raddfB -raddfD.
Qed.
Example C53_example : [/\ learn (moved g0 1%:M 0%:M 1%:M) meas = Gauss (2%:R)%:M (q 2 3)%:M,
  learn g0 (through 1%:M 0%:M 1%:M meas) = Gauss 1%:M (q 2 3)%:M & good_step t].
Proof.
split; last by split; exact: pd1.
- rewrite /learn /moved /predicted /= !tr_scalar_mx -!scalar_mxM -!raddfD /= -!scalar_mxM -!raddfD /= ex_cor.
  by congr (Gauss _%:M _%:M); apply/eqP; vm_compute.
- rewrite /learn /= !tr_scalar_mx -!scalar_mxM -!raddfD /= ex_cor.
  by congr (Gauss _%:M _%:M); apply/eqP; vm_compute.
Qed.
(** the theorems applied to it *)
Example C53_exact_example : let hf := ([:: Some (Gauss (2%:R)%:M (q 2 3)%:M); Some g0], Filt 0%N 0%N 0%N tt) in
  exists2 hf', rts_call hf (back_call (step_model unit t) None 1%N) = Ok (true, hf') & f_post hf' = Ok (Gauss 1%:M (q 2 3)%:M).
Proof.
have [e1 e2 _] := C53_example; rewrite -e1 -e2.
have [ps1 pd1'] : psd (1%:M : 'M[rat]_1) /\ pd (1%:M : 'M[rat]_1) by split; [apply: pd_psd|]; exact: pd1.
apply: C53_exact => //; first by left.
by rewrite trmx1 !mul1mx -raddfD unitmxE det_scalar1.
Qed.
Example C53_batch_example : let ts := [:: t; t] in let hf := ([seq Some k | k <- rev (g0 :: forward g0 ts)], Filt 0%N 0%N 0%N tt) in
  exists2 hf', runO (@rts_call RQ unit 1) hf [:: back_call (step_model unit t) None 1%N; back_call (step_model unit t) None 2%N] =
    Ok ([:: true; true], hf') & f_post hf' = Ok (learn g0 (later ts)).
Proof.
move=> ts hf; have hP : psd (g_cov g0) by apply: pd_psd; exact: pd1.
have ht : forall k, List.In k ts -> good_step k by move=> k [<-|[<-|[]]]; have [] := C53_example.
by apply: (@C53_batch RQ unit 1 hf g0 ts [:: 2; 1]%N hP ht) => // -[|[]].
Qed.
End Ex.

Print Assumptions C53_covariance.
Print Assumptions C53_fixed.
Print Assumptions C53_exact.
Print Assumptions C53_batch.
Print Assumptions C54_prediction.
Print Assumptions C54_scalar.
Print Assumptions C54_refuted.
