(** * A run of the Kalman filters is a batch least-squares estimate (C77, C78) *)
From mathcomp Require Import all_ssreflect all_algebra.
From mathcomp Require Import ring zify.
From Verif Require Import Outcome OrdLra SpecMatrix ModelMatrix ProofsMatrix ModelFilter ProofsFilter ModelKalman SpecKalman
  ProofsKalman ModelSmoother SpecSmoother ProofsSmoother PropertiesSmoother SpecBatch.
Set Implicit Arguments. Unset Strict Implicit. Unset Printing Implicit Defensive.
Import Order.TTheory GRing.Theory Num.Theory.
Local Open Scope ring_scope.

Section Batch.
Variables (R : realFieldType) (U : Type) (n : nat).
Implicit Types (g : gauss R n) (es : seq (event R U n)) (x : 'cV[R]_n) (xs : seq 'cV[R]_n).

Lemma lin_val m (a : amodel R U n m) s x y : linear_model a ->
  [/\ val a s x = val a s y + jac a s y *m (x - y), jac a s x = jac a s y & noise a s x = noise a s y].
Proof.
case=> A [b [C h]]; rewrite /val /jac /noise; have [h1 h2 h3] := h x (given a s); have [h4 h5 h6] := h y (given a s).
rewrite h1 h2 h3 h4 h5 h6; split=> //; rewrite mulmxBr; move: (A _ *m x) (A _ *m y) (b _) => p q r; mxring.
Qed.
Lemma pd_ge0 k (A : 'M[R]_k) v : pd A -> 0 <= qf A v. Proof. by move=> /pd_psd[_]; apply. Qed.

Lemma move_split g (a : asys R U n) u x y : linear_model a -> pd_noise a -> pd (g_cov g) ->
  let g1 := predicted g (val a u (g_mu g)) (jac a u (g_mu g)) (noise a u (g_mu g)) in
  let c := corrected g y (val a u (g_mu g)) (jac a u (g_mu g)) (noise a u (g_mu g)) in
  [/\ pd (g_cov g1), pd (g_cov c) & qf (invmx (g_cov g)) (x - g_mu g) + qf (invmx (noise a u x)) (y - val a u x) =
    qf (invmx (g_cov c)) (x - g_mu c) + qf (invmx (g_cov g1)) (y - g_mu g1)].
Proof.
move=> hl hQ hP; have [ev _ en] := lin_val u x (g_mu g) hl; have hq : pd (noise a u (g_mu g)) by apply: hQ.
split; [by apply: pdD_psd => //; apply: psd_cong; exact: pd_psd|exact: info_pd|].
rewrite ev en; exact: (cost_split y (val a u (g_mu g)) (jac a u (g_mu g)) x hP hq).
Qed.

Lemma lin_same k m (a : amodel R U n m) s g z xi : linear_model a -> lin_point k a s g z xi ->
  corrected g z (lin_pred a s (g_mu g) xi) (jac a s xi) (noise a s xi) =
  corrected g z (val a s (g_mu g)) (jac a s (g_mu g)) (noise a s (g_mu g)).
Proof. by move=> hl _; have [e1 e2 e3] := lin_val s (g_mu g) xi hl; rewrite e2 e3 /lin_pred -e1. Qed.

(** ** C77: after any sequence of motions and measurements the posterior is the
    least-squares solution over all states: the cost of any sequence of states
    is at least the sum of the squared innovations plus the distance of its last
    state from the posterior mean, and for every last state this is attained *)
Theorem C77_batch k hf g es : f_post hf = Ok g -> runs k -> pd (g_cov g) -> (forall e, List.In e es -> good_event e) ->
  exists gs hf' g', let J := \sum_(p <- zip gs es) squared_innovation p.1 p.2 in
    [/\ trace k hf es gs hf', f_post hf' = Ok g', pd (g_cov g'),
        forall x xs, size xs = moves es ->
          J + qf (invmx (g_cov g')) (last x xs - g_mu g') <= batch_cost g es x xs &
        forall y, exists x xs, [/\ size xs = moves es, last x xs = y &
          batch_cost g es x xs = J + qf (invmx (g_cov g')) (y - g_mu g')]].
Proof.
move=> hg hk hP; elim: es hf g hg hP => [|e es IH] hf g hg hP hes.
  exists [::], hf, g; rewrite /= big_nil; split=> //.
    by move=> x xs /size0nil ->; rewrite /batch_cost /= add0r addr0.
  by move=> y; exists y, [::]; rewrite /batch_cost /= add0r addr0.
have hes' : forall e, List.In e es -> good_event e by move=> e' h; apply: hes; right.
have := hes e (or_introl erefl); case: e hes => [a u|m a z s] hes [hl hQ hs] /=.
  have hq : pd (noise a u (g_mu g)) by apply: hQ.
  have [hf1 h1 h2] := kf_sys_call k hg hs (proj1 hP) (proj1 hq).
  set g1 := predicted _ _ _ _ in h2; have [hP1 _ _] := move_split u 0 0 hl hQ hP; rewrite -/g1 in hP1.
  have [gs [hf' [g' [tr hg' hP' lo ex]]]] := IH _ _ h2 hP1 hes'.
  exists (g :: gs), hf', g'; rewrite /= big_cons /= add0r; split=> //; first by split=> //; exists hf1.
    move=> x [|y xs] //= [hsz]; have [_ hc e] := move_split u x y hl hQ hP.
    rewrite /batch_cost /= addrA e -/g1 -addrA; apply: le_trans (lo y xs hsz) _.
    by rewrite ler_addr; apply: pd_ge0; exact: pd_inv.
  move=> y; have [x1 [xs [hsz hl1 he]]] := ex y.
  set c := corrected g x1 (val a u (g_mu g)) (jac a u (g_mu g)) (noise a u (g_mu g)).
  exists (g_mu c), (x1 :: xs); rewrite /= hsz; split=> //.
  have [_ hc e] := move_split u (g_mu c) x1 hl hQ hP.
  by rewrite -he /batch_cost /= addrA e -/c subrr qfv0 add0r.
have hr : pd (noise a s (g_mu g)) by apply: hQ.
have [hf1 [xi [h1 h2 h3]]] := kf_meas_call z hg hk hs (pd_psd hP) hQ.
rewrite (lin_same hl h2) in h3; set g1 := corrected _ _ _ _ _ in h3.
have hP1 : pd (g_cov g1) by exact: info_pd.
have e x : qf (invmx (g_cov g)) (x - g_mu g) + qf (invmx (noise a s x)) (z - val a s x) =
    squared_innovation g (Observe a z s) + qf (invmx (g_cov g1)) (x - g_mu g1).
  have [ev _ en] := lin_val s x (g_mu g) hl; rewrite ev en.
  by rewrite [LHS](cost_split z (val a s (g_mu g)) (jac a s (g_mu g)) x hP hr) addrC.
have [gs [hf' [g' [tr hg' hP' lo ex]]]] := IH _ _ h3 hP1 hes'.
exists (g :: gs), hf', g'; rewrite /= big_cons /=; split=> //; first by split=> //; exists hf1.
  by move=> x xs hsz; rewrite /batch_cost /= addrA e -!addrA ler_add2l; exact: lo.
move=> y; have [x1 [xs [hsz hl1 he]]] := ex y.
by exists x1, xs; split=> //; rewrite -addrA -he /batch_cost /= addrA e -addrA.
Qed.

(** in particular: there is a best sequence, every best sequence ends in the
    posterior mean, and the cost left over is the sum of the squared innovations *)
Corollary C77_estimate k hf g es : f_post hf = Ok g -> runs k -> pd (g_cov g) -> (forall e, List.In e es -> good_event e) ->
  exists gs hf' g' x0 xs0, [/\ trace k hf es gs hf' /\ f_post hf' = Ok g', size xs0 = moves es, last x0 xs0 = g_mu g',
    batch_cost g es x0 xs0 = \sum_(p <- zip gs es) squared_innovation p.1 p.2 &
    forall x xs, size xs = moves es -> batch_cost g es x0 xs0 <= batch_cost g es x xs /\
      (batch_cost g es x xs = batch_cost g es x0 xs0 -> last x xs = g_mu g')].
Proof.
move=> hg hk hP hes; have [gs [hf' [g' [h1 h2 hP' lo ex]]]] := C77_batch hg hk hP hes.
have [x0 [xs0 [s0 l0 e0]]] := ex (g_mu g'); rewrite subrr qfv0 addr0 in e0.
exists gs, hf', g', x0, xs0; split=> //; rewrite e0 => x xs hsz; have := lo x xs hsz; set J := \sum_(_ <- _) _ => h.
have hq : 0 <= qf (invmx (g_cov g')) (last x xs - g_mu g') by apply: pd_ge0; exact: pd_inv.
split; first by apply: le_trans h; rewrite ler_addl.
move=> e; rewrite e in h; apply/eqP; rewrite -subr_eq0; apply: contraT => hne.
by have := (pd_inv hP').2 _ hne; rewrite -(ltr_addl J) ltNge h.
Qed.

(** ** C78: the smoother *)
Implicit Types (t : lstep R n) (ts : seq (lstep R n)) (i : info R n).
Lemma pd_block_inv m1 m2 (A : 'M[R]_m1) (B : 'M[R]_m2) (v : 'cV[R]_m1) (w : 'cV[R]_m2) : pd A -> pd B ->
  qf (invmx (block_mx A 0 0 B)) (col_mx v w) = qf (invmx A) v + qf (invmx B) w.
Proof.
move=> hA hB; have -> : invmx (block_mx A 0 0 B) = block_mx (invmx A) 0 0 (invmx B).
  have hu : block_mx A 0 0 B \in unitmx by exact: pd_unit (block_pd hA hB).
  rewrite -[RHS]mul1mx -(mulVmx hu) -mulmxA mulmx_block !mulmx0 !mul0mx !addr0 !add0r !mulmxV ?pd_unit //.
  by rewrite -scalar_mx_block mulmx1.
by rewrite /qf tr_col_mx mul_row_block !mulmx0 addr0 add0r mul_row_col [in LHS]mxE.
Qed.
Definition residual i x : R := qf (invmx (in_R i)) (in_z i - (in_H i *m x + in_c i)).
Lemma residual_both i j x : pd (in_R i) -> pd (in_R j) -> residual (both i j) x = residual i x + residual j x.
Proof. by move=> hi hj; rewrite /residual /= mul_col_mx add_col_mx opp_col_mx add_col_mx pd_block_inv. Qed.
Lemma residual_through F b Q i x y : pd Q -> pd (in_R i) ->
  let c := corrected (Gauss (F *m x + b) Q) (in_z i) (in_H i *m (F *m x + b) + in_c i) (in_H i) (in_R i) in
  pd (g_cov c) /\ qf (invmx Q) (y - (F *m x + b)) + residual i y = qf (invmx (g_cov c)) (y - g_mu c) + residual (through F b Q i) x.
Proof.
move=> hQ hR c; split; first exact: info_pd.
have e := cost_split (g := Gauss (F *m x + b) Q) (in_z i) (in_H i *m (F *m x + b) + in_c i) (in_H i) y hQ hR.
rewrite -/c in e.
have -> : residual (through F b Q i) x = qf (invmx (innov_cov Q (in_H i) (in_R i))) (in_z i - (in_H i *m (F *m x + b) + in_c i)).
  by rewrite /residual /= /innov_cov -!mulmxA; congr (qf _ (_ - _)); rewrite mulmxDr addrA.
rewrite -e /cost /=; congr (_ + _); rewrite /residual; congr (qf _ (_ - _)).
rewrite mulmxBr; move: (in_H i *m y) (in_H i *m _) (in_c i) => p q r; mxring.
Qed.
(** the least cost of the steps to come, given the present state *)
Lemma cost_to_go ts : (forall t, List.In t ts -> good_step t) ->
  (forall x xs, size xs = size ts -> residual (later ts) x <= path_cost (steps_events U ts) x xs) /\
  (forall x, exists2 xs, size xs = size ts & path_cost (steps_events U ts) x xs = residual (later ts) x).
Proof.
have e0 x : residual nothing x = 0 by rewrite /residual [in_z _ - _]flatmx0 qfv0.
elim: ts => [_|t ts IH ht]; first by split=> [x xs _|x]; [rewrite e0|exists [::]; rewrite ?e0].
have [hQ hR] : good_step t by apply: ht; left.
have [|lo ex] := IH; first by move=> k hk; apply: ht; right.
have hL : pd (in_R (later ts)) by apply: pd_later => k hk; apply: ht; right.
have hB := pd_both hR hL.
have ev y xs x : path_cost (steps_events U (t :: ts)) x (y :: xs) =
    qf (invmx (ls_Q t)) (y - (ls_F t *m x + ls_b t)) + (residual (ls_meas t) y + path_cost (steps_events U ts) y xs) by [].
split=> [x [|y xs] // [hsz]|x].
  have [hc e] := residual_through (ls_F t) (ls_b t) x y hQ hB.
  rewrite ev; apply: le_trans (_ : qf (invmx (ls_Q t)) (y - (ls_F t *m x + ls_b t)) + residual (both (ls_meas t) (later ts)) y <= _); last first.
    by rewrite residual_both // !ler_add2l; exact: lo.
  by rewrite e ler_addr; apply: pd_ge0; exact: pd_inv.
have := residual_through (ls_F t) (ls_b t) x _ hQ hB; set c := corrected _ _ _ _ _ => h.
have [hc e] := h (g_mu c); have [xs hsz hxs] := ex (g_mu c).
exists (g_mu c :: xs); first by rewrite /= hsz.
by rewrite ev hxs -residual_both // e subrr qfv0 add0r.
Qed.

Lemma moves_steps ts : moves (steps_events U ts) = size ts.
Proof. by elim: ts => //= t ts; rewrite /moves /= => ->. Qed.
Lemma steps_cat ts1 ts2 : steps_events U (ts1 ++ ts2) = steps_events U ts1 ++ steps_events U ts2.
Proof. by rewrite /steps_events map_cat flatten_cat. Qed.

Definition misfit g i : R := qf (invmx (innov_cov (g_cov g) (in_H i) (in_R i))) (in_z i - (in_H i *m g_mu g + in_c i)).
Lemma learn_pd g i : pd (g_cov g) -> pd (in_R i) -> pd (g_cov (learn g i)).
Proof. by move=> hP hR; apply: info_pd. Qed.
Lemma learn_split g i x : pd (g_cov g) -> pd (in_R i) ->
  qf (invmx (g_cov g)) (x - g_mu g) + residual i x = qf (invmx (g_cov (learn g i))) (x - g_mu (learn g i)) + misfit g i.
Proof.
case: i => m z H c Rn; rewrite /residual /misfit /learn /= => hP hR.
rewrite -(cost_split z (H *m g_mu g + c) H x hP hR) /cost; congr (_ + _); congr (qf _ (_ - _)).
rewrite mulmxBr; move: (H *m x) (H *m _) => p q; mxring.
Qed.

(** the smoothed Gaussian at the time between [ts1] and [ts2]: least cost over
    all other states as a function of the state at that time *)
Lemma smoothed_split g ts1 ts2 : pd (g_cov g) -> (forall t, List.In t (ts1 ++ ts2) -> good_step t) ->
  let s := learn (last g (forward g ts1)) (later ts2) in
  pd (g_cov s) /\ exists J,
    (forall x xs1 xs2, size xs1 = size ts1 -> size xs2 = size ts2 ->
       J + qf (invmx (g_cov s)) (last x xs1 - g_mu s) <= batch_cost g (steps_events U (ts1 ++ ts2)) x (xs1 ++ xs2)) /\
    (forall y, exists x xs1 xs2, [/\ size xs1 = size ts1, size xs2 = size ts2, last x xs1 = y &
       batch_cost g (steps_events U (ts1 ++ ts2)) x (xs1 ++ xs2) = J + qf (invmx (g_cov s)) (y - g_mu s)]).
Proof.
elim: ts1 g => [|t ts1 IH] g hP ht /=.
  have hL : pd (in_R (later ts2)) by exact: pd_later.
  have [lo ex] := cost_to_go ht.
  split; first exact: learn_pd.
  have e x := learn_split x hP hL; exists (misfit g (later ts2)).
  split=> [x [|//] xs2 _ hsz|y] /=.
    by rewrite addrC -e /batch_cost ler_add2l; exact: lo.
  have [xs hsz hxs] := ex y; exists y, [::], xs; split=> //=.
  by rewrite /batch_cost hxs e addrC.
have [hQ hR] : good_step t by apply: ht; left.
set a := step_model U t; set m := info_model U (ls_meas t); set z := in_z (ls_meas t).
have la : linear_model a by exists (fun _ => ls_F t), (fun _ => ls_b t), (fun _ => ls_Q t).
have lm : linear_model m by exists (fun _ => in_H (ls_meas t)), (fun _ => in_c (ls_meas t)), (fun _ => in_R (ls_meas t)).
have hqa : pd_noise a by []. have hqm : pd_noise m by [].
have [hP1 _ _] := move_split None 0 0 la hqa hP.
set g1 := moved g (ls_F t) (ls_b t) (ls_Q t); set g2 := learn g1 (ls_meas t).
have hP2 : pd (g_cov g2) by exact: info_pd.
pose nu := squared_innovation g1 (Observe m z None).
have em x : qf (invmx (g_cov g1)) (x - g_mu g1) + qf (invmx (noise m None x)) (z - val m None x) =
    nu + qf (invmx (g_cov g2)) (x - g_mu g2).
  have [ev _ en] := lin_val None x (g_mu g1) lm; rewrite ev en.
  by rewrite [LHS](cost_split z (val m None (g_mu g1)) (jac m None (g_mu g1)) x hP1 hR) addrC.
have [|hs [J [lo ex]]] := IH g2 hP2; first by move=> k hk; apply: ht; right.
rewrite -/g1 -/g2; split=> //; exists (nu + J); split=> [x [|y xs1] //= xs2 [hs1] hs2|y].
  have [_ hc e] := move_split None x y la hqa hP.
  rewrite /batch_cost [path_cost _ _ _]/= addrA e -[X in _ <= X]addrA -[X in X <= _]add0r.
  apply: ler_add; first by apply: pd_ge0; exact: pd_inv.
  by rewrite addrA em -!addrA ler_add2l; exact: lo.
have [x1 [xs1 [xs2 [s1 s2 l1 e1]]]] := ex y.
have := move_split None _ x1 la hqa hP; set c := corrected _ _ _ _ _ => h; have [_ hc e] := h (g_mu c).
exists (g_mu c), (x1 :: xs1), xs2; rewrite /= s1; split=> //.
rewrite /batch_cost [path_cost _ _ _]/= addrA e subrr qfv0 add0r addrA em -addrA.
by rewrite -[in RHS]addrA -e1.
Qed.

(** the filter, run over the first steps [ts1] and the rest [ts2], holds the
    states that the smoother needs *)
Theorem C78_forward k hf g ts : f_post hf = Ok g -> runs k -> psd (g_cov g) -> (forall t, List.In t ts -> good_step t) ->
  forall j, (j <= size ts)%N -> exists gs hf', trace k hf (steps_events U (take j ts)) gs hf' /\
    f_post hf' = Ok (nth g (g :: forward g ts) j).
Proof.
move=> hg hk hP ht j hj; elim: ts j hj hf g hg hP ht => [|t ts IH] [|j] // hj hf g hg hP ht; try by exists [::], hf.
have [hQ hR] : good_step t by apply: ht; left.
have hs1 : supplied (step_model U t) None by left.
have [hf1 h1 h2] := kf_sys_call k hg hs1 (proj1 hP) (proj1 hQ).
have hP1 := psd_moved (ls_F t) (ls_b t) hP (pd_psd hQ).
have hs2 : supplied (info_model U (ls_meas t)) None by left.
have hqm : pd_noise (info_model U (ls_meas t)) by [].
have lm : linear_model (info_model U (ls_meas t)) by exists (fun _ => in_H (ls_meas t)), (fun _ => in_c (ls_meas t)), (fun _ => in_R (ls_meas t)).
have [hf2 [xi [h3 h4 h5]]] := kf_meas_call (in_z (ls_meas t)) h2 hk hs2 hP1 hqm.
rewrite (lin_same lm h4) in h5.
have hP2 : psd (g_cov (learn (moved g (ls_F t) (ls_b t) (ls_Q t)) (ls_meas t))) by exact: psd_learn.
have [|gs [hf' [tr hp]]] := IH j hj hf2 _ h5 hP2; first by move=> t' h; apply: ht; right.
exists [:: g, moved g (ls_F t) (ls_b t) (ls_Q t) & gs], hf'; split.
  by split=> //; exists hf1 => //; split=> //; exists hf2.
by rewrite hp /=; case: j {hp tr} hj => [|j] hj //=; congr Ok; apply: set_nth_default; rewrite size_forward.
Qed.

(** the smoother, run backwards over [ts2] from the last filtered state, with
    the filtered states [ps]: its posterior is the least-squares estimate of the
    state between [ts1] and [ts2] from all measurements *)
Theorem C78_smoother hf g ts1 ts2 (ps : seq nat) : let gk := last g (forward g ts1) in
  pd (g_cov g) -> (forall t, List.In t (ts1 ++ ts2) -> good_step t) ->
  f_post hf = Ok (last gk (forward gk ts2)) ->
  size ps = size ts2 -> (forall k, (k < size ts2)%N -> h_get hf.1 (nth 0 ps k)%N = Ok (nth gk (gk :: forward gk ts2) k)) ->
  ~~ (fl_post hf.2 \in ps) ->
  exists hf' s J,
    [/\ runO (@rts_call R U n) hf (rev [seq back_call (step_model U q.1) None q.2 | q <- zip ts2 ps]) = Ok (nseq (size ts2) true, hf'),
        f_post hf' = Ok s, pd (g_cov s),
        forall x xs1 xs2, size xs1 = size ts1 -> size xs2 = size ts2 ->
          J + qf (invmx (g_cov s)) (last x xs1 - g_mu s) <= batch_cost g (steps_events U (ts1 ++ ts2)) x (xs1 ++ xs2) &
        forall y, exists x xs1 xs2, [/\ size xs1 = size ts1, size xs2 = size ts2, last x xs1 = y &
          batch_cost g (steps_events U (ts1 ++ ts2)) x (xs1 ++ xs2) = J + qf (invmx (g_cov s)) (y - g_mu s)]].
Proof.
move=> gk hP ht hp hsz hps hnp; have [hs [J [lo ex]]] := smoothed_split hP ht; rewrite -/gk in hs lo ex.
have hPk : psd (g_cov gk).
  have : psd (g_cov g) by exact: pd_psd.
  have : forall t, List.In t ts1 -> good_step t by move=> t h; apply: ht; apply: List.in_or_app; left.
  rewrite /gk; elim: (ts1) (g) => [|t l IH] g1 //= hl h1; apply: IH; first by move=> k hk; apply: hl; right.
  have [hQ hR] : good_step t by apply: hl; left.
  by apply: psd_learn => //; apply: psd_moved => //; exact: pd_psd.
have ht2 : forall t, List.In t ts2 -> good_step t by move=> t h; apply: ht; apply: List.in_or_app; right.
have [hf' h1 h2] := C53_batch U hPk ht2 hp hsz hps hnp.
by exists hf', (learn gk (later ts2)), J; split.
Qed.
(** a run is determined by its start and its events *)
Lemma trace_same k hf es gs hf1 gs' hf2 : trace k hf es gs hf1 -> trace k hf es gs' hf2 -> hf1 = hf2.
Proof.
elim: es hf gs gs' => [|e es IH] hf [|g gs] [|g' gs'] //=; first by move=> <-.
by case=> _ [h1 c1 t1] [_ [h2 c2 t2]]; move: c2; rewrite c1 => -[e2]; rewrite -e2 in t2; exact: IH t1 t2.
Qed.
End Batch.

(** ** Concrete case: random walk [x' = x + w] from mean 0 and variance 1,
    measured as 3 after the step, all variances 1.  The filter ends with mean 2
    and variance 2/3; the best sequence of states is 1, 2 with cost 3, which is
    the squared innovation [(3 - 0)^2 / 3]; the smoothed first state is 1. *)
Section Ex.
Let RQ := [realFieldType of rat].
Let q (a b : nat) : rat := a%:R / b%:R.
Let g0 : gauss RQ 1 := Gauss 0%:M 1%:M.
Let i0 : info RQ 1 := Info (3%:R)%:M 1%:M 0%:M 1%:M.
Let t : lstep RQ 1 := LStep 1%:M 0%:M 1%:M i0.
Let hf0 : heap (gauss RQ 1) * filt unit := ([:: Some g0; Some g0], Filt 0%N 1%N 0%N tt).
Let g2 : gauss RQ 1 := Gauss (2%:R)%:M (q 2 3)%:M.
Let ex_qf (p v : rat) : qf (invmx (p%:M : 'M[RQ]_1)) v%:M = v ^+ 2 / p.
Proof. by rewrite /qf invmx_scalar tr_scalar_mx -!scalar_mxM mxE eqxx mulr1n mulrAC expr2. Qed.
Let ex_cor (m p h r z Z : rat) : corrected (Gauss (m%:M : 'cV_1) p%:M) z%:M Z%:M h%:M r%:M =
  Gauss (m + p * h / (h * p * h + r) * (z - Z))%:M (p - p * h / (h * p * h + r) * h * p)%:M :> gauss RQ 1.
Proof.
rewrite /corrected /=; have -> : gain p%:M h%:M r%:M = (p * h / (h * p * h + r))%:M :> 'M[rat]_1.
  by rewrite /gain /innov_cov !tr_scalar_mx -!scalar_mxM -raddfD invmx_scalar -scalar_mxM.
by rewrite -!raddfB -!scalar_mxM -raddfB -raddfD.
Qed.
Let hP : pd (g_cov g0). Proof. exact: pd1. Qed.
Let ht : forall k, List.In k [:: t] -> good_step k. Proof. by move=> k [<-|[]]; split; exact: pd1. Qed.
Let hes : forall e, List.In e (steps_events unit [:: t]) -> good_event e.
Proof.
by move=> e [<-|[<-|[]]] /=; split; [exists (fun _ => 1%:M), (fun _ => 0%:M), (fun _ => 1%:M)|move=> *; exact: pd1|left|
  exists (fun _ => 1%:M), (fun _ => 0%:M), (fun _ => 1%:M)|move=> *; exact: pd1|left].
Qed.
Let filtered : nth g0 (g0 :: forward g0 [:: t]) 1 = g2.
Proof.
rewrite /= /learn /moved /predicted /= !tr_scalar_mx -!scalar_mxM -!raddfD /= -!scalar_mxM -!raddfD /= ex_cor.
by congr (Gauss _%:M _%:M); apply/eqP; vm_compute.
Qed.
Example C77_example : exists gs hf' x0 xs0, let k : kind RQ 1 := None in
  [/\ trace k hf0 (steps_events unit [:: t]) gs hf', f_post hf' = Ok g2, size xs0 = 1%N, last x0 xs0 = (2%:R)%:M &
      batch_cost g0 (steps_events unit [:: t]) x0 xs0 <= batch_cost g0 (steps_events unit [:: t]) 1%:M [:: (2%:R)%:M]].
Proof.
have [gs [hf' [g' [x0 [xs0 [[tr hp] hsz hl he lo]]]]]] := C77_estimate (k := None) (erefl : f_post hf0 = Ok g0) I hP hes.
have [gs1 [hf1 [tr1 hp1]]] := C78_forward unit (k := None) (erefl : f_post hf0 = Ok g0) I (pd_psd hP) ht (leqnn 1).
have same : hf1 = hf'.
  exact: (trace_same tr1 tr).
move: hp1; rewrite same filtered hp => -[eg]; subst g'.
by exists gs, hf', x0, xs0; split=> //; have [] := lo 1%:M [:: (2%:R)%:M].
Qed.
Example C77_cost_example : batch_cost g0 (steps_events unit [:: t]) 1%:M [:: (2%:R)%:M] = 3%:R /\
  squared_innovation (moved g0 1%:M 0%:M 1%:M) (Observe (info_model unit i0) (3%:R)%:M None) = 3%:R.
Proof.
split; rewrite /batch_cost /= /noise /val /jac /= ?mul1mx -?raddfD -?raddfB /=.
  by rewrite !ex_qf; apply/eqP; vm_compute.
by rewrite /innov_cov /= !tr_scalar_mx -!raddfD /= -!scalar_mxM -!raddfD /= ex_qf; apply/eqP; vm_compute.
Qed.
Example C78_example : let hf := ([:: Some g2; Some g0], Filt 0%N 0%N 0%N tt) in
  exists hf' s, [/\ runO (@rts_call RQ unit 1) hf [:: back_call (step_model unit t) None 1%N] = Ok ([:: true], hf'),
    f_post hf' = Ok s, pd (g_cov s) & forall x, x != g_mu s -> exists x2, forall y,
      batch_cost g0 (steps_events unit [:: t]) (g_mu s) [:: x2] < batch_cost g0 (steps_events unit [:: t]) x [:: y]].
Proof.
move=> hf; have hp : f_post hf = Ok (last g0 (forward g0 [:: t])) by rewrite [last _ _]filtered.
have hps : forall k, (k < 1)%N -> h_get hf.1 (nth 0%N [:: 1%N] k) = Ok (nth g0 (g0 :: forward g0 [:: t]) k) by case.
have [hf' [s [J [h1 h2 h3 lo ex]]]] := @C78_smoother RQ unit 1 hf g0 [::] [:: t] [:: 1%N] hP ht hp erefl hps isT.
exists hf', s; split=> // x hx; have [x1 [xs1 [xs2 [z1 z2 e1 e2]]]] := ex (g_mu s).
move/size0nil: z1 => z1; subst xs1; case: xs2 z2 e2 => [//|x2 [|//]] _ e2; rewrite [last _ _]/= in e1.
rewrite e1 subrr qfv0 addr0 in e2; exists x2 => y; rewrite e2.
apply: lt_le_trans (lo x [::] [:: y] erefl erefl); rewrite ltr_addl; apply: (pd_inv h3).2.
by rewrite subr_eq0.
Qed.
End Ex.
Print Assumptions C77_batch.
Print Assumptions C77_estimate.
Print Assumptions C78_forward.
Print Assumptions C78_smoother.
