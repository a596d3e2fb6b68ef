(** * Concrete cases for the extended Kalman particle filter: C75, C76 *)
From mathcomp Require Import all_ssreflect all_algebra zify ring.
From Verif Require Import Outcome OrdLra Simulation SpecProb ModelTables ProofsTables SpecMatrix ProofsMatrix ModelMatrix ModelDiscretePdf
  ModelMCPdf SpecMCPdf ProofsMCPdf ModelMoments ProofsMoments ModelFilter ProofsFilter ModelKalman ProofsKalman ModelWrapper ModelGauss ModelProposal SpecProposal
  PropertiesProposal ModelEKPF SpecEKPF PropertiesEKPF PropertiesEKStep.
Set Implicit Arguments. Unset Strict Implicit. Unset Printing Implicit Defensive.
Import Order.TTheory GRing.Theory Num.Theory.
Local Open Scope ring_scope.

(** ** The density of the code *)
Section Code.
Variables (R : rcfType) (eps twopi : R) (expo : R -> R) (n : nat).
Hypothesis n0 : (0 < n)%N.
Lemma covar_out (f : fpd R n) p r : agree f p -> fp_covar f = Ok r ->
  exists g, [/\ proposal p = Ok g, r.1 = g_cov g & agree r.2 p].
Proof. exact: covar_ref. Qed.
Lemma mean_out (f : fpd R n) p r : agree f p -> fp_mean f = Ok r ->
  exists g, [/\ proposal p = Ok g, r.1 = g_mu g & agree r.2 p].
Proof.
move=> h e; have := exec_ref FMeanQ n0 h; rewrite /fp_exec /p_exec e /=; case: (proposal p) => [g||] //= [[e1] h1].
by exists g.
Qed.
Definition density (g : gauss R n) (x : 'cV[R]_n) : R :=
  if (let! i := mat_inv (g_cov g) in let! det := mat_det (g_cov g) in
      if gs_factor twopi n det is Some c then
        Ok (expo (- (1 / 2) * ((x - g_mu g)^T *m (i *m (x - g_mu g))) 0 0) * c) else Abort) is Ok v then v else 0.
Lemma code_evaluates : evaluates (fp_prob twopi expo (n := n)) density.
Proof.
move=> f p x r h hp; rewrite /fp_prob; case h1: (fp_mean f) => [r1||] //=; have [g [hg e1 {}h1]] := mean_out h h1.
case h2: (fp_covar _) => [r2||] //=; have [g2 [hg2 e2 {}h2]] := covar_out h1 h2; move: hg2; rewrite hg => -[eg]; subst g2.
case hi: (mat_inv _) => [i||] //=; rewrite /guard; case: ifP => //= _.
case h3: (fp_covar _) => [r3||] //=; have [g3 [hg3 e3 {}h3]] := covar_out h2 h3; move: hg3; rewrite hg => -[eg]; subst g3.
case hd: (mat_det _) => [det||] //=; have := ag_dim h; rewrite hp => ->; case hf: (gs_factor _ _ _) => [c|] //=.
case: ifP => //= _ [<-]; exists g; split=> //; rewrite /density; move: hi hd; rewrite e2 e3 => -> /= -> /=.
by rewrite hf e1.
Qed.
End Code.

(** ** Two updates in one dimension: x' = x and z = x, all noise variances 1; two
    particles at 0.  The tape moves particle 0 to 0 and particle 1 to 1 in both
    updates; p(x'|x) stands in for the system density, with 1/(1+(x'-x)^2). *)
Section Two.
Variable R : realFieldType.
Let stay : asys R (meas R) 1 := AModel true (fun x _ => x) (fun _ _ => 1%:M) (fun _ _ => 1%:M).
Let seen : ameas R (meas R) 1 := existT _ 1%N (AModel true (fun x _ => x) (fun _ _ => 1%:M) (fun _ _ => 1%:M)).
Let z0 : meas R := existT _ 1%N (0 : 'cV[R]_1).
Let draw (f : fpd R 1) (zz : nat -> R) := let! r := fp_mean f in Ok (Some ((zz 0%N)%:M : 'cV[R]_1), r.2).
Let sam (g : gauss R 1) (zz : nat -> R) : 'cV[R]_1 := (zz 0%N)%:M.
Let pprob (f : fpd R 1) (x : 'cV[R]_1) := let! r := fp_mean f in Ok (1 : R, r.2).
Let dn (g : gauss R 1) (x : 'cV[R]_1) : R := 1.
Let dsys (a : asys R (meas R) 1) (x y : 'cV[R]_1) (u : option (meas R)) : outcome R := Ok (1 / (1 + (x 0 0 - y 0 0) ^+ 2)).
Variable like : R.
Hypothesis like0 : 0 <= like.
Let dmeas (a : ameas R (meas R) 1) (z : meas R) (x : 'cV[R]_1) (s : option (meas R)) : outcome R := Ok like.
Variable root : R -> nat -> R.
Let n1 : (0 < 1)%N := isT.
Let mean_mid (f : fpd R 1) p r : agree f p -> fp_mean f = Ok r -> exists g, [/\ proposal p = Ok g, r.1 = g_mu g & agree r.2 p].
Proof.
move=> h e; have := exec_ref FMeanQ n1 h; rewrite /fp_exec /p_exec e /=; case: (proposal p) => [g||] //= [[e1] h1].
by exists g.
Qed.
Let mean_fwd (f : fpd R 1) p g : agree f p -> proposal p = Ok g -> exists r, fp_mean f = Ok r.
Proof.
by move=> h e; have := exec_ref FMeanQ n1 h; rewrite /fp_exec /p_exec e /=; case: (fp_mean f) => // r _; exists r.
Qed.
Let Hs : samples draw sam.
Proof. by move=> f p zz r h _; rewrite /draw; case e: (fp_mean f) => [q||] //= [<-]; have [g [h1 _ h2]] := mean_mid h e; exists g. Qed.
Let He : evaluates pprob dn.
Proof. by move=> f p zz r h _; rewrite /pprob; case e: (fp_mean f) => [q||] //= [<-]; have [g [h1 _ h2]] := mean_mid h e; exists g. Qed.
Let Hst : samples_total draw.
Proof. by move=> f p zz g h _ hp; rewrite /draw; have [r ->] := mean_fwd h hp; eexists. Qed.
Let Het : evaluates_total pprob.
Proof. by move=> f p zz g h _ hp; rewrite /pprob; have [r ->] := mean_fwd h hp; eexists. Qed.
Let step_ok x P : psd P -> exists2 g, ekf_step stay None seen (Some z0) None x P = Ok g & psd (g_cov g).
Proof.
move=> hP; rewrite -(@proposal_conf _ _ stay None seen (Some z0) None x [:: existT _ 1%N x; z0]) //.
rewrite (@C60_value _ _ _ stay (projT2 seen) x P z0 z0 0 [:: existT _ 1%N x; z0]) //; 
  try by [move=> *; exact/pd_psd/pd1|move=> *; exact: pd1].
eexists; first reflexivity; apply: corrected_psd; last exact: pd1.
by apply: predicted_psd => //; exact/pd_psd/pd1.
Qed.
Let factor_value P x y : psd P -> factor dn dsys dmeas stay None seen (Some z0) None P x y =
  Ok (like * (1 / (1 + (x 0 0 - y 0 0) ^+ 2))).
Proof.
move=> hP; rewrite /factor /= /mkProb /guard like0 /=; have [g -> _] := step_ok y hP.
have hv : 0 <= 1 / (1 + (x 0 0 - y 0 0) ^+ 2) :> R by rewrite divr_ge0 ?ler01 // addr_ge0 ?ler01 ?sqr_ge0.
by rewrite /= /dn oner_eq0 /dsys /= hv /= divr1.
Qed.

Let half : R := 1 / 2%:R.
Let d0 : mcpdf R 'cV[R]_1 := MC [:: (0, half); (0, half)] [:: 0; half; 1] 1.
Let zs (k : nat) : nat -> R := fun _ => (odd k)%:R.
Let one : call (asys R (meas R) 1) (ameas R (meas R) 1) (meas R) (meas R) := Update_smz _ (Some stay) (Some seen) z0.
Notation ecall := (ek_call_with root draw pprob dsys dmeas).
Variables (junk : 'cV[R]_1 * R) (g0 : gauss R 1) (us : nat -> R).
Let start := ek_new_filter junk g0 5 0 us zs [:: Some d0] 0.
Let d0_total : total (weights (mc_los d0)) = 1.
Proof. by rewrite /weights /= !total_cons total_nil /half addr0; field. Qed.
Let d0_valid : mc_valid d0.
Proof.
split=> //; first by split=> //; rewrite /nonneg /= /half divr_ge0 ?ler01 ?ler0n.
have -> : mc_cum d0 = cum_loop 0 (weights (mc_los d0)); last exact: cum_prefix.
by rewrite /= add0r; congr [:: _; _; _]; rewrite /half; field.
Qed.
Let started : exists h1 fl, start = Ok (h1, fl) /\ [/\ exists2 d, f_post (h1, fl) = Ok d & mc_valid d /\ mc_los d = mc_los d0,
   ek_cov (fl_priv fl) = [:: mc_cov d0; mc_cov d0], fl_time fl = 0%N, ek_zs (fl_priv fl) = zs &
   (ek_dyn (fl_priv fl), ek_period (fl_priv fl)) = (false, Posz 5)].
Proof.
have [h1 [fl hs]] : exists h1 fl, start = Ok (h1, fl).
  rewrite /start /ek_new_filter /f_new /ek_copy /= mc_setWE ?d0_total ?ltr01 //=; last by rewrite /nonneg /= /half divr_ge0 ?ler01 ?ler0n.
  by rewrite /ek_init /guard eqxx /=; do 2!eexists.
exists h1, fl; split=> //; have [d1 [p [hc hp ep hi ht]]] := newE (erefl _ : h_get [:: Some d0] 0 = Ok d0) hs.
have [_ e1 hv] := copyE hc; rewrite ep; move: hi; rewrite /ek_init /guard eqxx /= => -[<-]; split=> //.
exists d1 => //; split=> //; rewrite e1 /= /normalised d0_total /=; by rewrite divr1.
Qed.

Let next (w0 w1 : R) : seq ('cV[R]_1 * R) := [:: (0, w0 * like); (1%:M, w1 * (like / 2%:R))].
Let one_step h1 fl cs bs hf d x0 x1 w0 w1 P0 P1 : start = Ok (h1, fl) -> runO ecall (h1, fl) cs = Ok (bs, hf) ->
  f_post hf = Ok d -> mc_valid d -> mc_los d = [:: (x0, w0); (x1, w1)] ->
  ek_cov (fl_priv hf.2) = [:: P0; P1] -> psd P0 -> psd P1 -> quiet (fl_priv hf.2) (fl_time hf.2) ->
  ek_zs (fl_priv hf.2) 0%N = zs 0 -> ek_zs (fl_priv hf.2) 1%N = zs 1 ->
  exists b hf' d' P2 P3, [/\ ecall hf one = Ok (b, hf') /\ f_post hf' = Ok d',
    b = (0 < total (weights (next w0 w1))) /\ (mc_los d' = (if b then normalised (next w0 w1) else next w0 w1) /\ (b -> mc_valid d')),
    ek_cov (fl_priv hf'.2) = [:: P2; P3] /\ (psd P2 /\ psd P3), fl_time hf'.2 = (fl_time hf.2).+1 &
    settings (fl_priv hf'.2) = settings (fl_priv hf.2) /\
    ek_zs (fl_priv hf'.2) = fun i => ek_zs (fl_priv hf.2) (2 + i)%N].
Proof.
move=> hs hr hp hv hd hc p0 p1 hq z1 z2; have [g1 e1 q1] := step_ok x0 p0; have [g2 e2 q2] := step_ok x1 p1.
have h0 : h_get [:: Some d0] 0 = Ok d0 by [].
have hm1 : mapO (fun x => ekf_step stay None seen (Some z0) None x.1.1 x.2) (zip (mc_los d) (ek_cov (fl_priv hf.2))) = Ok [:: g1; g2].
  by rewrite hd hc /= e1 /= e2.
have hm2 : mapO (fun x => factor dn dsys dmeas stay None seen (Some z0) None (last 0 (ek_cov (fl_priv hf.2))) x.1.1 x.2.1)
   (zip (zip (moved sam [:: g1; g2] (ek_zs (fl_priv hf.2))) (weights (mc_los d))) (mc_los d0)) = Ok [:: like; like / 2%:R].
  rewrite hd hc /moved /= !factor_value //= /sam z1 z2 /zs /=.
  by rewrite !mxE /= !mulr1n !subr0 expr0n expr1n /= addr0 !mul1r invr1 mulr1.
have hnn : all (fun v => 0 <= v) [:: like; like / 2%:R] by rewrite /= like0 divr_ge0 ?ler0n.
have [b [hf' hcall]] := C75_returns n1 Hs He Hst Het h0 hs hr (erefl _ : routed one = _) hp hv hq hm1 hm2 hnn.
have [d1 [d2 [_ hp' _]]] := call_inv hcall.
have [a [am [gs [fs [[[<-] [<-]] j1 j2 [j3 j4 j9] [j5 j6 j7 j8]]]]]] :=
  C75_update n1 Hs He h0 hs hr hcall (erefl _ : routed one = _) hp hp' hv hq.
move: j1 j2 j3 j4 j5; rewrite hm1 => -[<-]; rewrite hm2 => -[<-] j3 j4 j5.
have em : [seq (x.1.1, x.1.2 * x.2) | x <- zip (zip (moved sam [:: g1; g2] (ek_zs (fl_priv hf.2))) (weights (mc_los d)))
   [:: like; like / 2%:R]] = next w0 w1.
  by rewrite hd /moved /= /sam z1 z2 /zs /next /=; congr [:: (_, _); _]; apply/matrixP => i j; rewrite !mxE mul0rn.
rewrite em in j3 j4; exists b, hf', d2, (g_cov g1), (g_cov g2); split=> //; split=> //; by rewrite j8 hd.
Qed.

Let cov0_psd : psd (mc_cov d0).
Proof. exact: mc_cov_psd. Qed.
(** The second update uses the particles of the prior: particle 1 went from 0 to
    1 and then stayed, so its second factor should be that of particle 0 and the
    weights should stay 2/3 and 1/3. *)
Example C75_stale_example : 0 < like -> exists h1 fl hf1 hf2 e1 e2,
  [/\ start = Ok (h1, fl), runO ecall (h1, fl) [:: one] = Ok ([:: true], hf1),
      ecall hf1 one = Ok (true, hf2),
      [/\ f_post hf1 = Ok e1, mc_los e1 = [:: (0, 2%:R / 3%:R); (1%:M, 1 / 3%:R)], mc_valid e1 & quiet (fl_priv hf1.2) (fl_time hf1.2)] &
      f_post hf2 = Ok e2 /\ mc_los e2 = [:: (0, 4%:R / 5%:R); (1%:M, 1 / 5%:R)]].
Proof.
move=> hlike; have [h1 [fl [hs [[d hp [hv hl]] hc ht hz [hdyn hper]]]]] := started.
have hlike0 := lt0r_neq0 hlike.
have [|||b1 [hf1 [e1 [P2 [P3 [[c1 p1] [b1E [l1 v1]] [cv1 [q2 q3]] t1 [s1 z1]]]]]]] :=
  one_step hs (erefl _ : runO ecall (h1, fl) [::] = _) hp hv hl hc cov0_psd cov0_psd; rewrite ?hz //.
  by rewrite /quiet /= hdyn ht andbF.
have tot : total (weights (next half half)) = like * (3%:R / 4%:R).
  by rewrite /weights /= !total_cons total_nil /half addr0; field.
have pos : 0 < total (weights (next half half)) by rewrite tot mulr_gt0 // divr_gt0 // ltr0n.
rewrite pos in b1E; subst b1.
have l1' : mc_los e1 = [:: (0, 2%:R / 3%:R); (1%:M, 1 / 3%:R)].
  by rewrite l1 /normalised tot /= /half; congr [:: (_, _); (_, _)]; field.
have r1 : runO ecall (h1, fl) [:: one] = Ok ([:: true], hf1) by cbn [runO]; rewrite c1.
have hq1 : quiet (fl_priv hf1.2) (fl_time hf1.2).
  by move: s1; rewrite /settings /quiet t1 ht => -[-> -> _ _]; rewrite hdyn hper.
have [||b2 [hf2 [e2 [P4 [P5 [[c2 p2] [b2E [l2 v2]] _ _ _]]]]]] :=
  one_step hs r1 p1 (v1 isT) l1' cv1 q2 q3 hq1; rewrite ?z1 ?hz //.
have tot2 : total (weights (next (2%:R / 3%:R) (1 / 3%:R))) = like * (5%:R / 6%:R).
  by rewrite /weights /= !total_cons total_nil addr0; field.
have pos2 : 0 < total (weights (next (2%:R / 3%:R) (1 / 3%:R))) by rewrite tot2 mulr_gt0 // divr_gt0 // ltr0n.
rewrite pos2 in b2E; subst b2.
exists h1, fl, hf1, hf2, e1, e2; split=> //; first by split=> //; exact: v1.
by split=> //; rewrite l2 /normalised tot2 /=; congr [:: (_, _); (_, _)]; field.
Qed.
(** what the second factors should be, and what they are *)
Example C75_factor_example P : psd P ->
  let fac := factor dn dsys dmeas stay None seen (Some z0) None P in
  fac 1%:M 1%:M = Ok like /\ fac 1%:M 0 = Ok (like / 2%:R).
Proof.
by move=> hP; split; rewrite factor_value // !mxE /= ?mulr1n ?subrr ?subr0 ?expr0n ?expr1n /= ?addr0 ?mul1r ?divr1 ?mulr1.
Qed.
(** a likelihood of zero at all particles ends the filter *)
Example C76_dead_example : like = 0 -> exists h1 fl hf1 e1,
  [/\ start = Ok (h1, fl), runO ecall (h1, fl) [:: one] = Ok ([:: false], hf1), f_post hf1 = Ok e1 & dead e1].
Proof.
move=> hlike; have [h1 [fl [hs [[d hp [hv hl]] hc ht hz [hdyn hper]]]]] := started.
have [|||b1 [hf1 [e1 [P2 [P3 [[c1 p1] [b1E [l1 v1]] [cv1 [q2 q3]] t1 [s1 z1]]]]]]] :=
  one_step hs (erefl _ : runO ecall (h1, fl) [::] = _) hp hv hl hc cov0_psd cov0_psd; rewrite ?hz //.
  by rewrite /quiet /= hdyn ht andbF.
have tot : total (weights (next half half)) = 0 by rewrite /weights /= !total_cons total_nil hlike mul0r !mulr0 !addr0.
rewrite tot ltxx in b1E; subst b1.
by exists h1, fl, hf1, e1; split=> //; first (by cbn [runO]; rewrite c1); rewrite /dead l1 /= hlike mul0r !mulr0 eqxx.
Qed.
End Two.

(** the sampler with a buffer of the right size is one of those of C75 *)
Section Repaired.
Variables (R : rcfType) (eps : R) (n : nat).
Hypothesis n0 : (0 < n)%N.
Definition repaired_draw (f : fpd R n) (z : nat -> R) : outcome (option 'cV[R]_n * fpd R n) :=
  let! r := fp_mean f in let! q := fp_covar r.2 in
  let! d := gs_draw eps (fp_dim f) (fp_dim f) (pv r.1) (pm q.1) z in let! x := meas_cast n d.2 in Ok (Some x, q.2).
Definition repaired_sample (g : gauss R n) (z : nat -> R) : 'cV[R]_n :=
  if (let! d := gs_draw eps n n (pv (g_mu g)) (pm (g_cov g)) z in meas_cast n d.2) is Ok x then x else 0.
Lemma repaired_samples : samples repaired_draw repaired_sample.
Proof.
move=> f p zz r h hp; rewrite /repaired_draw; case h1: (fp_mean f) => [r1||] //=; have [g [hg e1 {}h1]] := mean_out n0 h h1.
case h2: (fp_covar _) => [r2||] //=; have [g2 [hg2 e2 {}h2]] := covar_out n0 h1 h2; move: hg2; rewrite hg => -[eg]; subst g2.
have := ag_dim h; rewrite hp => ->; case hd: (gs_draw _ _ _ _ _ _) => [d||] //=; case hx: (meas_cast _ _) => [x||] //= [<-].
by exists g; split=> //; rewrite /repaired_sample -e1 -e2 hd /= hx.
Qed.
End Repaired.
