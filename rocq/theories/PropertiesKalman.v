(** * Properties of the Kalman filters (C43-C49, C73) *)
From mathcomp Require Import all_ssreflect all_algebra.
From mathcomp Require Import ring zify.
From Verif Require Import Outcome OrdLra SpecMatrix ModelMatrix ProofsMatrix ModelFilter ProofsFilter ModelKalman
  SpecKalman ProofsKalman.
Set Implicit Arguments. Unset Strict Implicit. Unset Printing Implicit Defensive.
Import Order.TTheory GRing.Theory Num.Theory.
Local Open Scope ring_scope.

Section Kalman.
Variables (R : realFieldType) (U : Type) (n : nat).
Implicit Types (k : kind R n) (g : gauss R n) (s u : option U) (hf : heap (gauss R n) * filt unit).

(** ** C43: system update *)
Theorem C43_system k hf (a : asys R U n) u g : f_post hf = Ok g -> supplied a u -> psd_noise a ->
  symmetric (g_cov g) ->
  let x := g_mu g in
  exists hf' g', [/\ kf_call k hf (sys_call a u) = Ok (true, hf'), f_post hf' = Ok g',
    g_mu g' = val a u x, g_cov g' = jac a u x *m g_cov g *m (jac a u x)^T + noise a u x &
    symmetric (g_cov g') /\ (psd (g_cov g) -> psd (g_cov g'))].
Proof.
move=> hg hs hQ sP x; have hq : psd (noise a u x) by apply: hQ.
have sq : symmetric (noise a u x) by case: hq.
have [hf' h1 h2] := kf_sys_call k hg hs sP sq.
exists hf', (predicted g (val a u x) (jac a u x) (noise a u x)); split=> //.
split; first by apply: symD => //; exact: sym_cong.
by move=> hP; exact: predicted_psd.
Qed.

(** ** C44: measurement update *)
Theorem C44_measurement k hf m (a : amodel R U n m) (z : 'cV[R]_m) s g : f_post hf = Ok g -> runs k ->
  supplied a s -> pd_noise a -> psd (g_cov g) ->
  exists hf' g' xi, let H := jac a s xi in let Rn := noise a s xi in let K := gain (g_cov g) H Rn in
    [/\ kf_call k hf (meas_call a z s) = Ok (true, hf'), f_post hf' = Ok g', lin_point k a s g z xi &
    [/\ pd (innov_cov (g_cov g) H Rn), innov_cov (g_cov g) H Rn \in unitmx,
        g_mu g' = g_mu g + K *m (z - lin_pred a s (g_mu g) xi) &
        [/\ g_cov g' = g_cov g - K *m H *m g_cov g, g_cov g' = joseph K (g_cov g) H Rn,
            psd (g_cov g') & mle (g_cov g') (g_cov g)]]].
Proof.
move=> hg hk hs hR hP; have [hf' [xi [h1 h2 h3]]] := kf_meas_call z hg hk hs hP hR.
exists hf'; eexists; exists xi; split; [exact: h1|exact: h3|exact: h2|].
have hx : pd (noise a s xi) by apply: hR.
split=> //; [exact: innov_pd|exact: meas_unit|].
split=> //; [|exact: meas_psd|exact: meas_mle].
by rewrite joseph_gain //; [exact: meas_unit|case: hP|case: hx].
Qed.

(** every history of careful calls on a new filter succeeds and leaves a valid
    covariance *)
Theorem C44_history k h p g hf (cs : seq (call (asys R U n) (ameas R U n) U (meas R))) :
  @k_new R n h p = Ok hf -> h_get h p = Ok g -> psd (g_cov g) -> runs k ->
  (forall c, List.In c cs -> good_call c) ->
  exists fl hf' g', [/\ runO (kf_call k) hf cs = Ok (fl, hf'), all id fl, f_post hf' = Ok g' & psd (g_cov g')].
Proof.
move=> hn hg hP hk.
have hpost : f_post hf = Ok (Gauss (g_mu g) (g_cov g)).
  move: hn; rewrite /k_new /f_new hg /= => -[<-]; rewrite /f_post /h_get /=.
  have -> : at_ (rcons h (Some (Gauss (g_mu g) (g_cov g)))) (size h) = Ok (Some (Gauss (g_mu g) (g_cov g))).
    by rewrite (at_nth None) ?size_rcons // nth_rcons ltnn eqxx.
  by [].
have {hP hpost hn hg} : exists2 g, f_post hf = Ok g & psd (g_cov g) by eexists; [exact: hpost|].
elim: cs hf => [|c cs IH] hf [g0 hg hP] hc /=.
  by exists [::], hf, g0; split.
have [hf1 [g1 [h1 h2 h3]]] := kf_good hg hP hk (hc c (or_introl erefl)).
have [||fl [hf' [g' [e1 e2 e3 e4]]]] := IH hf1 _ _; first by exists g1.
  by move=> d hd; apply: hc; right.
by exists (true :: fl), hf', g'; rewrite h1 /= e1; split.
Qed.

(** ** C45: optimality *)
(** information form *)
Theorem C45_information k hf m (a : amodel R U n m) (z : 'cV[R]_m) s g : f_post hf = Ok g -> runs k ->
  supplied a s -> pd_noise a -> pd (g_cov g) ->
  exists hf' g' xi, [/\ kf_call k hf (meas_call a z s) = Ok (true, hf'), f_post hf' = Ok g',
    lin_point k a s g z xi, pd (g_cov g') &
    invmx (g_cov g') = invmx (g_cov g) + (jac a s xi)^T *m invmx (noise a s xi) *m jac a s xi].
Proof.
move=> hg hk hs hR hP; have [hf' [xi [h1 h2 h3]]] := kf_meas_call z hg hk hs (pd_psd hP) hR.
exists hf'; eexists; exists xi; split; [exact: h1|exact: h3|exact: h2|exact/info_pd/hP/hR|].
by rewrite info_inv //; exact: hR.
Qed.

(** the new mean is the only minimiser of prior distance plus residual, and the
    minimum value is the normalised innovation *)
Theorem C45_minimiser k hf m (a : amodel R U n m) (z : 'cV[R]_m) s g : f_post hf = Ok g -> runs k ->
  supplied a s -> pd_noise a -> pd (g_cov g) ->
  exists hf' g' xi, let Z := lin_pred a s (g_mu g) xi in
    let J := cost g z Z (jac a s xi) (noise a s xi) in
    [/\ kf_call k hf (meas_call a z s) = Ok (true, hf'), f_post hf' = Ok g', lin_point k a s g z xi &
    [/\ forall x, J x = J (g_mu g') + qf (invmx (g_cov g')) (x - g_mu g'),
        J (g_mu g') = qf (invmx (innov_cov (g_cov g) (jac a s xi) (noise a s xi))) (z - Z) &
        forall x, x != g_mu g' -> J (g_mu g') < J x]].
Proof.
move=> hg hk hs hR hP; have [hf' [xi [h1 h2 h3]]] := kf_meas_call z hg hk hs (pd_psd hP) hR.
have hx : pd (noise a s xi) by apply: hR.
set g' := corrected _ _ _ _ _ in h3.
have hJ x := @cost_split R n m g z (lin_pred a s (g_mu g) xi) (jac a s xi) (noise a s xi) x hP hx.
have hmin x : cost g z (lin_pred a s (g_mu g) xi) (jac a s xi) (noise a s xi) x =
   cost g z (lin_pred a s (g_mu g) xi) (jac a s xi) (noise a s xi) (g_mu g') +
   qf (invmx (g_cov g')) (x - g_mu g').
  by rewrite !hJ -/g' subrr qfv0 add0r addrC.
exists hf', g', xi; split=> //; split=> //; first by rewrite hJ -/g' subrr qfv0 add0r.
move=> x hne; rewrite [X in _ < X]hmin ltr_addl.
have [_] : pd (invmx (g_cov g')) by apply/pd_inv/info_pd.
by apply; rewrite subr_eq0.
Qed.

(** the gain is the best one: every other linear correction has a larger error
    covariance *)
Theorem C45_gain k hf m (a : amodel R U n m) (z : 'cV[R]_m) s g : f_post hf = Ok g -> runs k ->
  supplied a s -> pd_noise a -> psd (g_cov g) ->
  exists hf' g' xi, let H := jac a s xi in let Rn := noise a s xi in
    [/\ kf_call k hf (meas_call a z s) = Ok (true, hf'), f_post hf' = Ok g', lin_point k a s g z xi &
    forall G, mle (g_cov g') (joseph G (g_cov g) H Rn) /\
      (joseph G (g_cov g) H Rn = g_cov g' -> g_mu g' = g_mu g + G *m (z - lin_pred a s (g_mu g) xi))].
Proof.
move=> hg hk hs hR hP; have [hf' [xi [h1 h2 h3]]] := kf_meas_call z hg hk hs hP hR.
have hx : pd (noise a s xi) by apply: hR.
exists hf'; eexists; exists xi; split; [exact: h1|exact: h3|exact: h2|move=> G; split].
  exact: meas_best.
by move=> h; rewrite (meas_best_uniq hx hP h).
Qed.

(** normalising constants: det P det R = det P' det S *)
Theorem C45_determinants k hf m (a : amodel R U n m) (z : 'cV[R]_m) s g : f_post hf = Ok g -> runs k ->
  supplied a s -> pd_noise a -> psd (g_cov g) ->
  exists hf' g' xi, let H := jac a s xi in let Rn := noise a s xi in
    [/\ kf_call k hf (meas_call a z s) = Ok (true, hf'), f_post hf' = Ok g', lin_point k a s g z xi &
    \det (g_cov g') * \det (innov_cov (g_cov g) H Rn) = \det (g_cov g) * \det Rn].
Proof.
move=> hg hk hs hR hP; have [hf' [xi [h1 h2 h3]]] := kf_meas_call z hg hk hs hP hR.
exists hf'; eexists; exists xi; split; [exact: h1|exact: h3|exact: h2|].
by apply: det_update; apply: meas_unit => //; exact: hR.
Qed.

(** ** C46: order of two measurements with linear models *)
Lemma linear_at m (a : amodel R U n m) s g xi : linear_model a -> 
  [/\ lin_pred a s (g_mu g) xi = val a s (g_mu g), jac a s xi = jac a s (g_mu g) &
      noise a s xi = noise a s (g_mu g)].
Proof.
case=> A [b [C h]]; rewrite /lin_pred /val /jac /noise.
have [e1 e2 e3] := h xi (given a s); have [f1 f2 f3] := h (g_mu g) (given a s).
rewrite e1 e2 e3 f1 f2 f3; split=> //.
by rewrite mulmxBr; move: (A _ *m xi) (A _ *m g_mu g) (b _) => p q r; mxring.
Qed.

(** the filter after one measurement with a linear model *)
Lemma linear_call k hf m (a : amodel R U n m) z s g : f_post hf = Ok g -> runs k -> supplied a s ->
  psd (g_cov g) -> pd_noise a -> linear_model a ->
  exists2 hf', kf_call k hf (meas_call a z s) = Ok (true, hf') &
    f_post hf' = Ok (corrected g z (val a s (g_mu g)) (jac a s (g_mu g)) (noise a s (g_mu g))).
Proof.
move=> hg hk hs hP hR hl; have [hf' [xi [h1 _ h3]]] := kf_meas_call z hg hk hs hP hR.
by have [e1 e2 e3] := linear_at s g xi hl; exists hf'; rewrite // h3 e1 e2 e3.
Qed.

Section Stack.
Variables (m1 m2 : nat) (a1 : amodel R U n m1) (a2 : amodel R U n m2) (s1 s2 : option U).
Variables (z1 : 'cV[R]_m1) (z2 : 'cV[R]_m2).
Hypotheses (hl1 : linear_model a1) (hl2 : linear_model a2) (hR1 : pd_noise a1) (hR2 : pd_noise a2).

Lemma seq_is_stacked g : psd (g_cov g) ->
  let x := g_mu g in
  let g1 := corrected g z1 (val a1 s1 x) (jac a1 s1 x) (noise a1 s1 x) in
  let x1 := g_mu g1 in
  corrected g1 z2 (val a2 s2 x1) (jac a2 s2 x1) (noise a2 s2 x1) =
  corrected g (col_mx z1 z2) (col_mx (val a1 s1 x) (val a2 s2 x)) (col_mx (jac a1 s1 x) (jac a2 s2 x))
    (block_mx (noise a1 s1 x) 0 0 (noise a2 s2 x)).
Proof.
move=> hP x g1 x1.
have [hr1 hr2] : pd (noise a1 s1 x) /\ pd (noise a2 s2 x) by split; [apply: hR1|apply: hR2].
have [_ e2 e3] := linear_at s2 g x1 hl2.
have ev : val a2 s2 x1 = val a2 s2 x + jac a2 s2 x *m (x1 - x).
  case: hl2 => A [b [C h]]; rewrite /val /jac.
  have [f1 f2 _] := h x (given a2 s2); have [f1' _ _] := h x1 (given a2 s2).
  by rewrite f1' f1 f2 mulmxBr; move: (A _ *m x) (A _ *m x1) (b _) => p q r; mxring.
rewrite ev e2 e3 [in RHS]/corrected stack_gain // -/x -/x1.
rewrite mul_row_col opp_col_mx add_col_mx mul_row_col.
rewrite /corrected /x1 /g1 /= -/x.
set K1 := gain (g_cov g) _ _; set P1 := g_cov g - _; set K2 := gain P1 _ _.
set H1 := jac a1 s1 x; set H2 := jac a2 s2 x.
have -> : x + K1 *m (z1 - val a1 s1 x) - x = K1 *m (z1 - val a1 s1 x) by rewrite addrC addKr.
move: (z1 - val a1 s1 x) => y1.
congr Gauss.
  rewrite opprD [z2 + _]addrA mulmxBr mulmxBl !mulmxA.
  move: (z2 - val a2 s2 x) => y2.
  move: (K1 *m y1) (K2 *m y2) (K2 *m H2 *m K1 *m y1) => p q r; mxring.
have -> : K2 *m H2 *m P1 = K2 *m H2 *m g_cov g - K2 *m H2 *m K1 *m H1 *m g_cov g.
  by rewrite /P1 mulmxBr !mulmxA.
rewrite mulmxDl mulmxBl mulmxBl /P1.
move: (K1 *m H1 *m g_cov g) (K2 *m H2 *m g_cov g) (K2 *m H2 *m K1 *m H1 *m g_cov g) => p q r.
by move: (g_cov g) => P; mxring.
Qed.
End Stack.

Theorem C46_order k hf m1 m2 (a1 : amodel R U n m1) (a2 : amodel R U n m2) s1 s2 z1 z2 g :
  f_post hf = Ok g -> runs k -> psd (g_cov g) ->
  linear_model a1 -> linear_model a2 -> pd_noise a1 -> pd_noise a2 -> supplied a1 s1 -> supplied a2 s2 ->
  exists f12 f21 fs g',
    [/\ runO (kf_call k) hf [:: meas_call a1 z1 s1; meas_call a2 z2 s2] = Ok ([:: true; true], f12),
        runO (kf_call k) hf [:: meas_call a2 z2 s2; meas_call a1 z1 s1] = Ok ([:: true; true], f21),
        kf_call k hf (meas_call (stacked a1 s1 a2 s2) (col_mx z1 z2) None) = Ok (true, fs) &
        [/\ f_post f12 = Ok g', f_post f21 = Ok g' & f_post fs = Ok g']].
Proof.
move=> hg hk hP l1 l2 r1 r2 u1 u2.
have one m (a : amodel R U n m) s z : pd_noise a -> psd (g_cov (corrected g z (val a s (g_mu g)) (jac a s (g_mu g)) (noise a s (g_mu g)))).
  by move=> h; apply: corrected_psd => //; exact: h.
have [h1 c1 p1] := linear_call z1 hg hk u1 hP r1 l1.
have [h2 c2 p2] := linear_call z2 hg hk u2 hP r2 l2.
have [h12 c12 p12] := linear_call z2 p1 hk u2 (one _ _ _ _ r1) r2 l2.
have [h21 c21 p21] := linear_call z1 p2 hk u1 (one _ _ _ _ r2) r1 l1.
have rs : pd_noise (stacked a1 s1 a2 s2).
  by move=> x v; apply: block_pd; [apply: r1|apply: r2].
have ls : linear_model (stacked a1 s1 a2 s2).
  case: l1 => A1 [b1 [C1 e1]]; case: l2 => A2 [b2 [C2 e2]].
  exists (fun _ => col_mx (A1 (given a1 s1)) (A2 (given a2 s2))),
         (fun _ => col_mx (b1 (given a1 s1)) (b2 (given a2 s2))),
         (fun _ => block_mx (C1 (given a1 s1)) 0 0 (C2 (given a2 s2))) => x v.
  have [f1 f2 f3] := e1 x (given a1 s1); have [f4 f5 f6] := e2 x (given a2 s2).
  by rewrite /= /val /jac /noise f1 f2 f3 f4 f5 f6 mul_col_mx add_col_mx.
have us : supplied (stacked a1 s1 a2 s2) None by left.
have [hs cs ps] := linear_call (col_mx z1 z2) hg hk us hP rs ls.
exists h12, h21, hs; eexists; split; [by rewrite /= c1 /= c12|by rewrite /= c2 /= c21|exact: cs|split; last exact: ps].
  by rewrite p12 seq_is_stacked.
rewrite p21 seq_is_stacked //; congr Ok.
have [p q] : pd (noise a1 s1 (g_mu g)) /\ pd (noise a2 s2 (g_mu g)) by split; [apply: r1|apply: r2].
have [A [B e]] : exists A B, gain (g_cov g) (col_mx (jac a1 s1 (g_mu g)) (jac a2 s2 (g_mu g)))
    (block_mx (noise a1 s1 (g_mu g)) 0 0 (noise a2 s2 (g_mu g))) = row_mx A B.
  by eexists; eexists; exact: stack_gain.
rewrite /corrected /stacked [jac (AModel _ _ _ _) _ _]/jac [noise (AModel _ _ _ _) _ _]/noise [val (AModel _ _ _ _) _ _]/val.
rewrite ![am_f _]/= ![am_df _]/= ![am_cov _]/= e (stack_swap hP p q e).
rewrite !opp_col_mx !add_col_mx !mul_row_col.
by rewrite [in RHS](addrC (A *m (z1 - _))) [in RHS](addrC (A *m jac a1 s1 _)).
Qed.

(** ** C47: NIS *)
Theorem C47_value m (a : amodel R U n m) (z : 'cV[R]_m) g : am_noextra a -> pd_noise a -> psd (g_cov g) ->
  let x := g_mu g in let S := innov_cov (g_cov g) (jac a None x) (noise a None x) in
  exists2 v, ekf_nis (existT _ m a) (existT _ m z) g = Ok v &
    [/\ v = qf (invmx S) (z - val a None x), 0 <= v & (v == 0) = (z == val a None x)].
Proof.
move=> hs hR hP x S; have hx : pd (noise a None x) by apply: hR.
have us : supplied a None by left.
have hS : pd S by exact: innov_pd.
exists (qf (invmx S) (z - val a None x)).
  rewrite /ekf_nis am_predictE //= am_jacobianE //= am_noiseE //=; last by case: hx.
  by rewrite meas_castE /= /k_nis_calc /minv mulmxA -/(innov_cov (g_cov g) (jac a None x) (noise a None x)) -/S pd_unit //= /qf mulmxA.
have [sS pS] := pd_inv hS; have [_ qS] := pd_psd (pd_inv hS).
split=> //; rewrite -[z == _]subr_eq0; case: (z - val a None x =P 0) => [->|/eqP hz].
  by rewrite qfv0 eqxx.
by apply/negbTE; rewrite gt_eqF // pS.
Qed.
(** a model with a sensor parameter gets an empty vector instead of one *)
Theorem C47_parameters_refuted m (a : amodel R U n m) (z : meas R) g :
  am_noextra a = false -> ekf_nis (existT _ m a) z g = UB.
Proof. by move=> h; rewrite /ekf_nis /am_predict /am_arg h. Qed.

(** ** C48: iterated filter versus extended filter *)
Lemma f_call_ext D Priv SM MM Us Z (i1 i2 : option SM -> option Us -> option MM -> option Z -> option Us ->
    fstate D Priv -> outcome (bool * fstate D Priv)) (hf : heap D * filt Priv) c :
  (forall st, let r := routed c in i1 r.1.1.1.1 r.1.1.1.2 r.1.1.2 r.1.2 r.2 st = i2 r.1.1.1.1 r.1.1.1.2 r.1.1.2 r.1.2 r.2 st) ->
  f_call i1 hf c = f_call i2 hf c.
Proof. by move=> h; rewrite !f_callE /= /f_update; case: (h_get _ _) => //= d; rewrite h. Qed.

Lemma iekf_one chk am (z : option (meas R)) s st : iekf_meas 1 chk am z s st = @ekf_meas R U n am z s st.
Proof.
case: am => m a; rewrite /iekf_meas /ekf_meas; case: z => [z|] //=.
rewrite /am_jacobian /am_noise /am_predict; case: (am_arg a s) => [v||] //=.
rewrite subrr mulmx0 addr0.
rewrite /meas_cast; case: eqVneq => [e|_] /=; last by rewrite /minv; case: ifP.
by rewrite /k_meas_calc mulmxA /minv; case: ifP => h //=; rewrite mulmxA h.
Qed.

(** with one iteration the two filters are the same, for every model and also
    when a call fails *)
Theorem C48_one_iteration chk hf c : @iekf_call R U n 1 chk hf c = ekf_call hf c.
Proof.
apply: f_call_ext => st /=; rewrite /iekf_internal /ekf_internal /two_step.
case: (routed c).1.1.2 => [am|]; case: (if _ is Some _ then _ else _) => [p||] //=.
by rewrite iekf_one.
Qed.

Lemma iekf_linear_loop m chk (a : amodel R U n m) s x P z it go xi A b C v :
  (forall x w, [/\ am_f a x w = A w *m x + b w, am_df a x w = A w & am_cov a x w = C w]) ->
  am_arg a s = Ok v ->
  let L := (A v *m x + b v, A v, sym_lower (C v)) in
  (iekf_loop chk a s x P z it go xi (Some L) = Ok (Some L)) \/
  (A v *m P *m (A v)^T + sym_lower (C v) \notin unitmx) \/ projT1 z <> m.
Proof.
move=> hl hv L; case hS: (A v *m P *m (A v)^T + sym_lower (C v) \in unitmx); last by right; left.
case: (projT1 z =P m) => [hz|hz]; last by right; right.
left; have [z' _ hc] := meas_cast_eq hz.
elim: it go xi => [//|it IH] go xi /=; case: go => //=.
rewrite /am_jacobian /am_noise /am_predict hv /=; have [-> -> ->] := hl xi v.
rewrite /minv hS /= hc /=.
have -> : A v *m xi + b v + A v *m (x - xi) = A v *m x + b v.
  by rewrite mulmxBr; move: (A v *m x) (A v *m xi) (b v) => p q r; mxring.
exact: IH.
Qed.

Lemma iekf_linear nr chk am (z : option (meas R)) s st : (0 < nr)%N -> linear_model (projT2 am) ->
  iekf_meas nr chk am z s st = @ekf_meas R U n am z s st.
Proof.
case: nr => [//|nr] _; case: am => m a /= [A [b [C hl]]].
rewrite /iekf_meas /ekf_meas; case: z => [z|] //=.
case hv: (am_arg a s) => [v||]; rewrite /am_jacobian /am_noise /am_predict hv //=.
have [-> -> ->] := hl (g_mu st.2) v; rewrite subrr mulmx0 addr0.
case: (projT1 z =P m) => [hz|hz]; last first.
  have hc : meas_cast m z = Abort by rewrite /meas_cast; case: eqVneq.
  by rewrite hc /= /minv; case: ifP.
have [z' _ hc] := meas_cast_eq hz; rewrite hc /= /k_meas_calc mulmxA /minv.
case hS: (_ \in unitmx) => //=.
set go := (if _ is Some _ then _ else _); set xi := (_ + _ *m (z' - _)).
have [-> /=|[|]] := iekf_linear_loop chk (g_mu st.2) (g_cov st.2) z nr go xi hl hv.
- by rewrite /= mulmxA hS.
- by rewrite hS.
- by [].
Qed.

(** with a linear measurement model the number of iterations and the innovation
    check do not matter *)
Theorem C48_linear nr chk hf c : (0 < nr)%N ->
  (forall am, meas_model c = Some am -> linear_model (projT2 am)) ->
  @iekf_call R U n nr chk hf c = ekf_call hf c.
Proof.
move=> hnr hl; apply: f_call_ext => st /=; rewrite /iekf_internal /ekf_internal /two_step.
have -> : (routed c).1.1.2 = meas_model c by case: (c).
case hm: (meas_model c) => [am|]; case: (if _ is Some _ then _ else _) => [p||] //=.
by rewrite iekf_linear //; exact: hl.
Qed.

(** without iterations a measurement update reads buffers nothing was written to *)
Theorem C48_zero_iterations_refuted chk hf g m (a : amodel R U n m) z s : f_post hf = Ok g ->
  @iekf_call R U n 0 chk hf (meas_call a z s) = UB.
Proof.
move=> hg; rewrite /iekf_call f_callE; case: s => [s|] /=;
  by rewrite /f_update /= -/(f_post hf) hg.
Qed.

(** ** C49: the result is one Kalman update from the prior, linearised at the
    last but one iterate; its mean is the last iterate *)
Theorem C49_last_linearisation nr chk hf m (a : amodel R U n m) (z : 'cV[R]_m) s g : (0 < nr)%N ->
  f_post hf = Ok g -> supplied a s -> pd_noise a -> psd (g_cov g) ->
  exists hf' g' j, let x := gn_iter a s g z in let H := jac a s (x j.-1) in
    let K := gain (g_cov g) H (noise a s (x j.-1)) in
    [/\ iekf_call nr chk hf (meas_call a z s) = Ok (true, hf'), f_post hf' = Ok g', stops chk x nr j,
        g_mu g' = x j & g_cov g' = g_cov g - K *m H *m g_cov g].
Proof.
move=> hnr hg hs hR hP.
have [hf' [xi [h1 [j h2 e] h3]]] := kf_meas_call (k := Some (nr, chk)) z hg hnr hs hP hR; subst xi.
exists hf'; eexists; exists j; split; [exact: h1|exact: h3|exact: h2| |by []].
by case: h2; case: j {h1 h3} => [//|j] _ _ _ /=.
Qed.

(** a converged iteration is a stationary point of the non-linear cost: prior
    pull and weighted residual balance *)
Theorem C49_fixed_point nr chk hf m (a : amodel R U n m) (z : 'cV[R]_m) s g : (0 < nr)%N ->
  f_post hf = Ok g -> supplied a s -> pd_noise a -> pd (g_cov g) ->
  exists hf' g' j, let x := gn_iter a s g z in
    [/\ iekf_call nr chk hf (meas_call a z s) = Ok (true, hf'), f_post hf' = Ok g', stops chk x nr j &
     x j = x j.-1 ->
     invmx (g_cov g) *m (g_mu g' - g_mu g) =
     (jac a s (g_mu g'))^T *m invmx (noise a s (g_mu g')) *m (z - val a s (g_mu g'))].
Proof.
move=> hnr hg hs hR hP.
have [hf' [g' [j [h1 h2 h3 h4 _]]]] := C49_last_linearisation chk z hnr hg hs hR (pd_psd hP).
exists hf', g', j; split=> //; rewrite h4 => e; rewrite e.
set y := gn_iter a s g z j.-1 in e h4 *.
have hy : y = gn_step a s g z y.
  by rewrite -{1}e /y; case: j {h4 e h1} @y h3 => [|j] y [].
have hx : pd (noise a s y) by apply: hR.
set d := y - g_mu g.
have hd : d = gain (g_cov g) (jac a s y) (noise a s y) *m (z - val a s y + jac a s y *m d).
  rewrite /d {1}hy /gn_step addrC addKr; congr (_ *m _).
  rewrite /lin_pred opprD addrA; congr (_ + _).
  by rewrite -mulmxN opprB.
set K := gain _ _ _ in hd; set H := jac a s y in hd *; set Rn := noise a s y in hx hd *.
move: (z - val a s y) hd => r hd.
(* (P' invmx) d with P' the updated covariance *)
have i1 := info_inv H hx hP; have i2 := info_gain H hx hP; rewrite -/K in i1 i2.
have : invmx (g_cov g - K *m H *m g_cov g) *m d = H^T *m invmx Rn *m (r + H *m d).
  by rewrite {1}hd mulmxA i2.
rewrite i1 mulmxDl [_ *m (r + _)]mulmxDr (mulmxA _ H d).
by move=> /addIr.
Qed.
End Kalman.

(** ** C73: the innovation check *)
Section Innov.
Variables (R : realFieldType) (U : Type) (n : nat).
Implicit Types (v : 'cV[R]_n) (g : gauss R n) (s : option U) (hf : heap (gauss R n) * filt unit).

(** the squared Euclidean length *)
Definition len2 v : R := \sum_i (v i ord0) ^+ 2.
Lemma len2_ge0 v : 0 <= len2 v. Proof. by apply: sumr_ge0 => i _; exact: sqr_ge0. Qed.

(** what is compared is the squared length; equality counts as large *)
Theorem C73_check min v : innovation_check min v = (min <= len2 v).
Proof.
rewrite /innovation_check mxE; congr (_ <= _); apply: eq_bigr => i _.
by rewrite mxE expr2.
Qed.

(** the documented test compares the length [l] itself; the two agree when the
    threshold is 1 or not positive *)
Theorem C73_agree min v l : 0 <= l -> l ^+ 2 = len2 v -> (min <= 0) || (min == 1) ->
  innovation_check min v = (min <= l).
Proof.
move=> hl e hm; rewrite C73_check -e; case/orP: hm => [hm|/eqP ->].
  by rewrite !(le_trans hm) ?sqr_ge0.
by rewrite -{1}(expr1n _ 2) ler_pexpn2r // nnegrE.
Qed.
End Innov.

(** for a threshold strictly between 0 and 1 a step longer than the threshold is
    called small, for one above 1 a shorter step is called large *)
Theorem C73_norm_refuted (R : realFieldType) n (min : R) : (0 < n)%N ->
  (0 < min < 1 -> exists v : 'cV[R]_n, exists l, [/\ 0 <= l, l ^+ 2 = len2 v, min < l & ~~ innovation_check min v]) /\
  (1 < min -> exists v : 'cV[R]_n, exists l, [/\ 0 <= l, l ^+ 2 = len2 v, l < min & innovation_check min v]).
Proof.
case: n => // n _.
have hv (l : R) : l ^+ 2 = len2 (\col_(i < n.+1) (if i == 0 then l else 0)).
  rewrite /len2 (bigD1 ord0) //= mxE eqxx big1 ?addr0 // => i hi; rewrite mxE (negbTE hi) expr0n //.
split=> [/andP [h0 h1]|h1].
- have [l [hl hml hll]] : exists l, [/\ 0 <= l, min < l & l ^+ 2 < min].
    (* l = min + (min - min^2) / 4 *)
    pose t : R := (1 - min) / 4%:R; have ht : 0 < t by rewrite divr_gt0 ?subr_gt0 // ltr0n.
    have et : t * 4%:R = 1 - min by rewrite /t -mulrA mulVf ?mulr1 // pnatr_eq0.
    exists (min * (1 + t)); split; first by apply: ltW; apply: mulr_gt0 => //; apply: addr_gt0 => //; exact: ltr01.
      by rewrite -{1}(mulr1 min) ltr_pmul2l // ltr_addl.
    rewrite exprMn expr2 -mulrA -{3}(mulr1 min) ltr_pmul2l //.
    have -> : min = 1 - t * 4%:R by rewrite et opprB addrC subrK.
    have ht1 : t * 4%:R < 1 by rewrite et ltr_subl_addr ltr_addl.
    nra.
  exists (\col_(i < n.+1) (if i == 0 then l else 0)), l; split=> //.
  by rewrite C73_check -hv -ltNge.
- have [l [hl hml hll]] : exists l, [/\ 0 <= l, l < min & min <= l ^+ 2].
    exists ((min + 1) / 2%:R); have e : (min + 1) / 2%:R * 2%:R = min + 1 by rewrite -mulrA mulVf ?mulr1 // pnatr_eq0.
    move: ((min + 1) / 2%:R) e => l e; split; [lra|lra|].
    have -> : min = l * 2%:R - 1 by rewrite e addrK.
    by have := sqr_ge0 (l - 1); rewrite sqrrB1 expr2; lra.
  exists (\col_(i < n.+1) (if i == 0 then l else 0)), l; split=> //.
  by rewrite C73_check -hv.
Qed.

Section Filter.
Variables (R : realFieldType) (U : Type) (n : nat).
Implicit Types (v : 'cV[R]_n) (g : gauss R n) (s : option U) (hf : heap (gauss R n) * filt unit).

(** in the filter: the iteration whose squared step is below the threshold is
    still used, and is the last *)
Theorem C73_filter nr min hf m (a : amodel R U n m) (z : 'cV[R]_m) s g : (0 < nr)%N ->
  f_post hf = Ok g -> supplied a s -> pd_noise a -> psd (g_cov g) ->
  exists hf' g' j, let x := gn_iter a s g z in let step i := len2 (x i - x i.-1) in
    [/\ iekf_call nr (Some (innovation_check min)) hf (meas_call a z s) = Ok (true, hf'), f_post hf' = Ok g',
        g_mu g' = x j, (0 < j <= nr)%N &
        (forall i, (0 < i < j)%N -> min <= step i) /\ ((j < nr)%N -> step j < min)].
Proof.
move=> hnr hg hs hR hP.
have [hf' [g' [j [h1 h2 [h3 h4 h5] h6 _]]]] := C49_last_linearisation (Some (innovation_check min)) z hnr hg hs hR hP.
exists hf', g', j; split=> //; split=> [i /h4|hj].
  by rewrite /passes C73_check.
case: h5 => [e|]; first by move: hj; rewrite e ltnn.
by rewrite /passes C73_check -ltNge.
Qed.

(** the default check (threshold 0) never stops an iteration, for any model *)
Lemma loop_free m (chk : 'cV[R]_n -> bool) (a : amodel R U n m) s x P z it xi o : (forall v, chk v) ->
  iekf_loop (Some chk) a s x P z it true xi o = iekf_loop None a s x P z it true xi o.
Proof.
move=> hc; elim: it xi o => [//|it IH] xi o /=.
case: (am_jacobian _ _ _) => [H||] //=; case: (am_noise _ _ _) => [Rn||] //=; case: (minv _) => [Si||] //=.
by case: (am_predict _ _ _) => [h||] //=; case: (meas_cast _ _) => [zz||] //=; rewrite hc IH.
Qed.
Theorem C73_default nr min hf c : min <= 0 ->
  @iekf_call R U n nr (Some (innovation_check min)) hf c = iekf_call nr None hf c.
Proof.
move=> hm; have hc v : innovation_check min v by rewrite C73_check (le_trans hm) // len2_ge0.
apply: f_call_ext => st /=; rewrite /iekf_internal /two_step.
case: (routed c).1.1.2 => [[m a]|]; case: (if _ is Some _ then _ else _) => [p||] //=.
by rewrite /iekf_meas; case: (routed c).1.2 => [z|] //=; rewrite loop_free.
Qed.
End Filter.

(** ** Concrete cases: over the rationals, one state; a sensor measuring the
    square of the state and one measuring the state itself, both with unit
    noise, and a walk that doubles the state *)
Section Examples.
Let q (a b : nat) : rat := a%:R / b%:R.
Let RQ := [realFieldType of rat].
Let M1 := 'M[rat]_1.
Let square : amodel RQ unit 1 1 :=
  AModel true (fun x _ => (x 0 0 ^+ 2)%:M) (fun x _ => (2%:R * x 0 0)%:M) (fun _ _ => 1%:M).
Let direct : amodel RQ unit 1 1 := AModel true (fun x _ => x) (fun _ _ => 1%:M) (fun _ _ => 1%:M).
Let double : asys RQ unit 1 :=
  AModel false (fun x _ => 2%:R *: x) (fun _ _ => 2%:R%:M) (fun _ _ => 1%:M).
Let g0 : gauss RQ 1 := Gauss 1%:M 1%:M.
Let hf0 : heap (gauss RQ 1) * filt unit := ([:: Some g0; Some g0], Filt 0%N 1%N 0%N tt).

(** the hypotheses of C43, C44, C45, C46, C48 and C49 hold together *)
Lemma ex_hyps : [/\ f_post hf0 = Ok g0, pd (g_cov g0), psd (g_cov g0), pd_noise square & pd_noise direct] /\
  [/\ psd_noise double, supplied square None, supplied direct None, supplied double (Some tt) &
      linear_model direct].
Proof.
split; split=> //; try by [move=> *; exact: pd1|exact: pd1|exact/pd_psd/pd1|move=> *; exact/pd_psd/pd1|left|right].
by exists (fun _ => 1%:M), (fun _ => 0), (fun _ => 1%:M) => x v; rewrite mul1mx addr0.
Qed.
Lemma ex_gain (p h r : rat) : gain p%:M h%:M r%:M = (p * h / (h * p * h + r))%:M :> M1.
Proof.
by rewrite /gain /innov_cov !tr_scalar_mx -!scalar_mxM -raddfD invmx_scalar -scalar_mxM.
Qed.
Lemma ex_cor (m p h r z Z : rat) : corrected (Gauss (m%:M : 'cV_1) p%:M) z%:M Z%:M h%:M r%:M =
  Gauss (m + p * h / (h * p * h + r) * (z - Z))%:M (p - p * h / (h * p * h + r) * h * p)%:M.
Proof. by rewrite /corrected /= ex_gain -!raddfB -!scalar_mxM -raddfB -raddfD. Qed.
Lemma ex_at (x : rat) : (x%:M : M1) 0 0 = x.
Proof. by rewrite mxE eqxx mulr1n. Qed.
Lemma ex_step (xi z : rat) : gn_step square None g0 z%:M xi%:M =
  (1 + 2%:R * xi / (2%:R * xi * (2%:R * xi) + 1) * (z - (xi ^+ 2 + 2%:R * xi * (1 - xi))))%:M.
Proof.
rewrite /gn_step /lin_pred /val /jac /noise /= ex_at -raddfB -scalar_mxM -raddfD -raddfB ex_gain -scalar_mxM -raddfD.
by rewrite mul1r mulr1.
Qed.
Example C43_example : exists hf', ekf_call hf0 (sys_call double (Some tt)) = Ok (true, hf') /\
  f_post hf' = Ok (Gauss 2%:R%:M 5%:R%:M).
Proof.
have [[h1 _ _ _ _] [h2 _ _ h3 _]] := ex_hyps.
have [|hf' [[mu c] [e1 e2 /= e3 e4 _]]] := C43_system None h1 h3 h2; first by rewrite /symmetric trmx1.
exists hf'; split=> //; rewrite e2 e3 e4 /val /jac /noise /= tr_scalar_mx mulmx1 -scalar_mxM -raddfD scale_scalar_mx mulr1.
by congr (Ok (Gauss _ _)); congr (_%:M); apply/eqP; vm_compute.
Qed.
Example C44_example : exists hf', ekf_call hf0 (meas_call square 2%:R%:M None) = Ok (true, hf') /\
  f_post hf' = Ok (Gauss (q 7 5)%:M (q 1 5)%:M).
Proof.
have [[h1 _ h2 h3 _] [_ h4 _ _ _]] := ex_hyps.
have [hf' [xi [e1 e2 e3]]] := kf_meas_call (k := None) 2%:R%:M h1 I h4 h2 h3.
exists hf'; split=> //; rewrite e3 e2 /lin_pred subrr mulmx0 addr0 /val /jac /noise /= ex_at ex_cor.
by congr (Ok (Gauss _ _)); congr (_%:M); apply/eqP; vm_compute.
Qed.
(** a history as in C44_history *)
Example C44_history_example : exists fl hf' g',
  [/\ k_new [:: Some g0] 0 = Ok hf0 &
  runO (kf_call (Some (3%N, None))) hf0 [:: sys_call double (Some tt); meas_call square 2%:R%:M None;
     Update_s _ _ _ None; meas_call direct 0 None] = Ok (fl, hf') /\ [/\ all id fl, f_post hf' = Ok g' & psd (g_cov g')]].
Proof.
have [[h1 _ h2 h3 h4] [h5 h6 h7 h8 _]] := ex_hyps.
have hn : k_new [:: Some g0] 0 = Ok hf0 by [].
have [//||fl [hf' [g' [e1 e2 e3 e4]]]] := C44_history (k := Some (3%N, None)) (cs := [:: sys_call double (Some tt); meas_call square 2%:R%:M None;
     Update_s _ _ _ None; meas_call direct 0 None]) hn (erefl (Ok g0)) h2; last by exists fl, hf', g'.
by move=> c /= [<-|[<-|[<-|[<-|//]]]] /=; split.
Qed.
(** the square sensor is not linear and its update does not commute with the
    other one (C46 needs linearity) *)
Example C46_nonlinear_example : exists f12 f21,
  [/\ runO (@ekf_call RQ unit 1) hf0 [:: meas_call square 2%:R%:M None; meas_call direct 3%:R%:M None] = Ok ([:: true; true], f12),
      runO (@ekf_call RQ unit 1) hf0 [:: meas_call direct 3%:R%:M None; meas_call square 2%:R%:M None] = Ok ([:: true; true], f21) &
      exists2 g1, f_post f12 = Ok g1 & exists2 g2, f_post f21 = Ok g2 & g_mu g1 = (q 5 3)%:M /\ g_mu g2 = (q 14 9)%:M].
Proof.
have [[h1 _ h2 h3 h4] [_ h5 h6 _ _]] := ex_hyps.
have [f1 [x1 [a1 b1 c1]]] := kf_meas_call (k := None) 2%:R%:M h1 I h5 h2 h3.
have [f2 [x2 [a2 b2 c2]]] := kf_meas_call (k := None) 3%:R%:M h1 I h6 h2 h4.
have p1 := corrected_psd 2%:R%:M (lin_pred square None (g_mu g0) x1) (jac square None x1) h2 (h3 x1 None).
have p2 := corrected_psd 3%:R%:M (lin_pred direct None (g_mu g0) x2) (jac direct None x2) h2 (h4 x2 None).
move: b1 b2 => /= e1 e2; subst x1 x2.
set u1 := corrected _ _ _ _ _ in c1; set u2 := corrected _ _ _ _ _ in c2.
have {}p1 : psd (g_cov u1) by exact: p1.
have {}p2 : psd (g_cov u2) by exact: p2.
have e1 : u1 = Gauss (q 7 5)%:M (q 1 5)%:M.
  rewrite /u1 /lin_pred subrr mulmx0 addr0 /val /jac /noise /= ex_at ex_cor.
  by congr Gauss; congr (_%:M); apply/eqP; vm_compute.
have e2 : u2 = Gauss 2%:R%:M (q 1 2)%:M.
  rewrite /u2 /lin_pred subrr mulmx0 addr0 /val /jac /noise /= ex_cor.
  by congr Gauss; congr (_%:M); apply/eqP; vm_compute.
rewrite {}e1 {u1} in c1 p1; rewrite {}e2 {u2} in c2 p2.
have [f12 [y1 [a12 b12 c12]]] := kf_meas_call (k := None) 3%:R%:M c1 I h6 p1 h4.
have [f21 [y2 [a21 b21 c21]]] := kf_meas_call (k := None) 2%:R%:M c2 I h5 p2 h3.
exists f12, f21; split; [by move: a1 a12 => /= -> /= ->|by move: a2 a21 => /= -> /= ->|].
eexists; first exact: c12; eexists; first exact: c21.
move: b12 b21 => /= -> ->; rewrite /lin_pred !subrr !mulmx0 !addr0 /val /jac /noise /= ex_at !ex_gain -!raddfB -!scalar_mxM -!raddfD.
by split; congr (_%:M); apply/eqP; vm_compute.
Qed.
Example C46_example : exists f12 f21 fs g', let k : kind RQ 1 := None in
  [/\ runO (kf_call k) hf0 [:: meas_call direct 2%:R%:M None; meas_call direct 3%:R%:M None] = Ok ([:: true; true], f12),
      runO (kf_call k) hf0 [:: meas_call direct 3%:R%:M None; meas_call direct 2%:R%:M None] = Ok ([:: true; true], f21),
      kf_call k hf0 (meas_call (stacked direct None direct None) (col_mx 2%:R%:M 3%:R%:M) None) = Ok (true, fs) &
      [/\ f_post f12 = Ok g', f_post f21 = Ok g' & f_post fs = Ok g']].
Proof.
have [[h1 _ h2 h3 h4] [_ h5 h6 _ h7]] := ex_hyps.
exact: (C46_order (k := None) 2%:R%:M 3%:R%:M h1 I h2 h7 h7 h4 h4 h6 h6).
Qed.
Example C47_example : exists2 v, ekf_nis (existT _ 1%N square) (existT _ 1%N 2%:R%:M) g0 = Ok v & v = q 1 5.
Proof.
have [[_ _ h2 h3 _] _] := ex_hyps.
have [v e [hv _ _]] := C47_value 2%:R%:M (erefl : am_noextra square) h3 h2; exists v => //.
rewrite hv /val /jac /noise /= /innov_cov tr_scalar_mx ex_at -raddfB -!scalar_mxM -raddfD invmx_scalar /qf tr_scalar_mx -!scalar_mxM ex_at.
by apply/eqP; vm_compute.
Qed.
(** iterating matters for the square sensor: 2 after one step, 31/17 after two *)
Example C49_example :
  gn_iter square None g0 (q 7 2)%:M 1 = 2%:R%:M /\ gn_iter square None g0 (q 7 2)%:M 2 = (q 31 17)%:M.
Proof.
have e : gn_iter square None g0 (q 7 2)%:M 1 = 2%:R%:M.
  by rewrite /gn_iter /= ex_step; congr (_%:M); apply/eqP; vm_compute.
split=> //; rewrite /gn_iter iterS -/(gn_iter square None g0 (q 7 2)%:M 1) e ex_step.
by congr (_%:M); apply/eqP; vm_compute.
Qed.
(** a converged iteration: prior mean 1 and measurement 1 *)
Example C49_fixed_point_example : gn_iter square None g0 1%:M 1 = 1%:M.
Proof. by rewrite /gn_iter /= ex_step; congr (_%:M); apply/eqP; vm_compute. Qed.
Example C48_zero_example : iekf_call 0 None hf0 (meas_call square 2%:R%:M None) = UB.
Proof. by have [[h1 _ _ _ _] _] := ex_hyps; exact: C48_zero_iterations_refuted h1. Qed.
(** threshold 1/100: a step of length 1/20, five times the threshold, is called
    small *)
Example C73_norm_example : let v := (q 1 20)%:M : 'cV[RQ]_1 in
  [/\ (q 1 20) ^+ 2 = len2 v, q 1 100 < q 1 20 & ~~ innovation_check (q 1 100) v].
Proof.
have e : (q 1 20) ^+ 2 = len2 ((q 1 20)%:M : 'cV[RQ]_1) by rewrite /len2 big_ord1 mxE eqxx mulr1n.
split; [exact: e|by vm_compute|by rewrite C73_check -e; vm_compute].
Qed.
(** the square sensor: the first step has squared length 1, the second 9/289;
    with threshold 1/2 the second is the last although three are allowed *)
Example C73_filter_example : exists hf' g',
  [/\ iekf_call 3 (Some (innovation_check (q 1 2))) hf0 (meas_call square (q 7 2)%:M None) = Ok (true, hf'),
      f_post hf' = Ok g' & g_mu g' = (q 31 17)%:M].
Proof.
have [[k1 _ k2 k3 _] [_ k4 _ _ _]] := ex_hyps.
have [hf' [g' [j [h1 h2 h3 h4 [h5 h6]]]]] := C73_filter (nr := 3) (q 1 2) (q 7 2)%:M isT k1 k4 k3 k2.
have [e1 e2] := C49_example.
exists hf', g'; split=> //; rewrite h3.
have l2 (a b : rat) : len2 (a%:M - b%:M : 'cV[RQ]_1) = (a - b) ^+ 2 by rewrite -raddfB /len2 big_ord1 mxE eqxx mulr1n.
suff -> : j = 2%N by exact: e2.
case/andP: h4 => h4 h4'; move: j h4 h4' {h1 h2 h3} h5 h6 => [|[|[|[|j]]]] h4 h4' h5 h6; try by [].
- by exfalso; move: (h6 isT) => {h5 h6}; rewrite e1 [1.-1]/= [gn_iter _ _ _ _ 0]/= l2; vm_compute.
- by exfalso; move: (h5 2%N isT) => {h5 h6}; rewrite [2.-1]/= e1 e2 l2; vm_compute.
Qed.
End Examples.

Print Assumptions C43_system.
Print Assumptions C44_measurement.
Print Assumptions C44_history.
Print Assumptions C45_information.
Print Assumptions C45_minimiser.
Print Assumptions C45_gain.
Print Assumptions C45_determinants.
Print Assumptions C46_order.
Print Assumptions C47_value.
Print Assumptions C47_parameters_refuted.
Print Assumptions C48_one_iteration.
Print Assumptions C48_linear.
Print Assumptions C48_zero_iterations_refuted.
Print Assumptions C49_last_linearisation.
Print Assumptions C49_fixed_point.
Print Assumptions C73_check.
Print Assumptions C73_agree.
Print Assumptions C73_norm_refuted.
Print Assumptions C73_filter.
Print Assumptions C73_default.
