(** * Properties of the Cholesky factorisation and of the square-root iterated
    extended Kalman filter (C50-C52)

    Throughout [eps] is the machine epsilon; all that is used is [0 < eps <= 1]. *)
From mathcomp Require Import all_ssreflect all_algebra.
From mathcomp Require Import ring zify.
From Verif Require Import Outcome OrdLra SpecMatrix ModelMatrix ProofsMatrix ModelFilter ProofsFilter ModelKalman
  SpecKalman ProofsKalman PropertiesKalman ModelSR SpecSR ProofsSR.
Set Implicit Arguments. Unset Strict Implicit. Unset Printing Implicit Defensive.
Import Order.TTheory GRing.Theory Num.Theory.
Local Open Scope ring_scope.

Section Cholesky.
Variables (R : rcfType) (eps : R).
Hypotheses (e0 : 0 < eps) (e1 : eps <= 1).
Variable n : nat.
Implicit Types (A L : 'M[R]_n).

(** ** C52: factorisation of a symmetric matrix
    At least [eps] in every direction: the exact Cholesky factor. *)
Theorem C52_exact A : symmetric A -> mle eps%:M A ->
  exists2 L, cholesky eps A = (true, L) & chol_factor L A.
Proof. exact: chol_exact. Qed.

(** a result without zero pivots is a factor, whatever the input *)
Theorem C52_factor A L : symmetric A -> cholesky eps A = (true, L) ->
  [/\ lower L, forall i, 0 <= L i i & (forall i, L i i != 0) -> chol_factor L A].
Proof.
move=> sA hc; have := choleskyP e0 e1 sA; rewrite hc => -[h1 h2 h3 _]; split=> // hd; split=> //.
  by move=> i; rewrite lt_neqAle eq_sym hd h2.
have lo (i j : 'I_n) : (j <= i)%N -> (L *m L^T) i j = A i j.
  by move=> hji; case: (h3 i j hji) => [[]|[_ h _ _]] //; move: (hd j); rewrite h eqxx.
apply/matrixP => i j; case: (leqP j i) => [|/ltnW]; first exact: lo.
by move=> h; rewrite -[in RHS]sA [RHS]mxE -(lo j i h) !mulmx_trE; apply: eq_bigr => m _; rewrite mulrC.
Qed.

(** positive semidefinite input is never rejected and the product is off by at
    most the square root of [eps] times a variance *)
Theorem C52_psd A : psd A -> exists2 L, cholesky eps A = (true, L) &
  [/\ lower L, forall i, 0 <= L i i &
      forall i j : 'I_n, (j <= i)%N -> (A i j - (L *m L^T) i j) ^+ 2 <= eps * A i i].
Proof.
move=> hA; have sA : symmetric A by case: hA.
have := choleskyP e0 e1 sA; case: (cholesky _ _) => -[] L; last by case=> _ [].
case=> h1 h2 h3 _; exists L => //; split=> // i j hji.
case: (h3 i j hji) => [[_ ->]|[_ _ _]]; last exact.
by rewrite subrr expr0n /=; apply: mulr_ge0; [exact: ltW|exact: psd_diag].
Qed.

(** rejected input is not positive semidefinite, and the result is zero *)
Theorem C52_false A L : symmetric A -> cholesky eps A = (false, L) -> L = 0 /\ ~ psd A.
Proof. by move=> sA hc; have := choleskyP e0 e1 sA; rewrite hc. Qed.
End Cholesky.

(** the matrix [[0, c], [c, 0]] is accepted for every [c], with factor zero *)
Theorem C52_indefinite_refuted (R : rcfType) (eps c : R) : 0 < eps ->
  let A : 'M[R]_2 := \matrix_(i, j) (if i == j then 0 else c) in
  [/\ symmetric A, cholesky eps A = (true, 0) & c != 0 -> ~ psd A /\ (0 : 'M[R]_2) *m (0 : 'M[R]_2)^T != A].
Proof.
move=> e0 A; have sA : symmetric A by apply/matrixP => i j; rewrite !mxE eq_sym.
split=> //.
  have en : enum 'I_2 = [:: ord0; lift ord0 ord0].
    by apply: (inj_map val_inj); rewrite val_enum_ord.
  have st k (a : 'M[R]_2) : a k k = 0 ->
      chol_step eps k a = Some (\matrix_(i, j) (if (j == k) && (k <= i)%N then 0 else a i j)).
    move=> ha; rewrite /chol_step ha e0 oppr_lt0 e0 /= ltxx sqrtr0 e0; congr Some.
    apply/matrixP => i j; rewrite [LHS]mxE ![(\matrix_(_, _) (if _ == k then _ else _)) _ _]mxE !eqxx [RHS]mxE.
    rewrite -!val_eqE /=; case: (ltngtP j k) => h; case: (ltngtP i k) => h' //=; rewrite ?mul0r ?mulr0 ?subr0 ?if_same //.
    by congr (a _ _); exact: val_inj.
  rewrite /cholesky en /= st ?mxE ?eqxx //= st ?mxE //=.
  congr (_, _); apply/matrixP => i j; rewrite !mxE /=.
  by case: i j => -[|[|//]] pi [[|[|//]] pj].
move=> c0; split.
  move=> [_ hq]; pose v : 'cV[R]_2 := \col_i (if i == ord0 then c else -1).
  have := hq v; rewrite qf_entry !big_ord_recl !big_ord0 !mxE /= => h.
  have : 0 < c ^+ 2 by rewrite exprn_even_gt0.
  suff : c ^+ 2 <= 0 by rewrite leNgt => /negbTE ->.
  by nra.
apply/negP => /eqP/matrixP/(_ ord0 (lift ord0 ord0)); rewrite trmx0 mulmx0 !mxE /= => h.
by rewrite -h eqxx in c0.
Qed.

Section Filter.
Variables (R : rcfType) (eps : R) (U : Type) (n : nat).
Hypotheses (e0 : 0 < eps) (e1 : eps <= 1).
Implicit Types (g : gauss R n) (s u : option U) (hf : heap (gauss R n) * filt 'M[R]_n)
  (svd : 'M[R]_n -> 'cV[R]_n * 'M[R]_n * 'M[R]_n) (nr : nat).

(** one call on a filter that holds [g] and factor [J] *)
Lemma sr_one svd nr hf c g J' g' : f_post hf = Ok g ->
  (let r := routed c in sr_internal eps svd nr r.1.1.1.1 r.1.1.1.2 r.1.1.2 r.1.2 r.2 (fl_priv hf.2, fl_time hf.2, g)
     = Ok (true, (J', fl_time hf.2, g'))) ->
  exists hf', [/\ @sr_call R eps U n svd nr hf c = Ok (true, hf'), f_post hf' = Ok g' & sr_cov_get hf' = J'].
Proof.
move=> hg hi; rewrite /sr_call f_callE /=; case: hf hg hi => h [p po t J] hg /= hi.
have [h' [-> [h2 _]]] := f_updateE (hf := (h, Filt p po t J)) hg hi.
by eexists.
Qed.

Lemma sr_meas_one svd nr hf m (a : imodel R U n m) (z : 'cV[R]_m) s g J' g' : f_post hf = Ok g ->
  sr_loop eps svd a s (existT _ m z) (g_mu g) nr (sr_cov_get hf, g) = Ok (J', g') ->
  exists hf', [/\ @sr_call R eps U n svd nr hf (sr_meas_call a z s) = Ok (true, hf'), f_post hf' = Ok g' & sr_cov_get hf' = J'].
Proof.
move=> hg hl; apply: sr_one hg _; rewrite /sr_internal /two_step.
by rewrite /sr_cov_get in hl; case: s hl => [s|] hl /=; rewrite hl.
Qed.

(** ** C50: measurement update
    Uncorrelated components: the iterated extended Kalman filter, and the new
    factor is a factor of the new covariance. *)
Theorem C50_diagonal svd nr hf m (a : imodel R U n m) (z : 'cV[R]_m) s g : (0 < nr)%N -> f_post hf = Ok g ->
  let J := sr_cov_get hf in J *m J^T = g_cov g ->
  let b := explicit a s in let x := gn_iter b None g z in
  (forall i, (i < nr)%N -> good_noise eps a s (x i) /\ uncorrelated a s (g_cov g) (x i)) ->
  exists hf' g', let J' := sr_cov_get hf' in
    [/\ sr_call eps svd nr hf (sr_meas_call a z s) = Ok (true, hf'), f_post hf' = Ok g',
        g' = corrected g z (lin_pred b None (g_mu g) (x nr.-1)) (im_H a s (x nr.-1)) (im_R a s (x nr.-1)),
        g_mu g' = x nr & J' *m J'^T = g_cov g'].
Proof.
case: nr => [//|nr] _ hg J hJ b x hx.
case: g hg hJ @x hx => mu P hg hJ x hx; rewrite [g_cov _]/= in hJ; subst P.
have [|J' [h1 h2]] := @sr_loopE R eps U n e0 e1 svd m a s z J mu nr mu (J *m J^T); first by move=> i; exact: hx.
have [hf' [k1 k2 k3]] := sr_meas_one hg h1.
by exists hf'; eexists; split; [exact: k1|exact: k2| | |rewrite k3; exact: h2].
Qed.

(** in particular every measurement with one component *)
Theorem C50_scalar svd nr hf (a : imodel R U n 1) (z : 'cV[R]_1) s g : (0 < nr)%N -> f_post hf = Ok g ->
  let J := sr_cov_get hf in J *m J^T = g_cov g ->
  let b := explicit a s in let x := gn_iter b None g z in
  (forall i, (i < nr)%N -> good_noise eps a s (x i)) ->
  exists hf' g', let J' := sr_cov_get hf' in
    [/\ sr_call eps svd nr hf (sr_meas_call a z s) = Ok (true, hf'), f_post hf' = Ok g',
        g' = corrected g z (lin_pred b None (g_mu g) (x nr.-1)) (im_H a s (x nr.-1)) (im_R a s (x nr.-1)),
        g_mu g' = x nr & J' *m J'^T = g_cov g'].
Proof.
move=> hnr hg J hJ b x hx; apply: C50_diagonal => // i hi; split; first exact: hx.
by split; exact: diag11.
Qed.

(** any number of one-component measurements with a good noise: same posterior as
    the iterated extended Kalman filter on the explicit models *)
Theorem C50_scalar_history svd nr hf hk g (ms : seq (imodel R U n 1 * 'cV[R]_1 * option U)) : (0 < nr)%N ->
  f_post hf = Ok g -> sr_cov_get hf *m (sr_cov_get hf)^T = g_cov g -> f_post hk = Ok g ->
  (forall a z s x, List.In (a, z, s) ms -> good_noise eps a s x) ->
  exists hf' hk' fl g', [/\
    runO (sr_call eps svd nr) hf [seq sr_meas_call q.1.1 q.1.2 q.2 | q <- ms] = Ok (fl, hf'),
    runO (iekf_call nr None) hk [seq meas_call (explicit q.1.1 q.2) q.1.2 None | q <- ms] = Ok (fl, hk'),
    f_post hf' = Ok g', f_post hk' = Ok g' & sr_cov_get hf' *m (sr_cov_get hf')^T = g_cov g'].
Proof.
move=> hnr; elim: ms hf hk g => [|[[a z] s] ms IH] hf hk g hg hJ hkg hm; first by exists hf, hk, [::], g.
have hn x : good_noise eps a s x by apply: (hm a z); left.
have [//|hf1 [g1 [k1 k2 k3 k4 k5]]] := @C50_scalar svd nr hf a z s g hnr hg hJ.
have hp : psd (g_cov g) by rewrite -hJ; exact: psd_gram.
have hR : pd_noise (explicit a s) by move=> x v; case: (hn x) => h _; exact: mle_pd h.
have hs : supplied (explicit a s) None by left.
have [hk1 [xi [l1 [j [hj _ hst] exi] l3]]] := kf_meas_call (k := Some (nr, None)) z hkg hnr hs hp hR.
have ej : j = nr by case: hst.
subst j xi.
have {}l3 : f_post hk1 = Ok g1 by rewrite l3 k3.
have [|hf' [hk' [fl [g' [m1 m2 m3 m4 m5]]]]] := IH _ _ _ k2 k5 l3; first by move=> a' z' s' x hi; apply: hm; right; exact: hi.
by exists hf', hk', (true :: fl), g'; split=> //=; rewrite ?k1 /= ?m1 //; rewrite /= in l1; rewrite l1 /= m2.
Qed.

(** one iteration with an arbitrary measurement: the gain the code uses *)
Theorem C50_gain svd hf m (a : imodel R U n m) s g : f_post hf = Ok g ->
  let P := sr_cov_get hf *m (sr_cov_get hf)^T in let x := g_mu g in let H := im_H a s x in
  good_noise eps a s x ->
  exists2 L, chol_factor L (innov_cov P H (im_R a s x)) & forall z,
    exists hf' g', [/\ sr_call eps svd 1 hf (sr_meas_call a z s) = Ok (true, hf'), f_post hf' = Ok g' &
    g_mu g' = x + P *m H^T *m invmx (L^T *m L) *m (z - im_Z a s x)].
Proof.
move=> hg; set J := sr_cov_get hf => P x H hn; have [hR _] := hn; have [Lr eLr hLr] := sr_root e0 e1 hn.
have [L hL hmat] := sr_matrixE e0 e1 J H hR; exists L => // z.
have sR := mle_sym hR.
have uT : (Lr^T + L^T) \in unitmx.
  rewrite -linearD /= unitmx_tr; case: hL hLr => l1 l2 _ [r1 r2 _].
  apply: lower_unit => [i j hij|i]; rewrite mxE; first by rewrite l1 // r1 // addr0.
  by rewrite gt_eqF // addr_gt0.
pose J' := J - J *m J^T *m H^T *m (invmx L^T)^T *m invmx (Lr^T + L^T) *m H *m J.
have hl : sr_loop eps svd a s (existT _ m z) x 1 (J, g) =
    Ok (J', Gauss (x + P *m H^T *m invmx (L^T *m L) *m (z - im_Z a s x)) (sym_lower (J' *m J'^T)^T)).
  rewrite /= sr_limitE -/x -/H; rewrite (sym_lowerE sR) in eLr *; rewrite hmat /= meas_castE /= eLr /sr_covariance /minv uT /= -/J'.
  by rewrite subrr mulmx0 addr0.
have [hf' [k1 k2 _]] := sr_meas_one hg hl.
by exists hf'; eexists; split; [exact: k1|exact: k2|].
Qed.

(** correlated components, measurement matrix of full rank: for some reading the
    mean differs from the Kalman update *)
Theorem C50_vector_refuted svd hf m (a : imodel R U n m) s g (G : 'M[R]_(m, n)) : f_post hf = Ok g ->
  let J := sr_cov_get hf in J *m J^T = g_cov g -> let x := g_mu g in
  let H := im_H a s x in let Rn := im_R a s x in
  good_noise eps a s x -> ~ diagonal (innov_cov (g_cov g) H Rn) -> G *m (g_cov g *m H^T) = 1%:M ->
  exists z hf' g', [/\ sr_call eps svd 1 hf (sr_meas_call a z s) = Ok (true, hf'), f_post hf' = Ok g' &
    g_mu g' <> g_mu (corrected g z (im_Z a s x) H Rn)].
Proof.
move=> hg J hJ x H Rn hn hS hG.
have [L hL hz] := C50_gain svd hg hn; rewrite -/J hJ in hL hz.
set Si := invmx (innov_cov (g_cov g) H Rn).
have ne : invmx (L^T *m L) <> Si.
  move=> e; apply: hS; have [c1 c2 c3] := hL.
  have : L^T *m L = L *m L^T by rewrite c3 -[LHS]invmxK e invmxK.
  by move/(normal_diag c1) => hd; rewrite -c3 (diag_sym hd); exact: diag_mul.
pose D := g_cov g *m H^T *m (invmx (L^T *m L) - Si).
have [j hj] : exists j, col j D != 0.
  case: (pickP (fun j => col j D != 0)) => [j hj|h0]; first by exists j.
  exfalso; apply: ne; apply/eqP; rewrite -subr_eq0.
  have : D = 0.
    by apply/matrixP => i j; have /negbFE/eqP/matrixP/(_ i 0) := h0 j; rewrite mxE [RHS]mxE => ->; rewrite mxE.
  by move/(congr1 (mulmx G)); rewrite /D mulmxA hG mul1mx mulmx0 => ->.
exists (im_Z a s x + delta_mx j 0); have [hf' [g' [h1 h2 h3]]] := hz (im_Z a s x + delta_mx j 0).
exists hf', g'; split=> //; rewrite h3 /= => /addrI; rewrite addrAC subrr add0r => e.
case/negP: hj; rewrite colE /D mulmxBr mulmxBl e subrr //.
Qed.

(** the limitation of the singular values has no effect: the filter behaves the
    same for every decomposition routine *)
Theorem C50_limit_refuted svd svd' nr hf c : @sr_call R eps U n svd nr hf c = sr_call eps svd' nr hf c.
Proof.
apply: f_call_ext => st /=; rewrite /sr_internal /two_step.
case: (routed c).1.1.2 => [[m a]|]; case: (if _ is Some _ then _ else _) => [p||] //=.
case: (need _) => [z||] //=.
suff -> : forall xk it st', sr_loop eps svd a (routed c).2 z xk it st' = sr_loop eps svd' a (routed c).2 z xk it st' by [].
move=> xk; elim=> [//|it IH] st' /=; rewrite !sr_limitE.
case: (sr_matrix _ _ _ _) => [[[iS K] Sr]||] //=; case: (meas_cast _ _) => [zz||] //=.
by case: it IH => [//|it] IH; rewrite IH.
Qed.

(** without iterations a measurement is silently dropped *)
Theorem C50_zero_iterations_refuted svd hf m (a : imodel R U n m) (z : 'cV[R]_m) s g : f_post hf = Ok g ->
  exists hf', [/\ sr_call eps svd 0 hf (sr_meas_call a z s) = Ok (true, hf'), f_post hf' = Ok g &
    sr_cov_get hf' = sr_cov_get hf].
Proof. by move=> hg; exact: sr_meas_one hg _. Qed.

(** ** C51: which matrix the filter keeps beside the covariance *)
Theorem C51_construction h p g : h_get h p = Ok g -> mle eps%:M (g_cov g) ->
  exists hf, [/\ @sr_new R eps n h p = Ok hf, f_post hf = Ok (Gauss (g_mu g) (g_cov g)) &
    chol_factor (sr_cov_get hf) (g_cov g)].
Proof.
move=> hg hP; have [L hL hc] := chol_exact e0 e1 (mle_sym hP) hP.
rewrite /sr_new /f_new hg /= hL; eexists; split=> //.
by rewrite /f_post /h_get /= (at_nth None) ?size_rcons // nth_rcons ltnn eqxx.
Qed.

(** after a system update with noise at least [eps] the matrix [J] the filter
    keeps satisfies [J' J = covariance]; [J J' = covariance] only for diagonal
    covariances *)
Theorem C51_system svd nr hf (a : asys R U n) u g : f_post hf = Ok g -> supplied a u -> psd (g_cov g) ->
  mle eps%:M (noise a u (g_mu g)) ->
  let g' := predicted g (val a u (g_mu g)) (jac a u (g_mu g)) (noise a u (g_mu g)) in
  exists hf', let J := sr_cov_get hf' in
    [/\ sr_call eps svd nr hf (sr_sys_call a u) = Ok (true, hf'), f_post hf' = Ok g', J^T *m J = g_cov g' &
        J *m J^T = g_cov g' <-> diagonal (g_cov g')].
Proof.
move=> hg hs hP hQ g'.
have hm : mle eps%:M (g_cov g') by apply: mle_add => //; exact: psd_cong.
have [L hL hc] := chol_exact e0 e1 (mle_sym hm) hm.
have hsys : sr_sys eps a u (fl_priv hf.2, g) = Ok (L^T, g').
  have sP := proj1 hP; have sQ := mle_sym hQ.
  rewrite /sr_sys /= am_predictE //= am_jacobianE //= am_noiseE //= k_sys_calcE // -/g'.
  have -> : sym_lower (jac a u (g_mu g) *m (g_cov g *m (jac a u (g_mu g))^T) + noise a u (g_mu g)) = g_cov g'.
    by have := congr1 (@g_cov R n) (k_sys_calcE (val a u (g_mu g)) (jac a u (g_mu g)) sP sQ).
  by rewrite hL.
have [|hf' [k1 k2 k3]] := @sr_one svd nr hf (sr_sys_call a u) g L^T g' hg.
  by rewrite /sr_internal /two_step; move: hsys; rewrite /sr_sys_call; move: (g'); clear; case: u => [u|] g1 hsys /=; rewrite hsys.
exists hf'; cbv zeta; rewrite k3 trmxK; have [c1 c2 c3] := hc; split=> //; split=> [e|hd].
  have /(normal_diag c1) hd : L^T *m L = L *m L^T by rewrite e c3.
  by rewrite -c3 (diag_sym hd); exact: diag_mul.
by have := chol_diag hc hd => hl; rewrite -c3 (diag_sym hl).
Qed.

(** so the documented factor is lost whenever the predicted covariance is
    correlated, and the next reading of a single state is processed wrongly *)
Theorem C51_refuted svd nr hf (a : asys R U n) u g : f_post hf = Ok g -> supplied a u -> psd (g_cov g) ->
  mle eps%:M (noise a u (g_mu g)) ->
  let g1 := predicted g (val a u (g_mu g)) (jac a u (g_mu g)) (noise a u (g_mu g)) in
  ~ diagonal (g_cov g1) ->
  exists hf1, let J := sr_cov_get hf1 in
    [/\ sr_call eps svd nr hf (sr_sys_call a u) = Ok (true, hf1), f_post hf1 = Ok g1, J *m J^T <> g_cov g1 &
    exists i : 'I_n, forall s, let b := IModel (fun (_ : option U) (_ : 'cV[R]_n) => delta_mx 0 i) (fun _ x => (x i 0)%:M)
       (fun _ _ => 1%:M) (fun _ _ => 1%:M) (fun _ _ => true) : imodel R U n 1 in let z := (g_mu g1 i 0 + 1)%:M in
      exists hf2 g2, [/\ sr_call eps svd 1 hf1 (sr_meas_call b z s) = Ok (true, hf2), f_post hf2 = Ok g2 &
         g_mu g2 <> g_mu (corrected g1 z (im_Z b s (g_mu g1)) (im_H b s (g_mu g1)) (im_R b s (g_mu g1)))]].
Proof.
move=> hg hs hP hQ g1 hd; have [hf1 [h1 h2 h3 h4]] := C51_system svd nr hg hs hP hQ.
set J := sr_cov_get hf1 in h3 h4 *.
have hJ : J *m J^T <> g_cov g1 by move=> /h4.
exists hf1; split=> //.
have [i hi] : exists i, col i (J *m J^T) != col i (g_cov g1).
  case: (pickP (fun i => col i (J *m J^T) != col i (g_cov g1))) => [i hi|h0]; first by exists i.
  exfalso; apply: hJ; apply/matrixP => k i.
  by have /negbFE/eqP/matrixP/(_ k 0) := h0 i; rewrite mxE [RHS]mxE.
exists i => s b z; set x := g_mu g1.
have one (P : 'M[R]_n) : psd P -> P *m (delta_mx 0 i : 'M[R]_(1, n))^T *m invmx (innov_cov P (delta_mx 0 i) 1%:M)
     = (P i i + 1)^-1 *: col i P /\ 0 <= P i i.
  move=> hp; have h := psd_diag i hp; split=> //.
  rewrite /innov_cov trmx_delta -[delta_mx 0 i *m P *m _]mulmxA -![P *m delta_mx i 0]colE.
  have -> : (delta_mx 0 i : 'M[R]_(1, n)) *m col i P = (P i i)%:M.
    by rewrite -rowE; apply/matrixP => k l; rewrite !ord1 !mxE.
  by rewrite -raddfD /= invmx_scalar mul_mx_scalar.
have [|L hL hz] := @C50_gain svd hf1 1 b s g1 h2.
  split=> [|_]; last first.
    by split=> [k l|k|]; rewrite ?ord1 // ?mxE ?eqxx ?ltr01 //= trmx1 mulmx1.
  rewrite /mle /= -raddfB /=; split=> [|v]; first by rewrite /symmetric tr_scalar_mx.
  have -> : (1 - eps)%:M = (1 - eps) *: 1%:M :> 'M[R]_1 by rewrite scale_scalar_mx mulr1.
  by rewrite qfZ mulr_ge0 ?subr_ge0 ?qf1_ge0.
have [hf2 [g2 [k1 k2 k3]]] := hz z; exists hf2, g2; split=> //; rewrite k3 /= => /addrI.
have -> : L^T *m L = innov_cov (J *m J^T) (delta_mx 0 i) 1%:M.
  by case: hL => _ _ /= <-; rewrite (diag_sym (diag11 L)).
have -> : z - (x i 0)%:M = 1%:M by rewrite /z -raddfB /= addrC addKr.
have hp1 : psd (J *m J^T) := psd_gram J.
have hp2 : psd (g_cov g1) by rewrite -h3 -{2}[J]trmxK; exact: psd_gram.
rewrite !mulmx1 /gain; have [-> a1] := one _ hp1; have [-> a2] := one _ hp2 => e.
case/negP: hi; suff hii : (J *m J^T) i i = g_cov g1 i i.
  move: e; rewrite hii => /(congr1 ( *:%R (g_cov g1 i i + 1))).
  by have q1 : g_cov g1 i i + 1 != 0 by [rewrite gt_eqF //; apply: ltr_spaddr a2; exact: ltr01]; rewrite 2!scalerA divff // 2!scale1r => ->.
have ent (M : 'M[R]_n) c : (c *: col i M) i 0 = c * M i i by rewrite 2!mxE.
move/matrixP: e => /(_ i 0); rewrite !ent.
move: ((J *m J^T) i i) (g_cov g1 i i) a1 a2 => p q a1 a2.
have p1 : p + 1 != 0 by rewrite gt_eqF // (ltr_spaddr ltr01).
have q1 : q + 1 != 0 by rewrite gt_eqF // (ltr_spaddr ltr01).
rewrite ![_^-1 * _]mulrC => /eqP; rewrite eqr_div // => /eqP.
by rewrite !mulrDr !mulr1 [q * p]mulrC => /addrI.
Qed.

(** the stored covariance is never read by a measurement update *)
Theorem C51_covariance_ignored svd nr hf hk m (a : imodel R U n m) (z : 'cV[R]_m) s mu C C' hf' : (0 < nr)%N ->
  f_post hf = Ok (Gauss mu C) -> f_post hk = Ok (Gauss mu C') -> sr_cov_get hf = sr_cov_get hk ->
  sr_call eps svd nr hf (sr_meas_call a z s) = Ok (true, hf') ->
  exists hk', [/\ sr_call eps svd nr hk (sr_meas_call a z s) = Ok (true, hk'), f_post hk' = f_post hf' &
    sr_cov_get hk' = sr_cov_get hf'].
Proof.
move=> hnr hg hk2 hJ hc.
have same it J xi D D' : (0 < it)%N ->
    sr_loop eps svd a s (existT _ m z) mu it (J, Gauss xi D) = sr_loop eps svd a s (existT _ m z) mu it (J, Gauss xi D').
  case: it => // it _; elim: it J xi D D' => [|it IH] J xi D D'; first reflexivity.
  have st E : sr_loop eps svd a s (existT _ m z) mu it.+2 (J, Gauss xi E) =
      let H := im_H a s xi in
      let! mats := sr_matrix eps (sr_limit svd J) H (sym_lower (im_R a s xi)) in
      let! zz := meas_cast m (existT _ m z) in
      sr_loop eps svd a s (existT _ m z) mu it.+1
        (sr_limit svd J, Gauss (mu + mats.1.2 *m (zz - (im_Z a s xi + H *m (mu - xi)))) E).
    rewrite [LHS]/sr_loop -/(sr_loop eps svd a s (existT _ m z) mu it.+1); cbv zeta; rewrite [(_, _).1]/= [(_, _).2]/= [g_mu _]/= [g_cov _]/=.
    by case: (sr_matrix _ _ _ _) => [[[iS K] Sr]| |]; reflexivity.
  rewrite !st; cbv zeta; case: (sr_matrix _ _ _ _) => [mats| |]; [|reflexivity|reflexivity].
  have bd (A B : Type) (x : A) (f : A -> outcome B) : obind (Ok x) f = f x by [].
  rewrite 2!bd; case: (meas_cast _ _) => [zz| |]; [|reflexivity|reflexivity].
  by rewrite 2!bd (IH _ _ D D').
case hl: (sr_loop eps svd a s (existT _ m z) mu nr (sr_cov_get hf, Gauss mu C)) => [[J' g']||].
- have [hf1 [k1 k2 k3]] := sr_meas_one hg hl.
  move: k1; rewrite hc => -[e]; subst hf1.
  move: hl; rewrite hJ (same _ _ _ _ C') // => hl.
  by have [hk1 [l1 l2 l3]] := sr_meas_one hk2 hl; exists hk1; rewrite l1 l2 l3 k2 k3.
- move: hc; rewrite /sr_call f_callE /f_update -/(f_post hf) hg /sr_internal /two_step.
  by move: hl; rewrite /sr_cov_get; case: s {same} => [s|] /= ->.
- move: hc; rewrite /sr_call f_callE /f_update -/(f_post hf) hg /sr_internal /two_step.
  by move: hl; rewrite /sr_cov_get; case: s {same} => [s|] /= ->.
Qed.

(** so a new covariance given to [PriorSet] (or a new prior given to [Reset]) is
    reported by the posterior but has no effect on the measurements that follow *)
Theorem C51_prior_set_refuted svd nr hf m (a : imodel R U n m) (z : 'cV[R]_m) s g hf' P : (0 < nr)%N ->
  f_post hf = Ok g -> symmetric P ->
  sr_call eps svd nr hf (sr_meas_call a z s) = Ok (true, hf') ->
  exists hp hp', [/\ sr_prior_set hf (g_mu g) P = Ok hp, f_post hp = Ok (Gauss (g_mu g) P),
    sr_call eps svd nr hp (sr_meas_call a z s) = Ok (true, hp') & f_post hp' = f_post hf'].
Proof.
move=> hnr hg sP hc; case: g hg => mu C hg.
have hl := h_get_lt hg; have [h' hh] := put_at (Some (Gauss mu P)) hl.
have hp : f_post (h', hf.2) = Ok (Gauss mu P) by have [] := h_get_put hh.
have hJ : sr_cov_get hf = sr_cov_get (h', hf.2) by [].
have [hp' [h1 h2 _]] := C51_covariance_ignored hnr hg hp hJ hc.
exists (h', hf.2), hp'; split=> //.
by rewrite /sr_prior_set -/(f_post hf) hg /= sym_lowerE // hh.
Qed.
Theorem C51_reset_refuted svd nr hf m (a : imodel R U n m) (z : 'cV[R]_m) s mu C p P hf' : (0 < nr)%N ->
  f_post hf = Ok (Gauss mu C) -> h_get hf.1 p = Ok (Gauss mu P) ->
  sr_call eps svd nr hf (sr_meas_call a z s) = Ok (true, hf') ->
  let hr := (hf.1, f_reset hf.2 p) in exists hr', [/\ f_post hr = Ok (Gauss mu P),
    sr_call eps svd nr hr (sr_meas_call a z s) = Ok (true, hr') & f_post hr' = f_post hf'].
Proof.
move=> hnr hg hp hc hr; have hJ : sr_cov_get hf = sr_cov_get hr by [].
have hr1 : f_post hr = Ok (Gauss mu P) by [].
by have [hr' [h1 h2 _]] := C51_covariance_ignored hnr hg hr1 hJ hc; exists hr'.
Qed.
End Filter.

(** ** Examples, for every real closed field and threshold *)
Section Examples.
Variables (R : rcfType) (eps : R).
Hypotheses (e0 : 0 < eps) (e1 : eps <= 1).
Let ones : 'M[R]_2 := const_mx 1.
(** [[2, 1], [1, 2]] *)
Let corr : 'M[R]_2 := 1%:M + ones.
Let ex_one n : mle eps%:M (1%:M : 'M[R]_n).
Proof.
have -> : mle eps%:M (1%:M : 'M[R]_n) = psd ((1 - eps) *: 1%:M : 'M[R]_n).
  by rewrite /mle -raddfB /= scale_scalar_mx mulr1.
by apply: psdZ; [rewrite subr_ge0|exact: pd_psd (pd1 _ _)].
Qed.
Let ex_ones : psd ones.
Proof.
have -> : ones = (const_mx 1 : 'cV[R]_2) *m (const_mx 1)^T.
  by apply/matrixP => i j; rewrite !mxE big_ord1 !mxE mulr1.
exact: psd_outer.
Qed.
Let ex_corr : mle eps%:M corr.
Proof. by rewrite /corr addrC; apply: mle_add; [exact: ex_ones|exact: ex_one]. Qed.
Let ex_offdiag n (c : R) (i j : 'I_n) : i != j -> (c%:M : 'M[R]_n) i j = 0.
Proof. by move=> h; rewrite mxE (negbTE h). Qed.
Let ex_notdiag (A : 'M[R]_2) : A 0 (lift 0 0) = 1 -> ~ diagonal A.
Proof. by move=> h hd; move: (hd 0 (lift 0 0) isT); rewrite h => /eqP; rewrite oner_eq0. Qed.

Example C52_example :
  [/\ exists2 L, cholesky eps corr = (true, L) & chol_factor L corr,
      exists2 L, cholesky eps ones = (true, L) & forall i j : 'I_2, (j <= i)%N -> (1 - (L *m L^T) i j) ^+ 2 <= eps &
      cholesky eps ((-1)%:M : 'M[R]_1) = (false, 0)].
Proof.
split; first by apply: C52_exact => //; exact: mle_sym ex_corr.
  have [L hL [_ _ h]] := C52_psd e0 e1 ex_ones; exists L => // i j hij.
  by have := h i j hij; rewrite ![ones _ _]mxE mulr1.
have en : enum 'I_1 = [:: 0] by apply: (inj_map val_inj); rewrite val_enum_ord.
rewrite /cholesky en /= /chol_step mxE eqxx mulr1n.
have -> : (- eps < -1) = false by rewrite ltr_opp2 ltNge e1.
by rewrite andbF ltrN10.
Qed.

(** a filter with mean 0 and covariance 1 *)
Let g0 : gauss R 2 := Gauss 0 1%:M.
Let hf0 : heap (gauss R 2) * filt 'M[R]_2 := ([:: Some g0; Some g0], Filt 0 1 0 1%:M).
Let svd0 : 'M[R]_2 -> 'cV[R]_2 * 'M[R]_2 * 'M[R]_2 := fun _ => (0, 0, 0).
(** measures the sum of the two states *)
Let H1 : 'M[R]_(1, 2) := const_mx 1.
Let sum_sensor : imodel R unit 2 1 :=
  IModel (fun _ _ => H1) (fun _ x => H1 *m x) (fun _ _ => 1%:M) (fun _ _ => 1%:M) (fun _ _ => false).
Let ex_sum x : good_noise eps sum_sensor None x.
Proof. by split=> //; exact: ex_one. Qed.
Example C50_scalar_example : exists hf' g', let J' := sr_cov_get hf' in
  [/\ sr_call eps svd0 1 hf0 (sr_meas_call sum_sensor 3%:M None) = Ok (true, hf'), f_post hf' = Ok g',
      g_mu g' = const_mx 1, g_cov g' = 1%:M - 3^-1 *: ones & J' *m J'^T = g_cov g'].
Proof.
have hJ : (1%:M : 'M[R]_2) *m 1%:M^T = g_cov g0 by rewrite trmx1 mulmx1.
have [//|hf' [g' [h1 h2 h3 h4 h5]]] := @C50_scalar R eps unit 2 e0 e1 svd0 1 hf0 sum_sensor 3%:M None g0 isT erefl hJ.
have hS : H1 *m H1^T + 1%:M = 3%:M.
  by apply/matrixP => i j; rewrite !ord1 !mxE !big_ord_recl big_ord0 !mxE !mulr1 addr0 /=; ring.
have h30 : (3 : R) != 0 by rewrite pnatr_eq0.
exists hf', g'; split=> //; rewrite h3 /corrected /gain /innov_cov /= !mulmx1 hS mul1mx invmx_scalar mul_mx_scalar.
  rewrite /lin_pred /gn_iter /val /jac /= subrr !mulmx0 addr0 subr0 add0r.
  rewrite mul_mx_scalar scalerA divff // scale1r.
  by apply/matrixP => i j; rewrite !mxE.
rewrite -scalemxAl; congr (_ - _ *: _).
by apply/matrixP => i j; rewrite !mxE big_ord1 !mxE mulr1.
Qed.

(** measures both states with correlated noise *)
Let both : imodel R unit 2 2 :=
  IModel (fun _ _ => 1%:M) (fun _ x => x) (fun _ _ => corr) (fun _ _ => 0) (fun _ _ => false).
Example C50_vector_example : exists z hf' g',
  [/\ sr_call eps svd0 1 hf0 (sr_meas_call both z None) = Ok (true, hf'), f_post hf' = Ok g' &
      g_mu g' <> g_mu (corrected g0 z 0 1%:M corr)].
Proof.
have hJ : (1%:M : 'M[R]_2) *m 1%:M^T = g_cov g0 by rewrite trmx1 mulmx1.
have hn : good_noise eps both None (g_mu g0) by split=> //; exact: ex_corr.
have hd : ~ diagonal (innov_cov (g_cov g0) (im_H both None (g_mu g0)) (im_R both None (g_mu g0))).
  apply: ex_notdiag; rewrite /innov_cov /= mul1mx mul1mx trmx1 mxE ex_offdiag // add0r mxE ex_offdiag // add0r mxE //.
have hG : 1%:M *m (g_cov g0 *m (im_H both None (g_mu g0))^T) = 1%:M by rewrite /= mul1mx mul1mx trmx1.
exact: (@C50_vector_refuted R eps unit 2 e0 e1 svd0 hf0 2 both None g0 1%:M erefl hJ hn hd hG).
Qed.
Example C50_history_example : exists hf' hk' fl g', [/\
    runO (sr_call eps svd0 3) hf0 [seq sr_meas_call q.1.1 q.1.2 q.2 | q <- [:: (sum_sensor, 3%:M, None); (sum_sensor, 0, None)]] = Ok (fl, hf'),
    runO (iekf_call 3 None) ([:: Some g0], Filt 0 0 0 tt)
      [seq meas_call (explicit q.1.1 q.2) q.1.2 None | q <- [:: (sum_sensor, 3%:M, None); (sum_sensor, 0, None)]] = Ok (fl, hk'),
    f_post hf' = Ok g', f_post hk' = Ok g' & sr_cov_get hf' *m (sr_cov_get hf')^T = g_cov g'].
Proof.
have hJ : (1%:M : 'M[R]_2) *m 1%:M^T = g_cov g0 by rewrite trmx1 mulmx1.
apply: (@C50_scalar_history R eps unit 2 e0 e1 svd0 3 hf0 _ g0) => // a z s x.
by case=> [[<- _ <-]|[[<- _ <-]|//]]; exact: ex_sum.
Qed.

(** drift with correlated noise *)
Let drift : asys R unit 2 := AModel true (fun x _ => x) (fun _ _ => 1%:M) (fun _ _ => corr).
Example C51_example : exists hf1, let J := sr_cov_get hf1 in
    [/\ sr_call eps svd0 1 hf0 (sr_sys_call drift None) = Ok (true, hf1), f_post hf1 = Ok (Gauss 0 (1%:M + corr)) &
      J *m J^T <> 1%:M + corr].
Proof.
have hs : supplied drift None by left.
have hP : psd (g_cov g0) := pd_psd (pd1 _ _).
have e : predicted g0 (val drift None (g_mu g0)) (jac drift None (g_mu g0)) (noise drift None (g_mu g0)) =
  Gauss 0 (1%:M + corr) by rewrite /predicted /= mul1mx trmx1 mul1mx.
have [|hf1 [h1 h2 h3 _]] := C51_refuted e0 e1 svd0 1 (erefl : f_post hf0 = Ok g0) hs hP ex_corr.
  by rewrite e; apply: ex_notdiag; rewrite /= mxE ex_offdiag // add0r mxE ex_offdiag // add0r mxE.
by exists hf1; split; [exact: h1|rewrite -e; exact: h2|move=> h; apply: h3; rewrite e].
Qed.
Example C51_construction_example : exists hf,
  @sr_new R eps 2 [:: Some (Gauss 0 corr)] 0 = Ok hf /\ chol_factor (sr_cov_get hf) corr.
Proof.
by have [hf [h1 _ h2]] := @C51_construction R eps 2 e0 e1 [:: Some (Gauss 0 corr)] 0 _ erefl ex_corr; exists hf.
Qed.
(** a prior set to a hundred times the covariance changes nothing *)
Example C51_prior_set_example : exists hf' hp hp' g',
  [/\ sr_call eps svd0 1 hf0 (sr_meas_call sum_sensor 3%:M None) = Ok (true, hf'),
      sr_prior_set hf0 0 100%:M = Ok hp, f_post hp = Ok (Gauss 0 100%:M),
      sr_call eps svd0 1 hp (sr_meas_call sum_sensor 3%:M None) = Ok (true, hp') &
      f_post hp' = Ok g' /\ f_post hf' = Ok g'].
Proof.
have [hf' [g' [h1 h2 _ _ _]]] := C50_scalar_example.
have sP : symmetric (100%:M : 'M[R]_2) by rewrite /symmetric tr_scalar_mx.
have [hp [hp' [k1 k2 k3 k4]]] := C51_prior_set_refuted (isT : 0 < 1)%N (erefl : f_post hf0 = Ok g0) sP h1.
by exists hf', hp, hp', g'; rewrite k4.
Qed.
End Examples.

Print Assumptions C50_diagonal.
Print Assumptions C50_scalar.
Print Assumptions C50_scalar_history.
Print Assumptions C50_gain.
Print Assumptions C50_vector_refuted.
Print Assumptions C50_limit_refuted.
Print Assumptions C50_zero_iterations_refuted.
Print Assumptions C51_construction.
Print Assumptions C51_system.
Print Assumptions C51_refuted.
Print Assumptions C51_covariance_ignored.
Print Assumptions C51_prior_set_refuted.
Print Assumptions C51_reset_refuted.
Print Assumptions C52_exact.
Print Assumptions C52_factor.
Print Assumptions C52_psd.
Print Assumptions C52_false.
Print Assumptions C52_indefinite_refuted.
