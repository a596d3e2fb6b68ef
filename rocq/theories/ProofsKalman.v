(** * Lemmas about the Kalman formulas and the filter models *)
From mathcomp Require Import all_ssreflect all_algebra.
From mathcomp Require Import ring zify.
From Verif Require Import Outcome SpecMatrix ModelMatrix ProofsMatrix ModelFilter ProofsFilter ModelKalman SpecKalman.
Set Implicit Arguments. Unset Strict Implicit. Unset Printing Implicit Defensive.
Import Order.TTheory GRing.Theory Num.Theory.
Local Open Scope ring_scope.

(** linear identities between matrices, entry by entry *)
Ltac mxnorm := repeat match goal with |- context [@fun_of_matrix ?T ?m ?n ?A ?i ?j] =>
  match type of A with matrix ?S _ _ => tryif constr_eq S T then fail else
    change (@fun_of_matrix T m n A i j) with (@fun_of_matrix S m n A i j) end end.
Ltac mxring := apply/matrixP => ? ?; rewrite ?mxE; mxnorm;
  repeat match goal with |- context [@fun_of_matrix ?T ?m ?n ?A ?i ?j] =>
    generalize (@fun_of_matrix T m n A i j); intro end; ring.

Section Formulas.
Variables (R : realFieldType) (n m : nat).
Implicit Types (P : 'M[R]_n) (H : 'M[R]_(m, n)) (Rn : 'M[R]_m) (G : 'M[R]_(n, m)).

Lemma innov_pd P H Rn : psd P -> pd Rn -> pd (innov_cov P H Rn).
Proof. by move=> hP hR; apply: pdD_psd => //; exact: psd_cong. Qed.
Lemma innov_sym P H Rn : symmetric P -> symmetric Rn -> symmetric (innov_cov P H Rn).
Proof. by move=> hP hR; apply: symD => //; exact: sym_cong. Qed.

Section Inv.
Variables (P : 'M[R]_n) (H : 'M[R]_(m, n)) (Rn : 'M[R]_m).
Let S := innov_cov P H Rn.
Let K := gain P H Rn.
Hypotheses (hS : S \in unitmx) (sP : symmetric P) (sR : symmetric Rn).

Lemma gainS : K *m S = P *m H^T.
Proof. by rewrite /K /gain -mulmxA mulVmx // mulmx1. Qed.
Lemma gain_uniq G : G *m S = P *m H^T -> G = K.
Proof. by move=> h; rewrite /K /gain -h -mulmxA mulmxV // mulmx1. Qed.
Lemma SgainT : S *m K^T = H *m P.
Proof. by have := congr1 trmx gainS; rewrite !trmx_mul trmxK sP (innov_sym H sP sR). Qed.
Lemma KHP : K *m H *m P = K *m S *m K^T.
Proof. by rewrite -[in RHS]mulmxA SgainT mulmxA. Qed.
Lemma KHP_sym : symmetric (K *m H *m P).
Proof. by rewrite /symmetric KHP; apply: sym_cong; exact: innov_sym. Qed.
Lemma cov_sym : symmetric (P - K *m H *m P).
Proof. by apply: symB => //; exact: KHP_sym. Qed.

(** completing the square in the gain *)
Lemma joseph_expand G : joseph G P H Rn =
  P - P *m H^T *m G^T - G *m (H *m P) + G *m S *m G^T.
Proof.
rewrite /joseph linearB /= trmx1 trmx_mul mulmxBr mulmx1 [(1%:M - _) *m P]mulmxBl mul1mx mulmxBl.
rewrite /S /innov_cov mulmxDr mulmxDl !mulmxA.
move: (P *m H^T *m G^T) (G *m H *m P) (G *m H *m P *m H^T *m G^T) (G *m Rn *m G^T) => A B C D.
by mxring.
Qed.
Lemma joseph_split G : joseph G P H Rn = (P - K *m H *m P) + (G - K) *m S *m (G - K)^T.
Proof.
rewrite joseph_expand KHP -SgainT -gainS linearB /= mulmxBr !mulmxBl !mulmxA.
move: (K *m S *m G^T) (G *m S *m K^T) (G *m S *m G^T) (K *m S *m K^T) => A B C D.
by mxring.
Qed.
Lemma joseph_gain : joseph K P H Rn = P - K *m H *m P.
Proof. by rewrite joseph_split subrr !mul0mx addr0. Qed.

Lemma gain_innov : K *m H *m P *m H^T = P *m H^T - K *m Rn.
Proof. by apply/eqP; rewrite eq_sym subr_eq -gainS /S /innov_cov mulmxDr !mulmxA. Qed.
Lemma cov_HT : (P - K *m H *m P) *m H^T = K *m Rn.
Proof. by rewrite mulmxBl gain_innov opprB addrC subrK. Qed.
Lemma HgainS : (1%:M - H *m K) *m S = Rn.
Proof. by rewrite mulmxBl mul1mx -mulmxA gainS mulmxA /S /innov_cov addrAC subrr add0r. Qed.
End Inv.

(** det (1 - AB) = det (1 - BA) *)
Lemma det_swap (A : 'M[R]_(n, m)) (B : 'M[R]_(m, n)) : \det (1%:M - A *m B) = \det (1%:M - B *m A).
Proof.
have e1 : block_mx 1%:M A B 1%:M = block_mx 1%:M 0 B 1%:M *m block_mx 1%:M A 0 (1%:M - B *m A).
  by rewrite mulmx_block ?mul1mx ?mulmx1 ?mul0mx ?mulmx0 !addr0 addrC subrK.
have e2 : block_mx 1%:M A B 1%:M = block_mx (1%:M - A *m B) A 0 1%:M *m block_mx 1%:M 0 B 1%:M.
  by rewrite mulmx_block ?mul1mx ?mulmx1 ?mul0mx ?mulmx0 !add0r subrK.
have := congr1 determinant e1; rewrite e2 !det_mulmx !det_ublock !det_lblock !det1 !mul1r !mulr1.
by [].
Qed.

Lemma det_update P H Rn : innov_cov P H Rn \in unitmx ->
  \det (P - gain P H Rn *m H *m P) * \det (innov_cov P H Rn) = \det P * \det Rn.
Proof.
move=> hS; have := HgainS hS; move/(congr1 determinant); rewrite det_mulmx => e.
rewrite -[X in X - _]mul1mx -mulmxBl det_mulmx det_swap mulrAC e mulrC.
by [].
Qed.

Section Definite.
Variables (P : 'M[R]_n) (H : 'M[R]_(m, n)) (Rn : 'M[R]_m).
Let S := innov_cov P H Rn.
Let K := gain P H Rn.
Let P' := P - K *m H *m P.
Hypothesis (hR : pd Rn).

Section Semi.
Hypothesis (hP : psd P).
Let hS : S \in unitmx. Proof. exact/pd_unit/innov_pd. Qed.
Let sP : symmetric P. Proof. by case: hP. Qed.
Let sR : symmetric Rn. Proof. by case: hR. Qed.
Lemma meas_unit : S \in unitmx. Proof. exact: hS. Qed.
Lemma meas_psd : psd P'.
Proof.
rewrite /P' -joseph_gain //; apply: psdD; first exact: psd_cong.
exact/psd_cong/pd_psd.
Qed.
Lemma meas_mle : mle P' P.
Proof.
rewrite /mle /P' opprB addrC subrK; rewrite /K KHP //; apply: psd_cong.
exact/pd_psd/innov_pd.
Qed.
Lemma meas_best G : mle P' (joseph G P H Rn).
Proof.
rewrite /mle joseph_split // addrC addKr; apply: psd_cong; exact/pd_psd/innov_pd.
Qed.
Lemma meas_best_uniq G : joseph G P H Rn = P' -> G = K.
Proof.
rewrite joseph_split // => /(canRL (addKr _)); rewrite addNr => h.
apply/eqP; rewrite -subr_eq0; apply/eqP; apply: (can_inj (@trmxK _ _ _)); rewrite trmx0.
apply/eqP; apply: contraT => hne.
have [_ hpd] := innov_pd H hP hR.
have [j hj] : exists j, col j (G - K)^T != 0.
  apply/existsP; apply: contraT => /existsPn hall; case/negP: hne; apply/eqP/matrixP => i j.
  by have := hall j; rewrite negbK => /eqP/colP/(_ i); rewrite !mxE.
have := hpd _ hj.
have -> : qf (innov_cov P H Rn) (col j (G - K)^T) = 0; last by rewrite ltxx.
have : ((G - K) *m S *m (G - K)^T) j j = 0 by rewrite h mxE.
rewrite -qf_delta qf_cong -colE.
by [].
Qed.
End Semi.

Hypothesis (hP : pd P).
Let hpsd := pd_psd hP.
Let hS : S \in unitmx. Proof. exact/pd_unit/innov_pd. Qed.
Let sP : symmetric P. Proof. by case: hP. Qed.
Let sR : symmetric Rn. Proof. by case: hR. Qed.
Let uP := pd_unit hP.
Let uR := pd_unit hR.
Lemma info_mul : P' *m (invmx P + H^T *m invmx Rn *m H) = 1%:M.
Proof.
rewrite mulmxDr !mulmxA cov_HT // -(mulmxA K Rn) mulmxV // mulmx1.
by rewrite /P' mulmxBl -(mulmxA _ P) mulmxV // mulmx1 subrK.
Qed.
Lemma info_pd : pd P'.
Proof.
have hi : pd (invmx P + H^T *m invmx Rn *m H).
  rewrite addrC; apply: pdD_psd; last exact: pd_inv.
  by rewrite -{2}(trmxK H); apply: psd_cong; exact/pd_psd/pd_inv.
suff -> : P' = invmx (invmx P + H^T *m invmx Rn *m H) by exact: pd_inv.
by rewrite -[LHS]mulmx1 -(mulmxV (pd_unit hi)) mulmxA info_mul mul1mx.
Qed.
Lemma info_inv : invmx P' = invmx P + H^T *m invmx Rn *m H.
Proof. by rewrite -[RHS]mul1mx -(mulVmx (pd_unit info_pd)) -mulmxA info_mul mulmx1. Qed.
Lemma info_gain : invmx P' *m K = H^T *m invmx Rn.
Proof.
have e : K = P' *m H^T *m invmx Rn by rewrite cov_HT // -mulmxA mulmxV // mulmx1.
by rewrite [in LHS]e !mulmxA mulVmx ?mul1mx //; exact/pd_unit/info_pd.
Qed.
Lemma innov_split : invmx Rn = invmx Rn *m H *m K + invmx S.
Proof.
apply: (can_inj (mulmxK hS)); rewrite /K /S mulmxDl -!mulmxA mulVmx // mulmx1.
by rewrite /innov_cov mulmxDr mulVmx // !mulmxA.
Qed.
End Definite.
End Formulas.

Section Squares.
Variable R : realFieldType.
Definition bf n (A : 'M[R]_n) (u v : 'cV[R]_n) : R := (u^T *m A *m v) 0 0.
Lemma qf_bf n (A : 'M[R]_n) v : qf A v = bf A v v. Proof. by []. Qed.
Lemma qf_sub n (A : 'M[R]_n) u v : symmetric A -> qf A (u - v) = qf A u - 2%:R * bf A u v + qf A v.
Proof.
move=> sA; have e : bf A v u = bf A u v.
  rewrite /bf -[in LHS](tr11 (v^T *m A *m u)); congr (fun_of_matrix _ 0 0).
  by rewrite !trmx_mul trmxK sA mulmxA.
have ht : (u - v)^T = u^T - v^T by rewrite linearB.
have hm : (u - v)^T *m A *m (u - v) = u^T *m A *m u - u^T *m A *m v - (v^T *m A *m u - v^T *m A *m v).
  by rewrite ht mulmxBl mulmxBr mulmxBl [(_ - _) *m v]mulmxBl; mxring.
have hE (B : 'M[R]_1) (C : 'M[R]_1) : (B - C) 0 0 = B 0 0 - C 0 0 by rewrite !mxE.
rewrite /qf hm !hE -[(v^T *m A *m u) 0 0]/(bf A v u) e -/(bf A u v).
by move: (bf A u v) ((u^T *m A *m u) 0 0) ((v^T *m A *m v) 0 0) => p q r; ring.
Qed.
Lemma bf_tr n m (A : 'M[R]_(n, m)) (u : 'cV[R]_n) (v : 'cV[R]_m) :
  (u^T *m A *m v) 0 0 = (v^T *m A^T *m u) 0 0.
Proof. by rewrite -[in LHS](tr11 (u^T *m A *m v)) !trmx_mul trmxK mulmxA. Qed.

Lemma cost_split n m (g : gauss R n) (z Z : 'cV[R]_m) H Rn x : pd (g_cov g) -> pd Rn ->
  let g' := corrected g z Z H Rn in
  cost g z Z H Rn x = qf (invmx (g_cov g')) (x - g_mu g') + qf (invmx (innov_cov (g_cov g) H Rn)) (z - Z).
Proof.
case: g => mu P /= hP hR; rewrite /cost /=.
have [sR sP] : symmetric Rn /\ symmetric P by case: hR; case: hP.
have -> : z - (Z + H *m (x - mu)) = (z - Z) - H *m (x - mu) by rewrite opprD addrA.
have -> : x - (mu + gain P H Rn *m (z - Z)) = (x - mu) - gain P H Rn *m (z - Z) by rewrite opprD addrA.
move: (x - mu) (z - Z) => d y.
rewrite !qf_sub; [|exact/sym_inv/cov_sym/sR/sP/pd_unit/innov_pd/hR/pd_psd|exact: sym_inv].
have e1 : qf (invmx (P - gain P H Rn *m H *m P)) d = qf (invmx P) d + qf (invmx Rn) (H *m d).
  by rewrite info_inv // qfD; congr (_ + _); rewrite /qf trmx_mul !mulmxA.
have e2 : bf (invmx (P - gain P H Rn *m H *m P)) d (gain P H Rn *m y) = bf (invmx Rn) y (H *m d).
  rewrite /bf mulmxA -(mulmxA d^T) info_gain // bf_tr trmx_mul (sym_inv sR).
  by rewrite !mulmxA.
have e3 : qf (invmx Rn) y = qf (invmx (P - gain P H Rn *m H *m P)) (gain P H Rn *m y) + qf (invmx (innov_cov P H Rn)) y.
  rewrite {1}(innov_split H hR hP) qfD; congr (_ + _).
  rewrite [in RHS]/qf mulmxA -(mulmxA _ (invmx _)) info_gain // trmx_mul /qf bf_tr.
  by rewrite !trmx_mul (sym_inv sR) !mulmxA.
rewrite e1 e2 e3.
move: (qf _ _) (qf _ _) (qf _ _) (qf _ _) (bf _ _ _) => p q r t w; ring.
Qed.
End Squares.

Arguments ekf_sys : simpl never.
Arguments ekf_meas : simpl never.
Arguments iekf_meas : simpl never.
Section Steps.
Variables (R : realFieldType) (U : Type) (n : nat).
Implicit Types (g : gauss R n) (s : option U).

Lemma meas_castE m (z : 'cV[R]_m) : meas_cast m (existT _ m z) = Ok z.
Proof. by rewrite /meas_cast /=; case: eqVneq => [e|/eqP //]; rewrite castmx_id. Qed.
Lemma meas_cast_eq m (z : meas R) : projT1 z = m -> exists2 z' : 'cV[R]_m, z = existT _ m z' & meas_cast m z = Ok z'.
Proof. by case: z => k z /= e; subst k; exists z => //; rewrite meas_castE. Qed.

Section Arg.
Variables (m : nat) (a : amodel R U n m) (s : option U).
Hypothesis hs : supplied a s.
Lemma am_argE : am_arg a s = Ok (given a s).
Proof. by rewrite /am_arg /given; case: hs => [->//|]; case: (am_noextra a); case: (s). Qed.
Lemma am_predictE x : am_predict a s x = Ok (val a s x). Proof. by rewrite /am_predict am_argE. Qed.
Lemma am_jacobianE x : am_jacobian a s x = Ok (jac a s x). Proof. by rewrite /am_jacobian am_argE. Qed.
Lemma am_noiseE x : symmetric (noise a s x) -> am_noise a s x = Ok (noise a s x).
Proof. by move=> h; rewrite /am_noise am_argE /= sym_lowerE. Qed.
End Arg.

Lemma k_meas_calcE m g (z Z : 'cV[R]_m) H Rn : symmetric (g_cov g) -> symmetric Rn ->
  innov_cov (g_cov g) H Rn \in unitmx -> k_meas_calc g z Z H Rn = Ok (corrected g z Z H Rn).
Proof.
move=> sP sR hS; rewrite /k_meas_calc /minv mulmxA -/(innov_cov (g_cov g) H Rn) hS /=.
rewrite -/(gain (g_cov g) H Rn) sym_lowerE; last exact: cov_sym.
by rewrite /corrected addrC.
Qed.
Lemma k_sys_calcE g J F Q : symmetric (g_cov g) -> symmetric Q ->
  k_sys_calc g J F Q = predicted g J F Q.
Proof.
move=> sP sQ; rewrite /k_sys_calc mulmxA sym_lowerE //.
by apply: symD => //; exact: sym_cong.
Qed.

Lemma ekf_sysE (a : asys R U n) u g : supplied a u -> symmetric (g_cov g) ->
  symmetric (noise a u (g_mu g)) ->
  ekf_sys a u (tt, g) = Ok (tt, predicted g (val a u (g_mu g)) (jac a u (g_mu g)) (noise a u (g_mu g))).
Proof.
move=> hs sP sQ; rewrite /ekf_sys /= am_predictE //= am_jacobianE //= am_noiseE //= k_sys_calcE //.
Qed.
Lemma ekf_measE m (a : amodel R U n m) z s g : supplied a s -> psd (g_cov g) ->
  pd (noise a s (g_mu g)) ->
  ekf_meas (existT _ m a) (Some (existT _ m z)) s (tt, g) =
  Ok (tt, corrected g z (val a s (g_mu g)) (jac a s (g_mu g)) (noise a s (g_mu g))).
Proof.
move=> hs hP hR; rewrite /ekf_meas /= am_predictE //= am_jacobianE //= am_noiseE //=; last by case: hR.
by rewrite meas_castE /= k_meas_calcE //; [case: hP|case: hR|exact: meas_unit].
Qed.

Lemma iekf_loopE m chk (a : amodel R U n m) s g z nr xi o : supplied a s -> psd (g_cov g) ->
  pd_noise a -> (0 < nr)%N ->
  let x i := iter i (gn_step a s g z) xi in
  exists2 j, stops chk x nr j &
    iekf_loop chk a s (g_mu g) (g_cov g) (existT _ m z) nr true xi o =
    Ok (Some (lin_pred a s (g_mu g) (x j.-1), jac a s (x j.-1), noise a s (x j.-1))).
Proof.
move=> hs hP hR; elim: nr xi o => [//|nr IH] xi o _ x.
have hRx y : pd (noise a s y) by apply: hR.
have sR y : symmetric (noise a s y) by case: (hRx y).
have hS : innov_cov (g_cov g) (jac a s xi) (noise a s xi) \in unitmx by exact: meas_unit.
rewrite /= am_jacobianE //= am_noiseE //= /minv -/(innov_cov (g_cov g) (jac a s xi) (noise a s xi)) hS /=.
rewrite am_predictE //= meas_castE /= -/(lin_pred a s (g_mu g) xi) -/(gain (g_cov g) (jac a s xi) (noise a s xi)).
rewrite -/(gn_step a s g z xi).
have -> : (if chk is Some c then c (gn_step a s g z xi - xi) else true) = passes chk (x 1%N - x 0%N) by [].
case hp: (passes _ _); last first.
  exists 1%N; first by split=> //; [case=> [|[|?]]|right; rewrite /= hp].
  by case: (nr).
case: nr IH => [|nr] IH.
  by exists 1%N; [split=> //; [case=> [|[|?]]|left]|].
have [//|j [h1 h2 h3] h4] := IH (gn_step a s g z xi) (Some (lin_pred a s (g_mu g) xi, jac a s xi, noise a s xi)).
have hx i : iter i (gn_step a s g z) (gn_step a s g z xi) = x i.+1 by rewrite /x -iterSr.
exists j.+1; last first.
  rewrite h4 /=; case: j h1 {h2 h3 h4} => [//|j] h1 /=.
  by rewrite -!iterSr.
case/andP: h1 => h1 h1'; split; first by rewrite ltnS.
  move=> [|[|i]] //=; rewrite !ltnS => hi.
  by have := h2 i.+1; rewrite !hx /=; apply.
case: h3 => [->|h3]; first by left.
right; case: j h1 h1' h2 h3 {h4} => [//|j] _ _ _; by rewrite !hx.
Qed.

Lemma iekf_measE m nr chk (a : amodel R U n m) z s g : supplied a s -> psd (g_cov g) ->
  pd_noise a -> (0 < nr)%N ->
  exists2 j, stops chk (gn_iter a s g z) nr j &
    let xi := gn_iter a s g z j.-1 in
    iekf_meas nr chk (existT _ m a) (Some (existT _ m z)) s (tt, g) =
    Ok (tt, corrected g z (lin_pred a s (g_mu g) xi) (jac a s xi) (noise a s xi)).
Proof.
move=> hs hP hR hnr.
have [j h1 h2] := iekf_loopE chk z (g_mu g) None hs hP hR hnr.
exists j => //=; rewrite /iekf_meas /= h2 /= meas_castE /=.
have hRx : pd (noise a s (gn_iter a s g z j.-1)) by apply: hR.
by rewrite k_meas_calcE //; [case: hP|case: hRx|exact: meas_unit].
Qed.

Definition kf_meas (k : kind R n) := if k is Some (nr, chk) then @iekf_meas R U n nr chk else @ekf_meas R U n.
Definition kf_internal (k : kind R n) := two_step (@ekf_sys R U n) (kf_meas k).
Lemma kf_callE (k : kind R n) : kf_call k = f_call (kf_internal k).
Proof. by case: k => [[nr chk]|]. Qed.
Lemma kf_measE (k : kind R n) m (a : amodel R U n m) z s g : runs k -> supplied a s -> psd (g_cov g) ->
  pd_noise a ->
  exists2 xi, lin_point k a s g z xi &
    kf_meas k (existT _ m a) (Some (existT _ m z)) s (tt, g) =
    Ok (tt, corrected g z (lin_pred a s (g_mu g) xi) (jac a s xi) (noise a s xi)).
Proof.
case: k => [[nr chk]|] /= hk hs hP hR.
  by have [j h1 h2] := iekf_measE chk z hs hP hR hk; exists (gn_iter a s g z j.-1); [exists j|].
exists (g_mu g) => //; have hx : pd (noise a s (g_mu g)) by apply: hR.
by rewrite ekf_measE // /lin_pred [g_mu g - _]subrr mulmx0 addr0.
Qed.

(** one call on a filter that holds [g] *)
Lemma kf_one (k : kind R n) hf c g g' : f_post hf = Ok g -> 
  (let r := routed c in kf_internal k r.1.1.1.1 r.1.1.1.2 r.1.1.2 r.1.2 r.2 (tt, fl_time hf.2, g)
     = Ok (true, (tt, fl_time hf.2, g'))) ->
  exists2 hf', kf_call k hf c = Ok (true, hf') & f_post hf' = Ok g'.
Proof.
move=> hg hi; rewrite kf_callE f_callE /=; case: hf hg hi => h [p po t []] hg /= hi.
have [h' [-> [h2 _]]] := f_updateE (hf := (h, Filt p po t tt)) hg hi.
by eexists; first by [].
Qed.
Lemma kf_sys_call (k : kind R n) hf (a : asys R U n) u g : f_post hf = Ok g -> supplied a u ->
  symmetric (g_cov g) -> symmetric (noise a u (g_mu g)) ->
  exists2 hf', kf_call k hf (sys_call a u) = Ok (true, hf') &
    f_post hf' = Ok (predicted g (val a u (g_mu g)) (jac a u (g_mu g)) (noise a u (g_mu g))).
Proof.
move=> hg hs sP sQ; apply: kf_one hg _; rewrite /kf_internal /two_step.
by case: u hs sQ => [u|] hs sQ /=; rewrite ekf_sysE.
Qed.
Lemma kf_meas_call (k : kind R n) hf m (a : amodel R U n m) z s g : f_post hf = Ok g -> runs k ->
  supplied a s -> psd (g_cov g) -> pd_noise a ->
  exists hf' xi, [/\ kf_call k hf (meas_call a z s) = Ok (true, hf'), lin_point k a s g z xi &
    f_post hf' = Ok (corrected g z (lin_pred a s (g_mu g) xi) (jac a s xi) (noise a s xi))].
Proof.
move=> hg hk hs hP hR; have [xi h1 h2] := kf_measE z hk hs hP hR.
suff [hf' h3 h4] : exists2 hf', kf_call k hf (meas_call a z s) = Ok (true, hf') &
  f_post hf' = Ok (corrected g z (lin_pred a s (g_mu g) xi) (jac a s xi) (noise a s xi)).
  by exists hf', xi.
apply: kf_one hg _; rewrite /kf_internal /two_step.
by case: s hs {h1} h2 => [s|] hs h2 /=; rewrite h2.
Qed.

(** the covariance stays valid *)
Lemma predicted_psd g J F Q : psd (g_cov g) -> psd Q -> psd (g_cov (predicted g J F Q)).
Proof. by move=> hP hQ; apply: psdD => //; exact: psd_cong. Qed.
Lemma corrected_psd m g (z Z : 'cV[R]_m) H Rn : psd (g_cov g) -> pd Rn ->
  psd (g_cov (corrected g z Z H Rn)).
Proof. by move=> hP hR; exact: meas_psd. Qed.

Lemma kf_good (k : kind R n) hf (c : call (asys R U n) (ameas R U n) U (meas R)) g : f_post hf = Ok g -> psd (g_cov g) -> runs k -> good_call c ->
  exists hf' g', [/\ kf_call k hf c = Ok (true, hf'), f_post hf' = Ok g' & psd (g_cov g')].
Proof.
move=> hg hP hk hc.
suff [g' h1 h2] : exists2 g', psd (g_cov g') &
   (let r := routed c in kf_internal k r.1.1.1.1 r.1.1.1.2 r.1.1.2 r.1.2 r.2 (tt, fl_time hf.2, g)
     = Ok (true, (tt, fl_time hf.2, g'))).
  by have [hf' h3 h4] := kf_one hg h2; exists hf', g'.
have hsys (sm : option (asys R U n)) u : good_sys sm u -> exists2 g1, psd (g_cov g1) &
    (if sm is Some a then ekf_sys a u (tt, g) else Ok (tt, g)) = Ok (tt, g1).
  case: sm => [a|] /=; last by exists g.
  move=> [hQ hs]; have hq : psd (noise a u (g_mu g)) by apply: hQ.
  exists (predicted g (val a u (g_mu g)) (jac a u (g_mu g)) (noise a u (g_mu g))); first exact: predicted_psd.
  by rewrite ekf_sysE //; [case: hP|case: hq].
have hmeas (mm : option (ameas R U n)) z s g1 : good_meas mm z s -> psd (g_cov g1) -> exists2 g2, psd (g_cov g2) &
    (if mm is Some a then kf_meas k a (Some z) s (tt, g1) else Ok (tt, g1)) = Ok (tt, g2).
  case: mm => [[m a]|] /=; last by exists g1.
  move=> [hR hs /= hz] hP1; case: z hz => m' z /= e; subst m'.
  have [xi _ e] := kf_measE z hk hs hP1 hR.
  exists (corrected g1 z (lin_pred a s (g_mu g1) xi) (jac a s xi) (noise a s xi)) => //.
  by apply: corrected_psd => //; exact: hR.
have key (sm : option (asys R U n)) u (mm : option (ameas R U n)) z s : good_sys sm u -> good_meas mm z s -> exists2 g', psd (g_cov g') &
   kf_internal k sm u mm (Some z) s (tt, fl_time hf.2, g) = Ok (true, (tt, fl_time hf.2, g')).
  move=> h1 h2; have [g1 p1 e1] := hsys _ _ h1; have [g2 p2 e2] := hmeas _ _ _ _ h2 p1.
  by exists g2 => //; rewrite /kf_internal /two_step /= e1 /= e2.
have key2 (sm : option (asys R U n)) u z s : good_sys sm u -> exists2 g', psd (g_cov g') &
   kf_internal k sm u None z s (tt, fl_time hf.2, g) = Ok (true, (tt, fl_time hf.2, g')).
  move=> h1; have [g1 p1 e1] := hsys _ _ h1.
  by exists g1 => //; rewrite /kf_internal /two_step /= e1.
case: c hc => [sm u mm z s|sm mm z s|sm mm z|sm u mm z|sm u|sm|mm z s|mm z] /=.
- by case=> /key; apply.
- by case=> /key; apply.
- by case=> /key; apply.
- by case=> /key; apply.
- exact: key2.
- exact: key2.
- by move=> h; apply: (key None).
- by move=> h; apply: (key None).
Qed.
End Steps.

(** ** Two measurements *)
Section Two.
Variables (R : realFieldType) (n m1 m2 : nat).
Implicit Types (P : 'M[R]_n).

Lemma block_pd (A : 'M[R]_m1) (B : 'M[R]_m2) : pd A -> pd B -> pd (block_mx A 0 0 B).
Proof.
move=> [sA hA] [sB hB]; split; first by rewrite /symmetric tr_block_mx !trmx0 sA sB.
move=> v; rewrite -(vsubmxK v); move: (usubmx v) (dsubmx v) => x y hv.
have -> : qf (block_mx A 0 0 B) (col_mx x y) = qf A x + qf B y.
  rewrite /qf tr_col_mx mul_row_block !mulmx0 addr0 add0r mul_row_col.
  by rewrite [in LHS]mxE.
have hA0 : 0 <= qf A x by case: (pd_psd (conj sA hA)).
have hB0 : 0 <= qf B y by case: (pd_psd (conj sB hB)).
case: (x =P 0) => [hx|/eqP hx]; last by apply: ltr_paddr => //; exact: hA.
apply: ltr_paddl => //; apply: hB; apply: contra hv => /eqP ->.
by rewrite hx col_mx0.
Qed.

Section Stack.
Variables (P : 'M[R]_n) (H1 : 'M[R]_(m1, n)) (H2 : 'M[R]_(m2, n)) (R1 : 'M[R]_m1) (R2 : 'M[R]_m2).
Lemma stack_innov : innov_cov P (col_mx H1 H2) (block_mx R1 0 0 R2) =
  block_mx (innov_cov P H1 R1) (H1 *m P *m H2^T) (H2 *m P *m H1^T) (innov_cov P H2 R2).
Proof. by rewrite /innov_cov mul_col_mx tr_col_mx mul_col_row add_block_mx !addr0. Qed.
Lemma stack_eq (A : 'M[R]_(n, m1)) (B : 'M[R]_(n, m2)) :
  row_mx A B *m innov_cov P (col_mx H1 H2) (block_mx R1 0 0 R2) = P *m (col_mx H1 H2)^T <->
  A *m innov_cov P H1 R1 + B *m (H2 *m P *m H1^T) = P *m H1^T /\
  A *m (H1 *m P *m H2^T) + B *m innov_cov P H2 R2 = P *m H2^T.
Proof.
rewrite stack_innov mul_row_block tr_col_mx mul_mx_row; split; first exact: eq_row_mx.
by case=> -> ->.
Qed.
Lemma stack_gain : psd P -> pd R1 -> pd R2 ->
  let K1 := gain P H1 R1 in let P1 := P - K1 *m H1 *m P in let K2 := gain P1 H2 R2 in
  gain P (col_mx H1 H2) (block_mx R1 0 0 R2) = row_mx (K1 - K2 *m H2 *m K1) K2.
Proof.
move=> hP h1 h2 K1 P1 K2; symmetry; apply: gain_uniq; first exact/meas_unit/hP/block_pd.
have u1 : innov_cov P H1 R1 \in unitmx by exact: meas_unit.
have hP1 : psd P1 by exact: meas_psd.
have u2 : innov_cov P1 H2 R2 \in unitmx by exact: meas_unit.
have e1 : K1 *m innov_cov P H1 R1 = P *m H1^T by exact: gainS.
have e2 : K2 *m innov_cov P1 H2 R2 = P1 *m H2^T by exact: gainS.
apply/stack_eq; split.
  by rewrite mulmxBl -(mulmxA _ K1) e1 !mulmxA subrK.
have e3 : K2 *m innov_cov P H2 R2 = K2 *m innov_cov P1 H2 R2 + K2 *m H2 *m K1 *m (H1 *m P *m H2^T).
  have hp : H2 *m P *m H2^T = H2 *m P1 *m H2^T + H2 *m K1 *m H1 *m P *m H2^T.
    by rewrite /P1 mulmxBr mulmxBl !mulmxA subrK.
  by rewrite /innov_cov hp !mulmxDr !mulmxA addrAC.
rewrite e3 e2 mulmxBl.
move: (K2 *m H2 *m K1 *m (H1 *m P *m H2^T)) => X.
rewrite /P1 mulmxBl !mulmxA; mxring.
Qed.
End Stack.
End Two.

Lemma stack_swap (R : realFieldType) n m1 m2 (P : 'M[R]_n) (H1 : 'M[R]_(m1, n)) (H2 : 'M[R]_(m2, n))
    (R1 : 'M[R]_m1) (R2 : 'M[R]_m2) A B : psd P -> pd R1 -> pd R2 ->
  gain P (col_mx H1 H2) (block_mx R1 0 0 R2) = row_mx A B ->
  gain P (col_mx H2 H1) (block_mx R2 0 0 R1) = row_mx B A.
Proof.
move=> hP h1 h2 e; symmetry; apply: gain_uniq; first exact/meas_unit/hP/block_pd.
have := gainS (meas_unit (col_mx H1 H2) (block_pd h1 h2) hP); rewrite e.
by move/stack_eq => [e1 e2]; apply/stack_eq; split; rewrite addrC.
Qed.
