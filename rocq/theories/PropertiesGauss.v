(** * Properties of [Gaussian]: C56, C66 *)
From mathcomp Require Import all_ssreflect all_algebra zify ring.
From Verif Require Import Outcome ModelMatrix SpecMatrix ProofsMatrix ModelWrapper PropertiesWrapper.
From Verif Require Import ModelKalman ModelSR SpecSR ProofsSR PropertiesSR ModelGauss SpecGauss ModelDiscretePdf.
Set Implicit Arguments. Unset Strict Implicit. Unset Printing Implicit Defensive.
Import Order.TTheory GRing.Theory Num.Theory.
Local Open Scope ring_scope.

(** Determinant of a positive definite matrix. *)
Lemma pd_block (R : realFieldType) n (B : 'M[R]_(1 + n)) : pd B -> 0 < B 0 0 /\ pd (lu_rest B).
Proof.
move=> [sB pB].
have h0 : 0 < B 0 0.
  have := pB (delta_mx 0 0) _; rewrite qf_delta; apply.
  by apply/eqP=> /matrixP/(_ 0 0); rewrite !mxE eqxx => /eqP; rewrite oner_eq0.
split=> //.
have hu : (dlsubmx B)^T = ursubmx B by rewrite trmx_dlsub sB.
have hd : (ursubmx B)^T = dlsubmx B by rewrite -hu trmxK.
have hdr : (drsubmx B)^T = drsubmx B by rewrite trmx_drsub sB.
split.
  rewrite /symmetric /lu_rest linearB /= trmx_mul hd linearZ /= hu hdr.
  by rewrite -scalemxAl -scalemxAr.
move=> v nv.
set w : 'cV_(1 + n) := col_mx (- ((B 0 0)^-1 *: (ursubmx B *m v))) v.
have nw : w != 0.
  apply: contra nv => /eqP hw; apply/eqP.
  by have := congr1 dsubmx hw; rewrite col_mxKd => ->; apply/matrixP=> i j; rewrite !mxE.
suff <- : qf B w = qf (lu_rest B) v by exact: pB.
have hul : ulsubmx B = (B 0 0)%:M.
  apply/matrixP=> i j; rewrite !ord1 !mxE /= mulr1n; congr (B _ _); exact/val_inj.
rewrite /qf -{1}[B]submxK hul /w -[in LHS]mulmxA mul_block_col tr_col_mx mul_row_col.
rewrite mul_scalar_mx scalerN scalerA mulfV ?gt_eqF // scale1r addNr mulmx0 add0r.
rewrite /lu_rest mulmxN -scalemxAr -[in RHS]mulmxA mulmxBl -[in RHS]mulmxA -scalemxAl addrC.
by [].
Qed.

Lemma pd_det (R : realFieldType) n (A : 'M[R]_n) : pd A -> 0 < \det A.
Proof.
elim: n A => [|n IH] A; first by move=> _; rewrite det_mx00 ltr01.
move=> /(@pd_block R n) [h0 /IH h1].
by rewrite (det_split (lt0r_neq0 h0)) mulr_gt0.
Qed.

Section Gauss.
Variables (R : rcfType) (eps twopi : R) (expo : R -> R).
Implicit Types (g : gaussian R).
Notation gs_prob := (gs_prob twopi expo).
Notation gs_run := (gs_run eps twopi expo).
Notation gs_step := (gs_step eps twopi expo).
Notation p_prob := (p_prob twopi expo).
Notation p_run := (p_run eps twopi expo).
Notation p_step := (p_step eps twopi expo).
Notation density := (density twopi expo).

Lemma castE n (v : 'cV[R]_n) : meas_cast n (pv v) = Ok v.
Proof.
rewrite /meas_cast /pv; case: eqVneq => [e|/eqP //].
by rewrite (eq_irrelevance e erefl) castmx_id.
Qed.
Lemma castN n (v : pvec R) : rows_v v != n -> meas_cast n v = Abort.
Proof. by move=> h; rewrite /meas_cast; case: eqVneq h => // e; rewrite /rows_v e eqxx. Qed.

(** what holds of every object *)
Definition coherent g : Prop :=
  [/\ gs_nsamples g = gs_dim g,
      (rows_v (gs_mu g) == gs_dim g) || (rows_v (gs_mu g) == 0%N),
      (rows_m (gs_cov g) == gs_dim g) || (rows_m (gs_cov g) == 0%N),
      (rows_v (gs_mu g) == gs_dim g) || (rows_m (gs_cov g) == gs_dim g) &
      ~~ gs_changed g -> let: existT k C := gs_cov g in
        [/\ C \in unitmx, gs_inv g = pm (invmx C) & gs_norm g = gs_factor twopi k (\det C)]].

Lemma prob_same k (m x : 'cV[R]_k) (S : 'M[R]_k) : S \in unitmx ->
  p_prob (Plain k (pv m) (pm S)) (pv x)
  = gs_value expo (pv m) (pm (invmx S)) (gs_factor twopi k (\det S)) (pv x).
Proof.
move=> u; rewrite /p_prob /= u /= /gs_value /=.
case: eqVneq => [e1|/eqP //]; rewrite (eq_irrelevance e1 erefl) !castmx_id !castE /= castE /=.
rewrite /gs_factor mulmxA -/(qf _ _); set t := qf _ _.
have -> : - t / 2 = - (1 / 2) * t by rewrite mulNr mulNr mul1r [t / 2]mulrC.
case: (0 <= t) => //=; case: (ltP 0 (twopi ^+ k * \det S)) => //= h.
have hs : 0 < Num.sqrt (twopi ^+ k * \det S) by rewrite sqrtr_gt0.
set ex := expo _; by rewrite mul1r pmulr_lge0 ?invr_gt0 //; case: (0 <= ex).
Qed.

Lemma gs_prob_ref g x : coherent g ->
  (let! r := gs_prob g x in Ok (r.1, forget r.2)) = (let! r := p_prob (forget g) x in Ok (r, forget g)) /\
  forall r, gs_prob g x = Ok r -> coherent r.2.
Proof.
case: g x => dim [km m] [kc C] ch inv nm ns [kx x] [/= -> hm hc hmc hco].
rewrite /rows_v /rows_m /= in hm hc hmc.
have [uC|nC] := boolP (C \in unitmx); last first.
  suff -> : gs_prob (Gs dim (existT _ km m) (existT _ kc C) ch inv nm dim) (existT _ kx x) = Abort.
    by rewrite /forget /= /p_prob /= nC.
  case: ch hco => hco; last by case: hco => //; rewrite (negbTE nC).
  by rewrite /gs_prob /gs_refresh /= C63_inverse (negbTE nC).
have hr : gs_refresh twopi (Gs dim (existT _ km m) (existT _ kc C) ch inv nm dim)
  = Ok (Gs dim (existT _ km m) (existT _ kc C) false (pm (invmx C))
        (if ch then gs_factor twopi dim (\det C) else gs_factor twopi kc (\det C)) dim).
  rewrite /gs_refresh /=; case: ch hco => hco /=.
    by rewrite C63_inverse C63_determinant uC orbT.
  by case: hco => // _ -> ->.
rewrite /gs_prob hr /= {hr}.
have [e1|ne1] := eqVneq km kx; last first.
  rewrite /gs_value /= castN //= /p_prob /= uC /=.
  by case: eqVneq => // e1; case: eqVneq => // e2; exfalso; move/eqP: ne1; apply; rewrite e1 e2.
subst kx; have [e2|ne2] := eqVneq km kc; last first.
  rewrite /gs_value /= castE /= castN //= /p_prob /= uC /=.
  by case: (eqVneq km kc) => // e2; case/eqP: ne2.
subst kc.
have hd : dim = km by move: hmc; rewrite orbb => /eqP.
subst dim; rewrite if_same.
have := prob_same m x uC; rewrite /forget /= => ->.
case: (gs_value _ _ _ _ _) => [r||] //=; split=> // r' [<-] /=.
by split=> //; rewrite /rows_v /rows_m /= eqxx.
Qed.

Lemma gs_new_ref m s :
  (let! g := gs_new m s in Ok (forget g)) = (if projT1 m == projT1 s then Ok (Plain (projT1 m) m s) else Abort)
  /\ forall g, gs_new m s = Ok g -> coherent g.
Proof.
rewrite /gs_new /rows_v /rows_m; case: eqP => //= e; split=> // g [<-].
by split=> //=; rewrite /rows_v /rows_m /= ?e eqxx.
Qed.

Lemma gs_mu_ref g m : coherent g ->
  (let! g' := gs_mu_set g m in Ok (forget g')) = p_set_mu (forget g) m /\
  forall g', gs_mu_set g m = Ok g' -> coherent g'.
Proof.
case: g => dim mu cov ch inv nm ns [/= -> hm hc hmc hco].
rewrite /gs_mu_set /p_set_mu /= /rows_v.
case: (dim =P 0%N) => [d0|/eqP d0] /=.
  rewrite eqxx /= /forget /=; split=> // g' [<-]; split=> //=; rewrite ?eqxx //.
  by move: hc; rewrite d0 orbb => /eqP->; rewrite orbT.
rewrite /forget; case: eqP => [e|] //=; split; first by rewrite e.
move=> g' [<-]; split=> //=; rewrite /rows_v -e eqxx //.
Qed.

Lemma gs_cov_ref g s : coherent g ->
  (let! g' := gs_cov_set g s in Ok (forget g')) = p_set_cov (forget g) s /\
  forall g', gs_cov_set g s = Ok g' -> coherent g'.
Proof.
case: g => dim mu cov ch inv nm ns [/= -> hm hc hmc hco].
rewrite /gs_cov_set /p_set_cov /= /rows_m.
case: (dim =P 0%N) => [d0|/eqP d0] /=.
  rewrite eqxx /= /forget /=; split=> // g' [<-]; split=> //=; rewrite ?eqxx ?orbT //.
  by move: hm; rewrite d0 orbb => /eqP->; rewrite orbT.
rewrite /forget; case: eqP => [e|] //=; split; first by rewrite e.
move=> g' [<-]; split=> //=; by rewrite /rows_m -e eqxx ?orbT.
Qed.

Fixpoint all_coherent (st : seq (gaussian R)) : Prop :=
  if st is g :: st' then coherent g /\ all_coherent st' else True.
Lemma ac_rcons st g : all_coherent st -> coherent g -> all_coherent (rcons st g).
Proof. by elim: st => //= x st IH [h1 h2] hg; split=> //; apply: IH. Qed.
Lemma ac_at st i g : all_coherent st -> at_ st i = Ok g -> coherent g.
Proof. by elim: st i => //= x st IH [|i] [h1 h2] /=; [case=> <-|exact: IH]. Qed.
Lemma ac_put st i g st' : all_coherent st -> coherent g -> put_ st i g = Ok st' -> all_coherent st'.
Proof.
elim: st i st' => //= x st IH [|i] st' [h1 h2] hg; first by case=> <-.
by move=> h0; case: (obind_Ok h0)=> r hr [<-]; split=> //; apply: IH hr.
Qed.
Lemma at_map (A B : Type) (f : A -> B) (l : seq A) i : at_ (map f l) i = let! x := at_ l i in Ok (f x).
Proof. by elim: l i => [|x l IH] [|i] //=. Qed.
Lemma put_map (A B : Type) (f : A -> B) (l : seq A) i x :
  put_ (map f l) i (f x) = let! l' := put_ l i x in Ok (map f l').
Proof. by elim: l i => [|y l IH] [|i] //=; rewrite IH; case: (put_ l i x). Qed.
Lemma put_same (A : Type) (l : seq A) i x : at_ l i = Ok x -> put_ l i x = Ok l.
Proof. by elim: l i => [|y l IH] [|i] //=; [case=> ->|move=> /IH ->]. Qed.

Lemma okI (A : Type) (x y : A) : Ok x = Ok y -> x = y.
Proof. by case. Qed.

Lemma gs_step_ref st o : all_coherent st ->
  (let! r := gs_step st o in Ok (r.1, map (@forget R) r.2)) = p_step (map (@forget R) st) o /\
  forall r, gs_step st o = Ok r -> all_coherent r.2.
Proof.
move=> hst; case: o => [m s|k m s|i|i j|i m|i s|i x|i k z] /=.
- have [h1 h2] := gs_new_ref m s; split.
    by case: eqP h1 => e; case: (gs_new m s) => //= g h0; rewrite -(okI h0) map_rcons.
  by move=> r h0; case: (obind_Ok h0) => g hg [<-]; apply: ac_rcons => //; apply: h2.
- split; first by rewrite map_rcons.
  move=> r [<-] /=; apply: ac_rcons => //.
  by split=> //=; rewrite /rows_v /rows_m /= eqxx.
- split; first by rewrite at_map; case: (at_ st i) => //= g; rewrite map_rcons.
  by move=> r h0; case: (obind_Ok h0) => g hg [<-]; apply: ac_rcons => //; apply: ac_at hg.
- split; first by rewrite at_map; case: (at_ st j) => //= g; rewrite put_map; case: (put_ _ _ _).
  move=> r h0; case: (obind_Ok h0) => g hg {}h0; case: (obind_Ok h0) => st' hs [<-] /=.
  by apply: ac_put hs => //; apply: ac_at hg.
- split.
    rewrite at_map; case hg: (at_ st i) => [g||] //=.
    have [<- _] := gs_mu_ref m (ac_at hst hg).
    by case: (gs_mu_set g m) => //= g'; rewrite put_map; case: (put_ _ _ _).
  move=> r h0; case: (obind_Ok h0) => g hg {}h0; case: (obind_Ok h0) => g' hg' {}h0; case: (obind_Ok h0) => st' hs [<-] /=.
  by apply: ac_put hs => //; have [_] := gs_mu_ref m (ac_at hst hg); apply.
- split.
    rewrite at_map; case hg: (at_ st i) => [g||] //=.
    have [<- _] := gs_cov_ref s (ac_at hst hg).
    by case: (gs_cov_set g s) => //= g'; rewrite put_map; case: (put_ _ _ _).
  move=> r h0; case: (obind_Ok h0) => g hg {}h0; case: (obind_Ok h0) => g' hg' {}h0; case: (obind_Ok h0) => st' hs [<-] /=.
  by apply: ac_put hs => //; have [_] := gs_cov_ref s (ac_at hst hg); apply.
- split.
    rewrite at_map; case hg: (at_ st i) => [g||] //=.
    have [h _] := gs_prob_ref x (ac_at hst hg); move: h.
    case: (gs_prob g x) => [[r g']||] /=; case: (p_prob _ _) => [r'||] //= h0; have [-> hf] : r = r' /\ forget g' = forget g by case: (okI h0) => *; split=> //; congr Plain.
    have := put_map (@forget R) st i g'; rewrite hf put_same; last by rewrite at_map hg.
    by case: (put_ st i g') => //= st' [->].
  move=> r h0; case: (obind_Ok h0) => g hg {}h0; case: (obind_Ok h0) => g' hg' {}h0; case: (obind_Ok h0) => st' hs [<-] /=.
  by apply: ac_put hs => //; have [_ h] := gs_prob_ref x (ac_at hst hg); apply: h.
- split; last by move=> r h0; case: (obind_Ok h0) => g hg {}h0; case: (obind_Ok h0) => q hq [<-].
  rewrite at_map; case hg: (at_ st i) => [g||] //=.
  have [hn _ _ _ _] := ac_at hst hg.
  rewrite /gs_sample /p_sample hn /=.
  by case: k => //=; case: (gs_draw _ _ _ _ _ _) => //=.
Qed.

Lemma gs_run_ref os st : all_coherent st ->
  (let! r := gs_run st os in Ok (r.1, map (@forget R) r.2)) = p_run (map (@forget R) st) os /\
  forall r, gs_run st os = Ok r -> all_coherent r.2.
Proof.
elim: os st => [|o os IH] st hst /=; first by split=> // r [<-].
have [h1 h2] := gs_step_ref o hst; rewrite -h1.
case: (gs_step st o) h2 => [[r st1]||] //= h2.
have [h3 h4] := IH st1 (h2 _ erefl); rewrite -h3.
case: (gs_run st1 os) h4 => [[rs st2]||] //= h4; split=> // q [<-] /=.
exact: (h4 _ erefl).
Qed.

(** C56.  Every program with any number of Gaussians gives the results of the
    program with objects that have no cache. *)
Theorem C56_history os :
  (let! r := gs_run [::] os in Ok (r.1, map (@forget R) r.2)) = p_run [::] os.
Proof. by have [] := gs_run_ref os (st := [::]). Qed.

(** The density returned is the one of the current mean and covariance. *)
Theorem C56_density os rs st i n (m : 'cV[R]_n) (S : 'M[R]_n) (x : 'cV[R]_n) :
  0 < twopi -> (forall y, 0 <= expo y) -> pd S ->
  gs_run [::] os = Ok (rs, st) ->
  (let! g := at_ st i in Ok (gs_mu g, gs_cov g)) = Ok (pv m, pm S) ->
  exists2 st', gs_step st (GProb i (pv x)) = Ok (Density (density m S x), st') &
    map (@forget R) st' = map (@forget R) st.
Proof.
move=> t0 e0 pS hrun; case hg: (at_ st i) => [g||] //= [hm hS].
have [_ /(_ _ hrun) /= hst] := gs_run_ref os (st := [::]) I.
have hc := ac_at hst hg.
have [hp hp'] := gs_step_ref (GProb i (pv x)) hst.
have hd : gs_dim g = n.
  by case: hc => _ _ _; rewrite hm hS /rows_v /rows_m /= orbb => /eqP.
have uS := pd_unit pS.
have hq : p_prob (Plain n (pv m) (pm S)) (pv x) = Ok (density m S x).
  rewrite /p_prob /= uS /=.
  case: eqVneq => [e1|/eqP //]; rewrite (eq_irrelevance e1 erefl) !castmx_id.
  have [_ hq] := pd_psd (pd_inv pS).
  by rewrite hq e0 mulr_gt0 ?exprn_gt0 ?pd_det.
have h2 : p_step (map (@forget R) st) (GProb i (pv x)) = Ok (Density (density m S x), map (@forget R) st).
  rewrite /= at_map hg /=.
  have -> : forget g = Plain n (pv m) (pm S) by rewrite /forget hd hm hS.
  by rewrite hq.
rewrite h2 in hp; case hX: (gs_step _ _) hp => [[r st']||] // h0.
have h1 := okI h0; exists st'; last exact: (congr1 snd h1).
have e1 : r = Density (density m S x) := congr1 fst h1.
by rewrite -e1; exact: hX.
Qed.

(** Setting the mean or the covariance leaves the other as it is. *)
Theorem C56_setters g m s :
  (forall g', gs_mu_set g m = Ok g' -> gs_mu g' = m /\ gs_cov g' = gs_cov g) /\
  (forall g', gs_cov_set g s = Ok g' -> gs_cov g' = s /\ gs_mu g' = gs_mu g).
Proof.
by split=> g' h; case: (obind_Ok h) => t _ h2; rewrite -(okI h2); case: ifP.
Qed.

(** ** C66: sampling *)
(** A sample is the mean plus the factor times the draws. *)
Theorem C66_affine n (m : 'cV[R]_n) (S : 'M[R]_n) inv nm ch (z : nat -> R) meth :
  meth = DEFAULT \/ meth = CHOLESKY ->
  gs_sample eps (Gs n (pv m) (pm S) ch inv nm n) meth z =
  Ok ((cholesky eps S).1, Some (pv ((cholesky eps S).2 *m \col_(i < n) z i.+1 + m))).
Proof.
by move=> h; rewrite /gs_sample; case: h => -> /=; rewrite /gs_draw /= leqnn /= !castE.
Qed.

(** For draws with mean 0 and covariance 1 (any finite weighted family of
    draws), the samples have the mean and the covariance of the Gaussian. *)
Theorem C66_moments n (m : 'cV[R]_n) (S : 'M[R]_n) inv nm ch meth
    (I : finType) (w : I -> R) (z : I -> nat -> R) (x : I -> 'cV[R]_n) :
  0 < eps < 1 -> symmetric S -> mle eps%:M S -> meth = DEFAULT \/ meth = CHOLESKY ->
  (forall i, gs_sample eps (Gs n (pv m) (pm S) ch inv nm n) meth (z i) = Ok (true, Some (pv (x i)))) ->
  \sum_i w i = 1 ->
  (forall a, (0 < a <= n)%N -> \sum_i w i * z i a = 0) ->
  (forall a b, (0 < a <= n)%N -> (0 < b <= n)%N -> \sum_i w i * (z i a * z i b) = (a == b)%:R) ->
  \sum_i w i *: x i = m /\ \sum_i w i *: ((x i - m) *m (x i - m)^T) = S.
Proof.
move=> /andP[e0 e1] sS pS hm hx h1 h2 h3.
have [L hL [_ _ hLL]] := C52_exact e0 (ltW e1) sS pS.
pose Z i : 'cV[R]_n := \col_(a < n) z i a.+1.
have xE i : x i = L *m Z i + m.
  have := hx i; rewrite (C66_affine m S inv nm ch (z i) hm) hL => h.
  have h' := congr1 (fun o : outcome (bool * option (pvec R)) =>
    if o is Ok (_, Some y) then meas_cast n y else Abort) h.
  by rewrite /= !castE in h'; rewrite -(okI h').
split.
  under eq_bigr do rewrite xE scalerDr scalemxAr.
  rewrite big_split /= -scaler_suml h1 scale1r -mulmx_sumr.
  suff -> : \sum_i w i *: Z i = 0 by rewrite mulmx0 add0r.
  apply/matrixP=> a j; rewrite summxE mxE.
  under eq_bigr do rewrite !mxE.
  by apply: h2; rewrite ltn_ord.
under eq_bigr do rewrite xE addrK trmx_mul mulmxA -[L *m _ *m _]mulmxA scalemxAl scalemxAr.
rewrite -mulmx_suml -mulmx_sumr.
suff -> : \sum_i w i *: (Z i *m (Z i)^T) = 1%:M by rewrite mulmx1 hLL.
apply/matrixP=> a b; rewrite summxE !mxE -(h3 a.+1 b.+1) ?ltn_ord //.
by apply: eq_bigr => i _; rewrite !mxE big_ord1 !mxE.
Qed.

(** An indefinite covariance (as far as the factorisation notices) gives [false],
    but the sample is overwritten: with the mean, whatever the draws. *)
Theorem C66_failure n (m : 'cV[R]_n) (S : 'M[R]_n) inv nm ch (z : nat -> R) meth flag x :
  0 < eps < 1 -> symmetric S -> meth = DEFAULT \/ meth = CHOLESKY ->
  gs_sample eps (Gs n (pv m) (pm S) ch inv nm n) meth z = Ok (flag, Some x) -> flag = false ->
  x = pv m /\ ~ psd S.
Proof.
move=> /andP[e0 e1] sS hm; rewrite (C66_affine m S inv nm ch z hm).
case hc: (cholesky eps S) => [b L] /= [<- <-] hb; rewrite hb in hc.
have [-> np] := C52_false e0 (ltW e1) sS hc; by rewrite mul0mx add0r.
Qed.

(** The list version gives the same samples. *)
Theorem C66_list g k meth zs l flag : meth = DEFAULT \/ meth = CHOLESKY ->
  gs_samples eps g k meth zs = Ok (flag, l) ->
  size l = k /\ forall i, (i < k)%N -> gs_sample eps g meth (zs i) = Ok (flag, nth None l i).
Proof.
move=> hm; have -> : gs_samples eps g k meth zs = gs_samples eps g k DEFAULT zs by case: hm => ->.
move=> /= h0; case: (obind_Ok h0) => rs hrs [<- <-].
have hz := mapO_size hrs; rewrite size_map hz size_iota; split=> // i hi.
have -> : gs_sample eps g meth (zs i) = gs_sample eps g DEFAULT (zs i) by case: hm => ->.
rewrite /=.
have : forall s j, mapO (fun i => gs_draw eps (gs_dim g) (gs_nsamples g) (gs_mu g) (gs_cov g) (zs i)) s = Ok j ->
  forall i, (i < size s)%N -> gs_draw eps (gs_dim g) (gs_nsamples g) (gs_mu g) (gs_cov g) (zs (nth 0%N s i))
     = Ok (nth (false, gs_mu g) j i).
  elim=> [|a s IH] j //= h1; case: (obind_Ok h1) => y hy {}h1; case: (obind_Ok h1) => r hr [<-] [|i'] //= hi'.
  exact: IH.
move/(_ _ _ hrs i); rewrite size_iota hi nth_iota // add0n => /(_ isT) hd; rewrite hd /=.
rewrite (nth_map (false, gs_mu g)) ?hz ?size_iota //.
move: hd; rewrite /gs_draw; case: (_ <= _)%N => //=.
by case: (meas_cast _ _) => //= ?; case: (meas_cast _ _) => //= ? [<-].
Qed.
End Gauss.

(** ** Examples, for every real closed field *)
Section Examples.
Variable R : rcfType.
Let ex (x : R) : R := 1 + x ^+ 2.

Lemma p_prob_scalar (m s x : R) : 0 < s ->
  p_prob 1 ex (Plain 1 (pv (m%:M : 'cV_1)) (pm (s%:M : 'M_1))) (pv (x%:M : 'cV_1)) =
  Ok ((1 + ((x - m) ^+ 2 / s / 2) ^+ 2) / Num.sqrt s).
Proof.
move=> s0; have us : (s%:M : 'M[R]_1) \in unitmx by rewrite unitmxE det_scalar1 unitfE gt_eqF.
rewrite /p_prob /= us /=.
case: eqVneq => [e1|/eqP //]; rewrite (eq_irrelevance e1 erefl) !castmx_id.
have -> : qf (invmx (s%:M : 'M[R]_1)) (x%:M - m%:M) = (x - m) ^+ 2 / s.
  rewrite /qf invmx_scalar -raddfB tr_scalar_mx -!scalar_mxM mxE mulr1n.
  by rewrite mulrAC expr2.
rewrite det_scalar1 expr1n mul1r s0 divr_ge0 ?sqr_ge0 ?(ltW s0) //=.
have h : 0 <= ex (- ((x - m) ^+ 2 / s) / 2) by rewrite /ex addr_ge0 ?ler01 ?sqr_ge0.
by rewrite h /ex mulNr sqrrN.
Qed.

(** the covariance is changed from 1 to 4 between two queries at 2 *)
Example C56_example : exists st,
  gs_run 1 1 ex [::] [:: GNew (pv (0%:M : 'cV[R]_1)) (pm (1%:M : 'M_1)); GProb 0 (pv (2%:R%:M : 'cV_1));
    GCov 0 (pm (4%:R%:M : 'M_1)); GProb 0 (pv (2%:R%:M : 'cV_1))] =
  Ok ([:: NoRes R; Density 5%:R; NoRes R; Density (5%:R / 8%:R)], st).
Proof.
have h := C56_history 1 1 ex [:: GNew (pv (0%:M : 'cV[R]_1)) (pm (1%:M : 'M_1)); GProb 0 (pv (2%:R%:M : 'cV_1));
    GCov 0 (pm (4%:R%:M : 'M_1)); GProb 0 (pv (2%:R%:M : 'cV_1))].
have e4 : Num.sqrt (4%:R : R) = 2%:R.
  by rewrite (_ : 4%:R = 2%:R ^+ 2) ?sqrtr_sqr ?ger0_norm ?ler0n // -natrX.
have h2 : p_run 1 1 ex [::] [:: GNew (pv (0%:M : 'cV[R]_1)) (pm (1%:M : 'M_1)); GProb 0 (pv (2%:R%:M : 'cV_1));
    GCov 0 (pm (4%:R%:M : 'M_1)); GProb 0 (pv (2%:R%:M : 'cV_1))] =
  Ok ([:: NoRes R; Density 5%:R; NoRes R; Density (5%:R / 8%:R)], [:: Plain 1 (pv (0%:M : 'cV_1)) (pm (4%:R%:M : 'M_1))]).
  rewrite [LHS]/= p_prob_scalar ?ltr01 // [LHS]/= p_prob_scalar ?ltr0n //.
  rewrite [LHS]/= sqrtr1 e4; congr (Ok ([:: _; Density _; _; Density _], _)); first by field.
  by field.
move: h; rewrite h2; case: (gs_run _ _ _ _ _) => [[rs st]||] // h0; exists st.
have h1 := okI h0; by have -> : rs = _ := congr1 fst h1.
Qed.

Variable eps : R.
Hypotheses (e0 : 0 < eps) (e1 : eps < 1).
Let g1 (c : R) : gaussian R := Gs 1 (pv (3%:R%:M : 'cV[R]_1)) (pm (c%:M : 'M[R]_1)) true (pm (0 : 'M_1)) None 1.

(** mean 3, covariance 1, the two equally likely draws -1 and 1 *)
Example C66_example : exists x : bool -> 'cV[R]_1,
  [/\ forall b, gs_sample eps (g1 1) DEFAULT (fun _ => if b then 1 else -1) = Ok (true, Some (pv (x b))),
      \sum_b (2%:R^-1 : R) *: x b = 3%:R%:M &
      \sum_b (2%:R^-1 : R) *: ((x b - 3%:R%:M) *m (x b - 3%:R%:M)^T) = 1%:M].
Proof.
have s1 : symmetric (1%:M : 'M[R]_1) by rewrite /symmetric tr_scalar_mx.
have p1 : mle eps%:M (1%:M : 'M[R]_1).
  rewrite /mle -raddfB /= -[1 - eps]mulr1 -scale_scalar_mx; apply: psdZ; last exact: pd_psd (pd1 _ _).
  by rewrite subr_ge0 ltW.
have [L hL _] := C52_exact e0 (ltW e1) s1 p1.
pose z b (_ : nat) : R := if b then 1 else -1.
pose x (b : bool) : 'cV[R]_1 := L *m (\col_(i < 1) z b i.+1) + 3%:R%:M.
have hx b : gs_sample eps (g1 1) DEFAULT (z b) = Ok (true, Some (pv (x b))).
  by rewrite /g1 C66_affine ?hL //; left.
exists x.
have [h1 h2] : \sum_b (2%:R^-1 : R) *: x b = 3%:R%:M /\
    \sum_b (2%:R^-1 : R) *: ((x b - 3%:R%:M) *m (x b - 3%:R%:M)^T) = 1%:M.
  apply: (@C66_moments R eps 1 _ _ _ _ _ DEFAULT _ (fun=> 2%:R^-1) z x _ s1 p1 _ hx); rewrite ?e0 //.
  - by left.
  - by rewrite big_bool /=; field.
  - by move=> a _; rewrite big_bool /= mulrN addrN.
  move=> a b ha hb; have -> : a = b by lia.
  by rewrite big_bool /= eqxx mulr1n; field.
by split.
Qed.

(** covariance -1: the call reports failure and the sample is the mean *)
Example C66_failure_example z :
  gs_sample eps (g1 (-1)) CHOLESKY z = Ok (false, Some (pv (3%:R%:M : 'cV[R]_1))).
Proof.
have [_ _ h] := C52_example e0 (ltW e1).
by rewrite /g1 C66_affine; [rewrite h mul0mx add0r|right].
Qed.
End Examples.

Print Assumptions C56_history.
Print Assumptions C56_density.
Print Assumptions C56_setters.
Print Assumptions C66_affine.
Print Assumptions C66_moments.
Print Assumptions C66_failure.
Print Assumptions C66_list.
