(** * Filter proposal density: C60, C70 *)
From mathcomp Require Import all_ssreflect all_algebra zify ring.
From Verif Require Import Outcome Simulation SpecMatrix ModelMatrix ModelFilter ModelKalman SpecKalman ModelSR ModelDiscretePdf ModelGauss.
From Verif Require Import ProofsMatrix ProofsFilter ProofsKalman ModelProposal SpecProposal.
Set Implicit Arguments. Unset Strict Implicit. Unset Printing Implicit Defensive.
Import Order.TTheory GRing.Theory Num.Theory.
Local Open Scope ring_scope.

Section Proposal.
Variables (R : realFieldType) (n : nat).
Notation asys := (asys R (meas R) n).
Notation ameas := (ameas R (meas R) n).
Implicit Types (f : fpd R n) (p : prop R n).

Definition inside (g : gauss R n) (c : call asys ameas (meas R) (meas R)) : outcome (gauss R n) :=
  let r := routed c in let! q := ekf_internal r.1.1.1.1 r.1.1.1.2 r.1.1.2 r.1.2 r.2 (tt, 0%N, g) in Ok q.2.2.
Lemma internal_time sm u mm z s t (g : gauss R n) :
  @ekf_internal R (meas R) n sm u mm z s (tt, t, g) =
  let! q := @ekf_internal R (meas R) n sm u mm z s (tt, 0%N, g) in Ok (true, (tt, t, q.2.2)).
Proof.
rewrite /ekf_internal /two_step /=; case: (if sm is Some m then _ else _) => [[[] a]||] //=.
by case: (if mm is Some m then _ else _) => [[[] b]||].
Qed.
Lemma callE h pr po t g c : h_get h po = Ok g ->
  @ekf_call R (meas R) n (h, Filt pr po t tt) c =
  let! g' := inside g c in let! h' := put_ h po (Some g') in Ok (true, (h', Filt pr po t tt)).
Proof.
move=> hg; rewrite /ekf_call f_callE /inside; case: (routed c) => [[[[sm u] mm] z] s] /=.
rewrite /f_update /= hg /= internal_time; case: (ekf_internal _ _ _ _ _ _) => [[b [[[] t'] g']]||] //=.
Qed.
Lemma freshE g c : fresh_update g c = inside g c.
Proof.
rewrite /fresh_update /k_new /f_new /= (@callE _ _ _ _ (Gauss (g_mu g) (g_cov g))) //=.
have -> : Gauss (g_mu g) (g_cov g) = g by case: g.
by case: (inside g c).
Qed.

(** the object holds what the user has set; the filter's posterior is one of
    the two Gaussians in memory *)
Record agree f p : Prop := Agree {
  ag_dim : fp_dim f = if p_sized p then n else 0%N;
  ag_sys : fp_sys f = p_sys p; ag_meas : fp_meas f = p_meas p; ag_num : fp_num f = p_nargs p;
  ag_args : fp_args f = p_args p; ag_cov : fp_cov f = p_cov p;
  ag_heap : exists g0 g1 po t, fp_hf f = ([:: Some g0; Some g1], Filt 0 po t tt) /\ (po < 2)%N;
  ag_both : both (p_sys p) (p_meas p) = None -> p_nargs p = 0%N }.

Lemma arg_ref f p i : agree f p -> fp_arg_get f i = arg p i.
Proof. by case=> _ _ _ hn ha _ _ _; rewrite /fp_arg_get /arg hn ha; case: ifP. Qed.
Lemma call_ref f p : agree f p -> (0 < p_nargs p)%N -> fp_call f = proposal_call p.
Proof.
move=> h hp; rewrite /fp_call /proposal_call !(arg_ref _ h) (ag_sys h) (ag_meas h).
have := ag_both h; case: (p_sys p) => [a|]; case: (p_meas p) => [am|] hb.
- by case: (am_noextra a); case: (am_noextra (projT2 am)).
- by rewrite hb in hp.
- by rewrite hb in hp.
by rewrite hb in hp.
Qed.
Lemma step_ref f p : agree f p ->
  simO (fun f1 g => agree f1 p /\ f_post (fp_hf f1) = Ok g) (fp_step f) (proposal p).
Proof.
move=> h; rewrite /fp_step /proposal (arg_ref _ h).
case ha: (arg p 0) => [x||] //=.
have hp : (0 < p_nargs p)%N by move: ha; rewrite /arg; case: ifP.
case: (meas_cast n x) => [mu||] //=; rewrite (ag_cov h); case: (need (p_cov p)) => [P||] //=.
have [g0 [g1 [po [t [hf _]]]]] := ag_heap h; rewrite hf /= (call_ref h hp).
case: (proposal_call p) => [c||] //=; rewrite (@callE _ _ _ _ (Gauss mu P)) //=.
rewrite freshE; case: (inside _ c) => [g||] //=; split=> //.
case: (h) => h1 h2 h3 h4 h5 h6 _ h8; split=> //=.
by exists g, g1, 0%N, t.
Qed.

Lemma renum_ref f p s m : agree f p -> (both s m = None -> p_nargs p = 0%N) ->
  agree (fp_renum f s m) (count_args p s m).
Proof.
case=> h1 h2 h3 h4 h5 h6 h7 h8 hb; rewrite /fp_renum /count_args; move: hb.
by case hk: (both s m) => [k|] hb; split=> //=; rewrite ?hk ?h4 ?h5.
Qed.
Lemma both_some (s : option asys) (m : option ameas) : isSome s -> both s m = None -> m = None.
Proof. by case: s => [a|] //; case: m. Qed.

Lemma exec_ref f p o : (0 < n)%N -> agree f p ->
  simO (fun r q => r.1 = q.1 /\ agree r.2 q.2) (fp_exec f o) (p_exec p o).
Proof.
move=> hn h; case: (h) => h1 h2 h3 h4 h5 h6 h7 h8.
case: o => [[a|]|[am|]|P|i v||] //=.
- rewrite /fp_sys_set h1 /=; have -> : ((if p_sized p then n else 0%N) == 0%N) || ((if p_sized p then n else 0%N) == n).
    by case: (p_sized p); rewrite eqxx ?orbT.
  split=> //=; rewrite h3; apply: renum_ref; first by split.
  by move=> hb; apply: h8; rewrite (both_some _ hb) //; case: (p_sys p).
- rewrite /fp_meas_set /=; split=> //=; rewrite h2; apply: renum_ref => // hb; apply: h8.
  by case: (p_sys p) hb.
- rewrite /fp_cov_set h1; case: (p_sized p) h1 => h1 //=; last by rewrite eqn0Ngt hn.
  by rewrite eqxx /=; split=> //; split.
- rewrite /fp_arg_set h4 h5; case: ifP => //= _; case: (put_ _ _ _) => //= a; by split=> //; split.
- have := step_ref h; rewrite /fp_mean; case: (fp_step f) => [f1||]; case: (proposal p) => [g||] //= [ha hg].
  by rewrite hg.
- have := step_ref h; rewrite /fp_covar; case: (fp_step f) => [f1||]; case: (proposal p) => [g||] //= [ha hg].
  by rewrite hg.
Qed.
Lemma run_ref f p os : (0 < n)%N -> agree f p ->
  simO (fun r q => r.1 = q.1 /\ agree r.2 q.2) (fp_run f os) (p_run p os).
Proof.
move=> hn; elim: os f p => [|o os IH] f p h //=.
apply: simO_bind (exec_ref o hn h) _ => r q [-> hr].
by apply: simO_bind (IH _ _ hr) _ => r' q' [-> hr'].
Qed.
Lemma new_ref g s m : exists2 f, fp_new g s m = Ok f & agree f (p_new s m).
Proof.
rewrite /fp_new /k_new /f_new /=; eexists; first by [].
apply: renum_ref => //; split=> //=; first by case: s.
by exists g, (Gauss (g_mu g) (g_cov g)), 1%N, 0%N.
Qed.

Lemma count_sized p s m : (isSome s -> p_sized p) ->
  isSome (p_sys (count_args p s m)) -> p_sized (count_args p s m).
Proof. by rewrite /count_args; case: (both s m) => [k|]. Qed.
Lemma run_sized p os rs q : (isSome (p_sys p) -> p_sized p) -> p_run p os = Ok (rs, q) ->
  isSome (p_sys q) -> p_sized q.
Proof.
elim: os p rs => [|o os IH] p rs hp /=; first by case=> _ <-.
case ho: (p_exec p o) => [[r p1]||] //=; case hr: (p_run p1 os) => [[rs1 q1]||] //= [_ e]; rewrite e in hr.
apply: IH hr; case: o ho => [[a|]|[am|]|P|i v||] //=.
- by case=> _ <-; exact: count_sized.
- by case=> _ <-; exact: count_sized.
- by case: ifP => //= _ [_ <-].
- by case: ifP => //= _; case: (put_ _ _ _) => //= b [_ <-].
- by case: (proposal p) => //= g [_ <-].
- by case: (proposal p) => //= g [_ <-].
Qed.

(** ** C60 *)
(** For every sequence of settings and queries, each query answers with the mean
    or covariance of one update of a new filter from the particle and the
    covariance set last: the filter kept inside and earlier queries have no
    influence. *)
Theorem C60_history g s m os : (0 < n)%N ->
  (let! f := fp_new g s m in let! r := fp_run f os in Ok r.1) = let! r := p_run (p_new s m) os in Ok r.1.
Proof.
move=> hn; have [f -> h] := new_ref g s m; have /= := run_ref os hn h.
by case: (fp_run f os) => [r||]; case: (p_run _ os) => [q||] //= [->].
Qed.

(** Any list of queries, in any order: all give the same proposal. *)
Definition is_query (o : fop R n) : bool := if o is FMeanQ then true else if o is FCovQ then true else false.
Definition answer (g : gauss R n) (o : fop R n) : fres R n := if o is FMeanQ then FMean (g_mu g) else FCovar (g_cov g).
Theorem C60_queries g0 s m f0 os rs f qs o mu : (0 < n)%N ->
  fp_new g0 s m = Ok f0 -> fp_run f0 os = Ok (rs, f) -> all is_query qs -> is_query o ->
  fp_exec f o = Ok mu ->
  exists g f', fp_run f qs = Ok ([seq answer g q | q <- qs], f') /\ mu.1 = answer g o.
Proof.
move=> hn h0 hr hqs ho hmu; have [f1 h1 ha] := new_ref g0 s m; move: h1; rewrite h0 => -[e]; rewrite -e in ha.
have := run_ref os hn ha; rewrite hr; case: (p_run _ os) => [[r p]||] //= [_ h].
have [g hg hmg] : exists2 g, proposal p = Ok g & mu.1 = answer g o.
  have := exec_ref o hn h; rewrite hmu; case: (o) ho => //= _.
    by case: (proposal p) => [g||] //= [-> _]; exists g.
  by case: (proposal p) => [g||] //= [-> _]; exists g.
exists g; suff [f' hf'] : exists f', fp_run f qs = Ok ([seq answer g q | q <- qs], f') by exists f'.
have := run_ref qs hn h.
have -> : p_run p qs = Ok ([seq answer g q | q <- qs], p).
  by elim: qs hqs => [|q qs IH] //= /andP[hq hqs]; case: q hq => //= _; rewrite hg /= IH.
by case: (fp_run f qs) => [[r' f']||] //= [-> _]; exists f'.
Qed.

(** The value, if both models are set: textbook prediction from the particle,
    then textbook correction. *)
Definition given_u (a : asys) (u : meas R) : option (meas R) := if am_noextra a then None else Some u.
Theorem C60_value m (a : asys) (b : amodel R (meas R) n m) (x : 'cV[R]_n) (P : 'M[R]_n) (u sp : meas R) (z : 'cV[R]_m) args p :
  psd P -> psd_noise a -> pd_noise b ->
  p_sys p = Some a -> p_meas p = Some (existT _ m b) -> p_cov p = Some P ->
  p_nargs p = size args ->
  p_args p = args ->
  args = existT _ n x :: (if am_noextra a then [::] else [:: u]) ++ existT _ m z :: (if am_noextra b then [::] else [:: sp]) ->
  let o := given_u a u in let os := if am_noextra b then None else Some sp in
  let g1 := predicted (Gauss x P) (val a o x) (jac a o x) (noise a o x) in
  proposal p = Ok (corrected g1 z (val b os (g_mu g1)) (jac b os (g_mu g1)) (noise b os (g_mu g1))).
Proof.
move=> hP hQ hR hs hm hc hk he hargs o os g1.
have sP : symmetric P by case: hP.
have hq : psd (noise a o x) by exact: hQ.
have sq : symmetric (noise a o x) by case: hq.
have hg1 : psd (g_cov g1) by exact: predicted_psd.
have so : supplied a o by rewrite /supplied /o /given_u; case: (am_noextra a); [left|right].
have ss : supplied b os by rewrite /supplied /os; case: (am_noextra b); [left|right].
have hb : pd (noise b os (g_mu g1)) by exact: hR.
have E : ekf_sys a o (tt, Gauss x P) = Ok (tt, g1) by rewrite ekf_sysE.
have F : ekf_meas (existT _ m b) (Some (existT _ m z)) os (tt, g1) =
  Ok (tt, corrected g1 z (val b os (g_mu g1)) (jac b os (g_mu g1)) (noise b os (g_mu g1))) by rewrite ekf_measE.
rewrite /proposal /proposal_call /arg hk he hs hm hc hargs.
move: E F; rewrite /o /os /given_u; case ea: (am_noextra a); case eb: (am_noextra b) => E F;
  rewrite /= meas_castE /= ?ea ?eb /= freshE /inside /= /ekf_internal /two_step /= E /= F //.
Qed.

(** With one model only, no query and no argument can succeed. *)
Theorem C60_one_model_refuted g0 s m f0 os rs f : (0 < n)%N ->
  fp_new g0 s m = Ok f0 -> fp_run f0 os = Ok (rs, f) -> fp_sys f = None \/ fp_meas f = None ->
  [/\ fp_mean f = Abort, fp_covar f = Abort & forall i v, fp_arg_set f i v = Abort].
Proof.
move=> hn h0 hr h1; have [f1 e ha] := new_ref g0 s m; move: e; rewrite h0 => -[e]; rewrite -e in ha.
have := run_ref os hn ha; rewrite hr; case: (p_run _ os) => [[r p]||] //= [_ h].
have h2 : fp_num f = 0%N.
  rewrite (ag_num h) (ag_both h) // -(ag_sys h) -(ag_meas h) /both.
  by case: h1 => ->; case: (fp_sys f).
by rewrite /fp_mean /fp_covar /fp_step /fp_arg_get /fp_arg_set h2.
Qed.

(** The destructor releases one of the two Gaussians, the other is lost. *)
Theorem C60_leak_refuted g0 s m f0 os rs f : (0 < n)%N ->
  fp_new g0 s m = Ok f0 -> fp_run f0 os = Ok (rs, f) ->
  exists2 h, fp_destroy f = Ok h & count isSome h = 1%N.
Proof.
move=> hn h0 hr; have [f1 e ha] := new_ref g0 s m; move: e; rewrite h0 => -[e]; rewrite -e in ha.
have := run_ref os hn ha; rewrite hr; case: (p_run _ os) => [[r p]||] //= [_ h].
have [g1 [g2 [po [t [he hp]]]]] := ag_heap h; rewrite /fp_destroy he /f_destroy /h_get /=.
by move: {he} po hp => [|[|//]] _ /=; eexists.
Qed.
End Proposal.

(** ** C70: the proposal cannot be sampled *)
Section Sample.
Variables (R : rcfType) (eps : R) (n : nat).
Theorem C70_no_sample_refuted g0 s m (f0 f : fpd R n) os rs z meth : (0 < n)%N ->
  fp_new g0 s m = Ok f0 -> fp_run f0 os = Ok (rs, f) -> fp_sys f <> None ->
  meth = DEFAULT \/ meth = CHOLESKY ->
  (forall r, fp_sample eps f meth z <> Ok r) /\
  (forall r, fp_mean f = Ok r -> fp_sample eps f meth z = Abort).
Proof.
move=> hn h0 hr hs hm; have [f1 e ha] := new_ref g0 s m; move: e; rewrite h0 => -[e]; rewrite -e in ha.
have := run_ref os hn ha; rewrite hr; case hp: (p_run _ os) => [[r p]||] //= [_ h].
have hd : fp_dim f = n.
  rewrite (ag_dim h); suff -> : p_sized p by [].
  apply: run_sized hp _; first by apply: count_sized => /=; case: (s).
  by rewrite -(ag_sys h); case: (fp_sys f) hs.
have ab r1 r2 : fp_mean f = Ok r1 -> fp_covar r1.2 = Ok r2 -> gs_draw eps (fp_dim f) 0 (pv r1.1) (pm r2.1) z = Abort.
  by rewrite /gs_draw hd leqn0 eqn0Ngt hn.
have two r1 : fp_mean f = Ok r1 -> exists r2, fp_covar r1.2 = Ok r2.
  move=> h1; have := exec_ref FMeanQ hn h; rewrite /= h1 /=.
  case hq: (proposal p) => [g||] //= [_ /= h2]; have := exec_ref FCovQ hn h2; rewrite /= hq /=.
  by case: (fp_covar r1.2) => [r2||] // _; exists r2.
have E : fp_sample eps f meth z = let! r := fp_mean f in let! q := fp_covar r.2 in
    let! d := gs_draw eps (fp_dim f) 0%N (pv r.1) (pm q.1) z in Ok (d.1, Some d.2, q.2) by case: hm => ->.
split=> [rr|r1 h1]; rewrite E.
  case h1: (fp_mean f) => [r1||] //=; case h2: (fp_covar r1.2) => [r2||] //=; by rewrite (ab _ _ h1 h2).
by have [r2 h2] := two _ h1; rewrite h1 /= h2 /= (ab _ _ h1 h2).
Qed.
End Sample.

(** ** Examples: one dimension, x' = 2x with an input, z = x, all variances 1 *)
Section Examples.
Variable R : realFieldType.
Let double : asys R (meas R) 1 := AModel false (fun x _ => 2%:R *: x) (fun _ _ => 2%:R%:M) (fun _ _ => 1%:M).
Let direct : amodel R (meas R) 1 1 := AModel true (fun x _ => x) (fun _ _ => 1%:M) (fun _ _ => 1%:M).
Let g0 : gauss R 1 := Gauss 0 0.
Let num (k : nat) : meas R := existT _ 1%N (k%:R%:M : 'cV[R]_1).
Let setup : seq (fop R 1) :=
  [:: FMeas (Some (existT _ 1%N direct)); FCov 1%:M; FArg 0 (num 1); FArg 1 (num 3); FArg 2 (num 8)].
Let p1 : prop R 1 := Prop_ true (Some double) (Some (existT _ 1%N direct)) 3 [:: num 1; num 3; num 8] (Some 1%:M).
Lemma ex_value : proposal p1 = Ok (Gauss 7%:R%:M (5%:R / 6%:R)%:M).
Proof.
have h1 : psd (1%:M : 'M[R]_1) by exact/pd_psd/pd1.
rewrite (@C60_value _ _ _ double direct 1%:M 1%:M (num 3) (num 0) 8%:R%:M [:: num 1; num 3; num 8]) //;
  try by [move=> *; exact/pd_psd/pd1|move=> *; exact: pd1].
rewrite /corrected /predicted /gain /innov_cov /= /val /jac /noise /=.
have D (x y : R) : x%:M + y%:M = (x + y)%:M :> 'M[R]_1 by rewrite raddfD.
have B (x y : R) : x%:M - y%:M = (x - y)%:M :> 'M[R]_1 by rewrite raddfB.
rewrite !tr_scalar_mx !mul1mx !mulmx1 scale_scalar_mx -!scalar_mxM !D invmx_scalar B -!scalar_mxM D B.
by congr (Ok (Gauss _ _)); congr (_%:M); field.
Qed.
Lemma ex_run qs : p_run (p_new (Some double) None) (setup ++ qs) =
  let! r := p_run p1 qs in Ok (nseq 5 FNone ++ r.1, r.2).
Proof. by rewrite [LHS]/= /nargs_s /nargs_m /= -/p1; case: (p_run p1 qs). Qed.
Example C60_history_example :
  (let! f := fp_new g0 (Some double) None in
   let! r := fp_run f (setup ++ [:: FCovQ; FMeanQ; FCovQ]) in Ok r.1) =
  Ok (nseq 5 FNone ++ [:: FCovar (5%:R / 6%:R)%:M; FMean 7%:R%:M; FCovar (5%:R / 6%:R)%:M]).
Proof. by rewrite C60_history // ex_run /p_run /p_exec; do 3!rewrite ex_value /=. Qed.
Lemma ex_reached : exists f0 f r, [/\ fp_new g0 (Some double) None = Ok f0, fp_run f0 setup = Ok (nseq 5 FNone, f),
  fp_sys f <> None & fp_mean f = Ok r].
Proof.
have [f0 h0 ha] := new_ref g0 (Some double) None; have := run_ref (setup ++ [::]) isT ha.
rewrite ex_run cats0; case hr: (fp_run f0 setup) => [[rs f]||] //= [ers h]; rewrite ers in hr.
have := exec_ref FMeanQ (isT : (0 < 1)%N) h; rewrite /fp_exec /p_exec ex_value; case hm: (fp_mean f) => [r||] //= _.
by exists f0, f, r; split=> //; rewrite (ag_sys h).
Qed.
(** two queries give what one gives *)
Example C60_queries_example : exists f0 f mu, [/\ fp_new g0 (Some double) None = Ok f0,
  fp_run f0 setup = Ok (nseq 5 FNone, f), all (@is_query R 1) [:: FMeanQ; FCovQ] & fp_exec f FMeanQ = Ok mu].
Proof. by have [f0 [f [r [h1 h2 _ h3]]]] := ex_reached; exists f0, f, (FMean r.1, r.2); rewrite /= h3. Qed.
(** a proposal with a system model only: a reached object of the refuted claims *)
Example C60_one_model_example : exists f0 f,
  [/\ fp_new g0 None None = Ok f0, fp_run f0 [:: FSys (Some double); FCov 1%:M] = Ok ([:: FNone; FNone], f) &
      fp_meas f = None].
Proof. by eexists; eexists; split. Qed.
Example C60_leak_example : exists f0 h, fp_new g0 (Some double) None = Ok f0 /\
  fp_destroy f0 = Ok h /\ h = [:: Some g0; None].
Proof. by eexists; eexists; split; [|split]. Qed.
End Examples.
Example C70_example (R : rcfType) (eps : R) : exists g0 s (f0 f : fpd R 1) os rs r,
  [/\ fp_new g0 s None = Ok f0, fp_run f0 os = Ok (rs, f), fp_sys f <> None & fp_mean f = Ok r].
Proof. by have [f0 [f [r [h1 h2 h3 h4]]]] := ex_reached R; do 2!eexists; exists f0, f; do 2!eexists; exists r; split; eauto. Qed.

Print Assumptions C60_history.
Print Assumptions C60_queries.
Print Assumptions C60_value.
Print Assumptions C60_one_model_refuted.
Print Assumptions C60_leak_refuted.
Print Assumptions C70_no_sample_refuted.
