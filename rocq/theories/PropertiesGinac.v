(** * Properties of the symbolic conditional Gaussian and of the mobile robot (C89-C91) *)
From Coq Require Import Reals Lra.
From mathcomp Require Import all_ssreflect.
From Verif Require Import Outcome ModelGinac SpecGinac ProofsGinac.
Set Implicit Arguments. Unset Strict Implicit. Unset Printing Implicit Defensive.
Local Open Scope R_scope.

Lemma in_mem_nth (fs : seq expr) j : (j < size fs)%N -> List.In (nth (Num 0) fs j) fs.
Proof. by elim: fs j => //= f fs ih [|j] h; [left|right; exact: ih]. Qed.
Lemma vaddP a b : size a = size b -> vadd a b = Ok [seq nth 0 a i + nth 0 b i | i <- iota 0 (size a)].
Proof.
move=> h; rewrite /vadd h eqxx /=; congr Ok; apply: (@eq_from_nth _ 0) => [|i].
  by rewrite !size_map size_zip size_iota h minnn.
by rewrite size_map size_zip h minnn => hi; rewrite (nth_map (0, 0)) ?size_zip ?h ?minnn // nth_zip // (nth_map 0%N) ?size_iota // nth_iota.
Qed.
Lemma expected0 g x u rho : g_cond g = [::] -> assigns rho (g_u g) u -> assigns rho (g_x g) x ->
  closed (g_u g) (g_x g) (g_func g) -> all_defined rho (g_func g) -> size (g_mu g) = size (g_func g) ->
  g_expected g x u = Ok [seq den rho (nth (Num 0) (g_func g) j) + nth 0 (g_mu g) j | j <- iota 0 (size (g_func g))].
Proof.
move=> hc au ax hcl hd sm; rewrite /g_expected hc /= (g_evalP au ax hcl hd) /= vaddP ?size_map //; congr Ok.
by apply/eq_in_map => j; rewrite mem_iota add0n => /andP [_ hj]; rewrite (nth_map (Num 0)).
Qed.
Lemma expected1 g x u rho : g_cond g <> [::] -> size (g_mu g) = size (g_cond g) -> size (g_u g) = size u ->
  assigns rho (g_u g) (shifted (g_u g) (g_cond g) (g_mu g) u) -> assigns rho (g_x g) x ->
  closed (g_u g) (g_x g) (g_func g) -> all_defined rho (g_func g) ->
  g_expected g x u = Ok [seq den rho f | f <- g_func g].
Proof.
move=> hc sm su au ax hcl hd; rewrite /g_expected.
have hs := g_shiftP su sm; rewrite -/(shifted _ _ _ _) in hs.
by case: (g_cond g) hc => [|c cs] // _; rewrite hs /= (g_evalP au ax hcl hd).
Qed.
Lemma columnsP g x u rho syms : assigns rho (g_u g) u -> assigns rho (g_x g) x ->
  closed (g_u g) (g_x g) (g_func g) -> all_defined rho (g_func g) ->
  mapO (g_eval g u x) [seq [seq diff s f | f <- g_func g] | s <- syms] =
    Ok [seq [seq den rho (diff s f) | f <- g_func g] | s <- syms].
Proof.
move=> au ax hcl hd; elim: syms => //= s ss ih.
rewrite (g_evalP (rho := rho) au ax) /=.
- by rewrite ih /= -map_comp.
- move=> f /List.in_map_iff [f0 [<- hf]] t ht; exact: hcl hf _ (diff_symbols ht).
- move=> f /List.in_map_iff [f0 [<- hf]]; exact: diff_defined (hd _ hf).
Qed.

(** ** C89: the pdf without noise on the inputs *)
Theorem C89_expected func us xs mu sigma g x u rho : g_new func us xs mu sigma = Ok g ->
  assigns rho us u -> assigns rho xs x -> closed us xs func -> all_defined rho func -> size mu = size func ->
  g_expected g x u = Ok [seq den rho (nth (Num 0) func j) + nth 0 mu j | j <- iota 0 (size func)].
Proof. by move=> [<-] au ax hc hd sm; exact: expected0. Qed.

Theorem C89_jacobian func us xs mu sigma g x u rho : g_new func us xs mu sigma = Ok g -> uniq (us ++ xs) ->
  assigns rho us u -> assigns rho xs x -> closed us xs func -> all_defined rho func -> size mu = size func ->
  exists2 F, g_df g 0 x u = Ok F & is_jacobian (fun x => g_expected g x u) (size func) x F.
Proof.
move=> [<-] uq au ax hc hd sm; rewrite /g_df /= (columnsP (g := Ginac func [::] us xs [::] _ mu sigma 2) xs au ax hc hd) /=.
eexists; first reflexivity; split=> //=; first by rewrite size_map; case: ax.
move=> i j hi hj; have [sx hx] := ax; have hi' : (i < size xs)%N by rewrite sx.
rewrite (nth_map 0%N) // (nth_map (Num 0)) // -hx //; set s := nth 0%N xs i.
have [d [d0 hn]] := @defined_near_all rho s func hd.
apply: (lim_near (f := fun t => den (upd rho s t) (nth (Num 0) func j) + nth 0 mu j) d0).
  move=> t ht; have [au' ax'] := assigns_set t uq au ax hi'.
  rewrite (expected0 (rho := upd rho s t)) //=; last exact: hn.
  by rewrite (nth_map 0%N) ?size_iota // nth_iota.
have h1 : derivable_pt_lim (fun t => den (upd rho s t) (nth (Num 0) func j)) (rho s) (den rho (diff s (nth (Num 0) func j))).
  by apply: den_partial; apply: hd; exact: in_mem_nth.
have h2 := derivable_pt_lim_plus _ _ _ _ _ h1 (derivable_pt_lim_const (nth 0 mu j) (rho s)).
by apply: lim_ext h2 => //; ring.
Qed.
(** only the derivative for the state can be had *)
Theorem C89_state_only func us xs mu sigma g i x u : g_new func us xs mu sigma = Ok g -> i <> 0%N -> g_df g i x u = Abort.
Proof. by move=> _; case: i. Qed.
(** the covariance is that of the noise *)
Theorem C89_covariance func us xs mu sigma g x u : g_new func us xs mu sigma = Ok g ->
  g_covariance g x u = Ok (Mat (size mu) (size mu) sigma).
Proof. by move=> [<-]. Qed.
(** a division by zero throws *)
Theorem C89_zero_division func us xs mu sigma g x u rho f : g_new func us xs mu sigma = Ok g ->
  assigns rho us u -> assigns rho xs x -> closed us xs func -> List.In f func -> ~ defined rho f ->
  g_expected g x u = Abort.
Proof.
move=> [<-] au ax hc hf hn; rewrite /g_expected /= /g_eval /=.
suff -> : mapO (fun f => let! f1 := subs_all us u f in let! f2 := subs_all xs x f1 in evalf f2) func = Abort by [].
have ev e : List.In e func -> (let! f1 := subs_all us u e in let! f2 := subs_all xs x f1 in evalf f2) =
    Ok (den rho e) \/ (let! f1 := subs_all us u e in let! f2 := subs_all xs x f1 in evalf f2) = Abort.
  move=> he; have [e1 [-> d1 f1 s1]] := subs_allP e au; have [e2 [/= -> d2 f2 s2]] := subs_allP e1 ax.
  have s0 : symbols e2 = [::].
    rewrite s2 s1 -filter_predI; apply/eqP; rewrite -[_ == _]negbK -has_filter; apply/hasPn => t /(hc _ he).
    by rewrite mem_cat /= => /orP [] ->; rewrite ?andbF.
  rewrite /=; have [[_ ->]|[_ ->]] := evalfP rho s0; by [left; rewrite d2 d1|right].
have bad : (let! f1 := subs_all us u f in let! f2 := subs_all xs x f1 in evalf f2) = Abort.
  have [e1 [-> d1 f1 s1]] := subs_allP f au; have [e2 [/= -> d2 f2 s2]] := subs_allP e1 ax.
  have s0 : symbols e2 = [::].
    rewrite s2 s1 -filter_predI; apply/eqP; rewrite -[_ == _]negbK -has_filter; apply/hasPn => t /(hc _ hf).
    by rewrite mem_cat /= => /orP [] ->; rewrite ?andbF.
  rewrite /=; have [[h _]|[_ -> //]] := evalfP rho s0; by case: hn; apply/f1/f2.
clear hc; elim: func ev hf => //= e es ih ev [->|hf]; first by rewrite bad.
by case: (ev e (or_introl erefl)) => -> //=; rewrite ih // => e' h; apply: ev; right.
Qed.
(** the constructor does not check that the function contains no other symbol; the value of
    such a pdf is an unchecked cast of the symbol to a number *)
Theorem C89_unbound_refuted c us xs sigma x u : c \notin us ++ xs -> size us = size u -> size xs = size x ->
  exists2 g, g_new [:: Sym c] us xs [:: 0] sigma = Ok g & g_expected g x u = UB.
Proof.
move=> hc su sx; eexists; first reflexivity.
have key syms vals : size syms = size vals -> c \notin syms -> subs_all syms vals (Sym c) = Ok (Sym c).
  rewrite /subs_all => sz hn.
  have : forall n, (n <= size syms)%N -> foldO (fun e j => let! s := at_ syms j in let! v := at_ vals j in Ok (subs s v e)) (Sym c) (iota 0 n) = Ok (Sym c).
    elim=> // n ih hle; rewrite -addn1 iotaD foldO_cat ih ?(ltnW hle) //= add0n (at_nth 0%N) //= (at_nth 0) -?sz //=.
    case: eqP => // e; move: hn; by rewrite e mem_nth.
  exact.
move: hc; rewrite mem_cat negb_or => /andP [h1 h2].
have k1 := key us u su h1; have k2 := key xs x sx h2; rewrite /g_expected.
have e : g_eval (Ginac [:: Sym c] [::] us xs [::] [seq [seq diff s f | f <- [:: Sym c]] | s <- xs] [:: 0] sigma 2) u x [:: Sym c] = UB.
  by rewrite /g_eval; cbn -[subs_all]; rewrite k1; cbn -[subs_all]; rewrite k2.
by cbn -[g_eval] in e |- *; rewrite e.
Qed.

(** ** C90: the pdf with noise on the inputs *)
Theorem C90_expected func us xs mu sigma cond g x u rho : g_new_cond func us xs mu sigma cond = Ok g -> cond <> [::] ->
  size us = size u -> assigns rho us (shifted us cond mu u) -> assigns rho xs x ->
  closed us xs func -> all_defined rho func -> g_expected g x u = Ok [seq den rho f | f <- func].
Proof.
rewrite /g_new_cond; case: eqP => //= sm [<-] hc su au ax hcl hd; exact: expected1.
Qed.
(** the covariance is that of the noise, propagated with the derivatives at the inputs *)
Theorem C90_covariance func us xs mu sigma cond g x u rho : g_new_cond func us xs mu sigma cond = Ok g -> cond <> [::] ->
  assigns rho us u -> assigns rho xs x -> closed us xs func -> all_defined rho func ->
  (forall k l, (k < size cond)%N -> (l < size cond)%N -> sigma k l = sigma l k) ->
  exists S, g_covariance g x u = Ok S /\ m_rows S = size func /\ m_cols S = size func /\
  exists D : nat -> nat -> R,
    (forall j i, (j < size func)%N -> (i < size cond)%N ->
       partial (fun r => den r (nth (Num 0) func j)) rho (nth 0%N cond i) (D j i)) /\
    (forall i j, (i < size func)%N -> (j < size func)%N -> m_at S i j =
       \big[Rplus/0]_(0 <= l < size cond) ((\big[Rplus/0]_(0 <= k < size cond) (D i k * sigma k l)) * D j l)).
Proof.
rewrite /g_new_cond; case: eqP => //= sm [<-] hc au ax hcl hd hs.
rewrite /g_covariance /=; case E: cond hc => [|c cs] // _; rewrite -E.
rewrite (columnsP (g := Ginac func cond us xs _ _ mu sigma 3) cond au ax hcl hd) /=.
eexists; split; first reflexivity; split=> //; split=> //.
exists (fun j i => nth 0 (nth [::] [seq [seq den rho (diff s f) | f <- func] | s <- cond] i) j); split.
  move=> j i hj hi; rewrite (nth_map 0%N) // (nth_map (Num 0)) //; apply: den_partial; apply: hd; exact: in_mem_nth.
move=> i j hi hj /=; case: leqP => // _.
exact: (@sandwich_sym (size cond) (fun j i => nth 0 (nth [::] [seq [seq den rho (diff s f) | f <- func] | s <- cond] i) j) sigma j i hs).
Qed.
Theorem C90_covariance_psd func us xs mu sigma cond g x u rho : g_new_cond func us xs mu sigma cond = Ok g -> cond <> [::] ->
  assigns rho us u -> assigns rho xs x -> closed us xs func -> all_defined rho func ->
  (forall k l, (k < size cond)%N -> (l < size cond)%N -> sigma k l = sigma l k) -> psd_ (size cond) sigma ->
  exists S, [/\ g_covariance g x u = Ok S, forall i j, (i < size func)%N -> (j < size func)%N -> m_at S i j = m_at S j i
    & psd_ (size func) (m_at S)].
Proof.
move=> hg hc au ax hcl hd hs hp; have [S [h1 [h2 [h3 [D [h4 h5]]]]]] := C90_covariance hg hc au ax hcl hd hs.
exists S; split=> // [i j hi hj|z]; first by rewrite !h5 //; exact: (@sandwich_sym (size cond) D sigma i j hs).
have := @sandwich_psd (size func) (size cond) D sigma hp z; congr (_ <= _).
by apply: sum_eq => i hi; apply: sum_eq => j hj; rewrite h5.
Qed.
(** [dfGet] is the Jacobian when the noise on the inputs has mean zero *)
Theorem C90_jacobian func us xs mu sigma cond g x u rho : g_new_cond func us xs mu sigma cond = Ok g -> cond <> [::] ->
  uniq (us ++ xs) -> assigns rho us u -> assigns rho xs x -> closed us xs func -> all_defined rho func ->
  (forall s, s \in us -> noise_of cond mu s = 0) ->
  exists2 F, g_df g 0 x u = Ok F & is_jacobian (fun x => g_expected g x u) (size func) x F.
Proof.
rewrite /g_new_cond; case: eqP => //= sm [<-] hc uq au ax hcl hd hz.
have sh : shifted us cond mu u = u.
  apply: (@eq_from_nth _ 0) => [|i]; rewrite size_map size_iota // => hi; rewrite (nth_map 0%N) ?size_iota // nth_iota // add0n hz ?Rplus0 //.
  by apply: mem_nth; case: au => ->.
rewrite /g_df /= (columnsP (g := Ginac func cond us xs _ _ mu sigma 3) xs au ax hcl hd) /=.
eexists; first reflexivity; split=> //=; first by rewrite size_map; case: ax.
move=> i j hi hj; have [sx hx] := ax; have hi' : (i < size xs)%N by rewrite sx.
rewrite (nth_map 0%N) // (nth_map (Num 0)) // -hx //; set s := nth 0%N xs i.
have [d [d0 hn]] := @defined_near_all rho s func hd.
apply: (lim_near (f := fun t => den (upd rho s t) (nth (Num 0) func j)) d0); last first.
  by apply: den_partial; apply: hd; exact: in_mem_nth.
move=> t ht; have [au' ax'] := assigns_set t uq au ax hi'.
rewrite (expected1 (rho := upd rho s t)) //=; first by rewrite (nth_map (Num 0)).
- by case: au.
- by rewrite sh.
- exact: hn.
Qed.
(** with another mean it is not: [dfGet] takes the inputs without the mean of the noise.
    For f(x,a) = a x with noise of mean 1 on a, ExpectedValueGet is (a+1) x and dfGet is a. *)
Theorem C90_mean_refuted sigma x a : exists g F, [/\ g_new_cond [:: Mul (Sym 0) (Sym 1)] [:: 1%N] [:: 0%N] [:: 1] sigma [:: 1%N] = Ok g,
  g_df g 0 [:: x] [:: a] = Ok F & ~ is_jacobian (fun x => g_expected g x [:: a]) 1 [:: x] F].
Proof.
eexists; eexists; split; [reflexivity|reflexivity|].
case=> _ _ /(_ 0%N 0%N erefl erefl) /= h.
have h2 : derivable_pt_lim (fun t => t * (a + 1)) x (a + 1).
  have := derivable_pt_lim_mult _ _ _ _ _ (derivable_pt_lim_id x) (derivable_pt_lim_const (a + 1) x).
  by apply: lim_ext => //; rewrite /id /fct_cte; ring.
have := uniqueness_limite _ _ _ _ h h2; lra.
Qed.
(** the dimension is that of the noise, not that of the result *)
Theorem C90_dimension_refuted func us xs mu sigma cond g x u rho : g_new_cond func us xs mu sigma cond = Ok g -> cond <> [::] ->
  size us = size u -> assigns rho us (shifted us cond mu u) -> assigns rho xs x ->
  closed us xs func -> all_defined rho func -> size cond <> size func ->
  exists2 v, g_expected g x u = Ok v & g_dimension g <> size v.
Proof.
move=> hg hc su au ax hcl hd hne; rewrite (C90_expected hg hc su au ax hcl hd); eexists; first reflexivity.
by move: hg; rewrite /g_new_cond; case: eqP => //= sm [<-]; rewrite /g_dimension /= size_map sm.
Qed.
(** SampleFrom: with as many noises as results, mean and factor of the covariance give the sample *)
Theorem C90_sample chol func us xs mu sigma cond g x u draws v S result low : g_new_cond func us xs mu sigma cond = Ok g ->
  g_expected g x u = Ok v -> g_covariance g x u = Ok S -> chol S = (result, low) -> size v = size func ->
  m_rows low = size func -> m_cols low = size func -> size cond = size func -> (size func <= size draws)%N ->
  g_sample chol g x u draws =
    Ok (result, [seq \big[Rplus/0]_(0 <= k < size func) (m_at low i k * nth 0 draws k) + nth 0 v i | i <- iota 0 (size func)]).
Proof.
move=> hg hv hS hch sv rl cl sc sd; rewrite /g_sample hv hS /= hch.
have sm : g_dimension g = size func by move: hg; rewrite /g_new_cond; case: eqP => //= sm [<-]; rewrite /g_dimension /= sm.
have -> : mapO (at_ draws) (iota 0 (g_dimension g)) = Ok [seq nth 0 draws k | k <- iota 0 (size func)].
  by rewrite sm; apply: mapO_eq_ok => k; rewrite mem_iota add0n => /andP [_ hk]; apply: at_nth; exact: leq_trans sd.
rewrite /= size_map size_iota cl eqxx /= vaddP; last by rewrite size_map size_iota rl sv.
rewrite /= size_map size_iota rl; congr (Ok (_, _)); apply/eq_in_map => i; rewrite mem_iota add0n => /andP [_ hi].
rewrite (nth_map 0%N) ?size_iota // nth_iota // add0n; congr (_ + _); apply: sum_eq => k hk.
by rewrite (nth_map 0%N) ?size_iota // nth_iota.
Qed.
(** otherwise SampleFrom fails (a size check of the matrix library) *)
Theorem C90_sample_refuted chol func us xs mu sigma cond g x u draws v S result low : g_new_cond func us xs mu sigma cond = Ok g ->
  g_expected g x u = Ok v -> g_covariance g x u = Ok S -> chol S = (result, low) -> m_cols low = size func ->
  size cond <> size func -> (size cond <= size draws)%N -> g_sample chol g x u draws = Abort.
Proof.
move=> hg hv hS hch cl sc sd; rewrite /g_sample hv hS /= hch.
have sm : g_dimension g = size cond by move: hg; rewrite /g_new_cond; case: eqP => //= sm [<-]; rewrite /g_dimension /= sm.
have -> : mapO (at_ draws) (iota 0 (g_dimension g)) = Ok [seq nth 0 draws k | k <- iota 0 (size cond)].
  by rewrite sm; apply: mapO_eq_ok => k; rewrite mem_iota add0n => /andP [_ hk]; apply: at_nth; exact: leq_trans sd.
by rewrite /= size_map size_iota cl; case: eqP => // e; case: sc.
Qed.
(** a copy behaves as the original ... *)
Theorem C90_copy func us xs mu sigma cond g : g_new_cond func us xs mu sigma cond = Ok g ->
  exists2 g', g_copy g = Ok g' & forall x u i,
    [/\ g_expected g' x u = g_expected g x u, g_covariance g' x u = g_covariance g x u, g_df g' i x u = g_df g i x u
      & g_dimension g' = g_dimension g].
Proof.
rewrite /g_new_cond; case: eqP => //= sm [<-]; rewrite /g_copy /= sm eqxx orbT /=; eexists; first reflexivity.
by move=> x u i; split.
Qed.
(** ... but has another number of conditional arguments, so that a system model made from the
    pdf (which copies it) works while SystemPdfSet with the pdf itself fails *)
Theorem C90_copy_refuted func us xs mu sigma cond g : g_new_cond func us xs mu sigma cond = Ok g ->
  system_accepts g = Abort /\ exists2 g', system_model g = Ok g' & g_args g' <> g_args g.
Proof.
rewrite /g_new_cond; case: eqP => //= sm [<-]; split=> //.
by rewrite /system_model /g_copy /= sm eqxx orbT /=; eexists; first reflexivity.
Qed.

(** ** C91: the mobile robot *)
Theorem C91_robot mu x1 x2 x3 v o m1 m2 m3 : mu = [:: m1; m2; m3] ->
  exists F, [/\ mr_expected mu [:: x1; x2; x3] [:: v; o] = Ok [:: x1 + v * cos x3 + m1; x2 + v * sin x3 + m2; x3 + o + m3],
    mr_df 0 [:: x1; x2; x3] [:: v; o] = Ok F & is_jacobian (fun x => mr_expected mu x [:: v; o]) 3 [:: x1; x2; x3] F].
Proof.
move=> ->; eexists; split; [by rewrite /mr_expected /= /vadd /=; do 2 f_equal; [ring|do 2 f_equal; ring]|reflexivity|].
split=> // i j; case: i => [|[|[|]]] //= _; case: j => [|[|[|]]] //= _.
- apply: (lim_ext (f := fun t => t + (cos x3 * v + m1)) (l := 1 + 0)) => [t||]; try ring.
  exact: derivable_pt_lim_plus (derivable_pt_lim_id _) (derivable_pt_lim_const _ _).
- exact: derivable_pt_lim_const.
- exact: derivable_pt_lim_const.
- exact: derivable_pt_lim_const.
- apply: (lim_ext (f := fun t => t + (sin x3 * v + m2)) (l := 1 + 0)) => [t||]; try ring.
  exact: derivable_pt_lim_plus (derivable_pt_lim_id _) (derivable_pt_lim_const _ _).
- exact: derivable_pt_lim_const.
- apply: (lim_ext (f := fun t => (x1 + m1) + v * cos t) (l := 0 + v * - sin x3)) => [t||]; try ring.
  exact: derivable_pt_lim_plus (derivable_pt_lim_const _ _) (derivable_pt_lim_scal _ _ _ _ (derivable_pt_lim_cos _)).
- apply: (lim_ext (f := fun t => (x2 + m2) + v * sin t) (l := 0 + v * cos x3)) => [t||]; try ring.
  exact: derivable_pt_lim_plus (derivable_pt_lim_const _ _) (derivable_pt_lim_scal _ _ _ _ (derivable_pt_lim_sin _)).
- apply: (lim_ext (f := fun t => t + (o + m3)) (l := 1 + 0)) => [t||]; try ring.
  exact: derivable_pt_lim_plus (derivable_pt_lim_id _) (derivable_pt_lim_const _ _).
Qed.
(** the derivative for the input cannot be had *)
Theorem C91_state_only i x u : i <> 0%N -> mr_df i x u = Abort.
Proof. by case: i. Qed.
(** the hand-written class and the symbolic pdf of the same function agree
    (symbols: 0,1 the inputs, 2,3,4 the state) *)
Definition robot_func : seq expr :=
  [:: Add (Sym 2) (Mul (Cos (Sym 4)) (Sym 0)); Add (Sym 3) (Mul (Sin (Sym 4)) (Sym 0)); Add (Sym 4) (Sym 1)].
Theorem C91_agree sigma m1 m2 m3 x1 x2 x3 v o : exists g F F',
  [/\ g_new robot_func [:: 0; 1]%N [:: 2; 3; 4]%N [:: m1; m2; m3] sigma = Ok g,
    g_expected g [:: x1; x2; x3] [:: v; o] = mr_expected [:: m1; m2; m3] [:: x1; x2; x3] [:: v; o],
    g_df g 0 [:: x1; x2; x3] [:: v; o] = Ok F, mr_df 0 [:: x1; x2; x3] [:: v; o] = Ok F'
    & forall i j, (i < 3)%N -> (j < 3)%N -> m_at F i j = m_at F' i j].
Proof.
eexists; eexists; eexists; split; [reflexivity|reflexivity|reflexivity|reflexivity|].
by move=> i j; case: i => [|[|[|]]] //= _; case: j => [|[|[|]]] //= _; ring.
Qed.

(** ** Concrete cases *)
(** C89: f(x,a) = a / x at x = 2, a = 6 with noise mean 1; the expected value is 4 and the
    derivative -6/4 *)
Example C89_ex sigma : exists g F, [/\ g_new [:: Mul (Sym 0) (Inv (Sym 1))] [:: 0%N] [:: 1%N] [:: 1] sigma = Ok g,
  g_expected g [:: 2] [:: 6] = Ok [:: 4], g_df g 0 [:: 2] [:: 6] = Ok F & m_at F 0 0 = - 3 / 2].
Proof.
have hl : uniq ([:: 0] ++ [:: 1])%N by [].
have [au ax] := lookupP (u := [:: 6]) (x := [:: 2]) hl erefl erefl.
set rho := lookup _ _ _ _ in au ax.
have hc : closed [:: 0%N] [:: 1%N] [:: Mul (Sym 0) (Inv (Sym 1))] by move=> f [<-|//].
have hd : all_defined rho [:: Mul (Sym 0) (Inv (Sym 1))].
  by move=> f [<-|//] /=; rewrite /rho /lookup /=; split=> //; split=> //; lra.
eexists; eexists; split; first reflexivity.
- rewrite (C89_expected (mu := [:: 1]) (rho := rho) (sigma := sigma) erefl au ax hc hd erefl) /= /rho /lookup /=; congr (Ok [:: _]); lra.
- rewrite /g_df /= /g_eval /=; destruct (Req_EM_T 2 0) as [h|h]; [exfalso; lra|reflexivity].
by rewrite /=; lra.
Qed.
(** C90: two noises on one input: the means 1 and 2 are both added *)
Example C90_ex sigma : exists2 g, g_new_cond [:: Mul (Sym 0) (Sym 1)] [:: 1%N] [:: 0%N] [:: 1; 2] sigma [:: 1; 1]%N = Ok g &
  g_expected g [:: 5] [:: 10] = Ok [:: 65].
Proof. by eexists; first reflexivity; rewrite /g_expected /=; congr (Ok [:: _]); lra. Qed.
(** C90_covariance: variance 9 on the input a of f = a x at x = 2: 36 *)
Example C90_covariance_ex : exists g S, [/\ g_new_cond [:: Mul (Sym 0) (Sym 1)] [:: 1%N] [:: 0%N] [:: 0] (fun _ _ => 9) [:: 1%N] = Ok g,
  g_covariance g [:: 2] [:: 10] = Ok S & m_at S 0 0 = 36].
Proof. by eexists; eexists; split; [reflexivity|reflexivity|rewrite /= !big_nat1 /=; lra]. Qed.

(** C90_sample, C90_sample_refuted: one result, one and two noises (the factor is that of a 1x1 matrix) *)
Example C90_sample_ex (chol := fun S : mat => (true, Mat (m_rows S) (m_cols S) (fun i j => sqrt (m_at S i j)))) :
  exists g, [/\ g_new_cond [:: Mul (Sym 0) (Sym 1)] [:: 1%N] [:: 0%N] [:: 0] (fun _ _ => 9) [:: 1%N] = Ok g &
  g_sample chol g [:: 2] [:: 10] [:: 3] = Ok (true, [:: 38])].
Proof.
eexists; split; first reflexivity.
rewrite /g_sample /= !big_nat1 /= /vadd /=; congr (Ok (_, [:: _])).
have -> : (0 * 10 + 2 * 1) * 9 * (0 * 10 + 2 * 1) = 6 * 6 by ring.
by rewrite sqrt_square; lra.
Qed.
Example C90_sample_refuted_ex (chol := fun S : mat => (true, S)) :
  exists g, [/\ g_new_cond [:: Mul (Sym 0) (Sym 1)] [:: 1; 2]%N [:: 0%N] [:: 0; 0] (fun _ _ => 9) [:: 1; 2]%N = Ok g &
  g_sample chol g [:: 2] [:: 10; 11] [:: 3; 4] = Abort].
Proof. by eexists; split. Qed.

Print Assumptions C89_expected.
Print Assumptions C89_jacobian.
Print Assumptions C89_state_only.
Print Assumptions C89_covariance.
Print Assumptions C89_zero_division.
Print Assumptions C89_unbound_refuted.
Print Assumptions C90_expected.
Print Assumptions C90_covariance.
Print Assumptions C90_covariance_psd.
Print Assumptions C90_jacobian.
Print Assumptions C90_mean_refuted.
Print Assumptions C90_dimension_refuted.
Print Assumptions C90_sample.
Print Assumptions C90_sample_refuted.
Print Assumptions C90_copy.
Print Assumptions C90_copy_refuted.
Print Assumptions C91_robot.
Print Assumptions C91_state_only.
Print Assumptions C91_agree.
