(** * C42: no update of a mixture filter fails *)
From mathcomp Require Import all_ssreflect all_algebra.
From Verif Require Import OrdLra Outcome SpecProb ModelTables ProofsTables ModelDiscretePdf
  ModelMCPdf SpecMCPdf ProofsMCPdf ModelMixture SpecMixture ProofsMixture ModelModels ModelFilter ProofsFilter
  ModelParticle SpecParticle ProofsParticle PropertiesParticle ModelMixPF SpecMixPF ProofsMixPF PropertiesMixPF.
Set Implicit Arguments. Unset Strict Implicit. Unset Printing Implicit Defensive.
Import Order.TTheory GRing.Theory Num.Theory.
Local Open Scope ring_scope.

Section Safe.
Variables (R : realFieldType) (T Z Rnd Rz : Type).
Variables (eps : R) (root : R -> nat -> R).
Hypothesis eps0 : 0 <= eps.
Hypothesis root01 : forall u k, 0 < u <= 1 -> (0 < k)%N -> 0 < root u k <= 1.
Notation part := (T * R)%type.
Notation priv := (mpriv R T Rnd).
Notation ppriv := (pfpriv R T Rnd).
Notation cell := (cell R T).
Notation mixture := (mix R (mcpdf R T)).
Notation mstate := (fstate mixture priv).
Notation pstate := (fstate (mcpdf R T) ppriv).
Notation mfilter := (heap mixture * filt priv)%type.
Notation psys := (psys R T Rnd).
Notation pmeas := (pmeas R T Z Rz).
Notation prop := (prop R T Rnd).
Notation pcall := (call psys pmeas T Z).
Notation state_of hf d := (fl_priv hf.2, fl_time hf.2, d).
Implicit Types (hf : mfilter) (m : mixture) (sh : ppriv) (c : cell) (cl : seq cell).
Local Arguments build : simpl never.

Definition calive (n : nat) c : Prop :=
  [/\ size (mc_los c.2) = n /\ (0 < n)%N, nonneg (weights (mc_los c.2)),
      exists2 ws, distribution ws & size ws = n /\ mc_cum c.2 = cum_loop 0 ws &
      size c.1.1.1 = n /\ size c.1.1.2 = n].
Lemma calive_load n sh t c : calive n c -> unit_tape (pf_us sh) -> alive n (load sh c, t, c.2).
Proof. by move=> [h1 h2 h3 h4] h5; split. Qed.
Lemma alive_store n (st : pstate) : alive n st -> calive n (store st.1.1 st.2) /\ unit_tape (pf_us st.1.1).
Proof. by move=> [h1 h2 h3 h4 h5]; split. Qed.
Fixpoint alln (ns : seq nat) cl : Prop :=
  match ns, cl with
  | [::], [::] => True
  | n :: ns', c :: cl' => calive n c /\ alln ns' cl'
  | _, _ => False
  end.
Lemma alln_size ns cl : alln ns cl -> size cl = size ns.
Proof. by elim: ns cl => [|n ns IH] [|c cl] //= [_ /IH ->]. Qed.
Lemma alln_shape ns cl : alln ns cl -> [seq size (mc_los d) | d <- map snd cl] = ns.
Proof. by elim: ns cl => [|n ns IH] [|c cl] //= [[[-> _] _ _ _] /IH ->]. Qed.
(** the shared members *)
Definition ready (S : psys -> Prop) sh : Prop := unit_tape (pf_us sh) /\ forall sm, S sm -> accepts (pf_prop sh) sm.
Definition safe_step (S : psys -> Prop) (f : pstate -> outcome (bool * pstate)) : Prop :=
  forall n sh t c, alive n (load sh c, t, c.2) -> ready S sh ->
    exists b st', [/\ f (load sh c, t, c.2) = Ok (b, st'), alive n st' & kept (load sh c, t, c.2) st'].
Lemma kept_ready S sh t c (st' : pstate) n : kept (load sh c, t, c.2) st' -> ready S sh -> alive n st' -> ready S st'.1.1.
Proof.
by move=> hk [_ h2] [_ _ _ _ hu]; split=> // sm hs; apply: kept_accepts hk _; exact: h2.
Qed.
Lemma each_safe S f ns : safe_step S f -> forall b sh t cl, alln ns cl -> ready S sh ->
  exists b' sh' t' cl', [/\ each f b sh t cl = Ok (b', (sh', t', cl')), alln ns cl' & ready S sh'].
Proof.
move=> hf; elim: ns => [|n ns IH] b sh t [|c cl] //= => [_ h|]; first by exists b, sh, t, [::].
move=> [hc hcl] hr; case: b; last by exists false, sh, t, (c :: cl).
have [b1 [st1 [-> ha hk]]] /= := hf n sh t c (calive_load t hc (proj1 hr)) hr.
have [b' [sh' [t' [cl' [-> h1 h2]]]]] /= := IH b1 st1.1.1 st1.1.2 cl hcl (kept_ready hk hr ha).
by exists b', sh', t', (store st1.1.1 st1.2 :: cl'); split=> //=; split=> //; have [] := alive_store ha.
Qed.
Lemma eachw_safe S f ns : safe_step S f -> forall sh t cl, alln ns cl -> ready S sh ->
  exists sh' t' cl', [/\ eachw f sh t cl = Ok (sh', t', cl'), alln ns cl' & ready S sh'].
Proof.
move=> hf; elim: ns => [|n ns IH] sh t [|c cl] //= => [_ h|]; first by exists sh, t, [::].
move=> [hc hcl] hr.
have [b1 [st1 [-> ha hk]]] /= := hf n sh t c (calive_load t hc (proj1 hr)) hr.
have [sh' [t' [cl' [-> h1 h2]]]] /= := IH st1.1.1 st1.1.2 cl hcl (kept_ready hk hr ha).
by exists sh', t', (store st1.1.1 st1.2 :: cl'); split=> //=; split=> //; have [] := alive_store ha.
Qed.
Definition mlive (ns : seq nat) (S : psys -> Prop) (st : mstate) : Prop := exists sh t cl w cum nw sw,
  [/\ st = build sh t cl w cum nw sw, alln ns cl,
      [/\ size w = size ns, size cum = (size ns).+1, size nw = size ns & size sw = size ns],
      nonneg w & (0 < size ns)%N /\ ready S sh].
Lemma all_safe ns S f st : keeps f -> safe_step S f -> mlive ns S st -> exists b st', mp_all f st = Ok (b, st') /\ mlive ns S st'.
Proof.
move=> hk hf [sh [t [cl [w [cum [nw [sw [-> h1 [h2 h3 h4 h5] h6 [h0 h7]]]]]]]]]; rewrite mp_allE //.
have [b' [sh' [t' [cl' [-> g1 g2]]]]] /= := each_safe hf true t h1 h7.
by exists b', (build sh' t' cl' w cum nw sw); split=> //; exists sh', t', cl', w, cum, nw, sw.
Qed.
Lemma static_safe ns S st : mlive ns S st -> exists b st', mp_static root st = Ok (b, st') /\ mlive ns S st'.
Proof.
move=> hl; rewrite /mp_static; case: st hl => [[p t] m] hl; case: ifP => _; last by exists true, (p, t, m).
apply: (all_safe _ _ hl); first exact: keeps_resample.
by move=> n sh t0 c ha _; have [st' [-> h1 h2 h3 _]] := pf_resample_alive root01 ha; exists true, st'.
Qed.
Lemma dynamic_safe ns S st : mlive ns S st -> exists b st', mp_dynamic root st = Ok (b, st') /\ mlive ns S st'.
Proof.
move=> hl; apply: (all_safe _ _ hl); first exact: keeps_dynamic.
by move=> n sh t0 c ha _; have [st' [-> h1 h2 h3]] := pf_dynamic_alive root01 ha; exists true, st'.
Qed.
Lemma proposal_safe ns (S : psys -> Prop) (sm : psys) u st : S sm -> proper sm -> supplied sm u ->
  mlive ns S st -> exists b st', mp_proposal sm u st = Ok (b, st') /\ mlive ns S st'.
Proof.
move=> hs hp hu hl; apply: (all_safe _ _ hl); first exact: keeps_proposal.
move=> n sh t0 c ha hr; have hacc : accepts (pf_prop (load sh c, t0, c.2).1.1) sm by case: hr => _; exact.
by have [b [st' [-> h1 h2 h3]]] := pf_proposal_alive ha hacc hp hu; exists b, st'.
Qed.
Lemma weights_safe ns (S : psys -> Prop) os u (k : pmeas) z s st :
  (forall sm, os = Some sm -> [/\ S sm, proper sm & supplied sm u]) -> proper k -> supplied k s ->
  mlive ns S st -> exists b st', mp_weights eps os u k (Some z) s st = Ok (b, st') /\ mlive ns S st'.
Proof.
move=> hs hp hu [sh [t [cl [w [cum [nw [sw [-> h1 [h2 h3 h4 h5] h6 [h0 h7]]]]]]]]].
have hstep : safe_step S (pf_weights os u k (Some z) s).
  move=> n sh0 t0 c ha hr.
  have hos sm : os = Some sm -> [/\ accepts (pf_prop (load sh0 c, t0, c.2).1.1) sm, proper sm & supplied sm u].
    by move=> /hs [g1 g2 g3]; split=> //; case: hr => _; exact.
  by have [b [st' [-> g1 g2 g3 _]]] := pf_weights_alive z ha hos hp hu; exists b, st'.
have [sh' [t' [cl' [he g1 g2]]]] := eachw_safe hstep t h1 h7.
have hsz := alln_size h1; have hsz' := alln_size g1.
have hm : nonneg (map (@mass R T) cl').
  elim: (cl) (cl') sh sh' t t' he {h1 h7 g1 g2 hsz hsz'} => [|c cl1 IH] cl2 sh sh' t t' /=; first by case=> _ _ <-.
  case hr: (pf_weights _ _ _ _ _ _) => [[b st1]||] //=; case he: (eachw _ _ _ _) => [[[sh2 t2] cl3]||] //= -[_ _ <-] /=.
  apply/nonneg_cons; split; last exact: IH he.
  case: (obindE hr) => -[L q] hw h8; case: (obindE h8) => -[b' d'] hu' [_ <-] /=; rewrite massE /=.
  by apply: total_ge0; have [] := reweigh_ok hw.
have hv : nonneg (products w (map (@mass R T) cl')).
  elim: (w) (map (@mass R T) cl') h6 hm => [|x w1 IH] [|y l] //= /nonneg_cons [k1 k2] /nonneg_cons [k3 k4].
  by apply/nonneg_cons; split; [exact: mulr_ge0|exact: IH].
have hsv : size (products w (map (@mass R T) cl')) = size ns by rewrite size_map size_zip h2 size_map hsz' minnn.
rewrite (mp_weightsE eps0 _ _ _ _ _ he) ?hsz ?hsz' //; case: ifP => ht; eexists; eexists; (split; first by []).
  exists sh', t', cl'; do 2 eexists; exists (products w (map (@mass R T) cl')), (map (@mass R T) cl'); split=> //.
  - by rewrite size_normed hsv size_cum size_normed hsv size_map hsz'.
  - by have [] := normed_distr hv ht.
exists sh', t', cl', (products w (map (@mass R T) cl')), cum; do 2 eexists; split=> //.
by rewrite hsv size_map hsz'.
Qed.
Local Arguments mp_static : simpl never.
Local Arguments mp_proposal : simpl never.
Local Arguments mp_weights : simpl never.
Local Arguments mp_dynamic : simpl never.
Lemma internal_safe ns (S : psys -> Prop) os u (om : option pmeas) z s st :
  (forall sm, os = Some sm -> [/\ S sm, proper sm & supplied sm u]) ->
  (forall k, om = Some k -> [/\ proper k, supplied k s & z <> None]) ->
  mlive ns S st -> exists b st', mp_internal eps root os u om z s st = Ok (b, st') /\ mlive ns S st'.
Proof.
move=> hs hk hl; rewrite /mp_internal /malso.
have [b1 [st1 [-> hl1]]] : exists b1 st1, (if os is Some m then let! a := (if (true, st).1 then mp_static root (true, st).2 else Ok (true, st)) in
     (if a.1 then mp_proposal m u a.2 else Ok a) else Ok (true, st)) = Ok (b1, st1) /\ mlive ns S st1.
  case: os hs => [m|] hs; last by exists true, st.
  have [h1 h2 h3] := hs m erefl.
  have [b1 [st1 [e1 hl1]]] := static_safe hl; rewrite /= e1 /=.
  case: b1 {e1} => /=; last by exists false, st1.
  exact: proposal_safe.
case: om hk => [k|] hk; last by exists b1, st1.
have [h1 h2 h3] := hk k erefl; case: z h3 {hk} => // z _; rewrite /=.
case: b1; last by exists false, st1.
have [b2 [st2 [-> hl2]]] := weights_safe z hs h1 h2 hl1; rewrite /=.
case: b2; last by exists false, st2.
exact: dynamic_safe.
Qed.
Lemma new_mlive junk (q : option prop) per thr sch us rs h p hf m : fine_mixture m -> h_get h p = Ok m ->
  mp_new_filter eps junk q per thr sch us rs h p = Ok hf -> unit_tape us ->
  f_post hf = Ok m /\ mlive (shape m) (fun sm => accepts q sm) (state_of hf m).
Proof.
move=> hfine hm hn hu; have [hp [cl [nw [sw ok]]]] := new_sound eps0 hfine hm hn; split=> //.
case: ok => e hK [h1 h2 h3 h4] hcl [hw _]; exists (PF q junk.1 [::] [::] [::] (per == 0) per thr sch us rs 0), 0%N, cl; do 4 eexists.
have em : mx_comps m = map snd cl by case: e => _ _ ->.
have hs : size (shape m) = mx_n m by rewrite /shape em !size_map.
split; [exact: e| | |by []|by rewrite hs]; last by rewrite (all2P_size hcl) hs h1 h2 h3 h4.
have hv : forall d, List.In d (map snd cl) -> mc_valid d by rewrite -em; case: hfine.
rewrite /shape em; elim: (cl) (mx_w m) hcl hv {e h1 em hs} => [|c cl1 IH] [|a w] //= [[k1 k2 [k3 k3'] k4 _] hcl] hv.
split; last by apply: (IH w) => // d hd; apply: hv; right.
have hc := hv _ (or_introl erefl); split=> //.
by exists (weights (mc_los c.2)); [case: hc|rewrite size_weights (mc_cumE hc)].
Qed.
Lemma mcall_safe internal ns (S : psys -> Prop) (cc : pcall) hf m b st' : f_post hf = Ok m ->
  internal (sys_of cc) (input_of cc) (meas_of cc) (value_of cc) (param_of cc) (state_of hf m) = Ok (b, st') -> mlive ns S st' ->
  exists hf', [/\ f_call internal hf cc = Ok (b, hf'), f_post hf' = Ok st'.2 & mlive ns S (state_of hf' st'.2)].
Proof.
case: st' => [[p t] d'] hd hi hl; have [h' [h1 [h2 _]]] := f_updateE hd hi.
by exists (h', Filt (fl_prior hf.2) (fl_post hf.2) t p); rewrite f_call_parts; split.
Qed.
(** no history of a mixture particle filter ends in undefined behaviour or a
    failed assert, provided the models answer every query; the numbers of
    particles never change and no weight is negative *)
Theorem C42_particle_safe junk (q : option prop) per thr sch us rs h p m hf (cs : seq pcall) :
  mp_new_filter eps junk q per thr sch us rs h p = Ok hf -> h_get h p = Ok m -> fine_mixture m -> unit_tape us ->
  (forall c : pcall, List.In c cs -> fine_call c /\ forall sm, sys_of c = Some sm -> accepts q sm) ->
  exists fl hf' m', [/\ runO (mp_call eps root) hf cs = Ok (fl, hf'), f_post hf' = Ok m', shape m' = shape m & nonneg (mx_w m')].
Proof.
move=> hn hm hfine hu; have [hp hl] := new_mlive hfine hm hn hu.
move: (shape m) hl => ns hl {hn hm hfine}.
elim: cs hf m hp hl => [|c cs IH] hf m hp hl hfine /=.
  exists [::], hf, m; split=> //.
    by case: hl => sh [t [cl [w [cum [nw [sw [e h1 _ h6 _]]]]]]]; case: e => _ _ ->; rewrite /shape; exact: alln_shape.
  by case: hl => sh [t [cl [w [cum [nw [sw [e h1 _ h6 _]]]]]]]; case: e => _ _ ->.
have [[hf1 hf2] hacc] := hfine c (or_introl erefl).
have hos sm : sys_of c = Some sm -> [/\ accepts q sm, proper sm & supplied sm (input_of c)].
  by move=> hs; have [h1 h2] := hf1 sm hs; split=> //; exact: hacc.
have hom k : meas_of c = Some k -> [/\ proper k, supplied k (param_of c) & value_of c <> None].
  by move=> hk; have [h1 h2] := hf2 k hk; split=> //; exact: value_given hk.
have [b [st' [hi hl']]] := internal_safe hos hom hl.
have [hf' [e1 e2 e3]] := mcall_safe hp hi hl'.
have [|fl [hf3 [m3 [e4 e5 e6 e7]]]] := IH hf' st'.2 e2 e3; first by move=> x hx; apply: hfine; right.
by exists (b :: fl), hf3, m3; rewrite /mp_call e1 /= -/(mp_call eps root) e4.
Qed.
Lemma mlive_any ns (S S' : psys -> Prop) (st : mstate) : mlive ns S st -> (forall sm, ~ S' sm) -> mlive ns S' st.
Proof.
move=> [sh [t [cl [w [cum [nw [sw [-> h1 h2 h6 [h0 [h7 h8]]]]]]]]]] hS; exists sh, t, cl, w, cum, nw, sw; split=> //; split=> //.
by split=> // sm /hS.
Qed.
Theorem C42_bootstrap_safe junk per thr sch us rs h p m hf (cs : seq pcall) :
  mb_new_filter eps junk per thr sch us rs h p = Ok hf -> h_get h p = Ok m -> fine_mixture m -> unit_tape us ->
  (forall c : pcall, List.In c cs -> fine_call c) ->
  exists fl hf' m', [/\ runO (mb_call eps root) hf cs = Ok (fl, hf'), f_post hf' = Ok m', shape m' = shape m & nonneg (mx_w m')].
Proof.
move=> hn hm hfine hu; have [hp hl0] := new_mlive hfine hm hn hu.
have hl := mlive_any (S' := fun _ => False) hl0 (fun _ => id).
move: (shape m) hl => ns hl {hn hm hfine hl0}.
elim: cs hf m hp hl => [|c cs IH] hf m hp hl hfine /=.
  exists [::], hf, m; split=> //.
    by case: hl => sh [t [cl [w [cum [nw [sw [e h1 _ h6 _]]]]]]]; case: e => _ _ ->; rewrite /shape; exact: alln_shape.
  by case: hl => sh [t [cl [w [cum [nw [sw [e h1 _ h6 _]]]]]]]; case: e => _ _ ->.
have [hf1 hf2] := hfine c (or_introl erefl).
have hom k : meas_of c = Some k -> [/\ proper k, supplied k (param_of c) & value_of c <> None].
  by move=> hk; have [h1 h2] := hf2 k hk; split=> //; exact: value_given hk.
have [b [st' [hi hl']]] : exists b st', mb_internal eps root (sys_of c) (input_of c) (meas_of c) (value_of c) (param_of c)
    (state_of hf m) = Ok (b, st') /\ mlive ns (fun _ => False) st'.
  rewrite /mb_internal.
  have [b1 [st1 [h1 hl1]]] : exists b1 st1, (if sys_of c is Some m1 then
      let p := fl_priv hf.2 in
      mp_internal eps root (sys_of c) (input_of c) (None : option pmeas) (value_of c) (param_of c)
       (MP (ml_pdf m1) (mp_sample p) (mp_old p) (mp_new p) (mp_uns p) (mp_neww p) (mp_sumw p)
          (mp_dyn p) (mp_period p) (mp_thr p) (mp_scheme p) (mp_us p) (mp_rs p) (mp_nres p), fl_time hf.2, m)
      else Ok (true, state_of hf m)) = Ok (b1, st1) /\ mlive ns (fun _ => False) st1.
    case hs: (sys_of c) => [sm|]; last by exists true, (state_of hf m).
    have [hp1 hsu] := hf1 sm hs.
    pose S sm' := sm' = sm.
    cbv zeta; set st0 := (MP _ _ _ _ _ _ _ _ _ _ _ _ _ _, _, _).
    have hl0 : mlive ns S st0.
      case: hl => sh [t [cl [w [cum [nw [sw [e k1 k2 k3 [k4 [k5 _]]]]]]]]].
      exists (PF (ml_pdf sm) (pf_sample sh) (pf_old sh) (pf_new sh) (pf_uns sh) (pf_dyn sh) (pf_period sh) (pf_thr sh)
        (pf_scheme sh) (pf_us sh) (pf_rs sh) (pf_nres sh)), t, cl, w, cum, nw, sw; split=> //.
        by rewrite /st0; case: e => -> -> ->.
      split=> //; split=> // sm' ->; case: (hp1) => c1 [b1 [g1 g2 g3 g4]].
      by exists c1; split=> //; rewrite g2 g3; case: (b1).
    have [sm' [<-]|//|b [st' [-> hl']]] := internal_safe (os := Some sm) (u := input_of c) (om := None) (z := value_of c) (s := param_of c) _ _ hl0.
      by [].
    by exists b, st'; split=> //; exact: (mlive_any hl' (fun _ => id)).
  rewrite h1 /=; case hk: (meas_of c) => [k|]; last by exists (true && b1), st1.
  have hom1 k1 : Some k = Some k1 -> [/\ proper k1, supplied k1 (param_of c) & value_of c <> None] by move=> [<-]; exact: hom.
  have [//|b2 [st2 [-> hl2]]] := internal_safe (os := None) (u := input_of c) _ hom1 hl1.
  by exists (b2 && b1), st2.
have [hf' [e1 e2 e3]] := mcall_safe hp hi hl'.
have [|fl [hf3 [m3 [e4 e5 e6 e7]]]] := IH hf' st'.2 e2 e3; first by move=> x hx; apply: hfine; right.
by exists (b :: fl), hf3, m3; rewrite /mb_call e1 /= -/(mb_call eps root) e4.
Qed.
End Safe.

(** concrete cases: ExamplesMixPF *)
Print Assumptions C42_particle_safe.
Print Assumptions C42_bootstrap_safe.
