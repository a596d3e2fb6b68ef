(** * Extended Kalman particle filter: whole updates (C74, C75) *)
From mathcomp Require Import all_ssreflect all_algebra zify ring.
From Verif Require Import Outcome OrdLra Simulation SpecProb ModelTables ProofsTables ModelMatrix ModelDiscretePdf ModelMCPdf SpecMCPdf ProofsMCPdf
  ModelMoments ModelFilter ProofsFilter ModelKalman ModelGauss ModelProposal SpecProposal PropertiesProposal ModelEKPF SpecEKPF PropertiesEKPF.
Set Implicit Arguments. Unset Strict Implicit. Unset Printing Implicit Defensive.
Import Order.TTheory GRing.Theory Num.Theory.
Local Open Scope ring_scope.

(** ** C74: the class as it is *)
Section Never.
Variables (R : rcfType) (eps twopi : R) (expo : R -> R) (n : nat) (root : R -> nat -> R).
Notation asys := (asys R (meas R) n).
Notation ameas := (ameas R (meas R) n).
Variables (dsys : asys -> 'cV[R]_n -> 'cV[R]_n -> option (meas R) -> outcome R)
          (dmeas : ameas -> meas R -> 'cV[R]_n -> option (meas R) -> outcome R).
Lemma renum_dim (f : fpd R n) s m : fp_dim (fp_renum f s m) = fp_dim f.
Proof. by rewrite /fp_renum; case: (both s m). Qed.
Lemma arg_dim (f : fpd R n) i v f' : fp_arg_set f i v = Ok f' -> fp_dim f' = fp_dim f.
Proof. by rewrite /fp_arg_set /guard; case: ifP => //= _; case: (put_ _ _ _) => //= a [<-]. Qed.
Lemma args_dim (a : asys) u (am : ameas) z s x (f f' : fpd R n) : ek_args a u am z s x f = Ok f' -> fp_dim f' = fp_dim f.
Proof.
rewrite /ek_args; case h0: (fp_arg_set f 0 _) => [f1||] //=; rewrite -(arg_dim h0).
case: (am_noextra a) => /=.
  case: z => //= z; case h1: (fp_arg_set f1 _ _) => [f2||] //=; rewrite -(arg_dim h1).
  by case: (am_noextra _) => /= [[<-]|] //; case: s => //= s; exact: arg_dim.
case: u => //= u; case h1: (fp_arg_set f1 _ _) => [f2||] //=; rewrite -(arg_dim h1).
case: z => //= z; case h2: (fp_arg_set f2 _ _) => [f3||] //=; rewrite -(arg_dim h2).
by case: (am_noextra _) => /= [[<-]|] //; case: s => //= s; exact: arg_dim.
Qed.
Lemma draw_never (f : fpd R n) z r : (0 < fp_dim f)%N -> fp_draw eps f z <> Ok r.
Proof.
move=> hd; rewrite /fp_draw /fp_sample; case: (fp_mean f) => [m||] //=; case: (fp_covar _) => [q||] //=.
by rewrite /gs_draw /guard leqn0 (gtn_eqF hd).
Qed.

Lemma internal_never sm u mm z s p (d : mcpdf R 'cV[R]_n) r : (0 < n)%N -> fp_dim (ek_fp p) = 0%N -> (0 < size (ek_new p))%N ->
  ek_internal root (fp_draw eps (n := n)) (fp_prob twopi expo (n := n)) dsys dmeas sm u mm z s (p, 0%N, d) <> Ok r.
Proof.
move=> hn hd hN; case: sm => [a|] //=; rewrite /fp_sys_set hd /=; case: mm => [am|] //=.
rewrite /ek_static /= andbF andbF /=.
set f := fp_renum _ _ (Some am).
have hf : fp_dim f = n by rewrite !renum_dim.
case e: (mc_los d) => [|o os] /=.
  by rewrite /mc_updW /guard e; case: (ek_new p) hN.
case: (ek_new p) hN => [//|x news] _; case: (ek_cov p) => [//|c cs] /=.
case hc: (fp_cov_set f c) => [f1||] //=; case ha: (ek_args _ _ _ _ _ _ _) => [f2||] //=.
case hr: (fp_draw _ _ _) => [x'||] //=; case: (@draw_never f2 (ek_zs p 0) x') => //.
by rewrite (args_dim ha); move: hc; rewrite /fp_cov_set /guard; case: ifP => //= _ [<-] /=; rewrite hf.
Qed.

(** No update of a new filter ever returns, whatever models and arguments it is
    given; the same after any number of calls of [Reset]. *)
Theorem C74_no_update_refuted junk g per thr us zs h q h1 fl ps h2 c r : (0 < n)%N ->
  ek_new_filter junk g per thr us zs h q = Ok (h1, fl) -> 
  ek_call eps twopi expo root dsys dmeas (h2, foldl (@f_reset _) fl ps) c <> Ok r.
Proof.
move=> hn; rewrite /ek_new_filter /f_new; case: (h_get h q) => [d0||] //=; case hc: (ek_copy junk d0) => [d1||] //=.
rewrite /ek_init /guard; case: ifP => //= _; case: ifP => //= _ [_ <-].
have hN : (0 < size (mc_los d0))%N.
  move: hc; rewrite /ek_copy; case: (mc_los d0) => //; rewrite /mc_setW mc_normalize_zero //=.
  by rewrite total_nil ltxx.
set f0 := Filt _ _ _ _.
have [e1 e2] : fl_priv (foldl (@f_reset _) f0 ps) = fl_priv f0 /\ fl_time (foldl (@f_reset _) f0 ps) = 0%N.
  by have : fl_time f0 = 0%N by []; elim: ps (f0) => [//|x l IH] f1 ht /=; have [-> ->] := IH (f_reset f1 x) ht.
move: (foldl _ _ _) e1 e2 => f2 e1 e2; have hI sm u mm z s d x := @internal_never sm u mm z s (fl_priv f0) d x hn erefl hN.
move: (fl_priv f0) e1 hI => p e1; rewrite /ek_call /ek_call_with; move: (ek_internal _ _ _ _ _) => I hI.
rewrite f_callE /f_update e1 e2; case: (h_get h2 _) => [d||] //=; case: (routed c) => [[[[sm u] mm] z] s] /=.
by have := hI sm u mm z s d; case: (I _ _ _ _ _ _) => [x||] //= /(_ x).
Qed.
End Never.

Example C74_example (R : rcfType) junk g us zs (x y : 'cV[R]_1) : exists h1 fl,
  ek_new_filter junk g 1 0 us zs [:: Some (MC [:: (x, 1 / 2%:R); (y, 1 / 2%:R)] [:: 0; 1 / 2%:R; 1] 1)] 0 = Ok (h1, fl).
Proof.
rewrite /ek_new_filter /f_new /ek_copy /=.
have ht : total (weights [:: (x, 1 / 2%:R); (y, 1 / 2%:R)]) = 1 :> R.
  by rewrite /weights /= !total_cons total_nil addr0; field.
rewrite mc_setWE ?ht ?ltr01 //=.
  by rewrite /ek_init /guard eqxx /=; do 2!eexists.
by rewrite /nonneg /= !divr_ge0 ?ler01 ?ler0n.
Qed.
Print Assumptions C74_no_update_refuted.
