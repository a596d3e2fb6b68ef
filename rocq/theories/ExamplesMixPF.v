(** * Concrete cases for C38, C42, C71, C72 (theorems in PropertiesMixPF and
    PropertiesMixSafe) *)
From mathcomp Require Import all_ssreflect all_algebra.
From Verif Require Import OrdLra Outcome SpecProb ModelTables ProofsTables ModelDiscretePdf
  ModelMCPdf SpecMCPdf ProofsMCPdf ModelMixture SpecMixture ProofsMixture ModelModels ModelFilter
  ModelParticle SpecParticle ModelMixPF SpecMixPF PropertiesMixPF PropertiesMixSafe.
Set Implicit Arguments. Unset Strict Implicit. Unset Printing Implicit Defensive.
Import Order.TTheory GRing.Theory Num.Theory.
Local Open Scope ring_scope.

Section Examples.
Let q (a b : nat) : rat := a%:R / b%:R.
Notation Q := [realFieldType of rat].
Let rt (u : rat) (k : nat) : rat := u.
Notation sysm := (psys Q nat nat).
Notation measm := (pmeas Q nat nat nat).
Let a (xn xo : nat) : rat := q 1 2.
Let g (xn xo : nat) : rat := if xn == 0%N then q 1 4 else q 3 4.
Let l (x : nat) : rat := if x == 0%N then q 1 4 else q 1 2.
Let only0 (x : nat) : rat := if x == 0%N then q 1 2 else 0.
Let spdf : cpdf Q nat nat nat := CPdf [:: 7]%N
  (fun args y => if args is [:: x] then Ok (a y x) else UB)
  (fun args _ r => Ok (Some ((r + head 0 args) %% 2)%N)).
Let ppdf : cpdf Q nat nat nat := CPdf [:: 7]%N
  (fun args y => if args is [:: x] then Ok (g y x) else UB)
  (fun args _ r => Ok (Some ((r + head 0 args) %% 2)%N)).
Let sys : sysm := Mdl (Some true) (Some spdf).
Let mpdf : cpdf Q nat nat nat := CPdf [:: 7]%N
  (fun args z => if args is [:: x] then Ok (match z with 0%N => l x | 1%N => only0 x | _ => 0 end) else UB)
  (fun _ _ _ => Ok None).
Let meas : measm := Mdl (Some true) (Some mpdf).
Notation pcallQ := (call sysm measm nat nat).
Let cm : pcallQ := Update_mz _ _ (Some meas) 0%N.
Let c0 : pcallQ := Update_mz _ _ (Some meas) 1%N.
Let cz : pcallQ := Update_mz _ _ (Some meas) 2%N.
Let cs : pcallQ := Update_s _ _ _ (Some sys).
Let csm : pcallQ := Update_smz _ (Some sys) (Some meas) 0%N.
Let d1 : mcpdf Q nat := MC [:: (0%N, q 1 2); (1%N, q 1 2)] [:: 0; q 1 2; 1] 1.
Let d2 : mcpdf Q nat := MC [:: (1%N, q 1 4); (1%N, q 3 4)] [:: 0; q 1 4; 1] 1.
Let d3 : mcpdf Q nat := MC [:: (0%N, q 1 2); (1%N, q 1 4); (1%N, q 1 4)] [:: 0; q 1 2; q 3 4; 1] 1.
Let prior : mix Q (mcpdf Q nat) := Mix 2 [:: d1; d2] [:: q 1 4; q 3 4] [:: 0; q 1 4; 1].
Let big : mix Q (mcpdf Q nat) := Mix 2 [:: d1; d3] [:: q 1 4; q 3 4] [:: 0; q 1 4; 1].
Let hp : heap (mix Q (mcpdf Q nat)) := [:: Some prior; Some big].
Let new per thr sch := mp_new_filter 0 (5%N, 0) (Some ppdf) per thr sch (fun _ => q 1 4) (fun _ => 0%N) hp 0%N.
Notation mfilterQ := (heap (mix Q (mcpdf Q nat)) * filt (mpriv Q nat nat))%type.
Notation mcall := (@mx_call Q nat nat nat nat 0 rt).
(** flags, component weights, particles, time step, number of resamplings *)
Let view (o : outcome (seq bool * mfilterQ)) : seq bool * (seq rat * seq (seq (nat * rat))) * nat * nat :=
  match o with
  | Ok (fl, hf) => match f_post hf with
                   | Ok m => (fl, (mx_w m, map (fun d : mcpdf Q nat => mc_los d) (mx_comps m)), f_time hf, mresamplings hf)
                   | _ => ([::], ([::], [::]), 9, 9)%N end
  | _ => ([::], ([::], [::]), 9, 9)%N end.
Let run boot per thr cs := view (let! hf := new per thr MULTINOMIAL_RS in runO (mcall boot) hf cs).
Lemma ex_distr (w : seq Q) : all (fun x => 0 <= x) w -> foldr +%R 0 w == 1 -> distribution w.
Proof. by move=> h1 /eqP h2; split=> //; rewrite /total -h2 unlock. Qed.
Lemma ex_valid (d : mcpdf Q nat) : distribution (weights (mc_los d)) -> mc_cum d == cum_loop 0 (weights (mc_los d)) ->
  mc_sum d == 1 -> mc_valid d.
Proof. by case: d => lo cu s /= h /eqP -> /eqP ->; exact: valid_build. Qed.
Example C42_fine_example : fine_mixture prior /\ fine_mixture big.
Proof.
have v1 : mc_valid d1 by apply: ex_valid; [apply: ex_distr; vm_compute|vm_compute|vm_compute].
have v2 : mc_valid d2 by apply: ex_valid; [apply: ex_distr; vm_compute|vm_compute|vm_compute].
have v3 : mc_valid d3 by apply: ex_valid; [apply: ex_distr; vm_compute|vm_compute|vm_compute].
have hw : distribution [:: q 1 4; q 3 4 : Q] by apply: ex_distr; vm_compute.
have hc : [:: 0; q 1 4; 1 : Q] = cum_loop 0 [:: q 1 4; q 3 4] by apply/eqP; vm_compute.
by split; (split; [rewrite /prior /big hc; apply: mix_validI|move=> d [<-|[<-|[]]]]).
Qed.
Example C42_models_example :
  [/\ likelihood cm l, likelihood c0 only0, likelihood csm l & [/\ transition csm a, plain_sensor csm & pdens ppdf sys None g]].
Proof.
have hl : dens meas 0%N None l.
  exists mpdf; split=> //; left; do 2 split=> //; by move=> x; split=> //; rewrite /l; case: ifP.
have h0 : dens meas 1%N None only0.
  exists mpdf; split=> //; left; do 2 split=> //; by move=> x; split=> //; rewrite /only0; case: ifP.
split; [by exists meas, 0%N|by exists meas, 1%N|by exists meas, 0%N|split=> //].
  by exists sys => // y; exists spdf; split=> //; left.
by left; do 2 split=> //; move=> x y; split=> //; rewrite /g; case: ifP.
Qed.
Example C42_safe_example : [/\ fine_call cm, fine_call csm, accepts (Some ppdf) sys, unit_tape (fun _ => q 1 4) &
  forall u k, 0 < u <= 1 -> (0 < k)%N -> 0 < rt u k <= 1].
Proof.
have ht c n : size (cp_args c) = n -> (forall args y, size args = n -> exists2 p, cp_prob c args y = Ok p & 0 <= p) ->
   (forall args m r, size args = n -> exists o, cp_samp c args m r = Ok o) -> total_pdf (c : cpdf Q nat nat nat).
  by move=> e h1 h2; split; rewrite e.
have hs : total_pdf spdf by apply: (ht _ 1%N) => // [[|x []] // y _|x m r _]; [exists (q 1 2)|eexists].
have hp' : total_pdf ppdf.
  by apply: (ht _ 1%N) => // [[|x []] // y _|x m r _]; [exists (g y x) => //; rewrite /g; case: ifP|eexists].
have hm : total_pdf mpdf.
  apply: (ht _ 1%N) => // [[|x []] // y _|x m r _]; last by exists None.
  by eexists; first by []; case: y => [|[|y]] //; rewrite ?/l ?/only0; case: ifP.
have p1 : proper sys by exists spdf, true.
have p2 : proper meas by exists mpdf, true.
split; [by split=> // k [<-]; split=> //; left|by split=> k [<-]; split=> //; left|by exists ppdf| |by []].
by move=> i; apply/andP; split; vm_compute.
Qed.
(** component weights 1/4 * 3/8 and 3/4 * 1/2 *)
Example C42_measurement_example :
  run false 5 0 [:: cm] == ([:: true], ([:: q 1 5; q 4 5], [:: [:: (0%N, q 1 3); (1%N, q 2 3)]; [:: (1%N, q 1 4); (1%N, q 3 4)]]), 0, 0)%N.
Proof. by vm_compute. Qed.
Example C42_importance_example :
  run false 5 0 [:: csm] == ([:: true], ([:: q 5 17; q 12 17], [:: [:: (0%N, q 3 5); (1%N, q 2 5)]; [:: (1%N, q 1 4); (1%N, q 3 4)]]), 2, 0)%N.
Proof. by vm_compute. Qed.
Example C42_bootstrap_example :
  run true 5 0 [:: csm] == ([:: true], ([:: q 1 5; q 4 5], [:: [:: (0%N, q 1 3); (1%N, q 2 3)]; [:: (1%N, q 1 4); (1%N, q 3 4)]]), 2, 0)%N.
Proof. by vm_compute. Qed.
(** two components, period 4: both are resampled at every second system update *)
Example C38_mixture_example :
  (run true 4 0 [:: cs; cs]).1.2 = 4%N /\ (run true 4 0 [:: cs; cs]).2 = 0%N /\
  (run true 4 0 [:: cs; cs; cs]).2 = 2%N.
Proof. by split; [|split]; vm_compute. Qed.
(** the second component loses all its weight; a dynamic filter is stuck, and
    component weights that are all 0 stay so although static resampling
    revives the particles *)
Example C71_extinct_example :
  run false 0 1 [:: c0; cs; csm] == ([:: true; false; false],
     ([:: q 1 1; q 0 1], [:: [:: (0%N, q 1 1); (1%N, q 0 1)]; [:: (1%N, q 0 1); (1%N, q 0 1)]]), 4, 0)%N.
Proof. by vm_compute. Qed.
Example C71_lost_example :
  run true 1 0 [:: cz; cs; cs; cm] == ([:: false; false; true; false],
     ([:: q 0 1; q 0 1], [:: [:: (0%N, q 1 2); (0%N, q 1 2)]; [:: (1%N, q 1 2); (1%N, q 1 2)]]), 3, 2)%N.
Proof. by vm_compute. Qed.
Let reset_run boot i cs := let! hf := new 5 0 MULTINOMIAL_RS in let! hf1 := mp_reset 0 hf i in runO (mcall boot) hf1 cs.
Example C72_same_example :
  view (reset_run false 0 [:: cm]) == ([:: true], ([:: q 1 5; q 4 5], [:: [:: (0%N, q 1 3); (1%N, q 2 3)]; [:: (1%N, q 1 4); (1%N, q 3 4)]]), 0, 0)%N.
Proof. by vm_compute. Qed.
Example C72_example : shape prior = [:: 2; 2]%N /\ shape big = [:: 2; 3]%N /\
  (if reset_run false 2 [:: cm] is UB then true else false) /\
  (if reset_run false 1 [::] is Ok _ then true else false) /\
  (if reset_run false 1 [:: cm] is UB then true else false) /\ (if reset_run false 1 [:: cs] is UB then true else false).
Proof. by do 5 (split; first by vm_compute); vm_compute. Qed.
End Examples.
