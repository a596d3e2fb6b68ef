(** * Properties of the particle smoother (C55) *)
From mathcomp Require Import all_ssreflect all_algebra.
From mathcomp Require Import ring zify.
From Verif Require Import OrdLra Outcome SpecProb ModelTables ProofsTables ModelDiscretePdf ModelMCPdf SpecMCPdf ProofsMCPdf
  ModelModels ModelFilter ProofsFilter ModelParticle SpecParticle ProofsParticle ModelSmoother SpecSmoother ProofsSmoother ProofsPSmoother.
Set Implicit Arguments. Unset Strict Implicit. Unset Printing Implicit Defensive.
Import Order.TTheory GRing.Theory Num.Theory.
Local Open Scope ring_scope.

Section PS.
Variables (R : realFieldType) (T Rnd : Type) (t0 : R).
Implicit Types (hf : heap (mcpdf R T) * filt unit) (d : mcpdf R T) (sm : psys R T Rnd) (u : option T) (fp : nat) (junk : T * R).

(** ** C55 (finding)
    With at most as many filtered as smoothed particles the new posterior has
    the filtered values with the normalised weights [swapped_weight], whatever
    the uninitialised accumulator contained ([t0]), as long as the sum is
    positive. *)
Theorem C55_computed hf sm u fp junk f d e : f_post hf = Ok d -> h_get hf.1 fp = Ok e ->
  (forall y, dens sm y u (f y)) -> mc_sized d -> nonneg (weights (mc_los e)) -> nonneg (weights (mc_los d)) ->
  (0 < size (mc_los e) <= size (mc_los d))%N ->
  let l := swapped_smoothed junk f (mc_los e) (mc_los d) in
  0 < total (weights l) -> 0 < t0 + total (weights l) ->
  exists hf' d', [/\ ps_call t0 junk hf (back_call sm u fp) = Ok (true, hf'), f_post hf' = Ok d', mc_valid d',
    mc_los d' = normalised l & values (mc_los d') = values (mc_los e)].
Proof.
move=> hd he hs hz h1 h2 hsz l ht h0.
have hr : ps_internal t0 junk (Some sm) u d e = Ok (true, MC (normalised l) (cum_loop 0 (weights (normalised l))) 1).
  by rewrite /ps_internal /= (@ps_sysE _ _ _ _ _ _ junk hs t0 _ _ hz h1 h2 hsz ht) h0.
have hn : nonneg (weights l) by exact: (swapped_ge0 junk hs h1 h2).
have [hf' [c p _ _]] : exists hf', [/\ ps_call t0 junk hf (back_call sm u fp) = Ok (true, hf'),
    f_post hf' = Ok (MC (normalised l) (cum_loop 0 (weights (normalised l))) 1), hf'.2 = hf.2 &
    forall j, j <> fl_post hf.2 -> h_get hf'.1 j = h_get hf.1 j].
  by case: u hs hr => [v|] hs hr; have [hf' h] := b_updateE hd he hr; exists hf'.
exists hf'; eexists; split; [exact: c|exact: p| |by []|].
  by apply: valid_build; exact: normalised_distr.
by rewrite /= values_normalised values_swapped.
Qed.

(** any other content of the accumulator aborts the program (weights negative
    or not finite) *)
Theorem C55_accumulator hf sm u fp junk f d e : f_post hf = Ok d -> h_get hf.1 fp = Ok e ->
  (forall y, dens sm y u (f y)) -> mc_sized d -> nonneg (weights (mc_los e)) -> nonneg (weights (mc_los d)) ->
  (0 < size (mc_los e) <= size (mc_los d))%N ->
  let l := swapped_smoothed junk f (mc_los e) (mc_los d) in
  0 < total (weights l) -> t0 + total (weights l) <= 0 -> ps_call t0 junk hf (back_call sm u fp) = Abort.
Proof.
move=> hd he hs hz h1 h2 hsz l ht h0.
have hr : ps_internal t0 junk (Some sm) u d e = Abort.
  by rewrite /ps_internal /= (@ps_sysE _ _ _ _ _ _ junk hs t0 _ _ hz h1 h2 hsz ht) ltNge h0.
case: u hs hr => [v|] hs hr; rewrite /ps_call /= /b_update -/(f_post hf) hd /= he /=.
all: by move: hr; rewrite /ps_internal /= => ->.
Qed.

(** more filtered than smoothed particles: the buffer of the normalisers is
    written out of bounds *)
Theorem C55_out_of_bounds hf sm u fp junk f d e : f_post hf = Ok d -> h_get hf.1 fp = Ok e ->
  (forall y, dens sm y u (f y)) -> (0 < size (mc_los d) < size (mc_los e))%N ->
  ps_call t0 junk hf (back_call sm u fp) = UB.
Proof.
move=> hd he hs hsz.
have hr : ps_internal t0 junk (Some sm) u d e = UB by rewrite /ps_internal /= (@ps_sys_oob _ _ _ _ _ _ junk hs t0 _ _ hsz).
case: u hs hr => [v|] hs hr; rewrite /ps_call /= /b_update -/(f_post hf) hd /= he /=.
all: by move: hr; rewrite /ps_internal /= => ->.
Qed.

(** with one particle on each side the swap does not matter *)
Theorem C55_single (x y : T * R) (f : T -> T -> R) junk :
  swapped_smoothed junk f [:: x] [:: y] = exact_smoothed f [:: x] [:: y].
Proof. by rewrite /swapped_smoothed /exact_smoothed /= /swapped_weight /exact_weight /= big_nat1 /= !big_seq1. Qed.
End PS.

(** two equally weighted filtered particles 0 and 1 and two smoothed particles 0
    and 1 with weights 1/4 and 3/4; motion to 0 has density 1/2 from 0 and 1/4
    from 1, motion to 1 has density 1/2 from 0 and 3/4 from 1.
    Exact weights: 7/15 and 8/15; computed: 4/11 and 7/11. *)
Section Ex.
Let q (a b : nat) : rat := a%:R / b%:R.
Notation Q := [realFieldType of rat].
Let f (y x : nat) : rat := if x == 0%N then q 1 2 else if y == 0%N then q 1 4 else q 3 4.
Let pdf : cpdf Q nat nat unit := CPdf [:: 0%N] (fun a v => Ok (f v (nth 0%N a 0))) (fun _ _ _ => Ok None).
Let sm : psys Q nat unit := Mdl (Some true) (Some pdf).
Let fs : seq (nat * rat) := [:: (0%N, q 1 2); (1%N, q 1 2)].
Let os : seq (nat * rat) := [:: (0%N, q 1 4); (1%N, q 3 4)].
Let mk (l : seq (nat * rat)) : mcpdf Q nat := MC l [:: 0; (head (0%N, 0) l).2; 1] 1.
Let hf : heap (mcpdf Q nat) * filt unit := ([:: Some (mk os); Some (mk fs)], Filt 0%N 0%N 0%N tt).
Let after (t0 : rat) : seq (nat * rat) :=
  match ps_call t0 (0%N, 0) hf (back_call sm None 1%N) with
  | Ok r => match f_post r.2 with Ok d => mc_los d | _ => [::] end
  | _ => [::]
  end.
Example C55_example : [/\ after 0 == [:: (0%N, q 4 11); (1%N, q 7 11)], after 5%:R == after 0 &
  if ps_call (- 5%:R) (0%N, 0) hf (back_call sm None 1%N) is Abort then true else false].
Proof. by split; vm_compute. Qed.
(** one smoothed, two filtered particles *)
Example C55_oob_example : let h := ([:: Some (mk [:: (0%N, 1)]); Some (mk fs)], Filt 0%N 0%N 0%N tt) in
  if ps_call (0 : Q) (0%N, 0) h (back_call sm None 1%N) is UB then true else false.
Proof. by vm_compute. Qed.
Theorem C55_exact_refuted :
  exists (f : nat -> nat -> rat) (sm : psys Q nat unit) (hf : heap (mcpdf Q nat) * filt unit) (d e d' : mcpdf Q nat) hf',
  [/\ forall y, dens sm y None (f y), mc_valid d, mc_valid e, f_post hf = Ok d & h_get hf.1 1%N = Ok e] /\
  [/\ ps_call (0 : Q) (0%N, 0) hf (back_call sm None 1%N) = Ok (true, hf'), f_post hf' = Ok d' &
      mc_los d' <> normalised (exact_smoothed f (mc_los e) (mc_los d))].
Proof.
have hs y : dens sm y None (f y).
  exists pdf; split=> //; left; split=> //; split=> // x; split=> //.
  by rewrite /f; case: ifP => // _; case: ifP.
have hv (a b : rat) : 0 <= a -> 0 <= b -> a + b = 1 -> mc_valid (mk [:: (0%N, a); (1%N, b)]).
  move=> ha hb hab; split=> //.
    by split; [rewrite /nonneg /= ha hb|rewrite /total !big_cons big_nil addr0].
  split=> // -[|[|[|k]]] // _; rewrite /total /= ?big_cons ?big_nil ?addr0 //.
have [h1 h2] : mc_valid (mk os) /\ mc_valid (mk fs) by split; apply: hv => //; vm_compute.
have ht : 0 < total (weights (swapped_smoothed (0%N, 0 : Q) f fs os)).
  by rewrite /total /swapped_smoothed /swapped_weight unlock; vm_compute.
have [n1 n2] : nonneg (weights fs) /\ nonneg (weights os) by [].
have ht0 : 0 < 0 + total (weights (swapped_smoothed (0%N, 0 : Q) f fs os)) by rewrite add0r.
have [hf' [d' [c1 c2 _ c3 _]]] := @C55_computed Q nat unit 0 hf sm None 1%N (0%N, 0) f (mk os) (mk fs) erefl erefl hs erefl n1 n2 isT ht ht0.
exists f, sm, hf, (mk os), (mk fs), d', hf'; split; first by split.
split; [exact: c1|exact: c2|rewrite c3; apply/eqP].
by rewrite /normalised /total /swapped_smoothed /swapped_weight /exact_smoothed /exact_weight unlock; vm_compute.
Qed.
End Ex.

Print Assumptions C55_computed.
Print Assumptions C55_accumulator.
Print Assumptions C55_out_of_bounds.
Print Assumptions C55_single.
Print Assumptions C55_exact_refuted.
