(** * C19: the cumulative table in double arithmetic (finding) *)
From Coq Require Import List NArith Floats Uint63.
From mathcomp Require Import all_ssreflect all_algebra.
From mathcomp Require Import ring zify.
From Verif Require Import OrdLra Outcome SpecProb ModelTables ProofsTables ModelDiscretePdf
  ModelMCPdf SpecMCPdf ProofsMCPdf ModelFloat.
Set Implicit Arguments. Unset Strict Implicit. Unset Printing Implicit Defensive.
Import Order.TTheory GRing.Theory Num.Theory.

(** 100000 particles set without weights: the last of the 100001 cumulative
    entries is below 1 - 2^-48, and the scan for the draw u = 1 - 2^-48 leaves
    the table. *)
Definition u48 : float := (1 - 0x1p-48)%float.
Definition t100000 : list float := f_cum (f_weight 100000%uint63) 100000%num.
Theorem C19_double_table_overrun_refuted :
  [/\ N.of_nat (List.length t100000) = 100001%num,
      PrimFloat.ltb (List.last t100000 0%float) u48,
      PrimFloat.ltb u48 1%float &
      f_scan 100000%num u48 0%num t100000 = UB].
Proof.
split.
- vm_cast_no_check (erefl 100001%num).
- vm_cast_no_check (erefl true).
- vm_cast_no_check (erefl true).
- vm_cast_no_check (erefl (@UB N)).
Qed.

Local Open Scope ring_scope.
Section Exact.
Variable R : realFieldType.

(** In any arithmetic: a table whose entries are all below the draw is over-run. *)
Theorem C19_short_table_overrun (T : Type) (d : mcpdf R T) u :
  size (mc_cum d) = (size (mc_los d)).+1 -> all (fun c => c < u) (mc_cum d) ->
  mc_sample1 d DEFAULT u = UB.
Proof. exact: mc_scan_short. Qed.

Lemma bern (x : R) n : 0 <= x <= 1 -> (1 - x) ^+ n * (1 + n%:R * x) <= 1.
Proof.
move=> /andP [h0 h1]; elim: n => [|n IH]; first by rewrite expr0 !mul0r; lra.
have hp : 0 <= (1 - x) ^+ n by apply: exprn_ge0; lra.
have hn : 0 <= n%:R :> R by rewrite ler0n.
rewrite exprS -[n.+1]addn1 natrD; apply: le_trans IH.
rewrite -subr_ge0.
have -> : (1 - x) ^+ n * (1 + n%:R * x) - (1 - x) * (1 - x) ^+ n * (1 + (n%:R + 1) * x)
   = (1 - x) ^+ n * ((n%:R + 1) * (x * x)) by rnorm; ring.
by rewrite !mulr_ge0 //; lra.
Qed.

(** The largest draw of the generator is 1 - 2^-32; its exact 100000-th root,
    which Ripley's method compares with the last table entry, exceeds 1 - 2^-48. *)
Theorem C19_largest_ripley_draw (r : R) : 0 < r ->
  r ^+ (10 ^ 5) = 1 - (2%:R ^+ 32)^-1 -> 1 - (2%:R ^+ 48)^-1 < r.
Proof.
move=> hr; rewrite ltNge; set n := (10 ^ 5)%N => e; apply/negP => hle.
set y := (2%:R ^+ 32)^-1 in e; set x := (2%:R ^+ 48)^-1 in hle.
have hy : 0 < y by rewrite invr_gt0 exprn_gt0 ?ltr0n.
have hy4 : y <= 4%:R^-1.
  have -> : y = 4%:R^-1 * (2%:R ^+ 30)^-1 by rewrite /y -invfM (natrX _ 2 2) -exprD.
  have h30 : 1 <= 2%:R ^+ 30 :> R by rewrite exprn_ege1 // ler1n.
  rewrite ger_pmulr ?invr_gt0 ?ltr0n // invf_le1 //; by apply: lt_le_trans h30; rewrite ltr01.
have hx : 0 < x by rewrite invr_gt0 exprn_gt0 ?ltr0n.
have ey : y = 2%:R ^+ 16 * x.
  have e48 : 2%:R ^+ 48 = 2%:R ^+ 16 * 2%:R ^+ 32 :> R by rewrite -exprD.
  rewrite /x /y e48 (invfM (2%:R ^+ 16)) mulVKf //.
  by rewrite expf_neq0 // pnatr_eq0.
have hn : 3%:R * 2%:R ^+ 16 <= 2%:R * n%:R :> R.
  by rewrite -natrX -!natrM ler_nat /n; lia.
have hx1 : 0 <= x <= 1.
  rewrite ltW //=; apply: (@le_trans _ _ y); last by apply: le_trans hy4 _; rewrite invf_le1 ?ler1n ?ltr0n.
  by rewrite ey ler_pmull // exprn_ege1 // ler1n.
have hb := bern n hx1.
have h1 : r ^+ n <= (1 - x) ^+ n by apply: ler_expn2r => //; rewrite nnegrE; lra.
have hnx : 0 <= n%:R * x by rewrite mulr_ge0 ?ler0n ?ltW.
have h2 : (1 - y) * (1 + n%:R * x) <= 1.
  by rewrite -e; apply: le_trans hb; apply: ler_wpmul2r => //; lra.
have h3 : 3%:R * y <= 2%:R * (n%:R * x).
  rewrite ey; move: (ler_wpmul2r (ltW hx) hn).
  by move: (2%:R ^+ 16) (n%:R) => p1 p2; rewrite -!mulrA.
move: h2 h3 hy hy4; move: (n%:R * x) => c h2 h3 hy hy4.
have h4 : c <= y * (1 + c) by move: h2; lra.
have h5 : y * (1 + c) <= y + c / 4%:R.
  rewrite mulrDr mulr1 ler_add2l mulrC; apply: ler_wpmul2l => //; lra.
have : 4%:R * (c / 4%:R) = c by rewrite mulrC divfK // pnatr_eq0.
lra.
Qed.

End Exact.

Print Assumptions C19_double_table_overrun_refuted.
Print Assumptions C19_short_table_overrun.
Print Assumptions C19_largest_ripley_draw.

(** ** Concrete cases *)
Section Examples.
Let q (a b : nat) : rat := a%:R / b%:R.
Example C19_example :
  let d := MC (R := [realFieldType of rat]) [:: (1%N, q 1 2); (2%N, q 1 4)] [:: 0; q 1 2; q 3 4] 1 in
  (size (mc_cum d) == (size (mc_los d)).+1) && all (fun c => c < q 7 8) (mc_cum d).
Proof. by vm_compute. Qed.
(* ten particles: the table ends below 1 in double arithmetic as well *)
Example C19_ten : PrimFloat.ltb (List.last (f_cum (f_weight 10%uint63) 10%num) 0%float) 1%float = true.
Proof. by vm_compute. Qed.
End Examples.
