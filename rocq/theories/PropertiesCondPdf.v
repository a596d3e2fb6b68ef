(** * C10-C12: properties of [DiscreteConditionalPdf] *)
From mathcomp Require Import all_ssreflect all_algebra.
From mathcomp Require Import ring zify.
From Verif Require Import OrdLra Outcome SpecProb ModelTables ProofsTables
  ModelCondPdf SpecCondPdf ProofsCondPdf.
Set Implicit Arguments. Unset Strict Implicit. Unset Printing Implicit Defensive.
Import Order.TTheory GRing.Theory Num.Theory.
Local Open Scope ring_scope.

Section Properties.
Variable R : realFieldType.
Variable eps : R.
Implicit Types (d : dcpdf R).

(** C10 *)
Theorem C10_index_in_table n dims s args : in_range n dims s args ->
  exists2 k, dc_index (dc_new R n dims) s args = Ok k%:Z
           & (k < size (dc_tab (dc_new R n dims)))%N.
Proof.
by move=> h; case: (dc_index_range (d := dc_new R n dims) h) => k ? ?; exists k; rewrite ?dc_new_wf.
Qed.
Theorem C10_index_injective d s1 a1 s2 a2 :
  in_range (dc_n d) (dc_dims d) s1 a1 -> in_range (dc_n d) (dc_dims d) s2 a2 ->
  dc_index d s1 a1 = dc_index d s2 a2 -> s1 = s2 /\ a1 = a2.
Proof. exact: dc_index_inj. Qed.
Theorem C10_index_onto n dims k : (k < size (dc_tab (dc_new R n dims)))%N ->
  exists s args, in_range n dims s args /\ dc_index (dc_new R n dims) s args = Ok k%:Z.
Proof. by rewrite dc_new_wf => h; exact: (dc_index_surj (d := dc_new R n dims)). Qed.
(** after any history of in-range sets on a new table, reading returns the value
    last written to that combination; an entry never written is uninitialised *)
Theorem C10_get_last_set n dims h s args : ok_hist n dims h -> in_range n dims s args ->
  exists2 d, dc_sets (dc_new R n dims) h = Ok d &
    dc_get d s args = match last_written h s args with
                      | Some v => if 0 <= v then Ok v else Abort
                      | None => UB end.
Proof.
move=> hh hr; have hw := dc_new_wf R n dims.
case: (dc_sets_ok hw hh) => d [hd _ _ _ _]; exists d => //.
rewrite (dc_get_hist hw hh hr hd); case: (last_written _ _ _) => [v|].
  by rewrite /mkProb /guard; case: ifP.
case: (dc_index_range (d := dc_new R n dims) hr) => k hk hlt.
by rewrite /dc_get hk /= (at_nth None) ?hw //= nth_nseq; case: ifP.
Qed.
(** a copy behaves like the original *)
Theorem C10_copy d s args : dc_get (dc_copy d) s args = dc_get d s args.
Proof. by rewrite /dc_copy map_id; case: d. Qed.

(** C11 *)
Theorem C11_sample_quantile d args row u : 0 <= eps -> dc_wf d -> (0 < dc_n d)%N ->
  in_range (dc_n d) (dc_dims d) 0 args -> row_is d args row -> 0 < total row -> 0 < u <= 1 ->
  exists k, [/\ dc_sample1 eps d args u = Ok k%:Z, (k < dc_n d)%N, 0 < nth 0 row k &
    quantile [seq p / total row | p <- row] u k].
Proof.
move=> he hw hn hr hrow ht hu; case: (dc_sampleE he hw hn hr hrow ht hu) => k [h1 h2].
have hk : (k < size row)%N by case: h2; rewrite size_map.
exists k; split=> //; first by case: hrow => <-.
by have := quantile_pos h2; rewrite (nth_map 0) // pmulr_lgt0 // invr_gt0.
Qed.
Theorem C11_zero_row_aborts d args row u : dc_wf d -> (0 < dc_n d)%N ->
  in_range (dc_n d) (dc_dims d) 0 args -> row_is d args row -> total row = 0 ->
  dc_sample1 eps d args u = Abort.
Proof. exact: dc_sample_zero_row. Qed.
Theorem C11_batch d args row us : 0 <= eps -> dc_wf d -> (0 < dc_n d)%N ->
  in_range (dc_n d) (dc_dims d) 0 args -> row_is d args row -> 0 < total row ->
  all (fun u => 0 < u <= 1) us ->
  exists ks : seq nat, [/\ dc_samples eps d args us = Ok [seq k%:Z | k <- ks], size ks = size us &
    forall i, (i < size us)%N -> quantile [seq p / total row | p <- row] (nth 0 us i) (nth 0%N ks i)].
Proof.
move=> he hw hn hr hrow ht; elim: us => [|u us IH] /=; first by move=> _; exists [::].
case/andP=> hu /IH [ks [h1 h2 h3]].
case: (dc_sampleE he hw hn hr hrow ht hu) => k [hk hq]; exists (k :: ks); split=> /=.
- by rewrite /dc_samples /= hk /= -/(dc_samples eps d args us) h1.
- by rewrite h2.
- by move=> [|i] //= hi; apply: h3.
Qed.

(** C12: finding *)
(** state [n] (one too large) silently addresses state 0 of the next value of the
    first conditional argument, for every table with at least two such values *)
Theorem C12_state_overflow_aliases_refuted n (d1 : nat) dims (a1 : nat) args v :
  (0 < n)%N -> (a1.+1 < d1)%N -> in_range n (d1 :: dims) 0 (a1%:Z :: args) ->
  let d := dc_new R n (d1 :: dims) in
  [/\ ~~ in_range n (d1 :: dims) n%:Z (a1%:Z :: args),
      in_range n (d1 :: dims) 0 (a1.+1%:Z :: args) &
      0 <= v -> exists2 d', dc_set d v n%:Z (a1%:Z :: args) = Ok d'
                          & dc_get d' 0 (a1.+1%:Z :: args) = Ok v].
Proof.
move=> hn ha hr d.
have hr2 : in_range n (d1 :: dims) 0 (a1.+1%:Z :: args).
  by move: hr; rewrite !in_rangeE !rng_cons => /andP [-> /andP [_ ->]]; rewrite andbT /=; lia.
split=> //.
  by rewrite in_rangeE !rng_cons ltxx andbF.
move=> hv; have hsz : (size dims <= size args)%N.
  by move: hr; rewrite in_rangeE => /andP [/= /eqP [->]].
have hidx : dc_index d n%:Z (a1%:Z :: args) = dc_index d 0 (a1.+1%:Z :: args).
  by rewrite !dc_indexE //=; congr Ok; rewrite -addn1 PoszD; ring.
have hw := dc_new_wf R n (d1 :: dims).
case: (dc_setE (d := d) v hw hr2) => k [t [hk hlt ht hs]].
move: hs; rewrite /dc_set -hidx => hs; exists (DCPdf n (d1 :: dims) t) => //.
rewrite /dc_get (_ : dc_index _ _ _ = Ok k%:Z) ?hk //=.
have hks : (k < size t)%N by rewrite ht size_set_nth leq_max ltnSn.
by rewrite (at_nth None hks) ht nth_set_nth /= eqxx /= /mkProb /guard hv.
Qed.
(** and for every table some state index makes the write leave the table *)
Theorem C12_state_overflow_corrupts_refuted n dims args v :
  (size dims <= size args)%N -> rng args dims ->
  dc_set (dc_new R n dims) v (combos n dims)%:Z args = UB.
Proof.
move=> hs hr; rewrite /dc_set dc_indexE //=; have := mr_bound hr.
case: (mr args dims) => [m|m] hm; last by move: hm; lia.
by rewrite -PoszM -PoszD /= put_UB // size_nseq foldl_muln mul1n mulnC /combos leq_addr.
Qed.
End Properties.

Print Assumptions C10_index_in_table.
Print Assumptions C10_index_injective.
Print Assumptions C10_index_onto.
Print Assumptions C10_get_last_set.
Print Assumptions C10_copy.
Print Assumptions C11_sample_quantile.
Print Assumptions C11_zero_row_aborts.
Print Assumptions C11_batch.
Print Assumptions C12_state_overflow_aliases_refuted.
Print Assumptions C12_state_overflow_corrupts_refuted.

(** ** Concrete cases *)
Section Examples.
Let q (a b : nat) : rat := a%:R / b%:R.
Let eps : rat := q 1 100.
(* 2 states, arguments of sizes 2 and 3 *)
Let hist : seq (rat * int * seq int) :=
  [:: (q 1 2, 0, [:: 1; 2%:Z]); (q 3 1, 1, [:: 1; 2%:Z]); (q 1 1, 0, [:: 1; 2%:Z]);
      (q 1 5, 0, [:: 0; 2%:Z])].
Let d := match dc_sets (dc_new [realFieldType of rat] 2 [:: 2; 3]%N) hist with Ok d => d | _ => DCPdf 0 [::] [::] end.
Example C10_hist_ok : ok_hist 2 [:: 2; 3]%N hist. Proof. by vm_compute. Qed.
Example C10_example :
  match dc_get d 0 [:: 1; 2%:Z], dc_get d 1 [:: 1; 2%:Z], dc_get d 0 [:: 0; 2%:Z], dc_get d 0 [:: 0; 0] with
  | Ok a, Ok b, Ok c, UB => (a == 1) && (b == q 3 1) && (c == q 1 5)
  | _, _, _, _ => false end.
Proof. by vm_compute. Qed.
(* row (1,3): normalised 1/4, 3/4 *)
Example C11_example :
  (dc_sample1 eps d [:: 1; 2%:Z] (q 1 4), dc_sample1 eps d [:: 1; 2%:Z] (q 1 3)) = (Ok 0, Ok 1).
Proof. by vm_compute. Qed.
Example C12_example :
  match dc_set (dc_new [realFieldType of rat] 2 [:: 2]%N) 1 2%:Z [:: 0] with
  | Ok d => match dc_get d 0 [:: 1] with Ok v => v == 1 | _ => false end
  | _ => false end.
Proof. by vm_compute. Qed.
End Examples.
