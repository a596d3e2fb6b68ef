(** * C01-C09: properties of [DiscretePdf] *)
From mathcomp Require Import all_ssreflect all_algebra.
From mathcomp Require Import ring zify.
From Verif Require Import OrdLra Outcome SpecProb ModelTables ProofsTables
  ModelDiscretePdf SpecDiscretePdf ProofsDiscretePdf.
Set Implicit Arguments. Unset Strict Implicit. Unset Printing Implicit Defensive.
Import Order.TTheory GRing.Theory Num.Theory.
Local Open Scope ring_scope.

Section Properties.
Variable R : realFieldType.
Variable eps : R.
Implicit Types (d : dpdf R).

(** C01 *)
Theorem C01_new_uniform n : 0 <= eps -> (0 < n)%N ->
  exists d, [/\ dp_new eps n = Ok d, dp_n d = n, dp_valid d &
    forall i, (i < n)%N -> dp_get d i%:Z = Ok (n%:R^-1)].
Proof.
move=> he hn; eexists; rewrite dp_newE //; split; [by []|by []| |].
  by apply: cum_update_valid; rewrite ?size_nseq //; exact: uniform_distribution.
by move=> i hi; rewrite /dp_get /= ltz_nat hi /= (at_nth 0) ?size_nseq // nth_nseq hi.
Qed.
Theorem C01_new_zero_aborts : 0 <= eps < 1 -> dp_new eps 0 = Abort.
Proof. by case/andP; exact: dp_new0. Qed.
Theorem C01_table_shape d : dp_valid d ->
  [/\ size (dp_cum d) = (dp_n d).+1, nth 0 (dp_cum d) 0 = 0,
      nth 0 (dp_cum d) (dp_n d) = 1 & nondecreasing (dp_cum d)].
Proof.
move=> [hs [hl ht] hc]; split.
- by case: hc; rewrite hs.
- exact: prefix_first hc.
- by rewrite -hs (prefix_last hc).
- exact: prefix_nondec hl hc.
Qed.

(** C02 *)
Theorem C02_sets_normalises d v : 0 <= eps -> nonneg v -> size v = dp_n d ->
  exists b d', dp_sets eps d v = Ok (b, d') /\ (b <-> 0 < total v) /\
    (b -> [/\ dp_valid d', dp_n d' = dp_n d
             & forall i, (i < dp_n d)%N -> dp_get d' i%:Z = Ok (nth 0 v i / total v)]).
Proof.
move=> he hv hs; case ht: (0 < total v).
  exists true; rewrite dp_setsE //; eexists; split; [by []|split=> // _; split=> //].
    by apply: cum_update_valid; rewrite ?size_map //; exact: normalized_distribution.
  move=> i hi; rewrite /dp_get /= ltz_nat hi /= (at_nth 0) ?size_map ?hs //.
  by rewrite (nth_map 0) ?hs.
by exists false; eexists; rewrite dp_sets_zero // ?ht.
Qed.
Theorem C02_sets_rejects d v : ~ (nonneg v /\ size v = dp_n d) -> dp_sets eps d v = Abort.
Proof. exact: dp_sets_abort. Qed.

(** C03 *)
Theorem C03_history_valid n ops d0 fl d : 0 <= eps -> (0 < n)%N -> dp_new eps n = Ok d0 ->
  runO (dp_step eps) d0 ops = Ok (fl, d) -> all id fl ->
  dp_valid d /\ dp_n d = n.
Proof. move=> he hn h0; exact: dp_run_valid. Qed.

(** C04 *)
Theorem C04_set_rescales d (k : nat) a : 0 <= eps -> dp_valid d -> (1 < dp_n d)%N ->
  (k < dp_n d)%N -> 0 <= a <= 1 ->
  exists d', [/\ dp_set eps d k%:Z a = Ok (true, d'), dp_valid d', dp_n d' = dp_n d,
    dp_get d' k%:Z = Ok a &
    forall i, (i < dp_n d)%N -> dp_get d' i%:Z = Ok (rescaled (dp_vals d) k a i)].
Proof.
move=> he hv hn hk ha; rewrite dp_setE //; eexists; split; first by [].
- by have [h1 h2] := set_result_distr hv hn hk ha; exact: cum_update_valid.
- by [].
- have [h1 h2] := set_result_distr hv hn hk ha.
  rewrite /dp_get /= ltz_nat hk /= (at_nth 0) ?h1 // set_result_nth //; last by case: hv.
  by rewrite /rescaled eqxx.
- move=> i hi; have [h1 h2] := set_result_distr hv hn hk ha.
  by rewrite /dp_get /= ltz_nat hi /= (at_nth 0) ?h1 // set_result_nth //; case: hv.
Qed.
Theorem C04_set_aborts_iff d (st : int) a : 0 <= eps -> dp_valid d ->
  dp_set eps d st a = Abort <->
  ~ ((0 <= st < (dp_n d)%:Z) /\ 0 <= a <= 1 /\ (1 < dp_n d)%N).
Proof.
move=> he hv; split; last exact: dp_set_abort.
move=> h [hst [ha hn]]; case: st hst h => [k|k] hst; last by move: hst; lia.
by rewrite dp_setE //; move: hst; lia.
Qed.
(** the relative order and ratios of the other states are kept *)
Theorem C04_set_keeps_ratios d d' (k : nat) a i j : 0 <= eps -> dp_valid d -> (1 < dp_n d)%N ->
  (k < dp_n d)%N -> 0 <= a <= 1 -> (i < dp_n d)%N -> (j < dp_n d)%N -> i != k -> j != k ->
  nth 0 (dp_vals d) k < 1 -> dp_set eps d k%:Z a = Ok (true, d') ->
  nth 0 (dp_vals d') i * nth 0 (dp_vals d) j = nth 0 (dp_vals d') j * nth 0 (dp_vals d) i.
Proof.
move=> he hv hn hk ha hi hj hik hjk hlt; rewrite dp_setE // => -[<-] /=.
have hs : size (dp_vals d) = dp_n d by case: hv.
rewrite !set_result_nth // /rescaled (negbTE hik) (negbTE hjk).
by rewrite (_ : (_ == 1) = false) ?lt_eqF //; rnorm; ring.
Qed.

(** C05: finding *)
Theorem C05_one_state_set_aborts_refuted a d : dp_new eps 1 = Ok d -> 0 <= eps ->
  dp_set eps d 0 a = Abort.
Proof.
move=> h he; apply: dp_set_abort.
  case: (@C01_new_uniform 1 he isT) => d' []; rewrite h => -[->] _ hv _; exact: hv.
by move: h; rewrite dp_newE // => -[<-] [_ []].
Qed.

(** C06: finding *)
Theorem C06_failed_sets_not_atomic_refuted d v : 0 <= eps < 1 ->
  nonneg v -> size v = dp_n d -> total v = 0 ->
  exists d', [/\ dp_sets eps d v = Ok (false, d'), dp_vals d' = nseq (dp_n d) 0,
    dp_cum d' = dp_cum d, (forall m u, dp_sample1 d' m u = dp_sample1 d m u)
    & dp_copy eps d' = Abort].
Proof.
move=> /andP [he1 he2] hv hs ht.
have hn : ~~ (0 < total v) by rewrite ht ltxx.
rewrite dp_sets_zero //; eexists; split=> //=.
  by rewrite -hs; exact: nonneg_sum0.
by rewrite /dp_copy /= cum_update_abort // ht; apply/negP; lra.
Qed.

(** C07 *)
Theorem C07_sample_is_quantile d u : dp_valid d -> 0 < u <= 1 ->
  exists k, [/\ dp_sample1 d DEFAULT u = Ok (Some k%:Z), (k < dp_n d)%N,
    quantile (dp_vals d) u k & 0 < nth 0 (dp_vals d) k].
Proof.
move=> hv hu; case: (dp_sample1E hv hu) => k [h1 h2]; exists k; split=> //.
  by case: h2 => h _; case: hv => <-.
exact: quantile_pos h2.
Qed.
(** the draws that yield state [k] form an interval of length [p_k] *)
Theorem C07_sample_interval d u (k : nat) : dp_valid d -> 0 < u <= 1 -> (k < dp_n d)%N ->
  dp_sample1 d DEFAULT u = Ok (Some k%:Z) <->
  nth 0 (dp_cum d) k < u <= nth 0 (dp_cum d) k + nth 0 (dp_vals d) k.
Proof.
move=> hv hu hk; case: (dp_sample1E hv hu) => j [-> hq].
case: (hv) => hs [hl ht] [hc1 hc2]; rewrite hc2 ?hs 1?ltnW // -total_takeS; split.
  by case=> ejk; subst; case: hq => _ [-> ->].
case/andP=> h1 h2; congr (Ok (Some _)); congr Posz.
by apply: (quantile_uniq hl hq); split; rewrite ?hs.
Qed.
Theorem C07_sample_zero_draw_refuted d : dp_valid d ->
  dp_sample1 d DEFAULT 0 = Ok (Some (-1)).
Proof. by move=> hv; exact: dp_sample1_zero. Qed.
Theorem C07_other_methods_rejected d u m : m <> DEFAULT -> dp_sample1 d m u = Ok None.
Proof. by case: m. Qed.

(** C08 *)
Theorem C08_ripley_batch (root : R -> nat -> R) d us :
  (forall u k, 0 < u <= 1 -> (0 < k)%N -> 0 < root u k <= 1) ->
  dp_valid d -> us != [::] -> all (fun u => 0 < u <= 1) us ->
  exists ks : seq nat,
    [/\ dp_samples root d RIPLEY us = Ok (Some [seq k%:Z | k <- ks]), size ks = size us,
        sorted leq ks, all (fun k => (k < dp_n d)%N && (0 < nth 0 (dp_vals d) k)) ks &
        forall i, (i < size us)%N ->
          quantile (dp_vals d) (nth 0 (ripley root us 0) i) (nth 0%N ks i)].
Proof.
move=> hr hv hus hall; case: (dp_ripleyE hr hv hus hall) => ks [h1 h2 h3 h4].
exists ks; split=> //; apply/(all_nthP 0%N) => i; rewrite h2 => hi.
have hq := h3 i hi; rewrite (quantile_pos hq) andbT.
by case: hq => hq _; case: hv => <-.
Qed.
Theorem C08_default_batch (root : R -> nat -> R) d us :
  dp_valid d -> all (fun u => 0 < u <= 1) us ->
  exists ks : seq nat,
    [/\ dp_samples root d DEFAULT us = Ok (Some [seq k%:Z | k <- ks]), size ks = size us &
        forall i, (i < size us)%N -> quantile (dp_vals d) (nth 0 us i) (nth 0%N ks i)].
Proof.
move=> hv; elim: us => [|u us IH] /=; first by move=> _; exists [::].
case/andP=> hu /IH [ks [h1 h2 h3]]; case: (dp_sample1E hv hu) => k [hk hq].
exists (k :: ks); split=> /=; last by move=> [|i] //= hi; apply: h3.
  move: hk; rewrite /dp_sample1; case: (scan _ _ _ _) => //= r [->].
  by move: h1; rewrite /dp_samples; case: (mapO _ us) => //= l [->].
by rewrite h2.
Qed.
Theorem C08_ripley_empty_refuted (root : R -> nat -> R) d : dp_samples root d RIPLEY [::] = UB.
Proof. by []. Qed.
Theorem C08_other_methods (root : R -> nat -> R) d us m :
  m = BOXMULLER \/ m = CHOLESKY -> dp_samples root d m us = Ok None.
Proof. by case=> ->. Qed.

(** C09 *)
Theorem C09_most_probable d : dp_valid d -> (0 < dp_n d)%N ->
  exists k, [/\ dp_argmax d = k%:Z, (k < dp_n d)%N,
    (forall j, (j < dp_n d)%N -> nth 0 (dp_vals d) j <= nth 0 (dp_vals d) k)
    & forall j, (k < j)%N -> (j < dp_n d)%N -> nth 0 (dp_vals d) j < nth 0 (dp_vals d) k].
Proof. by move=> [hs [hl _] _]; rewrite -hs => h; exact: dp_argmaxE. Qed.
End Properties.

Print Assumptions C01_new_uniform.
Print Assumptions C01_new_zero_aborts.
Print Assumptions C01_table_shape.
Print Assumptions C02_sets_normalises.
Print Assumptions C02_sets_rejects.
Print Assumptions C03_history_valid.
Print Assumptions C04_set_rescales.
Print Assumptions C04_set_aborts_iff.
Print Assumptions C04_set_keeps_ratios.
Print Assumptions C05_one_state_set_aborts_refuted.
Print Assumptions C06_failed_sets_not_atomic_refuted.
Print Assumptions C07_sample_is_quantile.
Print Assumptions C07_sample_interval.
Print Assumptions C07_sample_zero_draw_refuted.
Print Assumptions C07_other_methods_rejected.
Print Assumptions C08_ripley_batch.
Print Assumptions C08_default_batch.
Print Assumptions C08_ripley_empty_refuted.
Print Assumptions C08_other_methods.
Print Assumptions C09_most_probable.

(** ** Concrete cases meeting the hypotheses (rationals) *)
Section Examples.
Let q (a b : nat) : rat := a%:R / b%:R.
Let eps : rat := q 1 100.
Let d3 := match dp_new eps 3 with Ok d => d | _ => DPdf 0 [::] [::] end.
(* three states, set state 1 to 1/2, then all probabilities, then state 0 to 0 *)
Let ops := [:: OpSet 1 (q 1 2); OpSets [:: q 2 1; q 1 1; q 1 1]; OpSet 0 (q 0 1)].
Example C01_C03_example :
  match dp_new eps 3 with
  | Ok d0 => match runO (dp_step eps) d0 ops with
             | Ok (fl, d) => all id fl && (dp_vals d == [:: 0; q 1 2; q 1 2])
                             && (dp_cum d == [:: 0; 0; q 1 2; 1])
             | _ => false end
  | _ => false end.
Proof. by vm_compute. Qed.
Example C01_valid_example : dp_valid d3.
Proof.
have h : (0 <= eps)%R by vm_compute.
by case: (@C01_new_uniform _ eps 3 h isT) => d [hd _ hv _]; rewrite /d3 hd.
Qed.
Example C04_example :
  match dp_set eps d3 1 (q 1 2) with
  | Ok (b, d) => b && (dp_vals d == [:: q 1 4; q 1 2; q 1 4])
  | _ => false end.
Proof. by vm_compute. Qed.
(* old probability 1: the rest is spread evenly *)
Example C04_example_old1 :
  match runO (dp_step eps) d3 [:: OpSet 2 (q 1 1); OpSet 2 (q 1 2)] with
  | Ok (fl, d) => all id fl && (dp_vals d == [:: q 1 4; q 1 4; q 1 2])
  | _ => false end.
Proof. by vm_compute. Qed.
Example C05_example :
  match dp_new eps 1 with
  | Ok d => match dp_set eps d 0 1 with Abort => true | _ => false end
  | _ => false end.
Proof. by vm_compute. Qed.
Example C06_example :
  match dp_sets eps d3 [:: 0; 0; 0] with
  | Ok (b, d) => ~~ b && (dp_vals d == [:: 0; 0; 0]) && (dp_cum d == dp_cum d3)
                 && match dp_copy eps d with Abort => true | _ => false end
  | _ => false end.
Proof. by vm_compute. Qed.
Example C07_example : dp_sample1 d3 DEFAULT (q 1 2) = Ok (Some 1%:Z).
Proof. by vm_compute. Qed.
Example C07_example_zero : dp_sample1 d3 DEFAULT 0 = Ok (Some (-1)).
Proof. by vm_compute. Qed.
(* a root function meeting the hypothesis of C08 *)
Let root (u : rat) (k : nat) : rat := if k is 0 then u else (u + k.-1%:R) / k%:R.
Example C08_root_ok : forall u k, 0 < u <= 1 -> (0 < k)%N -> 0 < root u k <= 1.
Proof.
move=> u [|k] //= /andP [h0 h1] _; rewrite divr_gt0 ?ltr0n //=; last first.
  by rewrite ltr_paddr ?ler0n.
rewrite ler_pdivr_mulr ?ltr0n // mul1r -addn1 natrD addrC ler_add2l //.
Qed.
Example C08_example :
  dp_samples root d3 RIPLEY [:: q 1 8; q 1 8; q 1 2] = Ok (Some [:: 0; 1; 2%:Z]).
Proof. by vm_compute. Qed.
Example C09_example : dp_argmax (DPdf 3 [:: q 2 5; q 2 5; q 1 5] [::]) = 1.
Proof. by vm_compute. Qed.
End Examples.
