(** * Properties of the RTT property bindings (C102-C105) *)
From Coq Require Import String Permutation List.
From mathcomp Require Import all_ssreflect all_algebra.
From Verif Require Import Outcome ModelWrapper ModelRtt SpecRtt ProofsRtt.
Set Implicit Arguments. Unset Strict Implicit. Unset Printing Implicit Defensive.
Import Order.TTheory GRing.Theory Num.Theory.
Local Open Scope ring_scope.

(** the names are the decimal numerals *)
Example C102_names : map num_name [:: 1; 9; 10; 207]%N = [:: "1"; "9"; "10"; "207"]%string.
Proof. by vm_compute. Qed.

Section Properties.
Variable R : realFieldType.
Variable junk : R.
Variable dbg : bool.
Implicit Types (b : bag R) (v w r : seq R) (l : items R).

(** ** C102: what was decomposed is composed again *)
Theorem C102_vector ty v b : b_items b = [::] ->
  exists2 b', vec_decompose ty v b = Ok b' & vec_bag ty v b'.
Proof. exact: decompose_bag. Qed.
(** when the names are different, composing is exactly reading such a bag *)
Theorem C102_vector_read ty v b old : named (b_items b) ->
  (vec_compose ty b old = Ok (true, v) <-> vec_bag ty v b).
Proof.
move=> hn; split; last exact: compose_bag.
by case/compose_inv => ht [hs hi]; split=> //; split.
Qed.
Theorem C102_vector_type ty b old w : vec_compose ty b old = Ok (false, w) <-> b_type b <> ty /\ w = old.
Proof.
rewrite composeE; case: (String.eqb_spec (b_type b) ty) => h /=; first by case: ifP; split=> // -[].
by split=> [[<-]|[_ ->]].
Qed.
Theorem C102_matrix (m : rmat R) b old : shaped m -> b_items b = [::] -> x_rows m <> [::] ->
  (exists2 b', mat_decompose dbg m b = Ok b' & rows_bag "Matrix" (x_rows m) b')
  /\ forall b', rows_bag "Matrix" (x_rows m) b' -> mat_compose junk dbg b' old = Ok (true, m).
Proof.
move=> hm hb h0; split; first exact: decompose_rows.
by move=> b' hb'; rewrite /mat_compose (compose_rows junk dbg old h0 hb' hm); case: (m).
Qed.
(** when the names are different, composing is exactly reading such a bag *)
Theorem C102_matrix_read (m old : rmat R) b : b_items b <> [::] -> named (b_items b) ->
  (forall n t l, In (n, PBag t l) (b_items b) -> named l) ->
  (mat_compose junk dbg b old = Ok (true, m) <-> shaped m /\ rows_bag "Matrix" (x_rows m) b).
Proof.
move=> h0 hn hl; split; last first.
  case=> hm hb; have hz: x_rows m <> [::].
    by move=> e; case: h0; apply: size0nil; case: hb => _ _ -> _; rewrite e.
  by rewrite /mat_compose (compose_rows junk dbg old hz hb hm); case: (m).
rewrite /mat_compose /rows_compose; case: (String.eqb_spec (b_type b) "Matrix") => // ht.
case e: (size (b_items b)) => [|n]; first by case: h0; apply: size0nil.
case/loop_inv => T [c [hT hr ->]]; split.
  move=> i /= hi; by have [|rb _ [_]] := hr i; first by rewrite add0n -hT.
split=> //=; first by rewrite e hT.
move=> i hi; have [|[t l] h1 [h2 _]] := hr i; first by rewrite add0n -hT.
have [ht' [hs hi']] := compose_inv h2; rewrite /= in ht' hs hi'; subst t.
exists l; first exact: get_bag_In.
by split=> //; apply: hl (get_bag_In h1).
Qed.
Theorem C102_symmetric (s : rsym R) b old : triangle s -> b_items b = [::] ->
  (exists2 b', sym_decompose junk dbg s b = Ok b' & rows_bag "SymmetricMatrix" (full s) b')
  /\ forall b', rows_bag "SymmetricMatrix" (full s) b' -> sym_compose junk dbg b' old = Ok (true, s).
Proof.
move=> hs hb; split.
  have [b' h1 h2] := decompose_rows dbg "SymmetricMatrix" (@sym_shaped _ junk s) hb.
  exists b'; first by move: h1; rewrite /sym_decompose /= size_mkseq.
  by rewrite -(sym_full junk hs).
move=> b' hb'; rewrite /sym_compose.
have hf: size (full s) = size s by rewrite size_mkseq.
have hr: forall i, (i < size (full s))%N -> size (nth [::] (full s) i) = size (full s).
  by move=> i; rewrite hf => hi; rewrite nth_mkseq // size_mkseq.
case: (altP (s =P [::])) => [e|/eqP hn].
  case: hb' => ht _ hz _; rewrite hf e in hz.
  by rewrite /rows_compose ht (size0nil hz) /= /to_sym assert_t //= e.
have hn': full s <> [::] by move=> e; case: hn; apply: size0nil; rewrite -hf e.
by rewrite (compose_rows junk dbg _ hn' hb' hr) /= to_sym_ok // lower_full.
Qed.
Theorem C102_probability (p old : R) b : 0 <= p -> b_items b = [::] ->
  prob_compose dbg (prob_decompose p b) old = Ok (true, p).
Proof. by move=> hp hb; rewrite /prob_compose /= hb /= assert_t. Qed.
Theorem C102_sample (x old : sval R) b : kind_of old = kind_of x -> b_items b = [::] ->
  exists2 b', sample_decompose dbg x b = Ok b' & sample_compose b' old = Ok (true, x).
Proof.
move=> hk hb; rewrite /sample_decompose hb assert_t //= /sample_compose hk.
case: x hk => [z|d|v] hk /=; try by eexists; first by []; rewrite /= /value_compose /= hb.
have [b' h1 [h2 h3]] := @decompose_bag _ "ColumnVector" v (new_bag R) erefl.
rewrite h1 /=; eexists; first by [].
rewrite /= /value_compose /= hb /=.
by rewrite (@compose_bag _ "ColumnVector" v) //; split.
Qed.
Theorem C102_weighted (x old : wsval R) b : kind_of old.1 = kind_of x.1 -> 0 <= x.2 -> b_items b = [::] ->
  exists2 b', wsample_decompose dbg x b = Ok b' & wsample_compose dbg b' old = Ok (true, x).
Proof.
case: x => x wt; move=> hk; rewrite [(x, wt).2]/= => hw hb; rewrite /wsample_decompose hb assert_t //= /wsample_compose hk /=.
case: x hk => [z|d|v] hk /=; try by eexists; first by []; rewrite /= /value_compose /= hb /= assert_t.
have [b' h1 [h2 h3]] := @decompose_bag _ "ColumnVector" v (new_bag R) erefl.
rewrite h1 /=; eexists; first by [].
rewrite /= /value_compose /= hb /=.
by rewrite (@compose_bag _ "ColumnVector" v) /= ?assert_t //; split.
Qed.
(** a sample of vectors is read from its bag in any order *)
Theorem C102_weighted_vector v (wt : R) (old : wsval R) b l : kind_of old.1 = KVec ->
  b_type b = "WeightedSample"%string -> named (b_items b) -> 0 <= wt ->
  In ("WeightedSampleValue"%string, PBag "ColumnVector" l) (b_items b) -> vec_items v l ->
  In ("WeightedSampleWeight"%string, PDouble wt) (b_items b) ->
  wsample_compose dbg b old = Ok (true, (SVec v, wt)).
Proof.
move=> hk ht hn hw h1 hv h2.
rewrite /wsample_compose ht String.eqb_refl hk /value_compose (In_get_bag hn h1) /=.
by rewrite (@compose_bag _ "ColumnVector" v) /= ?(In_get_double hn h2) /= ?assert_t //; split.
Qed.

(** ** C103: a weighted number is read by position *)
(** the weight comes first in the bag: it is stored as value and as weight *)
Theorem C103_double (x wt old oldw : R) : 0 <= wt ->
  wsample_compose dbg (Bag "WeightedSample" [:: ("WeightedSampleWeight"%string, PDouble wt); ("WeightedSampleValue"%string, PDouble x)])
                  (SDouble old, oldw) = Ok (true, (SDouble wt, wt)).
Proof. by move=> h; rewrite /wsample_compose /value_compose /= assert_t. Qed.
Theorem C103_int (z old : int) (wt oldw : R) :
  wsample_compose dbg (Bag "WeightedSample" [:: ("WeightedSampleWeight"%string, PDouble wt); ("WeightedSampleValue"%string, PInt R z)])
                  (SInt R old, oldw) = Ok (false, (SInt R old, oldw)).
Proof. by []. Qed.
(** the name of the value is not looked at *)
Theorem C103_name (x wt old oldw : R) (n : string) : n <> "WeightedSampleWeight"%string -> 0 <= wt ->
  wsample_compose dbg (Bag "WeightedSample" [:: (n, PDouble x); ("WeightedSampleWeight"%string, PDouble wt)])
                  (SDouble old, oldw) = Ok (true, (SDouble x, wt)).
Proof.
move=> /String.eqb_neq hn h; rewrite /wsample_compose /value_compose; cbn [b_type b_items get_bag get_double].
rewrite hn; case: (n =? _)%string; by rewrite /= assert_t.
Qed.
(** the claim "the order of the properties does not matter" does not hold *)
Theorem C103_order_refuted : ~ (forall (x wt : R) l (old : wsval R), kind_of old.1 = KDouble -> 0 <= wt ->
  Permutation l [:: ("WeightedSampleValue"%string, PDouble x); ("WeightedSampleWeight"%string, PDouble wt)] ->
  wsample_compose dbg (Bag "WeightedSample" l) old = Ok (true, (SDouble x, wt))).
Proof.
move=> h; have := h 2%:R 1 _ (SDouble 0, 0) erefl ler01 (perm_swap _ _ [::]).
by rewrite C103_double ?ler01 // => -[/eqP]; rewrite eq_sym pnatr_eq1.
Qed.

(** ** C104: bags that are incomplete, and calls that return false *)
(** a vector with a missing element: the program uses a null pointer *)
Theorem C104_vector_missing ty b old : vec_compose ty b old = UB <->
  b_type b = ty /\ exists2 i, (i < size (b_items b))%N & forall x, ~ In (num_name i.+1, PDouble x) (b_items b).
Proof.
rewrite composeE; case: (String.eqb_spec (b_type b) ty) => h /=; last by split=> // -[].
case: ifP => ha; split=> //.
- case=> _ [i hi hx]; move/allP: ha => /(_ i.+1); rewrite mem_iota /= add1n ltnS hi => /(_ isT).
  by rewrite no_double.
- move=> _; split=> //; move/negbT: ha => /allPn [[|i]]; rewrite mem_iota //= add1n ltnS => hi hg.
  by exists i => // x /In_some; case: (get_double _ _) hg.
Qed.
Theorem C104_vector_no_abort ty b old : vec_compose ty b old <> Abort.
Proof. by rewrite composeE; case: ifP => // _ /=; case: ifP. Qed.
(** a bag that is filled twice cannot be read *)
Theorem C104_vector_reuse ty v w b old : b_items b = [::] -> v <> [::] -> w <> [::] ->
  exists b1 b2, [/\ vec_decompose ty v b = Ok b1, vec_decompose ty w b1 = Ok b2 & vec_compose ty b2 old = UB].
Proof.
move=> hb hv hw; rewrite decompose_ok hb cat0s; do 2 eexists; split; [by []|by rewrite decompose_ok|].
have pv: (0 < size v)%N by case: (v) hv.
have pw: (0 < size w)%N by case: (w) hw.
apply/C104_vector_missing; split=> //=; exists (size v + size w).-1.
  by rewrite size_cat !size_mkseq prednK // addn_gt0 pv.
have hn: (size v + size w).-1.+1 = (size v + size w)%N by rewrite prednK // addn_gt0 pv.
move=> x; rewrite hn => /in_app_iff [] /in_map_iff [i [h /In_iota]];
  have e: i.+1 = (size v + size w)%N by apply: num_name_inj; case: h.
- by case/andP => _; rewrite add0n e -[X in (_ <= X)%N -> _]addn0 leq_add2l leqNgt pw.
- by case/andP => _; rewrite add0n e -[X in (_ <= X)%N -> _]add0n leq_add2r leqNgt pv.
Qed.
Theorem C104_sample_empty (old : sval R) : sample_compose (Bag "Sample" [::]) old = UB.
Proof. by []. Qed.
(** a matrix without rows is not stored: the object keeps its old contents, the call returns true *)
Theorem C104_matrix_no_rows c b (old : rmat R) : b_items b = [::] ->
  exists2 b', mat_decompose dbg (RMat c [::]) b = Ok b' & mat_compose junk dbg b' old = Ok (true, old).
Proof. by move=> hb; exists (set_type b "Matrix") => //; rewrite /mat_compose /rows_compose /= hb. Qed.
Theorem C104_matrix_refuted : ~ (forall (m old : rmat R) b, shaped m -> b_items b = [::] ->
  exists2 b', mat_decompose dbg m b = Ok b' & mat_compose junk dbg b' old = Ok (true, m)).
Proof.
move=> h; have hs: shaped (RMat 0 [::] : rmat R) by [].
have [b' h1 h2] := h _ (RMat 1 [:: [:: 1]]) (new_bag R) hs erefl.
have [b'' h3 h4] := @C104_matrix_no_rows 0 (new_bag R) (RMat 1 [:: [:: 1]]) erefl.
by move: h4; rewrite h3 in h1; case: h1 => ->; rewrite h2.
Qed.
(** a missing row: the call returns false, the matrix has been changed *)
Theorem C104_matrix_changed n b l r (old : rmat R) :
  b_type b = "Matrix"%string -> named (b_items b) -> size (b_items b) = n.+2 ->
  In (num_name 1, PBag "RowVector" l) (b_items b) -> vec_items r l ->
  (forall t k, ~ In (num_name 2, PBag t k) (b_items b)) ->
  exists2 m, mat_compose junk dbg b old = Ok (false, m)
    & [/\ size (x_rows m) = n.+2, x_cols m = size r & nth [::] (x_rows m) 0 = r].
Proof.
move=> ht hn hs h1 hr h2; rewrite /mat_compose /rows_compose ht String.eqb_refl hs.
have -> : iota 1 n.+2 = [:: 1, 2 & iota 3 n]%N by [].
rewrite /rows_loop -/(rows_loop junk dbg) (In_get_bag hn h1) (@compose_bag _ "RowVector" r) //.
rewrite /obind /fst /snd /negb eqxx /andb /mat_resize.
set d := mkseq _ _.
have hd: size d = n.+2 by rewrite size_mkseq.
rewrite copy_ok ?hd // ?nth_mkseq ?size_mkseq // (no_bag h2).
clearbody d.
by eexists; first by []; rewrite /= size_set_nth (maxn_idPr _) ?hd // nth_set_nth.
Qed.
(** the other calls that return false leave the object as it was *)
Theorem C104_symmetric_kept b (old s : rsym R) : sym_compose junk dbg b old = Ok (false, s) -> s = old.
Proof. by rewrite /sym_compose; case: rows_compose => // -[[] m] /=; [case: to_sym|case]. Qed.
Theorem C104_sample_kept b (old x : sval R) : sample_compose b old = Ok (false, x) -> x = old.
Proof. by rewrite /sample_compose; case: ifP => _; [case: value_compose => // -[y|] //= []|case]. Qed.
Theorem C104_probability_kept b (old x : R) : prob_compose dbg b old = Ok (false, x) -> x = old.
Proof. by rewrite /prob_compose; case: get_double => [y|]; [case: assert_|case]. Qed.
(** except a weighted sample: its value is replaced before the weight is looked for *)
Theorem C104_weighted_kept b (old x : wsval R) : wsample_compose dbg b old = Ok (false, x) -> x.2 = old.2.
Proof.
rewrite /wsample_compose; case: ifP => _; last by case=> <-.
case: value_compose => // -[y|] /=; last by case=> <-.
by case: get_double => [wt|]; [case: assert_|case=> <-].
Qed.
Theorem C104_weighted_changed (x old oldw : R) :
  wsample_compose dbg (Bag "WeightedSample" [:: ("WeightedSampleValue"%string, PDouble x)]) (SDouble old, oldw)
  = Ok (false, (SDouble x, oldw)).
Proof. by []. Qed.
Theorem C104_atomic_refuted : ~ (forall b (old x : wsval R), wsample_compose dbg b old = Ok (false, x) -> x = old).
Proof.
move=> h; have := h _ _ _ (C104_weighted_changed 1 0 0); case=> /eqP; by rewrite oner_eq0.
Qed.

(** composing reports success only with a value of the wanted type found in the bag *)
Theorem C104_sample_found b (old x : sval R) : sample_compose b old = Ok (true, x) ->
  [/\ b_type b = "Sample"%string, kind_of x = kind_of old & exists n p, In (n, p) (b_items b) /\ val_item x p].
Proof.
rewrite /sample_compose; case: (String.eqb_spec (b_type b) "Sample") => // ht.
by case h1: (value_compose _ _ _) => [[y|]||] //= [<-]; have [h3 h4] := value_inv h1.
Qed.
Theorem C104_weighted_found b (old x : wsval R) : wsample_compose dbg b old = Ok (true, x) ->
  [/\ b_type b = "WeightedSample"%string, kind_of x.1 = kind_of old.1, exists n p, In (n, p) (b_items b) /\ val_item x.1 p
    & In ("WeightedSampleWeight"%string, PDouble x.2) (b_items b)].
Proof.
rewrite /wsample_compose; case: (String.eqb_spec (b_type b) "WeightedSample") => // ht.
case h1: (value_compose _ _ _) => [[y|]||] //=; have [h3 h4] := value_inv h1.
case h2: (get_double _ _) => [wt|] //=; case: assert_ => //= _ [<-].
by split=> //; apply: get_double_In.
Qed.
(** a bag of another type is refused *)
Theorem C104_other_type b (m : rmat R) (s : rsym R) (x : sval R) (y : wsval R) :
  [/\ b_type b <> "Matrix"%string -> mat_compose junk dbg b m = Ok (false, m),
      b_type b <> "SymmetricMatrix"%string -> sym_compose junk dbg b s = Ok (false, s),
      b_type b <> "Sample"%string -> sample_compose b x = Ok (false, x)
    & b_type b <> "WeightedSample"%string -> wsample_compose dbg b y = Ok (false, y)].
Proof.
split; rewrite ?/mat_compose ?/sym_compose ?/rows_compose ?/sample_compose ?/wsample_compose; by case: String.eqb_spec.
Qed.
(** samples are only decomposed into an empty bag *)
Theorem C104_filled b (x : sval R) (y : wsval R) : dbg -> b_items b <> [::] ->
  sample_decompose dbg x b = Abort /\ wsample_decompose dbg y b = Abort.
Proof.
rewrite /sample_decompose /wsample_decompose /assert_ => -> hb.
by case: (b_items b) hb.
Qed.
(** a negative weight or probability in the bag: an assert fails; without asserts it is stored *)
Theorem C104_negative b (x : sval R) (wt : R) (old : wsval R) :
  b_type b = "WeightedSample"%string -> value_compose "WeightedSampleValue" (kind_of old.1) b = Ok (Some x) ->
  get_double (b_items b) "WeightedSampleWeight" = Some wt -> wt < 0 ->
  wsample_compose true b old = Abort /\ wsample_compose false b old = Ok (true, (x, wt)).
Proof. by move=> ht hv hw; rewrite ltNge => /negbTE h; rewrite /wsample_compose ht hv /= hw /assert_ h. Qed.
Theorem C104_negative_probability b (p old : R) : get_double (b_items b) "Probability" = Some p -> p < 0 ->
  prob_compose true b old = Abort /\ prob_compose false b old = Ok (true, p).
Proof. by move=> hp; rewrite ltNge => /negbTE h; rewrite /prob_compose hp /assert_ h. Qed.

(** ** C105: symmetric matrices from any rows; index checks *)
Theorem C105_lower rows b old : rows_bag "SymmetricMatrix" rows b ->
  (forall i, (i < size rows)%N -> size (nth [::] rows i) = size rows) ->
  sym_compose junk dbg b old = Ok (true, lower rows).
Proof.
move=> hb hr; rewrite /sym_compose.
case: rows hb hr => [|r rows] hb hr.
  by case: hb => ht _ hz _; rewrite /rows_compose ht (size0nil hz) /= /to_sym assert_t.
have h0: (r :: rows) <> [::] by [].
by rewrite (compose_rows junk dbg _ h0 hb hr) [obind (Ok _) _]/=; have := to_sym_ok dbg hr => /= ->.
Qed.
Theorem C105_not_square rows c b old : rows <> [::] -> rows_bag "SymmetricMatrix" rows b ->
  (forall i, (i < size rows)%N -> size (nth [::] rows i) = c) -> c != size rows ->
  sym_compose junk true b old = Abort.
Proof.
move=> h0 hb hr hc; rewrite /sym_compose (compose_rows junk true _ h0 hb hr) /= /to_sym /=.
by rewrite eq_sym (negbTE hc).
Qed.
(** without asserts too many columns are cut off, and too few are read past the end *)
Theorem C105_wide_ndebug rows c b old : rows <> [::] -> rows_bag "SymmetricMatrix" rows b ->
  (forall i, (i < size rows)%N -> size (nth [::] rows i) = c) -> (size rows < c)%N ->
  sym_compose junk false b old = Ok (true, lower rows).
Proof.
move=> h0 hb hr hc; rewrite /sym_compose (compose_rows junk false _ h0 hb hr) [obind (Ok _) _]/=.
by have := @to_sym_wide _ false _ _ hr (ltnW hc) (fun e => False_ind _ (notF e)); rewrite /to_sym /= => ->.
Qed.
Theorem C105_narrow_ndebug rows c b old : rows <> [::] -> rows_bag "SymmetricMatrix" rows b ->
  (forall i, (i < size rows)%N -> size (nth [::] rows i) = c) -> (c < size rows)%N ->
  sym_compose junk false b old = UB.
Proof.
move=> h0 hb hr hc; rewrite /sym_compose (compose_rows junk false _ h0 hb hr) [obind (Ok _) _]/=.
by have := to_sym_narrow hr hc; rewrite /to_sym /= => ->.
Qed.
(** a bag of rows that are not symmetric is accepted *)
Theorem C105_symmetric_refuted : ~ (forall b rows old s, rows_bag "SymmetricMatrix" rows b ->
  sym_compose junk dbg b old = Ok (true, s) -> full s = rows).
Proof.
pose rows : seq (seq R) := [:: [:: 0; 1]; [:: 0; 0]].
pose m := RMat 2 rows.
have hm: shaped m by case=> [|[]].
have [b _ hb] := decompose_rows dbg "SymmetricMatrix" hm (erefl : b_items (new_bag R) = [::]).
move=> h; have := h b rows [::] (lower rows) hb (@C105_lower rows b [::] hb _).
have hr: forall i, (i < size rows)%N -> size (nth [::] rows i) = size rows by case=> [|[]].
move=> /(_ hr) /(congr1 (fun d : seq (seq R) => nth 0 (nth [::] d 0) 1)) /= /eqP.
by rewrite eq_sym oner_eq0.
Qed.
(** a row index that passes the check is a row; the last row does not pass *)
Theorem C105_row_check (m : rmat R) i : mat_index_ok m i -> (0 < i <= size (x_rows m))%N.
Proof. by case/andP => h1 h2; rewrite h1 ltnW. Qed.
Theorem C105_last_row_refuted : ~ (forall (m : rmat R) i, (0 < i <= size (x_rows m))%N -> mat_index_ok m i).
Proof. by move=> /(_ (RMat 1 [:: [:: 0]]) 1%N isT). Qed.
Theorem C105_last_row (m : rmat R) : mat_index_ok m (size (x_rows m)) = false.
Proof. by rewrite /mat_index_ok ltnn andbF. Qed.
Theorem C105_vector_index v (i : nat) : (0 < i <= size v)%N -> vector_index v i%:Z = Ok (Some (nth 0 v i.-1)).
Proof.
case: i => // i /= hi; rewrite /vector_index.
have -> : ((size v)%:Z < i.+1%:Z) = false by rewrite ltz_nat ltnS leqNgt hi.
by rewrite /= /ub_get hi (at_nth 0 hi).
Qed.
Theorem C105_vector_outside v (i : int) : (i < 1) || ((size v)%:Z < i) -> vector_index v i = Ok None.
Proof. by rewrite orbC /vector_index => ->. Qed.
(** assigning to a property is allowed only between objects of the same shape *)
Theorem C105_assign_vector v w : vec_assignable v w <->
  forall i, vector_index v i = Ok None <-> vector_index w i = Ok None.
Proof.
have h (u : seq R) (i : int) : vector_index u i = Ok None <-> ((size u)%:Z < i) || (i < 1).
  rewrite /vector_index; case: ifP => // _; split=> //.
  by case: vec_get.
rewrite /vec_assignable; split=> [/eqP e i|hi]; first by rewrite !h e.
apply/eqP; wlog lt : v w hi / (size v < size w)%N => [hw|].
  case: (ltngtP (size v) (size w)) => // lt; first exact: hw.
  by apply/esym/hw => // i; split=> /hi.
have hv : vector_index v (size w)%:Z = Ok None by apply/h; rewrite ltz_nat lt.
have /h := proj1 (hi _) hv; rewrite ltxx /= => h1.
by move: lt; rewrite -[size w]/(absz (size w)%:Z); case: (size w) h1.
Qed.
Theorem C105_assign_matrix (m k : rmat R) : shaped m -> shaped k -> mat_assignable m k ->
  forall i j, (exists x, mat_get dbg m i j = Ok x) <-> exists x, mat_get dbg k i j = Ok x.
Proof.
move=> hm hk /andP[/eqP e1 /eqP e2] i j; rewrite /mat_get e1 e2; case: ifP => // /andP[/andP[i0 hi] /andP[j0 hj]].
have h (u : rmat R) : shaped u -> size (x_rows u) = size (x_rows k) -> x_cols u = x_cols k ->
    exists x, (let! r := at_ (x_rows u) i.-1 in at_ r j.-1) = Ok x.
  move=> hu s1 s2; have hi' : (i.-1 < size (x_rows u))%N by rewrite s1 prednK.
  rewrite (at_nth [::] hi') /=.
  have hj' : (j.-1 < size (nth [::] (x_rows u) i.-1))%N by rewrite hu // s2 prednK.
  by rewrite (at_nth 0 hj'); eexists.
by split=> _; apply: h.
Qed.
End Properties.

(** ** Concrete cases (C102-C105) *)
Section Cases.
Let F := rat_realFieldType.
Let q (n : int) : F := n%:~R.
(** reading a bag in another order *)
Example C102_vector_example :
  vec_compose "ColumnVector" (Bag "ColumnVector" [:: (num_name 2, PDouble (q 7)); (num_name 1, PDouble (q 5))]) [:: q 1; q 2; q 3]
  = Ok (true, [:: q 5; q 7]).
Proof. by []. Qed.
Example C102_matrix_example :
  obind (mat_decompose true (RMat 2 [:: [:: q 1; q 2]; [:: q 3; q 4]; [:: q 5; q 6]]) (new_bag F))
        (fun b => mat_compose (q 9) true b (RMat 1 [:: [:: q 8]]))
  = Ok (true, RMat 2 [:: [:: q 1; q 2]; [:: q 3; q 4]; [:: q 5; q 6]]).
Proof. by []. Qed.
Example C102_symmetric_example :
  obind (sym_decompose (q 9) true [:: [:: q 1]; [:: q 2; q 3]] (new_bag F)) (fun b => sym_compose (q 9) true b [::])
  = Ok (true, [:: [:: q 1]; [:: q 2; q 3]]).
Proof. by []. Qed.
Example C102_weighted_example :
  obind (wsample_decompose true (SVec [:: q 4; q 5], q 2) (new_bag F)) (fun b => wsample_compose true b (SVec [::], q 0))
  = Ok (true, (SVec [:: q 4; q 5], q 2)).
Proof. by []. Qed.
Example C104_changed_example :
  mat_compose (q 9) true (Bag "Matrix" [:: (num_name 1, PBag "RowVector" [:: (num_name 1, PDouble (q 5))]); ("x"%string, PDouble (q 0))]) (no_mat F)
  = Ok (false, RMat 1 [:: [:: q 5]; [:: q 9]]).
Proof. by []. Qed.
Example C105_not_square_example :
  sym_compose (q 9) true (Bag "SymmetricMatrix" [:: (num_name 1, PBag "RowVector" [:: (num_name 1, PDouble (q 5)); (num_name 2, PDouble (q 6))])]) [::] = Abort.
Proof. by []. Qed.
Example C105_narrow_example :
  sym_compose (q 9) false (Bag "SymmetricMatrix" [:: (num_name 2, PBag "RowVector" [:: (num_name 1, PDouble (q 5))]);
                                                     (num_name 1, PBag "RowVector" [:: (num_name 1, PDouble (q 6))])]) [::] = UB.
Proof. by []. Qed.
Example C104_negative_example :
  wsample_compose false (Bag "WeightedSample" [:: ("WeightedSampleValue"%string, PDouble (q 3)); ("WeightedSampleWeight"%string, PDouble (q (-1)))])
                  (SDouble (q 0), q 0) = Ok (true, (SDouble (q 3), q (-1))).
Proof. by []. Qed.
Example C105_index_example : vector_index [:: q 5; q 6] 2 = Ok (Some (q 6)) /\ vector_index [:: q 5; q 6] 3 = Ok None
  /\ vector_index [:: q 5; q 6] 0 = Ok None.
Proof. by []. Qed.
End Cases.
Print Assumptions C102_vector.
Print Assumptions C102_vector_read.
Print Assumptions C102_vector_type.
Print Assumptions C102_matrix.
Print Assumptions C102_matrix_read.
Print Assumptions C102_symmetric.
Print Assumptions C102_probability.
Print Assumptions C102_sample.
Print Assumptions C102_weighted.
Print Assumptions C102_weighted_vector.
Print Assumptions C103_double.
Print Assumptions C103_int.
Print Assumptions C103_name.
Print Assumptions C103_order_refuted.
Print Assumptions C104_vector_missing.
Print Assumptions C104_vector_no_abort.
Print Assumptions C104_vector_reuse.
Print Assumptions C104_sample_empty.
Print Assumptions C104_matrix_no_rows.
Print Assumptions C104_matrix_refuted.
Print Assumptions C104_matrix_changed.
Print Assumptions C104_symmetric_kept.
Print Assumptions C104_sample_kept.
Print Assumptions C104_probability_kept.
Print Assumptions C104_weighted_kept.
Print Assumptions C104_weighted_changed.
Print Assumptions C104_atomic_refuted.
Print Assumptions C104_negative.
Print Assumptions C104_negative_probability.
Print Assumptions C105_lower.
Print Assumptions C105_not_square.
Print Assumptions C105_wide_ndebug.
Print Assumptions C105_narrow_ndebug.
Print Assumptions C105_symmetric_refuted.
Print Assumptions C105_row_check.
Print Assumptions C105_last_row_refuted.
Print Assumptions C105_last_row.
Print Assumptions C105_vector_index.
Print Assumptions C105_vector_outside.
Print Assumptions C104_sample_found.
Print Assumptions C104_weighted_found.
Print Assumptions C104_other_type.
Print Assumptions C104_filled.
Print Assumptions C105_assign_vector.
Print Assumptions C105_assign_matrix.
