(** * Lemmas for the RTT property bindings *)
From Coq Require Import String DecimalString Decimal DecimalNat Permutation List.
From mathcomp Require Import all_ssreflect all_algebra.
From Verif Require Import Outcome ModelWrapper ModelRtt SpecRtt.
Set Implicit Arguments. Unset Strict Implicit. Unset Printing Implicit Defensive.
Import Order.TTheory GRing.Theory Num.Theory.
Local Open Scope ring_scope.

Lemma assert_t dbg (c : bool) : c -> assert_ dbg c = Ok tt.
Proof. by move=> h; rewrite /assert_ /guard h; case: dbg. Qed.
Lemma num_name_inj i j : num_name i = num_name j -> i = j.
Proof.
rewrite /num_name => h.
have H: forall k, NilZero.uint_of_string (NilZero.string_of_uint (Nat.to_uint k)) = Some (Nat.to_uint k).
  move=> k; apply: NilZero.usu.
  move=> hk; have := Unsigned.of_to k; rewrite hk /= => e; by rewrite -e in hk.
have := H j; rewrite -h H => -[e].
by rewrite -(Unsigned.of_to i) -(Unsigned.of_to j) e.
Qed.

Lemma catO A S (f : S -> A -> outcome S) s l1 l2 :
  foldO f s (l1 ++ l2) = (let! s' := foldO f s l1 in foldO f s' l2).
Proof. by elim: l1 s => //= x l1 IH1 s; case: (f s x). Qed.
Lemma iota_end k n : iota n k.+1 = iota n k ++ [:: (n + k)%N].
Proof. by rewrite -[in LHS](addn1 k) iotaD. Qed.

Lemma In_iota i m k : In i (iota m k) -> (m <= i < m + k)%N.
Proof.
elim: k m => //= k IH m [<-|/IH /andP [h1 h2]]; first by rewrite leqnn -addSnnS ltn_addr.
by rewrite (ltnW h1) -addSnnS.
Qed.

Section Bags.
Variable R : realFieldType.
Variable junk : R.
Variable dbg : bool.
Implicit Types (l : items R) (b : bag R) (v w r : seq R) (n : string).

Lemma get_double_In l n x : get_double l n = Some x -> In (n, PDouble x) l.
Proof.
elim: l => //= -[m p] l IH; case: (String.eqb_spec m n) => [->|_]; last by right; apply: IH.
by case: p => [y [->]|z|u|t k]; [left|right; apply: IH|right; apply: IH|right; apply: IH].
Qed.
Lemma named_fst l n p : named ((n, p) :: l) -> forall q, ~ In (n, q) l.
Proof. by move=> /NoDup_cons_iff [h _] q hq; apply: h; apply: (in_map fst _ (n, q)). Qed.
Lemma named_tl l x : named (x :: l) -> named l.
Proof. by move=> /NoDup_cons_iff []. Qed.
Lemma In_get_double l n x : named l -> In (n, PDouble x) l -> get_double l n = Some x.
Proof.
elim: l => //= -[m p] l IH hn; case: (String.eqb_spec m n) => [e|ne] [] //.
- by case=> _ ->.
- by rewrite e in hn => h; case: (named_fst hn h).
- by case=> /ne.
- by apply: IH; apply: named_tl hn.
Qed.
Lemma get_bag_In l n t k : get_bag l n = Some (Bag t k) -> In (n, PBag t k) l.
Proof.
elim: l => //= -[m p] l IH; case: (String.eqb_spec m n) => [->|_]; last by right; apply: IH.
by case: p => [y|z|u|t' k' [-> ->]]; [right; apply: IH|right; apply: IH|right; apply: IH|left].
Qed.
Lemma In_get_bag l n t k : named l -> In (n, PBag t k) l -> get_bag l n = Some (Bag t k).
Proof.
elim: l => //= -[m p] l IH hn; case: (String.eqb_spec m n) => [e|ne] [] //.
- by case=> _ ->.
- by rewrite e in hn => h; case: (named_fst hn h).
- by case=> /ne.
- by apply: IH; apply: named_tl hn.
Qed.
Lemma no_bag l n : (forall t k, ~ In (n, PBag t k) l) -> get_bag l n = None.
Proof. by case e: (get_bag l n) => [[t k]|] // /(_ t k) []; apply: get_bag_In. Qed.
Lemma no_double l n : (forall x, ~ In (n, PDouble x) l) -> get_double l n = None.
Proof. by case e: (get_double l n) => [x|] // /(_ x) []; apply: get_double_In. Qed.

(** ** The loop of a vector *)
Lemma put_mid v x y w : put_ (v ++ x :: w) (size v) y = Ok (v ++ y :: w).
Proof. by elim: v => //= z v ->. Qed.
Lemma fill_ok (f : nat -> option R) m : forall v w, size w = m ->
  foldO (fun u i => if f i is Some x then vec_put u i x else UB) (v ++ w) (iota (size v).+1 m)
  = if all (fun i => f i) (iota (size v).+1 m)
    then Ok (v ++ [seq odflt 0 (f i) | i <- iota (size v).+1 m]) else UB.
Proof.
elim: m => [|m IH] v [|y w] //= [] hs.
case e: (f (size v).+1) => [x|] //=.
rewrite /ub_put size_cat /= -[X in (X < _)%N]addn0 ltn_add2l put_mid /=.
have := IH (rcons v x) w hs; rewrite size_rcons !cat_rcons => ->.
by [].
Qed.
Lemma resize_size v k : size (vec_resize v k) = k.
Proof.
rewrite /vec_resize /ub_resize size_cat size_take size_nseq.
by case: ltnP => h; rewrite ?(eqP (ltnW h)) ?subnKC // ?addn0.
Qed.
Lemma composeE ty b old : vec_compose ty b old =
  if (b_type b =? ty)%string then
    let n := size (b_items b) in
    if all (fun i => get_double (b_items b) (num_name i) : bool) (iota 1 n)
    then Ok (true, [seq odflt 0 (get_double (b_items b) (num_name i)) | i <- iota 1 n]) else UB
  else Ok (false, old).
Proof.
rewrite /vec_compose; case: ifP => // _ /=.
have := @fill_ok (fun i => get_double (b_items b) (num_name i)) (size (b_items b)) [::] _ (resize_size old (size (b_items b))).
by rewrite !cat0s /= => ->; case: ifP.
Qed.
Lemma compose_bag ty v b old : vec_bag ty v b -> vec_compose ty b old = Ok (true, v).
Proof.
case=> ht [hn hs hi]; rewrite composeE ht String.eqb_refl /= hs.
have H: forall i, (i < size v)%N -> get_double (b_items b) (num_name i.+1) = Some (nth 0 v i).
  by move=> i hv; apply: In_get_double => //; apply: hi.
have -> : all (fun i => get_double (b_items b) (num_name i) : bool) (iota 1 (size v)).
  by apply/allP => -[|i]; rewrite mem_iota //= add1n ltnS => /H ->.
congr (Ok (true, _)); apply: (@eq_from_nth _ 0); rewrite size_map size_iota // => i hv.
by rewrite (nth_map 0%N) ?size_iota // nth_iota // add1n H.
Qed.
Lemma compose_inv ty b old v : vec_compose ty b old = Ok (true, v) ->
  b_type b = ty /\ size v = size (b_items b) /\
  forall i, (i < size v)%N -> In (num_name i.+1, PDouble (nth 0 v i)) (b_items b).
Proof.
rewrite composeE; case: (String.eqb_spec (b_type b) ty) => //= ht; case: ifP => // ha [<-].
split=> //; split; first by rewrite size_map size_iota.
move=> i; rewrite size_map size_iota => hi.
rewrite (nth_map 0%N) ?size_iota // nth_iota // add1n.
move/allP: ha => /(_ i.+1); rewrite mem_iota /= add1n ltnS hi => /(_ isT).
by case e: (get_double _ _) => [x|] // _; apply: get_double_In.
Qed.

Lemma value_inv key k b x : value_compose key k b = Ok (Some x) ->
  kind_of x = k /\ exists n p, In (n, p) (b_items b) /\ val_item x p.
Proof.
rewrite /value_compose; case h: (get_bag _ _) => [[t l]|].
  case: k => //; case h1: (vec_compose _ _ _) => [[c v]||] //=; case: c h1 => // h1 [<-]; split=> //.
  have [ht [hs hi]] := compose_inv h1; rewrite /= in ht hs hi; subst t.
  exists key, (PBag "ColumnVector" l); split; first exact: get_bag_In.
  by right; exists l.
case: (b_items b) => // -[n p] l; case: k; case: p => // y [<-]; split=> //; do 2 eexists; split; try by left.
all: by [|left].
Qed.
Lemma decompose_ok ty v b : vec_decompose ty v b =
  Ok (Bag ty (b_items b ++ mkseq (fun i => (num_name i.+1, PDouble (nth 0 v i))) (size v))).
Proof.
rewrite /vec_decompose /set_type.
have H: forall k b0, (k <= size v)%N ->
  foldO (fun b i => let! x := vec_get v i in Ok (bag_add b (num_name i) (PDouble x))) b0 (iota 1 k)
  = Ok (Bag (b_type b0) (b_items b0 ++ mkseq (fun i => (num_name i.+1, PDouble (nth 0 v i))) k)).
  elim=> [|k IH] b0 hk; first by rewrite /= cats0; case: b0.
  rewrite (_ : iota 1 k.+1 = iota 1 k ++ [:: k.+1]); last by rewrite iota_end add1n.
  rewrite catO IH ?(ltnW hk) //= /ub_get hk (at_nth 0 hk) /=.
  by rewrite /bag_add /= rcons_cat /mkseq iota_end map_cat /= cats1.
by rewrite H.
Qed.

Lemma mkseq_named (p : nat -> prop R) k : named (mkseq (fun i => (num_name i.+1, p i)) k).
Proof.
rewrite /named -[List.map]/(@map) -map_comp /comp /=.
elim: k 0%N => [|k IH] m /=; constructor; last exact: IH.
move=> /in_map_iff [i [/num_name_inj [->]]] /In_iota.
by rewrite ltnn.
Qed.
Lemma In_mkseq A (f : nat -> A) k i : (i < k)%N -> In (f i) (mkseq f k).
Proof.
move=> h; apply/in_map_iff; exists i; split=> //.
elim: k h => // k IH; rewrite ltnS leq_eqVlt iota_end => /orP [/eqP ->|/IH h]; apply/in_app_iff.
- by right; left.
- by left.
Qed.
Lemma decompose_bag ty v b : b_items b = [::] ->
  exists2 b', vec_decompose ty v b = Ok b' & vec_bag ty v b'.
Proof.
move=> h; rewrite decompose_ok h cat0s; eexists; first by [].
split=> //; split; [exact: mkseq_named|by rewrite size_mkseq|].
by move=> i hi; apply: (In_mkseq (fun i => (num_name i.+1, PDouble v`_i)) hi).
Qed.

(** ** Matrices *)
Lemma copy_ok c (d : seq (seq R)) i r : (i < size d)%N -> size (nth [::] d i) = c -> size r = c ->
  foldO (fun m j => let! x := vec_get r j in mat_put dbg m i.+1 j x) (RMat c d) (iota 1 c)
  = Ok (RMat c (set_nth [::] d i r)).
Proof.
move=> hi hc hr.
have H: forall k, (k <= c)%N ->
  foldO (fun m j => let! x := vec_get r j in mat_put dbg m i.+1 j x) (RMat c d) (iota 1 k)
  = Ok (RMat c (set_nth [::] d i (take k r ++ drop k (nth [::] d i)))).
  elim=> [|k IH] hk.
    by rewrite take0 drop0 cat0s /=; congr (Ok (RMat _ _)); apply: (@eq_from_nth _ [::]);
       [rewrite size_set_nth (maxn_idPr hi)|move=> j _; rewrite nth_set_nth /=; case: eqP => [->|]].
  rewrite iota_end catO IH ?(ltnW hk) //= add1n /= /ub_get hr hk (at_nth 0) ?hr //=.
  rewrite /mat_put /= size_set_nth (maxn_idPr hi) hi hk /=.
  rewrite (at_nth [::]) ?size_set_nth ?(maxn_idPr hi) //= nth_set_nth /= eqxx.
  have ht: size (take k r) = k by rewrite size_take hr hk.
  rewrite (drop_nth 0) ?hc //.
  have := put_mid (take k r) (nth 0 (nth [::] d i) k) (nth 0 r k) (drop k.+1 (nth [::] d i)); rewrite ht => -> /=.
  rewrite (put_set_nth [::]) ?size_set_nth ?(maxn_idPr hi) //= set_set_nth eqxx.
  by rewrite (take_nth 0) ?hr // cat_rcons.
by rewrite H // take_oversize ?hr // drop_oversize ?hc // cats0.
Qed.
(** the rows a bag describes *)
Definition reads (l : items R) (T : seq (seq R)) (k m c : nat) : Prop := forall i, (k <= i < k + m)%N ->
  exists2 rb, get_bag l (num_name i.+1) = Some rb
    & vec_compose "RowVector" rb [::] = Ok (true, nth [::] T i) /\ size (nth [::] T i) = c.
Lemma rows_ok l T c m : forall k d, (0 < k)%N -> size d = (k + m)%N -> size T = (k + m)%N ->
  (forall i, (i < size d)%N -> size (nth [::] d i) = c) -> reads l T k m c ->
  rows_loop junk dbg l (k + m) c (RMat c d) (iota k.+1 m) = Ok (true, RMat c (take k d ++ drop k T)).
Proof.
elim: m => [|m IH] k d hk hd hT hc hr.
  by rewrite addn0 in hd hT; rewrite /= take_oversize ?hd // drop_oversize ?hT // cats0.
have hkm: (k <= k < k + m.+1)%N by rewrite leqnn -addSnnS ltn_addr.
case: (hr k hkm) => rb hb [hv hs] /=; rewrite hb hv /= hs eqxx andbF /=.
have k1: (k.+1 == 1)%N = false by case: (k) hk.
case/andP: hkm => _ hkm.
rewrite k1 copy_ok ?hd ?hc ?hd //=.
have := IH k.+1 (set_nth [::] d k (nth [::] T k)); rewrite addSnnS => -> //.
- congr (Ok (true, RMat _ _)).
  have hz: (k < size d)%N by rewrite hd.
  rewrite (take_nth [::]) ?size_set_nth ?(maxn_idPr hz) // nth_set_nth /= eqxx.
  rewrite (drop_nth [::] (_ : k < size T)%N) ?hT // cat_rcons; congr (_ ++ _).
  apply: (@eq_from_nth _ [::]); rewrite !size_take size_set_nth (maxn_idPr hz) hz // => j hj.
  by rewrite !nth_take // nth_set_nth /= (ltn_eqF hj).
- by rewrite size_set_nth (maxn_idPr _) hd.
- move=> i; rewrite size_set_nth (maxn_idPr _) ?hd // => hi.
  by rewrite nth_set_nth /=; case: eqP => _ //; apply: hc; rewrite hd.
- move=> i /andP [h1 h2]; apply: hr; rewrite (ltnW h1) /=.
  by rewrite -addSnnS.
Qed.
Lemma loop_ok l T m c old : size T = m.+1 -> reads l T 0 m.+1 c ->
  rows_loop junk dbg l m.+1 0 old (iota 1 m.+1) = Ok (true, RMat c T).
Proof.
move=> hT hr; case: (hr 0%N isT) => rb hb [hv hs].
have -> : iota 1 m.+1 = 1%N :: iota 2 m by [].
rewrite /rows_loop -/(rows_loop junk dbg) hb hv /obind /fst /snd /negb eqxx /andb hs /mat_resize.
set d := mkseq _ _.
have hd: size d = m.+1 by rewrite size_mkseq.
rewrite copy_ok ?hd // ?nth_mkseq ?size_mkseq //.
have := @rows_ok l T c m 1 (set_nth [::] d 0 (nth [::] T 0)) isT; rewrite add1n => -> //.
- by congr (Ok (true, RMat _ _)); case: (T) hT => //= r T' _; rewrite take0 drop0.
- move=> i; rewrite size_set_nth (maxn_idPr _) ?hd // => hi.
  by rewrite nth_set_nth /=; case: eqP => _ //; rewrite nth_mkseq ?size_mkseq.
- by move=> i /andP [h1 h2]; apply: hr; rewrite add0n -add1n.
Qed.
Lemma bag_reads ty T b c : rows_bag ty T b -> (forall i, (i < size T)%N -> size (nth [::] T i) = c) ->
  reads (b_items b) T 0 (size T) c.
Proof.
case=> ht hn hs hi hc i /andP [_]; rewrite add0n => h.
case: (hi i h) => l hl hv; exists (Bag "RowVector" l); first exact: In_get_bag.
by split; [apply: compose_bag; split|apply: hc].
Qed.
Lemma compose_rows ty T b c old : T <> [::] -> rows_bag ty T b ->
  (forall i, (i < size T)%N -> size (nth [::] T i) = c) ->
  rows_compose junk dbg ty b old = Ok (true, RMat c T).
Proof.
move=> hT hb hc; have := bag_reads hb hc; case: hb => ht _ hs _.
rewrite /rows_compose ht String.eqb_refl hs; case e: (size T) => [|m] hr; last exact: loop_ok.
by case: hT; apply: size0nil.
Qed.
Lemma row_ok (m : rmat R) i : shaped m -> (i < size (x_rows m))%N -> mat_row dbg m i.+1 = Ok (nth [::] (x_rows m) i).
Proof.
move=> hm hi; rewrite /mat_row.
rewrite (@mapO_eq_ok _ _ _ (nth 0 (nth [::] (x_rows m) i))).
  by congr Ok; rewrite -(hm i hi) -[LHS]/(mkseq _ _) mkseq_nth.
move=> j; rewrite mem_iota add0n => /andP [_ hj].
by rewrite /mat_get /= hi hj /= (at_nth [::] hi) /= (at_nth 0) // hm.
Qed.
Lemma decompose_rows (m : rmat R) b ty : shaped m -> b_items b = [::] ->
  exists2 b', foldO (fun b i => let! r := mat_row dbg m i in add_row b i r) (set_type b ty) (iota 1 (size (x_rows m))) = Ok b'
    & rows_bag ty (x_rows m) b'.
Proof.
move=> hm hb.
pose P i := PBag "RowVector" (mkseq (fun j => (num_name j.+1, PDouble (nth 0 (nth [::] (x_rows m) i) j))) (size (nth [::] (x_rows m) i))).
have H: forall k, (k <= size (x_rows m))%N ->
  foldO (fun b i => let! r := mat_row dbg m i in add_row b i r) (set_type b ty) (iota 1 k)
  = Ok (Bag ty (mkseq (fun i => (num_name i.+1, P i)) k)).
  elim=> [|k IH] hk; first by rewrite /= /set_type hb.
  rewrite iota_end catO IH ?(ltnW hk) //= add1n row_ok //= /add_row decompose_ok /=.
  by rewrite /bag_add /= /mkseq iota_end map_cat cats1.
rewrite H //; eexists; first by [].
split=> //=; [exact: mkseq_named|by rewrite size_mkseq|].
move=> i hi; eexists; first exact: (In_mkseq (fun i => (num_name i.+1, P i)) hi).
split; [exact: mkseq_named|by rewrite size_mkseq|].
by move=> j hj; apply: (In_mkseq (fun j => (num_name j.+1, PDouble (nth 0 (nth [::] (x_rows m) i) j))) hj).
Qed.

Lemma In_some l n x : In (n, PDouble x) l -> get_double l n <> None.
Proof.
elim: l => //= -[m p] l IH; case: (String.eqb_spec m n) => [e|ne] [] //.
- by case=> _ ->.
- by case: p => // *; apply: IH.
- by case=> /ne.
Qed.
(** ** What a successful loop over the rows has read *)
Lemma rows_inv l rows m' : forall (n : nat) k c m, (0 < k)%N ->
  rows_loop junk dbg l rows c m (iota k n) = Ok (true, m') ->
  forall i, (k <= i < k + n)%N -> exists rb r, [/\ get_bag l (num_name i) = Some rb,
    vec_compose "RowVector" rb [::] = Ok (true, r) & i != 1%N -> (k != 1%N -> size r = c)].
Proof.
elim=> [|n IH] k c m hk; first by move=> _ i; rewrite addn0 => /andP [/leq_ltn_trans h /h]; rewrite ltnn.
rewrite /= ; case hb: (get_bag l (num_name k)) => [rb|] //.
case hv: (vec_compose "RowVector" rb [::]) => [[b r]||] //=; case: b hv => //= hv.
case: ifP => // hc; set m1 := (if k == 1%N then _ else _).
case: (foldO _ _ _) => //= m2 h i /andP []; rewrite leq_eqVlt => /orP [/eqP <- _|h1 h2].
  exists rb, r; split=> // _ h1; move: hc; rewrite h1 /=; by case: eqP.
have hi: (k.+1 <= i < k.+1 + n)%N by rewrite h1 addSnnS.
have [rb' [r' [e1 e2 e3]]] := IH _ _ _ (ltn0Sn k) h i hi.
exists rb', r'; split=> // i1 k1; rewrite e3 // ?(negbTE k1) //.
by case: (k) hk.
Qed.
Lemma loop_inv l (n : nat) old m : rows_loop junk dbg l n.+1 0 old (iota 1 n.+1) = Ok (true, m) ->
  exists T c, [/\ size T = n.+1, reads l T 0 n.+1 c & m = RMat c T].
Proof.
move=> h.
pose read i := if get_bag l (num_name i.+1) is Some rb then
  (if vec_compose "RowVector" rb [::] is Ok x then x.2 else [::]) else [::].
have H1: forall i, (i < n.+1)%N -> exists rb, get_bag l (num_name i.+1) = Some rb /\ vec_compose "RowVector" rb [::] = Ok (true, read i).
  move=> i hi; have [|rb [r [e1 e2 _]]] := rows_inv (isT : (0 < 1)%N) h (i := i.+1); first by rewrite add1n ltnS.
  by exists rb; rewrite /read e1 e2.
have H2: forall i, (i < n.+1)%N -> size (read i) = size (read 0%N).
  case=> // i hi; move: h; have [rb [e1 e2]] := H1 0%N isT.
  have -> : iota 1 n.+1 = 1%N :: iota 2 n by [].
  rewrite /rows_loop -/(rows_loop junk dbg) e1 e2 /obind /fst /snd /negb eqxx /andb.
  case: foldO => // m2 h; have [|rb' [r [f1 f2 f3]]] := rows_inv (isT : (0 < 2)%N) h (i := i.+2).
    by move: hi; rewrite !ltnS.
  have [rb2 [g1 g2]] := H1 _ hi; move: g1 g2; rewrite f1 => -[<-]; rewrite f2 => -[<-].
  exact: f3.
have hr: reads l (mkseq read n.+1) 0 n.+1 (size (read 0%N)).
  move=> i /andP [_]; rewrite add0n => hi; have [rb [e1 e2]] := H1 i hi.
  by exists rb; rewrite // nth_mkseq // e2 H2.
exists (mkseq read n.+1), (size (read 0%N)); split=> //; first by rewrite size_mkseq.
have := loop_ok old (size_mkseq read n.+1) hr; rewrite h => -[] //.
Qed.
(** ** Symmetric matrices *)
Lemma sym_shaped (s : rsym R) : shaped (sym_mat junk s).
Proof. by move=> i; rewrite /= size_mkseq => hi; rewrite nth_mkseq // size_mkseq. Qed.
Lemma sym_full (s : rsym R) : triangle s -> x_rows (sym_mat junk s) = full s.
Proof.
move=> hs /=; apply/eq_in_map => i; rewrite mem_iota => /andP [_ hi].
apply/eq_in_map => j; rewrite mem_iota => /andP [_ hj].
rewrite /sym_el; case: leqP => h.
- by apply: set_nth_default; rewrite hs.
- by apply: set_nth_default; rewrite hs // ltnW.
Qed.
Lemma row_part (d : bool) (rows : seq (seq R)) c i k : (forall i, (i < size rows)%N -> size (nth [::] rows i) = c) ->
  (i < size rows)%N -> (k <= c)%N ->
  mapO (fun j => mat_get d (RMat c rows) i.+1 j.+1) (iota 0 k) = Ok (take k (nth [::] rows i)).
Proof.
move=> h hi hk; rewrite (@mapO_eq_ok _ _ _ (nth 0 (nth [::] rows i))) => [|j].
  congr Ok; apply: (@eq_from_nth _ 0); first by rewrite size_map size_iota size_takel // h.
  move=> j; rewrite size_map size_iota => hj; rewrite (nth_map 0%N) ?size_iota // nth_iota // add0n.
  by rewrite nth_take.
rewrite mem_iota add0n => /andP [_ hj]; have hj' := leq_trans hj hk.
by rewrite /mat_get /= hi hj' /= (at_nth [::] hi) /= (at_nth 0) // h.
Qed.
Lemma to_sym_wide (d : bool) (rows : seq (seq R)) c : (forall i, (i < size rows)%N -> size (nth [::] rows i) = c) ->
  (size rows <= c)%N -> (d -> size rows = c) -> to_sym d (RMat c rows) = Ok (lower rows).
Proof.
move=> h hc hd; rewrite /to_sym [x_rows _]/= [x_cols _]/=.
have -> : assert_ d (size rows == c) = Ok tt by rewrite /assert_ /guard; case: d hd => // ->; rewrite ?eqxx.
rewrite [obind (Ok tt) _]/=.
rewrite (@mapO_eq_ok _ _ _ (fun i => take i.+1 (nth [::] rows i))) // => i; rewrite mem_iota add0n => /andP [_ hi].
exact: (row_part d h hi (leq_trans hi hc)).
Qed.
Lemma to_sym_ok (rows : seq (seq R)) : (forall i, (i < size rows)%N -> size (nth [::] rows i) = size rows) ->
  to_sym dbg (RMat (size rows) rows) = Ok (lower rows).
Proof. by move=> h; apply: to_sym_wide. Qed.
Lemma mapO_UB A B (f : A -> outcome B) (s1 s2 : seq A) x : (forall y, In y s1 -> exists z, f y = Ok z) ->
  f x = UB -> mapO f (s1 ++ x :: s2) = UB.
Proof.
move=> h hx; elim: s1 h => [|y s1 IH] h /=; first by rewrite hx.
have [z ->] := h y (or_introl erefl); rewrite /= IH // => u hu; apply: h; by right.
Qed.
Lemma to_sym_narrow (rows : seq (seq R)) c : (forall i, (i < size rows)%N -> size (nth [::] rows i) = c) ->
  (c < size rows)%N -> to_sym false (RMat c rows) = UB.
Proof.
move=> h hc; rewrite /to_sym [x_rows _]/= [assert_ _ _]/= [obind (Ok tt) _]/=.
have -> : iota 0 (size rows) = iota 0 c ++ c :: iota c.+1 (size rows - c.+1).
  by rewrite -[in LHS](subnKC hc) addSnnS iotaD.
apply: mapO_UB => [i /In_iota|].
  rewrite add0n => /andP [_ hi]; eexists; exact: (row_part false h (ltn_trans hi hc) hi).
change (mapO (fun j => mat_get false (RMat c rows) c.+1 j.+1) (iota 0 c.+1) = UB).
rewrite iota_end; apply: mapO_UB => [j /In_iota|].
  rewrite add0n => /andP [_ hj]; rewrite /mat_get /= hc hj /= (at_nth [::] hc) /=.
  by rewrite (at_nth 0) ?h //; eexists.
by rewrite add0n /mat_get /= hc ltnn.
Qed.
Lemma lower_full (s : rsym R) : triangle s -> lower (full s) = s.
Proof.
move=> hs; apply: (@eq_from_nth _ [::]); first by rewrite !size_mkseq.
rewrite !size_mkseq => i hi; rewrite nth_mkseq ?size_mkseq // nth_mkseq //.
apply: (@eq_from_nth _ 0); first by rewrite size_takel ?size_mkseq ?hs.
move=> j; rewrite size_takel ?size_mkseq // => hj.
rewrite nth_take // nth_mkseq; last exact: (leq_ltn_trans _ hi).
by rewrite -ltnS hj.
Qed.
End Bags.
