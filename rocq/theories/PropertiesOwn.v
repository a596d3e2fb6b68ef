(** * Objects that own storage: C68 *)
From mathcomp Require Import all_ssreflect all_algebra zify.
From Verif Require Import Outcome Simulation SpecProb SpecDiscretePdf ModelTables ModelDiscretePdf ModelCondPdf ModelMixture SpecMixture.
From Verif Require Import ProofsDiscretePdf ProofsMixture ProofsFilter ModelOwn SpecOwn.
Set Implicit Arguments. Unset Strict Implicit. Unset Printing Implicit Defensive.

Lemma at_ifN A (l : seq (option A)) i : at_ l i = if i < size l then Ok (nth None l i) else UB.
Proof. by case: ltnP => h; [apply: at_nth|apply: at_UB]. Qed.
Lemma put_if A (d : A) l i x : put_ l i x = if i < size l then Ok (set_nth d l i x) else UB.
Proof. by case: ltnP => h; [apply: put_set_nth|apply: put_UB]. Qed.
Lemma nth_lt A (l : seq (option A)) i x : nth None l i = Some x -> i < size l.
Proof. by case: (ltnP i (size l)) => // h; rewrite nth_default. Qed.
Lemma nth_rconsN A (l : seq (option A)) x i :
  nth None (rcons l (Some x)) i = if i == size l then Some x else nth None l i.
Proof.
rewrite nth_rcons; case: ltngtP => // h; by rewrite nth_default // ltnW.
Qed.
Lemma size_setn A (d : A) l i x : i < size l -> size (set_nth d l i x) = size l.
Proof. by move=> h; rewrite size_set_nth; apply/maxn_idPr. Qed.

Section Own.
Variables (B S Arg Op Res : Type).
Variables (make : Arg -> outcome (B * S)) (copy : B * S -> outcome (B * S)).
Variable act : B * S -> Op -> outcome (Res * (B * S)).
Implicit Types (st : own B S) (vs : seq (option (B * S))) (os : seq (oop Arg Op)).

Section Frees.
Variable frees : bool.
Notation ow_step := (ow_step make copy act frees).
Notation ow_run := (ow_run make copy act frees).
Notation v_step := (v_step make copy act).
Notation v_run := (v_run make copy act).

Record agree st vs : Prop := Agree {
  ag_size : size (ow_objs st) = size vs;
  ag_some : forall i b p, nth None (ow_objs st) i = Some (b, p) ->
    exists2 s, nth None (ow_heap st) p = Some s & nth None vs i = Some (b, s);
  ag_none : forall i, nth None (ow_objs st) i = None -> nth None vs i = None;
  ag_inj : forall i j b b' p, nth None (ow_objs st) i = Some (b, p) ->
    nth None (ow_objs st) j = Some (b', p) -> i = j;
  ag_leak : if frees then forall p s, nth None (ow_heap st) p = Some s -> owned st p
            else size (ow_heap st) = size (ow_objs st) /\
                 forall p, p < size (ow_heap st) -> isSome (nth None (ow_heap st) p) }.

Lemma agree0 : agree (Own [::] [::]) [::].
Proof.
split; [by []|by move=> i b p; rewrite /= nth_nil|by move=> i; rewrite /= !nth_nil|by move=> i j b b' p; rewrite /= nth_nil|].
by case: frees => //= p s; rewrite nth_nil.
Qed.

Lemma sim_obj st vs i : agree st vs ->
  simO (fun x v => exists2 s, v = (x.1, s) &
          nth None (ow_objs st) i = Some x /\ nth None (ow_heap st) x.2 = Some s) (ow_obj st i) (v_obj vs i).
Proof.
case=> hz hs hn _ _; rewrite /ow_obj /v_obj !at_ifN hz; case: ifP => //= hi.
case ho: (nth None (ow_objs st) i) => [[b p]|]; last by rewrite hn.
by have [s h1 ->] := hs _ _ _ ho; exists s.
Qed.
Lemma sim_load st vs i : agree st vs -> ow_load st i = v_obj vs i.
Proof.
move=> h; have := sim_obj i h; rewrite /ow_load; case: (ow_obj st i) => [x||]; case: (v_obj vs i) => [v||] //=.
by case=> s -> [_ h2]; rewrite /ow_cell at_ifN (nth_lt h2) /= h2.
Qed.
Lemma agree_alloc st vs v : agree st vs -> agree (ow_alloc st v) (rcons vs (Some v)).
Proof.
case=> hz hs hn hi hl; split.
- by rewrite /= !size_rcons hz.
- move=> i b p; rewrite /= !nth_rconsN hz; case: eqP => [_ [<- <-]|_ ho].
    by exists v.2; rewrite ?eqxx //; case: v.
  have [s h1 h2] := hs _ _ _ ho; exists s => //.
  by rewrite ltn_eqF // (nth_lt h1).
- by move=> i; rewrite /= !nth_rconsN hz; case: eqP => // _; exact: hn.
- move=> i j b b' p /=; rewrite !nth_rconsN.
  case: eqP => [->|_]; case: eqP => [->|_] //.
  + by move=> [_ <-] h2; have [s h3 _] := hs _ _ _ h2; have := nth_lt h3; rewrite ltnn.
  + by move=> h2 [_ e]; have [s h3 _] := hs _ _ _ h2; have := nth_lt h3; rewrite e ltnn.
  exact: hi.
case: frees hl => hl /=; last first.
  case: hl => hl1 hl2; rewrite !size_rcons hl1; split=> // p hp.
  by rewrite nth_rconsN; case: eqP => // hne; apply: hl2; lia.
move=> p s; rewrite /owned /= nth_rconsN; case: eqP => [->|_] hp.
  by exists (size (ow_objs st)), v.1; rewrite nth_rconsN eqxx.
have [i [b ho]] := hl _ _ hp; exists i, b; rewrite nth_rconsN ltn_eqF //; exact: nth_lt ho.
Qed.

Lemma sim_step st vs o : agree st vs -> (if o is OAssign _ _ then false else true) ->
  simO (fun r q => r.1 = q.1 /\ agree r.2 q.2) (ow_step st o) (v_step vs o).
Proof.
move=> h; case: o => [a|i|i j|i o|i] //= _.
- by apply: simO_same => v; split=> //; exact: agree_alloc.
- rewrite (sim_load i h); apply: simO_same => v; apply: simO_same => v'.
  by split=> //; exact: agree_alloc.
- rewrite (sim_load i h); have := sim_obj i h.
  case: (ow_obj st i) => [[b p]||]; case: (v_obj vs i) => [v||] //= [s -> [ho hp]].
  case: (act _ o) => [[r [b' s']]||] //=.
  case: (h) => hz hs hn hi hl.
  rewrite (put_if None) (nth_lt hp) /= !(put_if None) -hz (nth_lt ho) /=; split=> //; split=> /=.
  + by rewrite !size_setn ?(nth_lt ho) -?hz ?(nth_lt ho).
  + move=> k c q; rewrite !nth_set_nth /=; case: eqP => [_ [<- <-]|hk hok].
      by exists s'; rewrite ?eqxx.
    have [t h1 h2] := hs _ _ _ hok; exists t => //.
    by case: eqP => // e; case: hk; rewrite e in hok; exact: hi hok ho.
  + by move=> k; rewrite !nth_set_nth /=; case: eqP => // _; exact: hn.
  + move=> k l c c' q; rewrite !nth_set_nth /=.
    case: eqP => [->|hk]; case: eqP => [->|hl'] //.
    * by move=> [_ <-] h2; exact: hi ho h2.
    * by move=> h2 [_ e]; rewrite -e in h2; exact: hi h2 ho.
    exact: hi.
  case: frees hl => [hl q t|[hl1 hl2]]; last first.
    rewrite !size_setn ?(nth_lt ho) ?(nth_lt hp) //; split=> // q hq.
    by rewrite nth_set_nth /=; case: eqP => // _; exact: hl2.
  rewrite nth_set_nth /owned /=; case: eqP => [->|_].
    by move=> _; exists i, b'; rewrite nth_set_nth /= eqxx.
  move=> /hl[k [c hk]]; case: (k =P i) => [e|hne].
    by exists i, b'; rewrite nth_set_nth /= eqxx; rewrite e ho in hk; case: hk => _ <-.
  by exists k, c; rewrite nth_set_nth /=; case: eqP.
have := sim_obj i h; case: (ow_obj st i) => [[b p]||]; case: (v_obj vs i) => [v||] //= [s _ [ho hp]].
case: (h) => hz hs hn hi hl.
have hput : put_ (ow_objs st) i None = Ok (set_nth None (ow_objs st) i None).
  by rewrite (put_if None) (nth_lt ho).
have hput' : put_ vs i None = Ok (set_nth None vs i None) by rewrite (put_if None) -hz (nth_lt ho).
move: hl; case hf: frees => /= hl; last first.
  case: hl => hl1 hl2.
  rewrite hput hput' /=; split=> //; split=> /=.
  - by rewrite !size_setn -?hz ?(nth_lt ho).
  - by move=> k c q; rewrite !nth_set_nth /=; case: eqP => // _; exact: hs.
  - by move=> k; rewrite !nth_set_nth /=; case: eqP => // _; exact: hn.
  - by move=> k l c c' q; rewrite !nth_set_nth /=; case: eqP => // _; case: eqP => // _; exact: hi.
  by rewrite hf size_setn ?(nth_lt ho).
rewrite /ow_cell at_ifN (nth_lt hp) /= hp /= (put_if None) (nth_lt hp) /= hput hput' /=; split=> //; split=> /=.
- by rewrite !size_setn -?hz ?(nth_lt ho).
- move=> k c q; rewrite !nth_set_nth /=; case: eqP => // hk hok.
  have [t h1 h2] := hs _ _ _ hok; exists t => //.
  by case: eqP => // e; case: hk; rewrite e in hok; exact: hi hok ho.
- by move=> k; rewrite !nth_set_nth /=; case: eqP => // _; exact: hn.
- by move=> k l c c' q; rewrite !nth_set_nth /=; case: eqP => // _; case: eqP => // _; exact: hi.
rewrite hf => q t; rewrite nth_set_nth /owned /=; case: eqP => // hq /hl[k [c hk]].
exists k, c; rewrite nth_set_nth /=; case: eqP => // e; case: hq.
by rewrite e ho in hk; case: hk => _ <-.
Qed.
Lemma sim_run st vs os : agree st vs -> no_assign os ->
  simO (fun r q => r.1 = q.1 /\ agree r.2 q.2) (ow_run st os) (v_run vs os).
Proof.
elim: os st vs => [|o os IH] st vs h //= /andP[ho hos].
apply: simO_bind (sim_step h ho) _ => r q [-> hr].
by apply: simO_bind (IH _ _ hr hos) _ => r' q' [-> hr'].
Qed.
Lemma agree_contents st vs : agree st vs -> contents st = vs.
Proof.
case=> hz hs hn _ _; apply: (@eq_from_nth _ None); rewrite size_map // => i hi.
rewrite (nth_map None) //; case ho: (nth None (ow_objs st) i) => [[b p]|]; last by rewrite hn.
by have [s /= -> ->] := hs _ _ _ ho.
Qed.

(** ** C68 *)
(** Without assignment, objects are values: for every program with any number of
    objects that are constructed, copied, used and destroyed, the results and
    the contents are those of independent values; a program fails or is
    undefined exactly when it is with values (that is: a destroyed object is
    used). *)
Theorem C68_value_semantics os : no_assign os ->
  (let! r := ow_run (Own [::] [::]) os in Ok (r.1, contents r.2)) = v_run [::] os.
Proof.
move=> hos; have := sim_run agree0 hos.
case: (ow_run _ os) => [[r st]||]; case: (v_run _ os) => [[q vs]||] //= [-> h].
by rewrite (agree_contents h).
Qed.
End Frees.

(** No leak, if the destructor releases the storage: every piece of storage
    belongs to exactly one object that exists; when all objects are gone, so is
    all storage. *)
Theorem C68_no_leak os r st : no_assign os -> ow_run make copy act true (Own [::] [::]) os = Ok (r, st) ->
  (forall p s, nth None (ow_heap st) p = Some s -> owned st p) /\
  (live (ow_objs st) = 0 -> live (ow_heap st) = 0).
Proof.
move=> hos hr; have := sim_run (agree0 true) hos; rewrite hr; case: (v_run _ _ _ _ _) => [[q vs]||] //= [_ h].
have hl := ag_leak h; split=> // /eqP h0; apply/eqP; rewrite -leqn0 leqNgt; apply/negP.
rewrite -has_count => /(has_nthP None)[p hp]; case hc: (nth None _ p) => [s|] // _.
have [i [b ho]] := hl _ _ hc; move: h0; rewrite -leqn0 leqNgt -has_count => /negP[].
by apply/(has_nthP None); exists i; rewrite ?ho //; exact: nth_lt ho.
Qed.

(** If it does not, all storage ever allocated stays. *)
Theorem C68_leak_refuted os r st : no_assign os -> ow_run make copy act false (Own [::] [::]) os = Ok (r, st) ->
  live (ow_heap st) = size (ow_objs st).
Proof.
move=> hos hr; have := sim_run (agree0 false) hos; rewrite hr; case: (v_run _ _ _ _ _) => [[q vs]||] //= [_ h].
have [/= <- hl] := ag_leak h; rewrite /live; apply/eqP; rewrite -all_count.
apply/(all_nthP None) => p hp; by have := hl _ hp; case: (nth _ _ p).
Qed.

(** ** Assignment *)
Notation ow_step := (ow_step make copy act).
Notation ow_run := (ow_run make copy act).
Lemma loadE st i b p s : nth None (ow_objs st) i = Some (b, p) -> nth None (ow_heap st) p = Some s ->
  ow_load st i = Ok (b, s).
Proof. by move=> h1 h2; rewrite /ow_load /ow_obj at_ifN (nth_lt h1) /= h1 /= /ow_cell at_ifN (nth_lt h2) /= h2. Qed.
Section Assign.
Variables (frees : bool) (st : own B S) (i j p q : nat) (b c : B) (s t : S).
Hypotheses (ne : i <> j) (oi : nth None (ow_objs st) i = Some (b, p)) (oj : nth None (ow_objs st) j = Some (c, q)).
Hypotheses (hp : nth None (ow_heap st) p = Some s) (hq : nth None (ow_heap st) q = Some t).
Let st1 := Own (ow_heap st) (set_nth None (ow_objs st) i (Some (c, q))).
Lemma assignE : ow_step frees st (OAssign i j) = Ok (None, st1).
Proof.
rewrite /= /ow_obj !at_ifN (nth_lt oi) (nth_lt oj) /= oi oj /= (put_if None) (nth_lt oi) //.
Qed.
(** [a = b; a] and [b] are destroyed: the storage is released twice. *)
Theorem C68_assign_double_free_refuted :
  ow_run true st [:: OAssign i j; ODestroy i; ODestroy j] = UB /\
  ow_run true st [:: OAssign i j; ODestroy j; ODestroy i] = UB.
Proof.
have e1 : nth None (ow_objs st1) i = Some (c, q) by rewrite nth_set_nth /= eqxx.
have e2 : nth None (ow_objs st1) j = Some (c, q) by rewrite nth_set_nth /=; case: eqP => // e; case: ne.
have st1E : ow_step true st (OAssign i j) = Ok (None, st1).
  rewrite /= /ow_obj !at_ifN (nth_lt oi) (nth_lt oj) /= oi oj /= (put_if None) (nth_lt oi) //.
have des k l : nth None (ow_objs st1) k = Some (c, q) -> nth None (ow_objs st1) l = Some (c, q) -> k <> l ->
    (let! r := ow_step true st1 (ODestroy k) in let! q := ow_run true r.2 [:: ODestroy l] in Ok (r.1 :: q.1, q.2)) = UB.
  move=> hk hl hkl; rewrite /= /ow_obj !at_ifN (nth_lt hk) /= hk /= /ow_cell at_ifN (nth_lt hq) /= hq /=.
  rewrite (put_if None) (nth_lt hq) /= (put_if None) (nth_lt hk) /= at_ifN size_setn ?(nth_lt hk) //.
  rewrite (nth_lt hl) /= nth_set_nth /=; case: eqP => [e|_]; first by case: hkl.
  by rewrite hl /= at_ifN size_setn ?(nth_lt hq) //= nth_set_nth /= eqxx.
split; rewrite -[LHS]/(let! r := ow_step true st (OAssign i j) in let! q := _ in Ok (r.1 :: q.1, q.2)) st1E.
  rewrite [obind (Ok _) _]/= -[X in obind X _]/(let! r := ow_step true st1 (ODestroy i) in
    let! q := ow_run true r.2 [:: ODestroy j] in Ok (r.1 :: q.1, q.2)) des //.
rewrite [obind (Ok _) _]/= -[X in obind X _]/(let! r := ow_step true st1 (ODestroy j) in
    let! q := ow_run true r.2 [:: ODestroy i] in Ok (r.1 :: q.1, q.2)) des //.
by move=> e; case: ne.
Qed.
(** After [a = b] a change of [b] changes the storage of [a], but not the
    members that [a] holds by value. *)
Theorem C68_assign_shares_refuted o r c' t' : act (c, t) o = Ok (r, (c', t')) ->
  exists2 st', ow_run frees st [:: OAssign i j; OAct j o] = Ok ([:: None; Some r], st') &
    ow_load st' i = Ok (c, t') /\ ow_load st' j = Ok (c', t').
Proof.
move=> ha; rewrite -[ow_run _ _ _]/(let! r := ow_step frees st (OAssign i j) in
  let! q := _ in Ok (r.1 :: q.1, q.2)) assignE.
have e2 : nth None (ow_objs st1) j = Some (c, q) by rewrite nth_set_nth /=; case: eqP => // e; case: ne.
have hl : ow_load st1 j = Ok (c, t).
  exact: loadE e2 hq.
have ho : ow_obj st1 j = Ok (c, q) by rewrite /ow_obj at_ifN (nth_lt e2) e2.
rewrite /= ho hl /= ha /= (put_if None) (nth_lt hq) /= (put_if None) (nth_lt e2) /=.
eexists; first by [].
split; [apply: (@loadE _ i c q t')|apply: (@loadE _ j c' q t')] => /=; rewrite !nth_set_nth /= ?eqxx //.
by case: eqP => [e|_]; [case: ne|rewrite ?nth_set_nth /= ?eqxx].
Qed.
(** The storage that [a] had is lost (if no other object used it). *)
Theorem C68_assign_leaks_refuted : (forall k d, nth None (ow_objs st) k = Some (d, p) -> k = i) -> p <> q ->
  exists2 st', ow_run frees st [:: OAssign i j] = Ok ([:: None], st') &
    nth None (ow_heap st') p = Some s /\ ~ owned st' p.
Proof.
move=> hu hpq; exists st1.
  by rewrite -[ow_run _ _ _]/(let! r := ow_step frees st (OAssign i j) in let! q := _ in Ok (r.1 :: q.1, q.2)) assignE.
split=> // -[k [d]]; rewrite nth_set_nth /=; case: eqP => [_ [_ e]|hk ho]; first by case: hpq.
by case: hk; exact: hu ho.
Qed.
End Assign.
End Own.

(** ** The three classes *)
Import Order.TTheory GRing.Theory Num.Theory.
Local Open Scope ring_scope.
Section Classes.
Variables (R : realFieldType) (eps : R) (C : Type).
Theorem C68_classes :
  (forall os, no_assign os -> (let! r := dpo_run eps (Own [::] [::]) os in Ok (r.1, contents r.2)) =
     v_run (dpo_make eps) (dpo_copy eps) (@dpo_act R eps) [::] os) /\
  (forall os, no_assign os -> (let! r := mxo_run eps (C := C) (Own [::] [::]) os in Ok (r.1, contents r.2)) =
     v_run (@mxo_make R eps C) (@mxo_copy R eps C) (@mxo_act R eps C) [::] os) /\
  (forall os, no_assign os -> (let! r := dco_run (R := R) (Own [::] [::]) os in Ok (r.1, contents r.2)) =
     v_run (dco_make R) (@dco_copy R) (@dco_act R) [::] os).
Proof. by split; [|split] => os h; apply: C68_value_semantics. Qed.

(** A copy has the contents of the original, in particular all components of a
    mixture in their order; an empty mixture cannot be copied. *)
Theorem C68_discrete_copy d : 0 <= eps -> dp_valid d -> dp_copy eps d = Ok d.
Proof.
move=> e0 hv; have hc := valid_cum hv; case: (hv) => h1 [_ h2] _.
by rewrite /dp_copy cum_updateE // -hc; case: (d).
Qed.
Theorem C68_mixture_copy (m : mix R C) : 0 <= eps -> mix_valid m -> mx_copy eps m = Ok m.
Proof.
move=> e0 hv; rewrite (mix_validE hv); case: hv => [[h1 h2 h3] h4 [h5 h6] _].
rewrite /mx_copy /= /mx_init /= -lt0n h4 /= mx_cumE ?size_nseq //=; last by rewrite size_nseq.
by rewrite (_ : mapO _ _ = Ok (mx_comps m)) //; exact: mapO_iota.
Qed.
Theorem C68_mixture_copy_empty_refuted : mx_copy eps (mx_new R C) = Abort.
Proof. by []. Qed.
Theorem C68_conditional_copy (d : dcpdf R) : dc_copy d = d.
Proof. by case: d => n dims t; rewrite /dc_copy map_id. Qed.
End Classes.

(** ** Examples *)
Section Examples.
Let RQ := [realFieldType of rat].
Let q (a b : nat) : RQ := a%:R / b%:R.
Let E : RQ := q 1 1000.
Let run := dpo_run E (Own [::] [::]).
Let okv (o : outcome (seq (option (dpo_res RQ)) * own (nat * seq RQ) (seq RQ))) k (x : RQ) :=
  if o is Ok (r, _) then if nth None r k is Some (DVal y) then y == x else false else false.
Let oki (o : outcome (seq (option (dpo_res RQ)) * own (nat * seq RQ) (seq RQ))) k (x : int) :=
  if o is Ok (r, _) then if nth None r k is Some (DInt (Some y)) then y == x else false else false.
Let isUB (o : outcome (seq (option (dpo_res RQ)) * own (nat * seq RQ) (seq RQ))) := if o is UB then true else false.
(** a copy is independent: [b] is set to (1,0), [a] keeps (1/2,1/2) *)
Let copied : seq (oop nat (dpo_op RQ)) := 
  [:: ONew 2%N; OCopy 0%N; OAct 1%N (DSet (OpSets [:: 1; 0])); OAct 0%N (DGet 0); OAct 1%N (DGet 0);
      OAct 0%N (DSample (q 3 4)); ODestroy 0%N; OAct 1%N (DGet 1); ODestroy 1%N].
Example C68_ex_copy : no_assign copied /\ okv (run copied) 3 (q 1 2) /\ okv (run copied) 4 1 /\
  oki (run copied) 5 1 /\ okv (run copied) 7 0 /\
  (if run copied is Ok (_, st) then live (ow_heap st) == 0%N else false).
Proof. by vm_compute. Qed.
(** after [a = b] and a change of [b] to (1,0), [a] answers 1 for state 0 and
    still draws state 1 *)
Let assigned : seq (oop nat (dpo_op RQ)) := 
  [:: ONew 2%N; ONew 2%N; OAssign 0%N 1%N; OAct 1%N (DSet (OpSets [:: 1; 0])); OAct 0%N (DGet 0);
      OAct 0%N (DSample (q 3 4)); OAct 1%N (DSample (q 3 4))].
Example C68_ex_assign : okv (run assigned) 4 1 /\ oki (run assigned) 5 1 /\ oki (run assigned) 6 0 /\
  isUB (run (assigned ++ [:: ODestroy 0%N; OAct 1%N (DGet 0)])) /\
  isUB (run (assigned ++ [:: ODestroy 0%N; ODestroy 1%N])).
Proof. by vm_compute. Qed.
(** conditional pdf: one object, destroyed, its table stays *)
Example C68_ex_leak : (if dco_run (R := RQ) (Own [::] [::]) [:: ONew (2, [:: 2])%N; ODestroy 0%N] is Ok (_, st)
  then (live (ow_objs st) == 0%N) && (live (ow_heap st) == 1%N) else false).
Proof. by vm_compute. Qed.
(** mixture of two components *)
Example C68_ex_mixture : let m := Mix 2 [:: 7; 8]%N [:: q 1 4; q 3 4] (cum_loop 0 [:: q 1 4; q 3 4]) in
  mix_valid m /\ mx_copy E m = Ok m.
Proof.
move=> m; have hv : mix_valid m.
  apply: mix_validI => //; split; first by vm_compute.
  by apply/eqP; rewrite /total !big_cons big_nil; vm_compute.
by split=> //; apply: C68_mixture_copy => //; vm_compute.
Qed.
End Examples.

Print Assumptions C68_value_semantics. Print Assumptions C68_no_leak. Print Assumptions C68_leak_refuted.
Print Assumptions C68_assign_double_free_refuted. Print Assumptions C68_assign_shares_refuted.
Print Assumptions C68_assign_leaks_refuted. Print Assumptions C68_classes. Print Assumptions C68_discrete_copy.
Print Assumptions C68_mixture_copy. Print Assumptions C68_mixture_copy_empty_refuted. Print Assumptions C68_conditional_copy.
