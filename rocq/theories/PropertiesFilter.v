(** * C31, C32: the filter base class *)
From mathcomp Require Import all_ssreflect all_algebra.
From mathcomp Require Import zify.
From Verif Require Import Outcome SpecProb ModelTables ProofsTables SpecBayes ModelDiscretePdf SpecDiscretePdf
  ProofsDiscretePdf ModelModels ModelFilter ProofsFilter ModelHistogram SpecHistogram ProofsHistogram
  PropertiesHistogram.
Set Implicit Arguments. Unset Strict Implicit. Unset Printing Implicit Defensive.
Import Order.TTheory GRing.Theory Num.Theory.

Lemma runO1 Op S (step : S -> Op -> outcome (bool * S)) s o b s' :
  step s o = Ok (b, s') -> runO step s [:: o] = Ok ([:: b], s').
Proof. by move=> /= ->. Qed.

Section Base.
Variables (D Priv SM MM U Z : Type).
Variables (copyD : D -> outcome D) (initP : D -> outcome Priv).
Variable internal : option SM -> option U -> option MM -> option Z -> option U ->
                    fstate D Priv -> outcome (bool * fstate D Priv).
Implicit Types (h : heap D) (f : filt Priv) (hf : heap D * filt Priv) (c : call SM MM U Z).

Lemma call_keeps hf c b hf' : f_call internal hf c = Ok (b, hf') ->
  fl_post hf'.2 = fl_post hf.2 /\ forall j, j <> fl_post hf.2 -> h_get hf'.1 j = h_get hf.1 j.
Proof.
rewrite f_callE => /= h; have [d [p [t [d' [_ _ _ e hj]]]]] := f_update_inv h.
by rewrite e.
Qed.
Lemma run_keeps cs hf fl hf' : runO (f_call internal) hf cs = Ok (fl, hf') ->
  fl_post hf'.2 = fl_post hf.2 /\ forall j, j <> fl_post hf.2 -> h_get hf'.1 j = h_get hf.1 j.
Proof.
pose I (x : heap D * filt Priv) := fl_post x.2 = fl_post hf.2 /\ forall j, j <> fl_post hf.2 -> h_get x.1 j = h_get hf.1 j.
have hs x c b x' : I x -> f_call internal x c = Ok (b, x') -> I x'.
  by move=> [h1 h2] /call_keeps [h3 h4]; split=> [|j hj]; rewrite ?h3 // h4 ?h2 // h1.
by move=> hr; apply: (runO_inv_any hs _ hr).
Qed.

(** C31: after construction every object the user had, in particular the
    prior, keeps its value through every sequence of updates, whatever filter
    is built on the base class. *)
Theorem C31_prior_untouched h p hf cs fl hf' q d : f_new copyD initP h p = Ok hf ->
  runO (f_call internal) hf cs = Ok (fl, hf') -> h_get h q = Ok d -> h_get hf'.1 q = Ok d.
Proof.
rewrite /f_new; case: (h_get h p) => [d0||] //=; case: (copyD d0) => [d1||] //=.
case: (initP d0) => [b||] //= -[<-] /run_keeps /= [_ hk] hq.
have hl := h_get_lt hq; rewrite hk; last by move=> e; move: hl; rewrite e ltnn.
by move: hq; rewrite /h_get (at_nth None hl) (at_nth None) ?nth_rcons ?hl // size_rcons ltnS ltnW.
Qed.
(** the filter works on its own copy *)
Theorem C31_own_copy h p hf d : f_new copyD initP h p = Ok hf -> h_get h p = Ok d ->
  exists2 d', copyD d = Ok d' & f_post hf = Ok d'.
Proof.
rewrite /f_new => /[swap] ->; rewrite /=; case: (copyD d) => [d1||] //=.
case: (initP d) => [b||] //= -[<-]; exists d1 => //.
by rewrite /f_post /h_get /= (at_nth None) ?size_rcons // nth_rcons ltnn eqxx.
Qed.
(** After [Reset(prior)] the posterior is the user's object, and stays so:
    what [PostGet] shows after any sequence of updates is what the user's
    object contains, and nothing else of the user changes. *)
Theorem C31_reset_aliases h f p cs fl hf' : runO (f_call internal) (h, f_reset f p) cs = Ok (fl, hf') ->
  f_post hf' = h_get hf'.1 p /\ forall j, j <> p -> h_get hf'.1 j = h_get h j.
Proof. by move=> /run_keeps /= [h1 h2]; rewrite /f_post h1. Qed.
(** destroying a histogram or Kalman filter after [Reset] frees the user's
    object: any later use of it is undefined *)
Theorem C31_reset_destroy_refuted h f p d : h_get h p = Ok d ->
  exists h', f_destroy h (f_reset f p) = Ok h' /\ h_get h' p = UB.
Proof.
move=> hp; have hl := h_get_lt hp; have [h' hh] := put_at None hl.
rewrite /f_destroy /= hp /= hh; exists h'; split=> //; rewrite /h_get.
by have [-> _] := put_read hh.
Qed.
(** without [Reset] the destructor frees only the filter's copy *)
Theorem C31_destroy h p hf cs fl hf' h' q d : f_new copyD initP h p = Ok hf ->
  runO (f_call internal) hf cs = Ok (fl, hf') -> f_destroy hf'.1 hf'.2 = Ok h' ->
  h_get h q = Ok d -> h_get h' q = Ok d.
Proof.
move=> hn hr hd hq; have hg := C31_prior_untouched hn hr hq.
have [hk _] := run_keeps hr; move: hd; rewrite /f_destroy; case: (h_get _ _) => [x||] //= hp.
have [_ hj] := put_read hp; rewrite /h_get hj //.
rewrite hk; move: hn; rewrite /f_new; case: (h_get h p) => [d0||] //=; case: (copyD d0) => [d1||] //=.
case: (initP d0) => [b||] //= -[<-] /=; have := h_get_lt hq; lia.
Qed.
End Base.

(** C32: histogram and Kalman filters *)
Section Dispatch.
Variables (D Priv SM MM U Z : Type).
Variables (sysU : SM -> option U -> Priv * D -> outcome (Priv * D))
          (measU : MM -> option Z -> option U -> Priv * D -> outcome (Priv * D)).
Notation filter := (heap D * filt Priv)%type.
Implicit Types (hf : filter) (c : call SM MM U Z).
Notation fcall := (f_call (two_step sysU measU)).

(** what the user asked for: the system part and the measurement part of a call *)
Definition system_only c : call SM MM U Z :=
  match c with
  | Update_sumzs sm u _ _ _ | Update_sumz sm u _ _ | Update_su sm u => Update_su _ _ sm u
  | Update_smzs sm _ _ _ | Update_smz sm _ _ | Update_s sm => Update_s _ _ _ sm
  | Update_mzs _ _ _ | Update_mz _ _ => Update_s _ _ _ None
  end.
Definition measurement_only c : option (call SM MM U Z) :=
  match c with
  | Update_sumzs _ _ mm z s | Update_smzs _ mm z s | Update_mzs mm z s => Some (Update_mzs _ mm z s)
  | Update_sumz _ _ mm z | Update_smz _ mm z | Update_mz mm z => Some (Update_mz _ _ mm z)
  | Update_su _ _ | Update_s _ => None
  end.

Lemma split_update hf sm u mm z s : f_update (two_step sysU measU) hf sm u mm z s =
  (let! r := f_update (two_step sysU measU) hf sm u None None None in
   f_update (two_step sysU measU) r.2 None None mm z s).
Proof.
case: hf => h [p0 p1 t b]; rewrite /f_update /=; case hd: (h_get h p1) => [d||] //=.
rewrite /two_step /=; case: (match sm with Some _ => _ | None => _ end) => [[b1 d1]||] //=.
have hl := h_get_lt hd; have [h1 hh1] := put_at (Some d1) hl; rewrite hh1 /=.
have [-> _] /= := h_get_put hh1.
case: (match mm with Some _ => _ | None => _ end) => [[b2 d2]||] //=.
by rewrite (put_put _ hh1).
Qed.
(** Every overload is its system-only part followed by its measurement-only part. *)
Theorem C32_split hf c : fcall hf c =
  (let! r := fcall hf (system_only c) in
   match measurement_only c with Some c' => fcall r.2 c' | None => Ok r end).
Proof.
case: c => [sm u mm z s|sm mm z s|sm mm z|sm u mm z|sm u|sm|mm z s|mm z] /=;
  first [by case: (f_update _ _ _ _ _ _ _)|exact: split_update].
Qed.
(** A part whose model is NULL does nothing; a part with a model performs
    exactly one update of that kind, with exactly the given variables. *)
Theorem C32_null_models hf d u z s : f_post hf = Ok d ->
  [/\ fcall hf (Update_su _ _ None u) = Ok (true, hf), fcall hf (Update_s _ _ _ None) = Ok (true, hf),
      fcall hf (Update_mzs _ None z s) = Ok (true, hf) & fcall hf (Update_mz _ _ None z) = Ok (true, hf)].
Proof.
case: hf => h [p0 p1 t b]; rewrite /f_post /= /f_update /= => hd; rewrite hd /=.
have -> : put_ h p1 (Some d) = Ok h.
  apply: put_same; move: hd; rewrite /h_get; case: (at_ h p1) => [[x|]||] //= -[->] //.
by split.
Qed.
Definition does (hf : filter) c (d : D) (o : outcome (Priv * D)) : Prop :=
  match o with
  | Ok (b, d') => exists hf', [/\ fcall hf c = Ok (true, hf'), f_post hf' = Ok d', fl_priv hf'.2 = b &
                     fl_post hf'.2 = fl_post hf.2]
  | Abort => fcall hf c = Abort
  | UB => fcall hf c = UB
  end.
Theorem C32_single_updates hf d m k u z s : f_post hf = Ok d ->
  [/\ does hf (Update_su _ _ (Some m) u) d (sysU m (Some u) (fl_priv hf.2, d)),
      does hf (Update_s _ _ _ (Some m)) d (sysU m None (fl_priv hf.2, d)),
      does hf (Update_mzs _ (Some k) z s) d (measU k (Some z) (Some s) (fl_priv hf.2, d)) &
      does hf (Update_mz _ _ (Some k) z) d (measU k (Some z) None (fl_priv hf.2, d))].
Proof.
move=> hd; have hp b d' sm u' mm z' s' :
    two_step sysU measU sm u' mm z' s' (fl_priv hf.2, fl_time hf.2, d) = Ok (true, (b, fl_time hf.2, d')) ->
    exists hf', [/\ f_update (two_step sysU measU) hf sm u' mm z' s' = Ok (true, hf'),
      f_post hf' = Ok d', fl_priv hf'.2 = b & fl_post hf'.2 = fl_post hf.2].
  move=> hi; have [h' [h1 [h2 _]]] := f_updateE hd hi.
  by exists (h', Filt (fl_prior hf.2) (fl_post hf.2) (fl_time hf.2) b); rewrite h1.
have hn sm u' mm z' s' : f_update (two_step sysU measU) hf sm u' mm z' s' =
    (let! r := two_step sysU measU sm u' mm z' s' (fl_priv hf.2, fl_time hf.2, d) in
     let! h' := put_ hf.1 (fl_post hf.2) (Some r.2.2) in
     Ok (r.1, (h', Filt (fl_prior hf.2) (fl_post hf.2) r.2.1.2 r.2.1.1))).
  by rewrite /f_update -/(f_post hf) hd.
split; rewrite /does /=.
- case e: (sysU _ _ _) => [[b d']||] //=; last 2 first.
  + by rewrite hn /two_step /= e.
  + by rewrite hn /two_step /= e.
  by apply: hp; rewrite /two_step /= e.
- case e: (sysU _ _ _) => [[b d']||] //=; last 2 first.
  + by rewrite hn /two_step /= e.
  + by rewrite hn /two_step /= e.
  by apply: hp; rewrite /two_step /= e.
- case e: (measU _ _ _ _) => [[b d']||] //=; last 2 first.
  + by rewrite hn /two_step /= e.
  + by rewrite hn /two_step /= e.
  by apply: hp; rewrite /two_step /= e.
case e: (measU _ _ _ _) => [[b d']||] //=; last 2 first.
- by rewrite hn /two_step /= e.
- by rewrite hn /two_step /= e.
by apply: hp; rewrite /two_step /= e.
Qed.
(** the time step never advances, whatever the history, and every call that
    returns returns true *)
Theorem C32_timestep_refuted (cs : seq (call SM MM U Z)) hf fl hf' :
  runO fcall hf cs = Ok (fl, hf') -> f_time hf' = f_time hf /\ all id fl.
Proof.
elim: cs hf fl hf' => [|c cs IH] hf fl hf' /=; first by case=> <- <-.
case hc: (fcall hf c) => [[b x]||] //=; case hr: (runO _ _ _) => [[fl' y]||] //= -[<- <-].
have [-> hall] := IH _ _ _ hr; move: hc; rewrite f_callE /= => hc.
have [d [p [t [d' [_ hi _ e _]]]]] := f_update_inv hc.
move: hi; rewrite /two_step /=; case: (match _ with Some _ => _ | None => _ end) => [q||] //=.
by case: (match _ with Some _ => _ | None => _ end) => [r||] //= -[hb _ ht _]; rewrite /f_time e /= -ht -hb hall.
Qed.
Theorem C32_timestep_zero_refuted copyD initP h p hf (cs : seq (call SM MM U Z)) fl hf' :
  f_new copyD initP h p = Ok hf -> runO fcall hf cs = Ok (fl, hf') -> f_time hf' = 0.
Proof.
move=> hn hr; have [-> _] := C32_timestep_refuted hr; move: hn; rewrite /f_new.
case: (h_get h p) => [d||] //=; case: (copyD d) => [d1||] //=; case: (initP d) => [b||] //= -[<-].
by [].
Qed.
End Dispatch.

(** C31 for the histogram filter *)
Section Histogram.
Local Open Scope ring_scope.
Variables (R : realFieldType) (eps : R) (Z : Type).
Hypothesis eps0 : 0 <= eps.
Notation hfilter := (heap (dpdf R) * filt (seq R))%type.
Implicit Types (d : dpdf R).

(** a system update after [Reset(prior)] overwrites the user's prior with the
    prediction; the prior changes unless it is a fixed point of the model *)
Theorem C31_reset_histogram_refuted h (f : filt (seq R)) p d (m : hsys R) a :
  h_get h p = Ok d -> dp_valid d -> size (fl_priv f) = dp_n d ->
  sys_table (dp_n d) m None a -> stochastic (dp_n d) a ->
  exists hf' d', [/\ hf_call eps (h, f_reset f p) (Update_s (hmeas R Z) int Z (Some m)) = Ok (true, hf'),
    h_get hf'.1 p = Ok d' &
    forall j, (j < dp_n d)%N -> probs d' j = \sum_(i <- iota 0 (dp_n d)) a j i * probs d i].
Proof.
move=> hp hv hb ht hst.
have hh : holds (h, f_reset f p) d by [].
have [hf' [d' [h1 h2 h3 h4]]] := @C27_prediction _ _ Z eps0 _ _ _ None _ _ hh erefl ht hst.
exists hf', d'; split=> //.
  case: h2 => h2 _ _; rewrite -h2.
  by have [-> _] := C31_reset_aliases (runO1 h1).
move=> j hj; have := h4 j hj; rewrite get_probs ?h3 //; last by case: h2.
by case.
Qed.
(** [Reset] to a prior with another number of states: the next system update
    writes outside the internal buffer, or terminates the program *)
Theorem C31_reset_other_size_refuted h (f : filt (seq R)) p d (m : hsys R) u a c :
  h_get h p = Ok d -> dp_valid d -> sys_table (dp_n d) m u a ->
  c = (if u is Some v then Update_su (hmeas R Z) Z (Some m) v else Update_s (hmeas R Z) int Z (Some m)) ->
  ((size (fl_priv f) < dp_n d)%N -> hf_call eps (h, f_reset f p) c = UB) /\
  ((dp_n d < size (fl_priv f))%N -> hf_call eps (h, f_reset f p) c = Abort).
Proof.
move=> hp [hs [hnn _] _] ht ->.
have hE : forall o, hf_sys eps m u (fl_priv f, d) = o -> (if o is Ok _ then False else True) ->
    hf_call eps (h, f_reset f p) (if u is Some v then Update_su (hmeas R Z) Z (Some m) v
                                  else Update_s (hmeas R Z) int Z (Some m)) =
    (if o is Abort then Abort else UB).
  move=> o ho hno; rewrite /hf_call f_callE; case: (u) ho => [v|] ho /=;
    by rewrite /f_update /= hp /= /hf_internal /two_step /= ho; case: (o) hno.
split=> hsz; first by apply: (hE UB) => //; exact: hf_sys_short ht.
apply: (hE Abort) => //; rewrite (hf_sys_long _ _ hs (ltnW hsz) ht) //= /dp_sets /guard.
case: ifP => //= _; rewrite size_cat size_map size_iota size_drop.
by case: eqP => // e; move: hsz; lia.
Qed.
End Histogram.

(** ** Concrete case: a two-state histogram filter *)
Section Examples.
Local Open Scope ring_scope.
Let q (a b : nat) : rat := a%:R / b%:R.
Notation Q := [realFieldType of rat].
Let eps : rat := q 1 8.
Let prior : dpdf Q := DPdf 2 [:: q 1 4; q 3 4] [:: 0; q 1 4; 1].
Let other : dpdf Q := DPdf 2 [:: q 1 2; q 1 2] [:: 0; q 1 2; 1].
Let big : dpdf Q := DPdf 3 [:: q 1 2; q 1 4; q 1 4] [:: 0; q 1 2; q 3 4; 1].
Let small : dpdf Q := DPdf 1 [:: 1] [:: 0; 1].
Let sys : hsys Q := SModel true
  (fun args to => match args, to with [:: Posz i], Posz j => Ok (if j == i then q 3 4 else q 1 4) | _, _ => UB end)
  (fun _ _ _ => Abort).
Let upd := Update_s (hmeas Q nat) int nat (Some sys).
Let h0 := [:: Some prior; Some other; Some big; Some small].
Let after {A} (o : outcome A) (k : A -> bool) (b : bool) := if o is Ok x then k x else b.
Let shows (h : heap (dpdf Q)) l (v : seq rat) := after (h_get h l) (fun d => dp_vals d == v) false.
Example C31_example :
  after (hf_new eps h0 0%N) (fun hf => after (runO (@hf_call Q eps nat) hf [:: upd; upd]) (fun r =>
    [&& shows r.2.1 0%N [:: q 1 4; q 3 4], shows r.2.1 4%N [:: q 7 16; q 9 16] & f_time r.2 == 0%N]) false) false.
Proof. by vm_compute. Qed.
Example C31_reset_example :
  after (hf_new eps h0 1%N) (fun hf => after (runO (@hf_call Q eps nat) (hf.1, f_reset hf.2 0%N) [:: upd]) (fun r =>
    [&& shows r.2.1 0%N [:: q 3 8; q 5 8], shows r.2.1 1%N [:: q 1 2; q 1 2] &
        after (f_destroy r.2.1 r.2.2) (fun h => after (h_get h 0%N) (fun _ => false) true) false]) false) false.
Proof. by vm_compute. Qed.
Example C31_other_size_example :
  after (hf_new eps h0 1%N) (fun hf =>
     (if hf_call eps (hf.1, f_reset hf.2 2%N) upd is UB then true else false) &&
     (if hf_call eps (hf.1, f_reset hf.2 3%N) upd is Abort then true else false)) false.
Proof. by vm_compute. Qed.
Example C32_example :
  let none := Update_smz int (Some sys) (None : option (hmeas Q nat)) 0%N in
  after (hf_new eps h0 0%N) (fun hf => after (runO (@hf_call Q eps nat) hf [:: none]) (fun r =>
    shows r.2.1 4%N [:: q 3 8; q 5 8] && (r.1 == [:: true])) false) false.
Proof. by vm_compute. Qed.
End Examples.

Print Assumptions C31_prior_untouched.
Print Assumptions C31_own_copy.
Print Assumptions C31_reset_aliases.
Print Assumptions C31_reset_destroy_refuted.
Print Assumptions C31_destroy.
Print Assumptions C32_split.
Print Assumptions C32_null_models.
Print Assumptions C32_single_updates.
Print Assumptions C32_timestep_refuted.
Print Assumptions C32_timestep_zero_refuted.
Print Assumptions C31_reset_histogram_refuted.
Print Assumptions C31_reset_other_size_refuted.
