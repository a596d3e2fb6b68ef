(** * Absence of undefined behaviour in [SVD]; simple inputs (lemmas for C86, C87) *)
From mathcomp Require Import all_ssreflect all_algebra.
From mathcomp Require Import ring zify.
From Verif Require Import OrdLra Outcome ModelSVD SpecSVD ProofsSVD ProofsSVDBid ProofsSVDAcc ProofsSVDRot ProofsSVDIter ProofsSVDSweep ProofsSVDMain ProofsSVDFinal.
Set Implicit Arguments. Unset Strict Implicit. Unset Printing Implicit Defensive.
Import Order.TTheory GRing.Theory Num.Theory.
Local Open Scope ring_scope.

Section Safe.
Variables (R : rcfType) (eqv : R -> R -> bool).
Implicit Types (F G U V : arr2 R) (w rv : arr1 R) (st : sstate R).
Lemma cancel_rv1 anorm nm todo c s w rv U : all (fun i => 1 < i)%N todo ->
  (cancel eqv anorm nm todo c s w rv U).1.2 1%N = rv 1%N.
Proof.
elim: todo c s w rv U => //= i todo ih c s w rv U /andP [i1 h].
have e x : set1 rv i x 1%N = rv 1%N by rewrite /set1 ltn_eqF.
by case: ifP => _ /=; rewrite ?ih.
Qed.
Lemma sweep_rv1 js c s f x w rv U V : all (fun i => 1 < i)%N js ->
  let: (_, _, _, rv', _, _) := sweep js c s f x w rv U V in rv' 1%N = rv 1%N.
Proof.
elim: js c s f x w rv U V => //= j js ih c s f x w rv U V /andP [j1 h].
case: (if _ then _ else _) => c2 s2; rewrite -[rv 1%N](_ : set1 rv j (pythag f (s * rv j.+1)) 1%N = _); first exact: ih.
by rewrite /set1 ltn_eqF.
Qed.
Section K.
Variable anorm : R.
Hypothesis an0 : 0 <= anorm.
Hypothesis eqv_refl : eqv anorm anorm.
Lemma iterate_ok k left : (0 < k)%N -> forall st, s_rv st 1%N = 0 ->
  exists b st', iterate eqv anorm k left st = Ok (b, st') /\ s_rv st' 1%N = 0.
Proof.
move=> k0; elim: left => [|left ih] [w rv U V] /= r1.
all: have [flag [p [-> e2 _ e4]]] := split_spec (lexx 0) an0 eqv_refl w k0 r1; rewrite /=.
all: case E : (if flag then _ else _) => [[w' rv'] U'].
all: have r1' : rv' 1%N = 0.
1,3: move: E; case: flag e4 => [[p1 _]|_] E; [|by case: E => _ <- _].
1,2: have := @cancel_rv1 anorm p.-1 (iota p (k.+1 - p)) 0 1 w rv U; rewrite E /= => -> //.
1,2: by apply/allP => i; rewrite mem_iota; lia.
all: case: (p =P k) => pk.
1,3: by case: ifP => _; eexists; eexists; split; [reflexivity| |reflexivity|].
- by eexists; eexists; split; [reflexivity|].
have := @sweep_rv1 (iota p (k - p)) 1 1 (shift p k w' rv') (w' p) w' rv' U' V.
case Es: (sweep _ _ _ _ _ _ _ _ _) => [[[[[f x] w2] rv2] U2] V2] hs.
apply: ih => /=; rewrite /set1 [1%N == k]ltn_eqF; last by lia.
case: ifP => // p1; rewrite hs //; apply/allP => i; rewrite mem_iota; lia.
Qed.
Lemma diagonalise_ok ks : all (fun k => 0 < k)%N ks -> forall st, s_rv st 1%N = 0 ->
  exists b st', diagonalise eqv anorm ks st = Ok (b, st').
Proof.
elim: ks => [_ st _|k ks ih /= /andP [k0 h] st r1]; first by exists true, st.
rewrite -/(diagonalise eqv anorm (k :: ks) st) diag_cons.
have [b [st' [-> r2]]] := @iterate_ok k max_iter.-1 k0 st r1.
by case: b; [exact: ih|exists false, st'].
Qed.
End K.
Lemma svd_ok m n A w0 V0 : (forall x, eqv x x) -> exists r, svd eqv m n A w0 V0 = Ok r.
Proof.
move=> er; rewrite /svd; set b := bidiagonal m n A w0.
have [V1 [-> _]] := @right_accP R m n (b_U b) (b_rv b) (@rv_small R m n A w0) V0; cbn [obind].
have [||ok [st ->]] := @diagonalise_ok (b_anorm b) (bi_an0 (bidiagonal_inv m n A w0)) (er _) (rev (iota 1 n)) _
  (SState (b_w b) (b_rv b) (left_acc m n (b_w b) (b_U b)) V1).
- by apply/allP => i; rewrite mem_rev mem_iota; lia.
- exact: rv1.
by eexists.
Qed.
Lemma svd_nan m n A w0 V0 : (forall x y, eqv x y = false) -> (0 < n)%N -> svd eqv m n A w0 V0 = UB.
Proof.
move=> er n0; rewrite /svd; set b := bidiagonal m n A w0.
have [V1 [-> _]] := @right_accP R m n (b_U b) (b_rv b) (@rv_small R m n A w0) V0; cbn [obind].
rewrite -(prednK n0) rev_iotaS diag_cons.
have h a w rv k : find_split eqv a w rv k.+1 = UB.
  elim: k => [|k ih]; rewrite /= ?er //.
  by move: ih; rewrite /= !er; case: k.
have h2 k left a st : iterate eqv a k.+1 left st = UB by case: left => [|left] /=; move: (h a (s_w st) (s_rv st) k) => /= ->.
by rewrite h2.
Qed.
(** one column *)
Lemma svd_column m A w0 V0 : (forall x, eqv x x) -> exists w U V, svd eqv m 1 A w0 V0 = Ok (true, w, U, V).
Proof.
move=> er; rewrite /svd; set b := bidiagonal m 1 A w0.
have [V1 [-> _]] := @right_accP R m 1 (b_U b) (b_rv b) (@rv_small R m 1 A w0) V0; cbn [obind].
have r1 : b_rv b 1%N = 0 := rv1 m 1 A w0.
rewrite -[rev _]/([:: 1%N]) diag_cons.
set st := SState _ _ _ _.
have [st' ->] : exists st', iterate eqv (b_anorm b) 1 max_iter.-1 st = Ok (true, st').
  by case: (max_iter.-1) => [|l]; rewrite /= r1 normr0 add0r er /=; case: ifP => _; eexists.
by do 3 eexists.
Qed.
End Safe.
