(** * Programs on matrices and vectors with the two back ends (C94, C95) *)
From mathcomp Require Import all_ssreflect all_algebra.
From Verif Require Import Outcome ModelBackends SpecBackends ProofsBackends.
Set Implicit Arguments. Unset Strict Implicit. Unset Printing Implicit Defensive.
Import Order.TTheory GRing.Theory Num.Theory.
Local Open Scope ring_scope.

Section P.
Variables (R : realFieldType) (prec : R).
Notation boost_run p := (run (@boost R) [::] p).
Notation eigen_run p := (run (eigen prec) [::] p).

(** ** C94: portable programs *)
Theorem C94_agree (p : seq (call R)) : portable p -> agree_run false (boost_run p) (eigen_run p).
Proof. by move=> h; apply: run_ok h _ _ _ _. Qed.
(** without resizing also the indeterminate results are the same *)
Theorem C94_exact (p : seq (call R)) : portable p -> all (@fixed_size R) p -> agree_run true (boost_run p) (eigen_run p).
Proof. by move=> h hf; apply: run_ok h _ _ _ _. Qed.

(** ** C95: the calls that differ *)
(** [RowVector::vectorAdd] *)
Theorem C95_row_add_refuted n m x y : (n != 1)%N || (m != 1)%N ->
  let p := [:: VConst true n x; VConst true m y; VAddR R 0 1] in
  (exists h, boost_run p = Ok (h, [:: Silent R; Silent R; Silent R]) /\ hget h 2 = Some (OV (bsym R) (true, nseq n (Some x) ++ nseq m (Some y)))) /\
  eigen_run p = Abort.
Proof.
move=> h p; split; first by eexists; split; first reflexivity.
by rewrite /p /run /eigen /obind /getv /= !size_nseq; case/orP: h => /negbTE -> //; rewrite andbF.
Qed.
(** setting one element of a symmetric matrix *)
Theorem C95_element_refuted n i j x y : (0 < i <= n)%N -> (0 < j <= n)%N -> i != j ->
  let p := [:: SNew R n; SFill 0 y; SPut 0 i j x; SGet R 0 j i] in
  (exists h, boost_run p = Ok (h, [:: Silent R; Silent R; Silent R; Value (Some x)])) /\
  (exists h, eigen_run p = Ok (h, [:: Silent R; Silent R; Silent R; Value (Some y)])).
Proof.
move=> hi hj ne p; have [[i0 hi'] [j0 hj']] := (andP hi, andP hj).
have [hi1 hj1] : (i.-1 < n)%N /\ (j.-1 < n)%N by rewrite !prednK.
split.
  rewrite /p /run /boost /obind /guard /gets /= hi hj /= hj hi /=; eexists; congr (Ok (_, [:: _; _; _; Value _])).
  rewrite /sel /= nth_set_nth /=; case: (ltngtP i.-1 j.-1) => [_|_|->] /=; by rewrite eqxx.
rewrite /p /run /eigen /obind /guard /gets /= hi hj /= hj hi /=; eexists; congr (Ok (_, [:: _; _; _; Value _])).
rewrite /eel /= nth_set_nth /=; case: eqP => [e|_]; last exact: (eel_etab (fun _ _ => Some y) hj1 hi1).
have [e1 e2] := grid_inj hj1 hi1 e; case/eqP: ne; rewrite -(prednK i0) -(prednK j0); congr S.
exact: e1.
Qed.
(** [SymmetricMatrix(2, row)] *)
Theorem C95_rows_refuted x y : let p := [:: VConst true 2 x; VPut 0 2 y; SRows R 2 0; SGet R 1 1 2] in
  (exists h, boost_run p = Ok (h, [:: Silent R; Silent R; Silent R; Value (Some x)])) /\
  (exists h, eigen_run p = Ok (h, [:: Silent R; Silent R; Silent R; Value (Some y)])).
Proof.
by move=> p; split; eexists.
Qed.
(** [convertToSymmetricMatrix] *)
Theorem C95_convert_refuted x y : let p := [:: MNew R 2 2; MFill 0 0; MPut 0 1 2 x; MPut 0 2 1 y; SNew R 2; MToSym R 0 1; SGet R 1 1 2] in
  (exists h, boost_run p = Ok (h, [:: Silent R; Silent R; Silent R; Silent R; Silent R; Silent R; Value (Some y)])) /\
  (exists h, eigen_run p = Ok (h, [:: Silent R; Silent R; Silent R; Silent R; Silent R; Silent R; Value (Some x)])).
Proof.
by move=> p; split; eexists.
Qed.
(** [resize]: Boost keeps the elements, Eigen does not; [v] becomes longer or shorter *)
Theorem C95_resize_refuted n m x : (0 < n)%N -> (0 < m)%N -> n != m ->
  let p := [:: VConst false n x; VResize R 0 m; VGet R 0 1] in
  (exists h, boost_run p = Ok (h, [:: Silent R; Silent R; Value (Some x)])) /\
  (exists h, eigen_run p = Ok (h, [:: Silent R; Silent R; Value None])).
Proof.
case: n m => [//|n] [//|m] _ _ ne p; split; rewrite /p /run /boost /eigen /obind /guard /getv /=.
  by eexists.
by rewrite size_nseq eq_sym (negbTE ne) /=; eexists.
Qed.
(** an empty part that starts beyond the end *)
Theorem C95_empty_refuted n x : let p := [:: VConst false n x; VSub R 0 n.+2 n.+1] in
  (exists h, boost_run p = Ok (h, [:: Silent R; Silent R])) /\ eigen_run p = Abort.
Proof.
move=> p; split; rewrite /p /run /boost /eigen /obind /guard /getv /= ?leqnn ?eqxx /=; first by eexists.
by rewrite size_nseq ltnn.
Qed.
End P.
Print Assumptions C94_agree.
Print Assumptions C94_exact.
Print Assumptions C95_row_add_refuted.
Print Assumptions C95_element_refuted.
Print Assumptions C95_rows_refuted.
Print Assumptions C95_convert_refuted.
Print Assumptions C95_resize_refuted.
Print Assumptions C95_empty_refuted.

(** ** A portable program on rationals: a covariance is set, multiplied and compared *)
Definition sample_program : seq (call rat_realFieldType) :=
  [:: SNew _ 2; SPut 0 1 1 4%:Q; SPut 0 1 2 1; SPut 0 2 1 1; SPut 0 2 2 3%:Q;
      MNew _ 1 2; MFill 1 2%:Q; MPut 1 1 2 5%:Q; MTrans _ 1; SMulM _ 0 2; MMul _ 1 3; MGet _ 4 1 1;
      VConst false 2 (1 / 2%:Q); SVec _ 0 5; VTrans _ 5; VDot _ 7 6; SScalUpd Over 0 2%:Q; SGet _ 0 2 1;
      VResize _ 5 3; VGet _ 5 3; SEq _ 0 0; VGet _ 6 2].
Example C94_portable : portable sample_program.
Proof. by do 2 (apply: portable_one => //); apply: portable_two; do 18 (apply: portable_one => //); apply: portable_nil. Qed.
(** the reports as numerators and denominators; [None] is an indeterminate number *)
Definition shown (r : report rat_realFieldType) : seq (option (int * int)) :=
  match r with
  | Silent => [::]
  | Value (Some x) => [:: Some (numq x, denq x)]
  | Truth (Some b) => [:: Some (b%:Z, 1)]
  | _ => [:: None]
  end.
Definition reports (T : Type) (o : outcome (T * seq (report rat_realFieldType))) :=
  if o is Ok x then Some (flatten (map shown x.2)) else None.
Example C94_reports_boost : reports (run (@boost rat_realFieldType) [::] sample_program) =
  Some [:: Some (Posz 111, Posz 1); Some (Posz 9, Posz 4); Some (Posz 1, Posz 2); Some (Posz 0, Posz 1); Some (Posz 1, Posz 1); Some (Posz 2, Posz 1)].
Proof. by vm_compute. Qed.
Example C94_reports_eigen : reports (run (@eigen rat_realFieldType (1 / 1000%:Q)) [::] sample_program) =
  Some [:: Some (Posz 111, Posz 1); Some (Posz 9, Posz 4); Some (Posz 1, Posz 2); None; Some (Posz 1, Posz 1); Some (Posz 2, Posz 1)].
Proof. by vm_compute. Qed.
