(** * Programs on matrices and vectors compute matrix algebra (C96) *)
From mathcomp Require Import all_ssreflect all_algebra.
From Verif Require Import Outcome ModelBackends SpecBackends ProofsBackends PropertiesBackends SpecAlgebra ProofsAlgebra.
Set Implicit Arguments. Unset Strict Implicit. Unset Printing Implicit Defensive.
Import Order.TTheory GRing.Theory Num.Theory.
Local Open Scope ring_scope.

Section P.
Variable R : realFieldType.
(** Boost: every program, every report *)
Theorem C96_algebra (p : seq (call R)) :
  match run (@boost R) [::] p, run (@algebra R) [::] p with
  | Ok x, Ok y => x.2 = y.2
  | Abort, Abort => True
  | _, _ => False
  end.
Proof.
have := @run_alg R p [::] [::] I; rewrite /agree_run.
by case: (run (@boost R) [::] p) => [x||]; case: (run (@algebra R) [::] p) => [y||] // /strict_eq.
Qed.
(** Eigen: every portable program *)
Theorem C96_eigen prec (p : seq (call R)) : portable p ->
  match run (@algebra R) [::] p, run (eigen prec) [::] p with
  | Ok x, Ok y => agree_reports false x.2 y.2
  | Abort, Abort => True
  | _, _ => False
  end.
Proof.
move=> hp; have := C96_algebra p; have := C94_agree prec hp; rewrite /agree_run.
by case: (run (@boost R) [::] p) => [x||]; case: (run (@algebra R) [::] p) => [y||]; case: (run (eigen prec) [::] p) => [z||] // + <-.
Qed.

(** the operations of the specification are those on matrices *)
Definition shows r c (T : table R) (M : 'M[R]_(r, c)) : Prop :=
  [/\ t_rows T = r, t_cols T = c & forall (i : 'I_r) (j : 'I_c), t_at T i.+1 j.+1 = Some (M i j)].
Theorem C96_product r n c k (S T : table R) (A : 'M[R]_(r, n)) (B : 'M[R]_(n, c)) : shows S A -> shows T B -> shows (product k S T) (A *m B).
Proof.
move=> [e1 e2 hs] [e3 e4 ht]; split=> // i j; rewrite /= /total /known.
have h (l : 'I_n) : op Times (t_at S i.+1 l.+1) (t_at T l.+1 j.+1) = Some (A i l * B l j) by rewrite hs ht.
rewrite e2; case: ifP => [_|/negbT/forallPn[l]]; last by rewrite h.
by congr Some; rewrite mxE; apply: eq_bigr => l _; rewrite h.
Qed.
Theorem C96_sum r c (minus : bool) (S T : table R) (A B : 'M[R]_(r, c)) : shows S A -> shows T B -> shows (pairwise (sign minus) S T) (if minus then A - B else A + B).
Proof. by move=> [e1 e2 hs] [e3 e4 ht]; split=> // i j; rewrite /= hs ht; case: minus; rewrite /= !mxE. Qed.
Theorem C96_scale r c (S : table R) (A : 'M[R]_(r, c)) x : shows S A -> shows (each (fun y => op Times y (Some x)) S) (x *: A).
Proof. by move=> [e1 e2 hs]; split=> // i j; rewrite /= hs /= mxE mulrC. Qed.
Theorem C96_transpose r c (S : table R) (A : 'M[R]_(r, c)) : shows S A -> shows (transposed S) A^T.
Proof. by move=> [e1 e2 hs]; split=> // i j; rewrite /= hs mxE. Qed.
Theorem C96_equal r c (S T : table R) (A B : 'M[R]_(r, c)) : shows S A -> shows T B -> equal S T = Some (A == B).
Proof.
move=> [e1 e2 hs] [e3 e4 ht]; rewrite /equal /same e1 e2 e3 e4 !eqxx /=.
case: ifP => [_|/negbT/forallPn[i /forallPn[j]]]; last by rewrite hs ht.
congr Some; apply/forallP/eqP => [h|e i]; last by apply/forallP => j; rewrite hs ht e.
by apply/matrixP => i j; have /forallP/(_ j) := h i; rewrite hs ht => /eqP[].
Qed.
End P.
Print Assumptions C96_algebra.
Print Assumptions C96_eigen.
Print Assumptions C96_product.
Print Assumptions C96_sum.
Print Assumptions C96_scale.
Print Assumptions C96_transpose.
Print Assumptions C96_equal.

(** ** The program of C94: what the specification reports *)
Lemma reports_eq (p : seq (call rat_realFieldType)) : reports (run (@algebra _) [::] p) = reports (run (@boost _) [::] p).
Proof.
have := C96_algebra p.
by case: (run (@boost _) [::] p) => [x||]; case: (run (@algebra _) [::] p) => [y||] // e; rewrite /reports e.
Qed.
Example C96_reports : reports (run (@algebra rat_realFieldType) [::] sample_program) =
  Some [:: Some (Posz 111, Posz 1); Some (Posz 9, Posz 4); Some (Posz 1, Posz 2); Some (Posz 0, Posz 1); Some (Posz 1, Posz 1); Some (Posz 2, Posz 1)].
Proof. exact (etrans (reports_eq sample_program) C94_reports_boost). Qed.
(** a matrix as a table *)
Example C96_shows : shows (Table Full 2 2 (fun i j => Some ((i + j)%N%:R : rat_realFieldType))) (\matrix_(i < 2, j < 2) (i + j + 2)%N%:R).
Proof. by split=> // i j; rewrite mxE /= addSn addnS addn2. Qed.
