(** * C109: the RTT typekit: rows by number, elements, operators, functions *)
From Coq Require Import String.
From mathcomp Require Import all_ssreflect all_algebra.
From Verif Require Import Outcome ModelWrapper ModelTypekit SpecTypekit ProofsTypekit.
Set Implicit Arguments. Unset Strict Implicit. Unset Printing Implicit Defensive.
Import Order.TTheory GRing.Theory Num.Theory.
Local Open Scope ring_scope.

Section Rows.
Variable R : realFieldType.

(** Boost: the rows but the last can be read, counted from 1 *)
Theorem C109_rows m n (A : 'M[R]_(m, n)) (k : 'I_m) : (k.+1 < m)%N ->
  tk_boost A (k.+1)%:Z = Ok (Some (row k A)).
Proof. by move=> h; rewrite /tk_boost item_in // /boost_row raw_row_ord. Qed.

(** expected: every row can be read.  Found: the last row counts as absent *)
Theorem C109_last_refuted m n (A : 'M[R]_(m.+1, n)) :
  tk_boost A (m.+1)%:Z = Ok None /\ boost_row A m.+1 = Ok (row ord_max A).
Proof.
split; first by rewrite /tk_boost item_out // lexx orbT.
by rewrite /boost_row; exact: (raw_row_ord A ord_max).
Qed.

(** expected: a number that is not that of a row is answered with "not available".  Found:
    0 passes the check and fails inside the matrix *)
Theorem C109_zero_refuted m n (A : 'M[R]_(m.+1, n)) : tk_boost A 0 = Abort.
Proof. by rewrite /tk_boost (item_in (boost_row A) (i := 0)). Qed.

Theorem C109_outside m n (A : 'M[R]_(m, n)) (S : 'M[R]_m) (i : int) : (i < 0) || (m%:Z < i) ->
  [/\ tk_boost A i = Ok None, tk_eigen A i = Ok None & tk_eigen_sym S i = Ok None].
Proof.
move=> h; have h' : (i < 0) || (m%:Z <= i) by case/orP: h => [->|/ltW ->] //; rewrite orbT.
by split; exact: item_out.
Qed.

(** Eigen: a Matrix has its rows at 0 .. m-1, a SymmetricMatrix is read as with Boost *)
Theorem C109_eigen m n (A : 'M[R]_(m, n)) (k : 'I_m) : tk_eigen A k%:Z = Ok (Some (row k A)).
Proof. by rewrite /tk_eigen item_in // /eigen_row raw_row_ord. Qed.

Theorem C109_eigen_sym m (S : 'M[R]_m.+1) :
  [/\ (forall k : 'I_m.+1, (k < m)%N -> tk_eigen_sym S (k.+1)%:Z = Ok (Some (row k S))),
      tk_eigen_sym S (m.+1)%:Z = Ok None & tk_eigen_sym S 0 = Abort].
Proof.
by split=> [k h||]; [exact: (@C109_rows _ _ S)|exact: (C109_last_refuted S).1|exact: (C109_zero_refuted S)].
Qed.

(** the sizes are members "rows" and "columns", a number selects a row, nothing else exists *)
Theorem C109_members n (f : nat -> outcome 'rV[R]_n) rows (s : string) (i : int) :
  [/\ tk_member f rows (inr "rows"%string) = Ok (FSize _ rows),
      tk_member f rows (inr "columns"%string) = Ok (FSize _ n),
      (s <> "rows"%string -> s <> "columns"%string -> tk_member f rows (inr s) = Ok (FNone _)) &
      (forall r, tk_item f rows i = Ok r -> tk_member f rows (inl i) = Ok (FRow r))].
Proof.
split=> // [h1 h2|r e]; last by rewrite /= e.
by rewrite /=; case: (String.eqb_spec s "rows") => // _; case: (String.eqb_spec s "columns").
Qed.

(** elements: read, written, and left alone; any other index fails *)
Theorem C109_elements m n (A : 'M[R]_(m, n)) (i j : int) (x : R) :
  if row_number m i && row_number n j then
    exists2 B, tk_set A i j x = Ok B &
      tk_get B i j = Ok x /\
      forall p q, (p, q) != (i, j) -> tk_get B p q = tk_get A p q
  else tk_set A i j x = Abort /\ tk_get A i j = Abort.
Proof.
move: (indexP m i) (indexP n j).
case: (row_number m i) => [[a ei ea]|ea]; last by rewrite /tk_set /tk_get ea.
case: (row_number n j) => [[b ej eb]|eb]; last by rewrite /= /tk_set /tk_get ea eb.
rewrite andbT /tk_set ea eb.
exists (\matrix_(r, c) if (r == a) && (c == b) then x else A r c); first by [].
split; first by rewrite /tk_get ea eb mxE !eqxx.
move=> p q ne; rewrite /tk_get.
move: (indexP m p) (indexP n q); case: (row_number m p) => [[c ec ->]|->] //.
case: (row_number n q) => [[d ed ->]|->] //; rewrite mxE.
case: eqP => [e1|] //; case: eqP => [e2|] //=.
by move: ne; rewrite ec ed ei ej e1 e2 eqxx.
Qed.

(** the element read is that of row [i] and column [j], counted from 1 *)
Theorem C109_element_place m n (A : 'M[R]_(m, n)) (a : 'I_m) (b : 'I_n) :
  tk_get A (a.+1)%:Z (b.+1)%:Z = Ok (A a b).
Proof. by rewrite /tk_get !index_ord. Qed.

(** Boost, SymmetricMatrix: the mirrored element is written with it *)
Theorem C109_elements_sym n (A : 'M[R]_n) (i j : int) (x : R) : symmetric A ->
  if row_number n i && row_number n j then
    exists2 B, tk_set_sym A i j x = Ok B &
      [/\ symmetric B, tk_get B i j = Ok x, tk_get B j i = Ok x &
          forall p q, (p, q) != (i, j) -> (p, q) != (j, i) -> tk_get B p q = tk_get A p q]
  else tk_set_sym A i j x = Abort.
Proof.
move=> sA; rewrite /tk_set_sym.
move: (indexP n i) (indexP n j).
case: (row_number n i) => [[a ei ea]|ea]; last by rewrite ea.
case: (row_number n j) => [[b ej eb]|eb]; last by rewrite /= ea eb.
rewrite andbT ea eb.
exists (\matrix_(r, c) if [&& r == a & c == b] || [&& r == b & c == a] then x else A r c); first by [].
split.
- by move=> r c; rewrite !mxE orbC [in RHS](andbC (c == a)) [in RHS](andbC (c == b)) sA.
- by rewrite /tk_get ea eb mxE !eqxx.
- by rewrite /tk_get ea eb mxE !eqxx orbT.
move=> p q ne1 ne2; rewrite /tk_get.
move: (indexP n p) (indexP n q); case: (row_number n p) => [[c ec ->]|->] //.
case: (row_number n q) => [[d ed ->]|->] //; rewrite mxE.
case: ifP => // /orP[]/andP[/eqP e1 /eqP e2].
  by move: ne1; rewrite ec ed ei ej e1 e2 eqxx.
by move: ne2; rewrite ec ed ei ej e1 e2 eqxx.
Qed.

(** expected: a SymmetricMatrix stays symmetric.  Found: with Eigen only one of the two
    elements is written *)
Theorem C109_eigen_set_refuted n (A : 'M[R]_n) (a b : 'I_n) (x : R) :
  symmetric A -> a != b -> x != A a b ->
  exists2 B, tk_set A (a.+1)%:Z (b.+1)%:Z x = Ok B & B a b = x /\ B b a = A a b /\ ~ symmetric B.
Proof.
move=> sA ab ne; rewrite /tk_set !index_ord; eexists; first by [].
have e1 : forall B, B = \matrix_(r, c) (if (r == a) && (c == b) then x else A r c) -> B a b = x /\ B b a = A a b.
  by move=> B ->; rewrite !mxE !eqxx (eq_sym b a) (negbTE ab) /= sA.
have [e2 e3] := e1 _ erefl; split=> //; split=> // s.
by move: ne; rewrite -e3 -s e2 eqxx.
Qed.
End Rows.

(** operators: whichever is found computes what its sign means *)
Theorem C109_operators op a b f : apply_binary op a b = Some f -> meaning op f.
Proof. exact: lookup. Qed.

(** expected: a SymmetricMatrix and a Matrix can be added and subtracted, as in C++.  Found:
    neither is available; both functions stand in the table under the sign of the product,
    where they are never used *)
Theorem C109_sum_refuted :
  [/\ apply_binary "+" TSym TMat = None, apply_binary "-" TSym TMat = None,
      apply_binary "*" TSym TMat = Some Times &
      List.In ("*"%string, TSym, TMat, Plus) operators /\ List.In ("*"%string, TSym, TMat, Minus) operators].
Proof. by split=> //; split; cbn; tauto. Qed.

(** the rest of the table *)
Theorem C109_available :
  [/\ (forall t, t <> TDouble -> [/\ apply_binary "+" t t = Some Plus, apply_binary "-" t t = Some Minus &
                                    apply_binary "==" t t = Some Equal]),
      (forall t, t <> TDouble -> [/\ apply_binary "*" t TDouble = Some Times, apply_binary "/" t TDouble = Some Divide,
          apply_binary "+" t TDouble = Some Plus & apply_binary "-" t TDouble = Some Minus]),
      (forall t, apply_binary "*" TDouble t = None) &
      (forall a b, a <> TDouble -> b <> TDouble ->
         apply_binary "*" a b = Some Times <->
         List.In (a, b) [:: (TMat, TMat); (TCol, TRow); (TRow, TCol); (TSym, TMat); (TMat, TCol); (TSym, TCol)])].
Proof.
split; [by case=> // _; split|by case=> // _; split|by case|].
by case; case=> // _ _; cbn; split=> //; (try tauto); intuition congruence.
Qed.

Theorem C109_fill t : t <> TDouble -> apply_binary "=" t TDouble = Some SetAll.
Proof. by case: t. Qed.

(** the other functions take what their names say *)
Theorem C109_services s a : List.In (s, a)
    [:: ("resize_Matrix"%string, [:: AMat; AInt; AInt]); ("resize_ColumnVector"%string, [:: ACol; AInt]);
        ("resize_RowVector"%string, [:: ARow; AInt]); ("get_element_Matrix"%string, [:: AMat; AInt; AInt]);
        ("get_element_SymmetricMatrix"%string, [:: ASym; AInt; AInt]);
        ("set_element_Matrix"%string, [:: AMat; AInt; AInt; ADouble]);
        ("set_element_SymmetricMatrix"%string, [:: ASym; AInt; AInt; ADouble])] <->
  List.In (s, a) services /\ s <> "resize_SymmetricMatrix"%string.
Proof.
split; cbn; intuition; try congruence;
  repeat match goal with H : (_, _) = (_, _) |- _ => case: H => *; subst end; congruence.
Qed.

(** expected: resize_SymmetricMatrix resizes a SymmetricMatrix.  Found: it takes a Matrix and
    two sizes, and no function of the service resizes a SymmetricMatrix *)
Theorem C109_resize_refuted :
  (forall a, List.In ("resize_SymmetricMatrix"%string, a) services -> a = [:: AMat; AInt; AInt]) /\
  (forall s a, List.In (s, a) services -> List.In ASym a ->
     s = "get_element_SymmetricMatrix"%string \/ s = "set_element_SymmetricMatrix"%string).
Proof.
split=> [a|s a]; cbn; intuition; try congruence;
  repeat match goal with H : (_, _) = (_, _) |- _ => case: H => *; subst end; cbn in *; intuition congruence.
Qed.

(** a case: a matrix with two rows *)
Definition ex_A : 'M[rat_realFieldType]_(2, 3) := \matrix_(i, j) ((i : nat) * 3 + j)%:R.
Theorem C109_case :
  [/\ tk_boost ex_A 1 = Ok (Some (row 0 ex_A)), tk_boost ex_A 2 = Ok None, tk_boost ex_A 0 = Abort &
      row 0 ex_A <> row 1 ex_A].
Proof.
split; [exact: (@C109_rows _ _ _ ex_A ord0)|exact: (C109_last_refuted ex_A).1|exact: C109_zero_refuted|].
by move/rowP/(_ ord0); rewrite !mxE.
Qed.

Print Assumptions C109_rows.
Print Assumptions C109_last_refuted.
Print Assumptions C109_zero_refuted.
Print Assumptions C109_outside.
Print Assumptions C109_eigen.
Print Assumptions C109_eigen_sym.
Print Assumptions C109_members.
Print Assumptions C109_elements.
Print Assumptions C109_element_place.
Print Assumptions C109_elements_sym.
Print Assumptions C109_eigen_set_refuted.
Print Assumptions C109_operators.
Print Assumptions C109_sum_refuted.
Print Assumptions C109_available.
Print Assumptions C109_fill.
Print Assumptions C109_services.
Print Assumptions C109_resize_refuted.
Print Assumptions C109_case.
