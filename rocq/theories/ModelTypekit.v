(** * The RTT typekit (bfl_typekit/src: bflTypekitMatrix.cpp, bfl_typekit.cpp)

    Scripts of the RTT see matrices through the typekit: rows by number, the number of rows
    and columns, and a table of operators and functions.  Simplifications.  RTT is modelled
    as it is documented: [NA<RowVector>::na()] is an empty vector ([None] here); the first
    operator of the table that fits the types of the operands is used; a function of the
    service is called only with arguments of its types.  Sizes beyond [int], the log and the
    repetition of the property bags of ModelRtt.v are left out. *)
From Coq Require Import String.
From mathcomp Require Import all_ssreflect all_algebra.
From Verif Require Import Outcome ModelWrapper.
Set Implicit Arguments. Unset Strict Implicit. Unset Printing Implicit Defensive.
Import Order.TTheory GRing.Theory Num.Theory.
Local Open Scope ring_scope.

Section Rows.
Variable R : realFieldType.
(** bflTypekitMatrix.cpp 20-34 [get_matrix_item], [get_matrix_item_copy]; [rowCopy] stands for
    [operator[]] of the matrix (matrix_BOOST.cpp 50-52, 344-346; matrix_EIGEN.cpp, the same) *)
Definition tk_item n (rowCopy : nat -> outcome 'rV[R]_n) (rows : nat) (index : int) : outcome (option 'rV[R]_n) :=
  if (rows%:Z <= index) || (index < 0) then Ok None
  else let! r := rowCopy `|index|%N in Ok (Some r).
Definition tk_boost m n (A : 'M[R]_(m, n)) := tk_item (boost_row A) m.
Definition tk_eigen m n (A : 'M[R]_(m, n)) := tk_item (eigen_row A) m.
Definition tk_eigen_sym n (A : 'M[R]_n) := tk_item (eigen_sym_row A) n.
(** bflTypekitMatrix.cpp 44-90 and 163-209 [getMember]: a number selects a row, a name a size; [FNone]: no
    such member *)
Inductive found (T : Type) := FSize of nat | FRow of T | FNone.
Definition tk_member n (rowCopy : nat -> outcome 'rV[R]_n) (rows : nat) (id : int + string) :
  outcome (found (option 'rV[R]_n)) :=
  match id with
  | inl i => let! r := tk_item rowCopy rows i in Ok (FRow r)
  | inr s => Ok (if (s =? "rows")%string then FSize _ rows
                 else if (s =? "columns")%string then FSize _ n else FNone _)
  end.

(** matrix_BOOST.cpp 172-176, matrix_EIGEN.cpp 154-158: [operator()] subtracts 1 from the
    unsigned index, so 0 and negative numbers become too large an index *)
Definition index (n : nat) (i : int) : option 'I_n := if i is Posz k.+1 then insub k else None.
(** bfl_typekit.cpp 85-90 [get_matrix_el] *)
Definition tk_get m n (A : 'M[R]_(m, n)) (i j : int) : outcome R :=
  if index m i is Some a then if index n j is Some b then Ok (A a b) else Abort else Abort.
(** bfl_typekit.cpp 92-97 [set_matrix_el] of a [Matrix], and of a [SymmetricMatrix] of the
    Eigen back end (matrix_EIGEN.cpp 485-489), which stores the whole square *)
Definition tk_set m n (A : 'M[R]_(m, n)) (i j : int) (x : R) : outcome 'M[R]_(m, n) :=
  if index m i is Some a then
    if index n j is Some b then Ok (\matrix_(r, c) if (r == a) && (c == b) then x else A r c) else Abort
  else Abort.
(** the same of a [SymmetricMatrix] of the Boost back end (matrix_BOOST.cpp 624-628), which
    stores one triangle: [(i,j)] and [(j,i)] are the same variable *)
Definition tk_set_sym n (A : 'M[R]_n) (i j : int) (x : R) : outcome 'M[R]_n :=
  if index n i is Some a then
    if index n j is Some b then
      Ok (\matrix_(r, c) if [&& r == a & c == b] || [&& r == b & c == a] then x else A r c)
    else Abort
  else Abort.
End Rows.

(** ** The table of operators *)
Inductive ty := TCol | TRow | TMat | TSym | TDouble.
Inductive fn := Plus | Minus | Times | Divide | Equal | SetAll.
Definition ty_eqb (a b : ty) : bool :=
  match a, b with
  | TCol, TCol | TRow, TRow | TMat, TMat | TSym, TSym | TDouble, TDouble => true
  | _, _ => false
  end.
(** registered name, types of the operands, what is computed *)
Definition entry := (string * ty * ty * fn)%type.
Definition four : seq ty := [:: TCol; TRow; TMat; TSym].
Definition four' : seq ty := [:: TMat; TSym; TCol; TRow].
(** bfl_typekit.cpp 232-276 [loadOperators], in the order of the calls of [add] *)
Definition operators : seq entry :=
  [seq ("+"%string, t, t, Plus) | t <- four] ++ [seq ("-"%string, t, t, Minus) | t <- four] ++
  [:: ("*"%string, TMat, TMat, Times)] ++ [seq ("=="%string, t, t, Equal) | t <- four] ++
  [:: ("*"%string, TCol, TRow, Times); ("*"%string, TRow, TCol, Times)] ++
  [seq ("="%string, t, TDouble, SetAll) | t <- four'] ++
  [:: ("*"%string, TSym, TMat, Times); ("*"%string, TSym, TMat, Plus); ("*"%string, TSym, TMat, Minus);
      ("*"%string, TMat, TCol, Times); ("*"%string, TSym, TCol, Times)] ++
  [seq ("*"%string, t, TDouble, Times) | t <- four] ++ [seq ("/"%string, t, TDouble, Divide) | t <- four] ++
  [seq ("+"%string, t, TDouble, Plus) | t <- four] ++ [seq ("-"%string, t, TDouble, Minus) | t <- four].
Definition fits (op : string) (a b : ty) (e : entry) : bool :=
  let: (o, l, r, _) := e in [&& (o =? op)%string, ty_eqb l a & ty_eqb r b].
(** OperatorRepository: the first that fits *)
Definition apply_binary (op : string) (a b : ty) : option fn :=
  if [seq e <- operators | fits op a b e] is e :: _ then Some e.2 else None.

(** ** Functions of the service "bfl" (bfl_typekit.cpp 284-291): types of the arguments *)
Inductive arg := AMat | ASym | ACol | ARow | AInt | ADouble.
Definition resize_matrix_args : seq arg := [:: AMat; AInt; AInt].
Definition services : seq (string * seq arg) :=
  [:: ("resize_Matrix"%string, resize_matrix_args); ("resize_SymmetricMatrix"%string, resize_matrix_args);
      ("resize_ColumnVector"%string, [:: ACol; AInt]); ("resize_RowVector"%string, [:: ARow; AInt]);
      ("get_element_Matrix"%string, [:: AMat; AInt; AInt]); ("get_element_SymmetricMatrix"%string, [:: ASym; AInt; AInt]);
      ("set_element_Matrix"%string, [:: AMat; AInt; AInt; ADouble]);
      ("set_element_SymmetricMatrix"%string, [:: ASym; AInt; AInt; ADouble])].
