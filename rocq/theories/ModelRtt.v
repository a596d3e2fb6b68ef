(** * The RTT property bindings (src/bindings/rtt: bfl_toolkit.cpp, bfl_toolkit.hpp,
    SampleComposition.hpp)

    The toolkit turns vectors, matrices, probabilities and samples into property bags
    (decompose) and back (compose).  Simplifications.  RTT is modelled as it is documented:
    a bag has a type name and a list of named properties; [add] appends, also when the name
    is taken; [getProperty<T>(name)] returns the first property of that name and of type [T],
    or NULL; [getItem(i)] returns NULL past the end; a property found is [ready]; composing
    from a property of the very same type copies its value; composing a number from a bag
    fails.  Using a NULL pointer is [UB].  [double] is an element of an ordered field.  The
    descriptions of properties, the log, the unused [el_bag] of a number and sizes beyond
    [int] are left out, and so are the constructors and the registration of types and of
    operators other than the indexing of vectors. *)
From Coq Require Import String DecimalString Decimal.
From mathcomp Require Import all_ssreflect all_algebra.
From Verif Require Import Outcome ModelWrapper.
Set Implicit Arguments. Unset Strict Implicit. Unset Printing Implicit Defensive.
Import Order.TTheory GRing.Theory Num.Theory.
Local Open Scope ring_scope.

(** [stringstream out; out << i] for [i >= 0] *)
Definition num_name (i : nat) : string := NilZero.string_of_uint (Nat.to_uint i).

Section Rtt.
Variable R : realFieldType.
(** what is found in memory that was never written *)
Variable junk : R.
(** are asserts compiled in?  Not in the build type RTT (CMakeLists.txt 85-88, -DNDEBUG) *)
Variable dbg : bool.
Definition assert_ (c : bool) : outcome unit := if dbg then guard c else Ok tt.

(** ** Bags *)
Inductive prop :=
| PDouble of R
| PInt of int
| PVec of seq R                      (* Property<ColumnVector> *)
| PBag of string & seq (string * prop).
Definition items := seq (string * prop).
Record bag := Bag { b_type : string; b_items : items }.
(** a bag that was just constructed *)
Definition new_bag : bag := Bag "type_less" [::].
Definition set_type (b : bag) (t : string) : bag := Bag t (b_items b).
Definition bag_add (b : bag) (n : string) (p : prop) : bag := Bag (b_type b) (rcons (b_items b) (n, p)).
(** [getProperty<double>], [getProperty<PropertyBag>] *)
Fixpoint get_double (l : items) (n : string) : option R :=
  if l is (m, p) :: l' then
    if (m =? n)%string then (if p is PDouble x then Some x else get_double l' n) else get_double l' n
  else None.
Fixpoint get_bag (l : items) (n : string) : option bag :=
  if l is (m, p) :: l' then
    if (m =? n)%string then (if p is PBag t k then Some (Bag t k) else get_bag l' n) else get_bag l' n
  else None.

(** ** Probability *)
(** bfl_toolkit.cpp 92-98 *)
Definition prob_decompose (p : R) (b : bag) : bag := bag_add (set_type b "Probability") "Probability" (PDouble p).
(** bfl_toolkit.cpp 99-106, with the assert of the constructor (bfl_constants.h 46) *)
Definition prob_compose (b : bag) (old : R) : outcome (bool * R) :=
  if get_double (b_items b) "Probability" is Some x then assert_ (0 <= x) ;; Ok (true, x) else Ok (false, old).

(** ** Vectors: [ty] is "ColumnVector" or "RowVector" *)
(** bfl_toolkit.cpp 117-131, 167-182 *)
Definition vec_decompose (ty : string) (v : seq R) (b : bag) : outcome bag :=
  foldO (fun b i => let! x := vec_get v i in Ok (bag_add b (num_name i) (PDouble x)))
        (set_type b ty) (iota 1 (size v)).
(** bfl_toolkit.cpp 133-157, 184-209 *)
Definition vec_compose (ty : string) (b : bag) (old : seq R) : outcome (bool * seq R) :=
  if (b_type b =? ty)%string then
    let n := size (b_items b) in
    let! v := foldO (fun v i => if get_double (b_items b) (num_name i) is Some x then vec_put v i x else UB)
                    (vec_resize old n) (iota 1 n) in
    Ok (true, v)
  else Ok (false, old).

(** ** Matrices: a list of rows and the number of columns *)
Record rmat := RMat { x_cols : nat; x_rows : seq (seq R) }.
Definition no_mat : rmat := RMat 0 [::].
(** [operator()(i,j)], indices from 1, checked if asserts are compiled in *)
Definition mat_get (m : rmat) (i j : nat) : outcome R :=
  if (0 < i <= size (x_rows m))%N && (0 < j <= x_cols m)%N
  then let! r := at_ (x_rows m) i.-1 in at_ r j.-1 else if dbg then Abort else UB.
Definition mat_put (m : rmat) (i j : nat) (x : R) : outcome rmat :=
  if (0 < i <= size (x_rows m))%N && (0 < j <= x_cols m)%N then
    let! r := at_ (x_rows m) i.-1 in
    let! r' := put_ r j.-1 x in
    let! d := put_ (x_rows m) i.-1 r' in Ok (RMat (x_cols m) d)
  else if dbg then Abort else UB.
(** matrix_BOOST.cpp 314-319 [resize]: elements inside both shapes are kept *)
Definition mat_resize (m : rmat) (r c : nat) : rmat :=
  RMat c (mkseq (fun i => mkseq (fun j => nth junk (nth [::] (x_rows m) i) j) c) r).
(** matrix_BOOST.cpp 202-209 [rowCopy] *)
Definition mat_row (m : rmat) (i : nat) : outcome (seq R) :=
  mapO (fun j => mat_get m i j.+1) (iota 0 (x_cols m)).
(** one [Property<RowVector>] decomposed into [row_bag] and added *)
Definition add_row (b : bag) (i : nat) (r : seq R) : outcome bag :=
  let! rb := vec_decompose "RowVector" r new_bag in
  Ok (bag_add b (num_name i) (PBag (b_type rb) (b_items rb))).
(** bfl_toolkit.cpp 217-231 *)
Definition mat_decompose (m : rmat) (b : bag) : outcome bag :=
  foldO (fun b i => let! r := mat_row m i in add_row b i r)
        (set_type b "Matrix") (iota 1 (size (x_rows m))).
(** bfl_toolkit.cpp 237-267, 305-335: rows [ks]; the matrix has [rows] rows *)
Fixpoint rows_loop (l : items) (rows : nat) (cols : nat) (m : rmat) (ks : seq nat) : outcome (bool * rmat) :=
  if ks is i :: ks' then
    if get_bag l (num_name i) is Some rb then
      let! rp := vec_compose "RowVector" rb [::] in
      if ~~ rp.1 then Ok (false, m) else
      let r := rp.2 in
      if (i != 1%N) && (size r != cols) then Ok (false, m) else
      let cols' := if i == 1%N then size r else cols in
      let m' := if i == 1%N then mat_resize m rows cols' else m in
      let! m'' := foldO (fun m j => let! x := vec_get r j in mat_put m i j x) m' (iota 1 (size r)) in
      rows_loop l rows cols' m'' ks'
    else Ok (false, m)
  else Ok (true, m).
Definition rows_compose (ty : string) (b : bag) (old : rmat) : outcome (bool * rmat) :=
  if (b_type b =? ty)%string then
    let rows := size (b_items b) in rows_loop (b_items b) rows 0 old (iota 1 rows)
  else Ok (false, old).
(** bfl_toolkit.cpp 233-275 *)
Definition mat_compose (b : bag) (old : rmat) : outcome (bool * rmat) := rows_compose "Matrix" b old.

(** ** Symmetric matrices: the lower triangle, row by row *)
Definition rsym := seq (seq R).
(** element [(i,j)], indices from 0, and the conversion to [Matrix] *)
Definition sym_el (s : rsym) (i j : nat) : R := nth junk (nth [::] s (maxn i j)) (minn i j).
Definition sym_mat (s : rsym) : rmat :=
  RMat (size s) (mkseq (fun i => mkseq (fun j => sym_el s i j) (size s)) (size s)).
(** bfl_toolkit.cpp 283-298 *)
Definition sym_decompose (s : rsym) (b : bag) : outcome bag :=
  foldO (fun b i => let! r := mat_row (sym_mat s) i in add_row b i r)
        (set_type b "SymmetricMatrix") (iota 1 (size s)).
(** matrix_BOOST.cpp 296-312 [convertToSymmetricMatrix] *)
Definition to_sym (m : rmat) : outcome rsym :=
  assert_ (size (x_rows m) == x_cols m) ;;
  mapO (fun i => mapO (fun j => mat_get m i.+1 j.+1) (iota 0 i.+1)) (iota 0 (size (x_rows m))).
(** bfl_toolkit.cpp 300-344 *)
Definition sym_compose (b : bag) (old : rsym) : outcome (bool * rsym) :=
  let! r := rows_compose "SymmetricMatrix" b no_mat in
  if r.1 then let! s := to_sym r.2 in Ok (true, s) else Ok (false, old).

(** ** Samples of [int], [double] and [ColumnVector] *)
Inductive kind := KInt | KDouble | KVec.
Inductive sval := SInt of int | SDouble of R | SVec of seq R.
Definition kind_of (x : sval) : kind := match x with SInt _ => KInt | SDouble _ => KDouble | SVec _ => KVec end.
(** SampleComposition.hpp 75-87, 201-214: the value as a bag if its type has one *)
Definition add_value (key : string) (x : sval) (b : bag) : outcome bag :=
  match x with
  | SInt z => Ok (bag_add b key (PInt z))
  | SDouble d => Ok (bag_add b key (PDouble d))
  | SVec v => let! vb := vec_decompose "ColumnVector" v new_bag in Ok (bag_add b key (PBag (b_type vb) (b_items vb)))
  end.
(** SampleComposition.hpp 61-88 *)
Definition sample_decompose (x : sval) (b : bag) : outcome bag :=
  assert_ (size (b_items b) == 0%N) ;; add_value "SampleValue" x (set_type b "Sample").
(** SampleComposition.hpp 100-132, 228-260: [None]: return false *)
Definition value_compose (key : string) (k : kind) (b : bag) : outcome (option sval) :=
  if get_bag (b_items b) key is Some vb then
    if k is KVec then let! r := vec_compose "ColumnVector" vb [::] in Ok (if r.1 then Some (SVec r.2) else None)
    else Ok None
  else if b_items b is (_, p) :: _ then
    Ok (match k, p with
        | KInt, PInt z => Some (SInt z)
        | KDouble, PDouble d => Some (SDouble d)
        | KVec, PVec v => Some (SVec v)
        | _, _ => None
        end)
  else UB.
(** SampleComposition.hpp 94-141 *)
Definition sample_compose (b : bag) (old : sval) : outcome (bool * sval) :=
  if (b_type b =? "Sample")%string then
    let! r := value_compose "SampleValue" (kind_of old) b in
    Ok (if r is Some x then (true, x) else (false, old))
  else Ok (false, old).

(** Weighted samples: value and weight *)
Definition wsval := (sval * R)%type.
(** SampleComposition.hpp 187-217 *)
Definition wsample_decompose (x : wsval) (b : bag) : outcome bag :=
  assert_ (size (b_items b) == 0%N) ;;
  let! b' := add_value "WeightedSampleValue" x.1 (set_type b "WeightedSample") in
  Ok (bag_add b' "WeightedSampleWeight" (PDouble x.2)).
(** SampleComposition.hpp 223-281, with the assert of [WeightSet] (weightedsample.h 109-114) *)
Definition wsample_compose (b : bag) (old : wsval) : outcome (bool * wsval) :=
  if (b_type b =? "WeightedSample")%string then
    let! r := value_compose "WeightedSampleValue" (kind_of old.1) b in
    if r is Some x then
      if get_double (b_items b) "WeightedSampleWeight" is Some w then assert_ (0 <= w) ;; Ok (true, (x, w))
      else Ok (false, (x, old.2))
    else Ok (false, old)
  else Ok (false, old).

(** ** Indexing and checks *)
(** bfl_toolkit.cpp 347-367 [vector_index], [rvector_index]; [None]: NAN *)
Definition vector_index (v : seq R) (i : int) : outcome (option R) :=
  if ((size v)%:Z < i) || (i < 1) then Ok None else let! x := vec_get v `|i|%N in Ok (Some x).
(** bfl_toolkit.hpp 39-47 [VectorAssignChecker], 49-57 [MatrixAssignChecker] *)
Definition vec_assignable (v w : seq R) : bool := size v == size w.
Definition mat_assignable (m k : rmat) : bool :=
  (size (x_rows m) == size (x_rows k)) && (x_cols m == x_cols k).
(** bfl_toolkit.hpp 59-67 [MatrixIndexChecker] *)
Definition mat_index_ok (m : rmat) (i : nat) : bool := (0 < i)%N && (i < size (x_rows m))%N.
End Rtt.
