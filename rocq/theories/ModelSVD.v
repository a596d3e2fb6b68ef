(** * Model of [Matrix_Wrapper::SVD] and [pseudoinverse]
    (src/wrappers/matrix/matrix_wrapper.cpp 45-338)

    Simplifications.  Arithmetic is that of a real closed field.  The comparisons of
    lines 172, 176 and 187 ask whether two doubles are the same number after rounding;
    they are a parameter [eqv], so that a theorem may let them succeed for numbers that
    are merely close.  Comparisons with 0 are exact.  Arrays are functions with the
    source's indices from 1 ([rv1.at(i-1)] is [rv i]); loop bounds keep every index in
    range except the two accesses that are marked [UB].  An inner loop whose iterations
    write different elements and do not read what the others write is one assignment
    to all these elements. *)
From mathcomp Require Import all_ssreflect all_algebra.
From Verif Require Import Outcome.
Set Implicit Arguments. Unset Strict Implicit. Unset Printing Implicit Defensive.
Import Order.TTheory GRing.Theory Num.Theory.
Local Open Scope ring_scope.

Section SVD.
Variables (R : rcfType) (eqv : R -> R -> bool).
Definition arr1 := nat -> R.
Definition arr2 := nat -> nat -> R.
(** [a(i) = x] *)
Definition set1 (a : arr1) (i : nat) (x : R) : arr1 := fun k => if k == i then x else a k.
(** [k] between [lo] and [hi] *)
Definition within (lo hi k : nat) : bool := (lo <= k <= hi)%N.
Definition flip (U : arr2) : arr2 := fun i j => U j i.

(** matrix_wrapper.cpp 282-299 [PYTHAG] *)
Definition pythag (a b : R) : R :=
  let at' := `|a| in let bt := `|b| in
  if bt < at' then let ct := bt / at' in at' * Num.sqrt (1 + ct * ct)
  else if bt == 0 then 0 else let ct := at' / bt in bt * Num.sqrt (1 + ct * ct).
(** matrix_wrapper.cpp 302-306 [SIGN] *)
Definition sign (a b : R) : R := if 0 <= b then `|a| else - `|a|.

(** matrix_wrapper.cpp 76-97: the part of column [p] between rows [lo] and [hi] is
    reflected, and with it the columns [jlo..jhi].  Result: [scale], [g] and the matrix.
    Lines 103-120 do the same to row [i]: [lo] is [ppi] and the matrix is read with
    rows and columns exchanged; [rv1(k)=U(i,k)/h] of line 114 is only used in line 117
    and is overwritten by line 73 of a later iteration. *)
Definition reflect (lo hi p jlo jhi : nat) (U : arr2) : R * R * arr2 :=
  let scale := \sum_(lo <= k < hi.+1) `|U k p| in
  if scale != 0 then
    let U1 : arr2 := fun k j => if (j == p) && within lo hi k then U k p / scale else U k j in
    let s := \sum_(lo <= k < hi.+1) U1 k p * U1 k p in
    let f := U1 lo p in
    let g := - sign (Num.sqrt s) f in
    let h := f * g - s in
    let U2 : arr2 := fun k j => if (j == p) && (k == lo) then f - g else U1 k j in
    let U3 : arr2 := fun k j =>
      if within jlo jhi j && within lo hi k
      then U2 k j + (\sum_(lo <= l < hi.+1) U2 l p * U2 l j) / h * U2 k p else U2 k j in
    let U4 : arr2 := fun k j => if (j == p) && within lo hi k then U3 k p * scale else U3 k j in
    (scale, g, U4)
  else (0, 0, U).

(** matrix_wrapper.cpp 66-126: Householder reduction to bidiagonal form *)
Record bstate := BState { b_U : arr2; b_w : arr1; b_rv : arr1; b_scale : R; b_g : R; b_anorm : R }.
Definition bid_step (rows cols : nat) (st : bstate) (i : nat) : bstate :=
  let rv := set1 (b_rv st) i (b_scale st * b_g st) in
  let: (scale, g, U) := if (i <= rows)%N then reflect i rows i i.+1 cols (b_U st) else (0, 0, b_U st) in
  let w := set1 (b_w st) i (scale * g) in
  let: (scale, g, U) := if (i <= rows)%N && (i != cols)
                        then let: (sc, g, U) := reflect i.+1 cols i i.+1 rows (flip U) in (sc, g, flip U)
                        else (0, 0, U) in
  let a := `|w i| + `|rv i| in
  BState U w rv scale g (if a < b_anorm st then b_anorm st else a).
Definition bidiagonal (rows cols : nat) (A : arr2) (w : arr1) : bstate :=
  foldl (bid_step rows cols) (BState A w (fun _ => 0) 0 0 0) (iota 1 cols).

(** matrix_wrapper.cpp 128-143: right-hand transformation.  In the iteration for
    [i < cols], [ppi] is [i+1] and [g] is [rv1(i+1)]. *)
Definition right_step (rows cols : nat) (U : arr2) (rv : arr1) (V : arr2) (i : nat) : outcome arr2 :=
  let ppi := i.+1 in let g := rv ppi in
  let! V1 := if (i < cols)%N then
      let! V1 := if g != 0 then
          if (i <= rows)%N then
            let Va : arr2 := fun k l => if (l == i) && within ppi cols k then U i k / U i ppi / g else V k l in
            Ok (fun k l => if within ppi cols k && within ppi cols l
                           then Va k l + (\sum_(ppi <= q < cols.+1) U i q * Va q l) * Va k i else Va k l)
          else UB
        else Ok V in
      Ok (fun k l => if ((k == i) && within ppi cols l) || ((l == i) && within ppi cols k) then 0 else V1 k l)
    else Ok V in
  Ok (fun k l => if (k == i) && (l == i) then 1 else V1 k l).
Definition right_acc (rows cols : nat) (U : arr2) (rv : arr1) (V : arr2) : outcome arr2 :=
  foldO (right_step rows cols U rv) V (rev (iota 1 cols)).

(** matrix_wrapper.cpp 145-162: left-hand transformation *)
Definition left_step (rows cols : nat) (w : arr1) (U : arr2) (i : nat) : arr2 :=
  let ppi := i.+1 in
  let Ua : arr2 := fun k l => if (k == i) && within ppi cols l then 0 else U k l in
  let Uc : arr2 :=
    if w i != 0 then
      let g := 1 / w i in
      let Ub : arr2 := fun k l =>
        if within ppi cols l && within i rows k
        then Ua k l + (\sum_(ppi <= q < rows.+1) Ua q i * Ua q l) / Ua i i * g * Ua k i else Ua k l in
      fun k l => if (l == i) && within i rows k then Ub k i * g else Ub k l
    else fun k l => if (l == i) && within i rows k then 0 else Ua k l in
  fun k l => if (k == i) && (l == i) then Uc k l + 1 else Uc k l.
Definition left_acc (rows cols : nat) (w : arr1) (U : arr2) : arr2 :=
  foldl (left_step rows cols w) U (rev (iota 1 (minn cols rows))).

(** matrix_wrapper.cpp 168-179: test for splitting, downwards from [ppi].  Result:
    [flag] and [ppi]; line 176 reads [w(ppi-1)].  Note [fabs(w(nm)+anorm)]. *)
Fixpoint find_split (anorm : R) (w rv : arr1) (ppi : nat) : outcome (bool * nat) :=
  if ppi is nm.+1 then
    if eqv (`|rv ppi| + anorm) anorm then Ok (false, ppi)
    else if nm == 0%N then UB
    else if eqv (`|w nm + anorm|) anorm then Ok (true, ppi)
    else find_split anorm w rv nm
  else Ok (true, 0%N).

(** lines 196-201, 249-254, 265-270: two columns are rotated *)
Definition rotate (p q : nat) (c s : R) (U : arr2) : arr2 := fun k l =>
  if l == p then U k p * c + U k q * s else if l == q then U k q * c - U k p * s else U k l.

(** matrix_wrapper.cpp 181-203: cancellation of [rv1(ppi)]; [todo] are the remaining
    values of [i] *)
Fixpoint cancel (anorm : R) (nm : nat) (todo : seq nat) (c s : R) (w rv : arr1) (U : arr2) : arr1 * arr1 * arr2 :=
  if todo is i :: todo' then
    let f := s * rv i in
    let rv := set1 rv i (c * rv i) in
    if eqv (`|f| + anorm) anorm then (w, rv, U)
    else
      let g := w i in
      let h := pythag f g in
      let w := set1 w i h in
      let h := 1 / h in
      let c := g * h in
      let s := - f * h in
      cancel anorm nm todo' c s w rv (rotate nm i c s U)
  else (w, rv, U).

(** matrix_wrapper.cpp 233-271: the QR transformation; [js] are the remaining values
    of [j].  Result: [f], [x] and the arrays. *)
Fixpoint sweep (js : seq nat) (c s f x : R) (w rv : arr1) (U V : arr2) : R * R * arr1 * arr1 * arr2 * arr2 :=
  if js is j :: js' then
    let i := j.+1 in
    let g := rv i in let y := w i in
    let h := s * g in let g := c * g in
    let z := pythag f h in
    let rv := set1 rv j z in
    let c := f / z in let s := h / z in
    let f := x * c + g * s in let g := g * c - x * s in
    let h := y * s in let y := y * c in
    let V := rotate j i c s V in
    let z := pythag f h in
    let w := set1 w j z in
    let: (c, s) := if z != 0 then let z := 1 / z in (f * z, h * z) else (c, s) in
    let f := c * g + s * y in let x := c * y - s * g in
    sweep js' c s f x w rv (rotate j i c s U) V
  else (f, x, w, rv, U, V).

(** matrix_wrapper.cpp 222-231: the first [f] *)
Definition shift (ppi k : nat) (w rv : arr1) : R :=
  let x := w ppi in let z := w k in let nm := k.-1 in
  let y := w nm in let g := rv nm in let h := rv k in
  let f := ((y - z) * (y + z) + (g - h) * (g + h)) / (2%:R * h * y) in
  let g := pythag f 1 in
  ((x - z) * (x + z) + h * (y / (f + sign g f) - h)) / x.

(** the arrays that the iteration changes *)
Record sstate := SState { s_w : arr1; s_rv : arr1; s_U : arr2; s_V : arr2 }.
(** matrix_wrapper.cpp 167-276: the iterations for [k], [left] of them after this one;
    [false] is the [return false] of line 220. *)
Fixpoint iterate (anorm : R) (k left : nat) (st : sstate) : outcome (bool * sstate) :=
  let! fp := find_split anorm (s_w st) (s_rv st) k in
  let: (flag, ppi) := fp in
  let: (w, rv, U) := if flag then cancel anorm ppi.-1 (iota ppi (k.+1 - ppi)) 0 1 (s_w st) (s_rv st) (s_U st)
                     else (s_w st, s_rv st, s_U st) in
  let V := s_V st in
  if ppi == k then
    if w k < 0 then Ok (true, SState (set1 w k (- w k)) rv U (fun i l => if l == k then - V i l else V i l))
    else Ok (true, SState w rv U V)
  else if left is left'.+1 then
    let: (f, x, w', rv', U', V') := sweep (iota ppi (k - ppi)) 1 1 (shift ppi k w rv) (w ppi) w rv U V in
    iterate anorm k left' (SState (set1 w' k x) (set1 (set1 rv' ppi 0) k f) U' V')
  else Ok (false, SState w rv U V).

(** matrix_wrapper.cpp 56 *)
Definition max_iter : nat := 150.
(** matrix_wrapper.cpp 164-277 *)
Fixpoint diagonalise (anorm : R) (ks : seq nat) (st : sstate) : outcome (bool * sstate) :=
  if ks is k :: ks' then
    let! r := iterate anorm k max_iter.-1 st in
    if r.1 then diagonalise anorm ks' r.2 else Ok r
  else Ok (true, st).

(** matrix_wrapper.cpp 45-279 [SVD]: the returned flag, [w], [U] and [V]; [w0] and [V0]
    are the contents of the resized arguments.  Line 219 sets [w] to 0. *)
Definition svd (rows cols : nat) (A : arr2) (w0 : arr1) (V0 : arr2) : outcome (bool * arr1 * arr2 * arr2) :=
  let b := bidiagonal rows cols A w0 in
  let! V := right_acc rows cols (b_U b) (b_rv b) V0 in
  let U := left_acc rows cols (b_w b) (b_U b) in
  let! r := diagonalise (b_anorm b) (rev (iota 1 cols)) (SState (b_w b) (b_rv b) U V) in
  let: (ok, st) := r in
  Ok (ok, (if ok then s_w st else fun _ => 0), s_U st, s_V st).

(** matrix_wrapper.cpp 308-336 [pseudoinverse]: [V * Dinv * U.transpose()] *)
Definition pseudoinverse (rows cols : nat) (A : arr2) (epsilon : R) (w0 : arr1) (V0 : arr2) : outcome arr2 :=
  let! r := svd rows cols A w0 V0 in
  let: (res, D, U, V) := r in
  guard res ;;
  let Dinv := fun i : nat => if D i < epsilon then 0 else 1 / D i in
  Ok (fun k l => \sum_(1 <= i < cols.+1) V k i * Dinv i * U l i).
End SVD.
