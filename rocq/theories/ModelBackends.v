(** * The Boost and the Eigen back end of the matrix and vector wrappers
    (src/wrappers/matrix: vector_BOOST.cpp, matrix_BOOST.cpp, vector_EIGEN.cpp, matrix_EIGEN.cpp)

    A program is a list of calls of the wrapper classes on numbered objects; it is run once
    with each back end.  Simplifications.  Numbers are elements of an ordered field; an
    element that was never written, or that is computed from one, is [None], and so is a
    quotient by 0.  The libraries are modelled as documented: sizes and indices are
    checked (builds with assertions), a failing check is [Abort]; storage is row by row in
    ublas, column by column in Eigen, and one triangle row by row in a ublas symmetric
    matrix.  Loops that copy elements are written as lists (the loops of the Boost vector
    are C64).  [inverse], [determinant] (C63), [SymmetricMatrix += Matrix] and the stream
    operators are left out.  Negative sizes and indices are left out. *)
From mathcomp Require Import all_ssreflect all_algebra.
From Verif Require Import Outcome.
Set Implicit Arguments. Unset Strict Implicit. Unset Printing Implicit Defensive.
Import Order.TTheory GRing.Theory Num.Theory.
Local Open Scope ring_scope.

Section Numbers.
Variable R : realFieldType.
(** a stored number; [None]: indeterminate *)
Definition num := option R.
Definition lift (f : R -> R -> num) (a b : num) : num :=
  if a is Some x then if b is Some y then f x y else None else None.
Definition nadd := lift (fun x y => Some (x + y)).
Definition nsub := lift (fun x y => Some (x - y)).
Definition nmul := lift (fun x y => Some (x * y)).
Definition ndiv := lift (fun x y => if y == 0 then None else Some (x / y)).
Inductive arith := Plus | Minus | Times | Over.
Definition calc (o : arith) : num -> num -> num :=
  match o with Plus => nadd | Minus => nsub | Times => nmul | Over => ndiv end.
(** [+] and [-], the operators on two objects *)
Definition pm (minus : bool) : num -> num -> num := if minus then nsub else nadd.

(** ** Calls.  Numbers of objects come first, then indices, then values. *)
Inductive call :=
(* vectors; [true]: RowVector *)
| VNew of bool & nat                 (* ColumnVector(n) *)
| VConst of bool & nat & R           (* ColumnVector(n, value) *)
| VJoin of nat & nat                 (* ColumnVector(a, b) *)
| VAddC of nat & nat                 (* ColumnVector::vectorAdd *)
| VAddR of nat & nat                 (* RowVector::vectorAdd *)
| VResize of nat & nat
| VPut of nat & nat & R              (* v(i) = x *)
| VGet of nat & nat
| VEq of nat & nat                   (* operator== *)
| VFill of nat & R                   (* v = x *)
| VOp of bool & nat & nat            (* v + w, v - w *)
| VUpd of bool & nat & nat           (* v += w, v -= w *)
| VScal of arith & nat & R           (* v + x, v - x, v * x, v / x *)
| VScalUpd of arith & nat & R
| VTrans of nat
| VOuter of nat & nat                (* column * row *)
| VDot of nat & nat                  (* row * column *)
| VSub of nat & nat & nat            (* sub(a, b) *)
(* matrices *)
| MNew of nat & nat                  (* Matrix(r, c) *)
| MRows of nat & nat                 (* Matrix(n, row) *)
| MResize of nat & nat & nat
| MPut of nat & nat & nat & R
| MGet of nat & nat & nat
| MEq of nat & nat
| MFill of nat & R
| MOp of bool & nat & nat
| MUpd of bool & nat & nat
| MScal of arith & nat & R
| MScalUpd of arith & nat & R
| MMul of nat & nat
| MVec of nat & nat                  (* matrix * column *)
| MTrans of nat
| MSub of nat & nat & nat & nat & nat
| MOfSym of nat & nat                (* m = s *)
| MToSym of nat & nat                (* m.convertToSymmetricMatrix(s) *)
(* symmetric matrices *)
| SNew of nat
| SRows of nat & nat                 (* SymmetricMatrix(n, row) *)
| SResize of nat & nat
| SPut of nat & nat & nat & R
| SGet of nat & nat & nat
| SEq of nat & nat
| SFill of nat & R
| SOp of bool & nat & nat
| SUpd of bool & nat & nat
| SOpM of bool & nat & nat           (* s + m, s - m *)
| SScal of arith & nat & R
| SScalUpd of arith & nat & R
| SMulM of nat & nat
| SMulS of nat & nat
| SVec of nat & nat                  (* s * column, multiply *)
| SSub of nat & nat & nat & nat & nat
| SRow of nat & nat.                 (* rowCopy *)

(** what a call reports *)
Inductive report := Silent | Value of num | Truth of option bool.

(** ** Storage *)
Definition vec := (bool * seq num)%type.
Record mat := Mat { m_r : nat; m_c : nat; m_d : seq num }.
Record bsym := BSym { s_n : nat; s_d : seq num }.
Inductive obj (S : Type) := OV of vec | OM of mat | OS of S.
Arguments OV {S}. Arguments OM {S}. Arguments OS {S}.

Section Objects.
Variable S : Type.
Definition heap := seq (obj S).
Fixpoint hget (h : heap) (a : nat) : option (obj S) :=
  match h, a with [::], _ => None | x :: _, 0 => Some x | _ :: h', a'.+1 => hget h' a' end.
Fixpoint hput (h : heap) (a : nat) (x : obj S) : heap :=
  match h, a with [::], _ => [::] | _ :: h', 0 => x :: h' | y :: h', a'.+1 => y :: hput h' a' x end.
(** a wrong object is a type error: the program does not compile *)
Definition getv (h : heap) (a : nat) : outcome vec := if hget h a is Some (OV v) then Ok v else Abort.
Definition getm (h : heap) (a : nat) : outcome mat := if hget h a is Some (OM v) then Ok v else Abort.
Definition gets (h : heap) (a : nat) : outcome S := if hget h a is Some (OS v) then Ok v else Abort.
Definition push (h : heap) (x : obj S) : outcome (heap * report) := Ok (rcons h x, Silent).
Definition store (h : heap) (a : nat) (x : obj S) : outcome (heap * report) := Ok (hput h a x, Silent).
Definition tell (h : heap) (r : report) : outcome (heap * report) := Ok (h, r).
End Objects.

(** element [k] and size *)
Definition vel (v : seq num) (k : nat) : num := nth None v k.
Definition vtab (n : nat) (f : nat -> num) : seq num := mkseq f n.

(** ** Boost *)
(** ublas::matrix, row by row *)
Definition bel (m : mat) (i j : nat) : num := nth None (m_d m) (i * m_c m + j)%N.
Definition btab (r c : nat) (f : nat -> nat -> num) : mat :=
  Mat r c (flatten [seq [seq f i j | j <- iota 0 c] | i <- iota 0 r]).
(** ublas::symmetric_matrix, the lower triangle row by row *)
Definition tri (i : nat) : nat := sumn (iota 1 i).
Definition sel (s : bsym) (i j : nat) : num :=
  nth None (s_d s) (if (j <= i)%N then (tri i + j)%N else (tri j + i)%N).
Definition stab (n : nat) (f : nat -> nat -> num) : bsym :=
  BSym n (flatten [seq [seq f i j | j <- iota 0 i.+1] | i <- iota 0 n]).

(** ublas [prod] and the loop in vector_BOOST.cpp 412-423: terms are added from the first on *)
Definition bsum (f : nat -> num) (n : nat) : num := foldl (fun acc k => nadd acc (f k)) (Some 0) (iota 0 n).
(** [norm_inf(a - b) == 0], of a vector (largest absolute value) and of a matrix (largest row sum) *)
Definition nabs (a : num) : num := omap (fun x => `|x|) a.
Definition nmax (a b : num) : num := lift (fun x y => Some (if x < y then y else x)) a b.
Definition bnorm (f : nat -> num) (n : nat) : num := foldl (fun acc k => nmax acc (nabs (f k))) (Some 0) (iota 0 n).
Definition bnormm (f : nat -> nat -> num) (r c : nat) : num :=
  foldl (fun acc i => nmax acc (bsum (fun j => nabs (f i j)) c)) (Some 0) (iota 0 r).
Definition is0 (a : num) : option bool := omap (fun x => x == 0) a.

Definition bheap := heap bsym.
Definition boost (h : bheap) (k : call) : outcome (bheap * report) :=
  match k with
  (* vector_BOOST.cpp 29, 251 *)
  | VNew row n => push h (OV (row, nseq n None))
  (* 30-32, 252-254 *)
  | VConst row n x => push h (OV (row, nseq n (Some x)))
  (* 33-46 *)
  | VJoin a b => let! v := getv h a in let! w := getv h b in
      guard (~~ v.1 && ~~ w.1) ;; push h (OV (false, v.2 ++ w.2))
  (* 78-91 *)
  | VAddC a b => let! v := getv h a in let! w := getv h b in
      guard (~~ v.1 && ~~ w.1) ;; push h (OV (false, v.2 ++ w.2))
  (* 286-299 *)
  | VAddR a b => let! v := getv h a in let! w := getv h b in
      guard (v.1 && w.1) ;; push h (OV (true, v.2 ++ w.2))
  (* 57-62, 265-270; ublas resize keeps the elements, new ones are 0 *)
  | VResize a n => let! v := getv h a in
      store h a (OV (v.1, take n v.2 ++ nseq (n - size v.2) (Some 0)))
  (* 93-98, 301-306 *)
  | VPut a i x => let! v := getv h a in guard (0 < i <= size v.2)%N ;;
      store h a (OV (v.1, set_nth None v.2 i.-1 (Some x)))
  (* 100-105, 308-313 *)
  | VGet a i => let! v := getv h a in guard (0 < i <= size v.2)%N ;; tell h (Value (vel v.2 i.-1))
  (* 108-112, 315-319 *)
  | VEq a b => let! v := getv h a in let! w := getv h b in guard (v.1 == w.1) ;;
      tell h (Truth (if size v.2 != size w.2 then Some false
                     else is0 (bnorm (fun k => nsub (vel v.2 k) (vel w.2 k)) (size v.2))))
  (* 225-231, 433-439 *)
  | VFill a x => let! v := getv h a in store h a (OV (v.1, nseq (size v.2) (Some x)))
  (* 131-139, 338-346 *)
  | VOp o a b => let! v := getv h a in let! w := getv h b in
      guard ((v.1 == w.1) && (size v.2 == size w.2)) ;;
      push h (OV (v.1, vtab (size v.2) (fun k => pm o (vel v.2 k) (vel w.2 k))))
  (* 115-129, 322-336 *)
  | VUpd o a b => let! v := getv h a in let! w := getv h b in
      guard ((v.1 == w.1) && (size v.2 == size w.2)) ;;
      store h a (OV (v.1, vtab (size v.2) (fun k => pm o (vel v.2 k) (vel w.2 k))))
  (* 172-192, 379-399 *)
  | VScal o a x => let! v := getv h a in push h (OV (v.1, map (fun y => calc o y (Some x)) v.2))
  (* 143-169, 350-376 *)
  | VScalUpd o a x => let! v := getv h a in store h a (OV (v.1, map (fun y => calc o y (Some x)) v.2))
  (* 196-203, 403-410 *)
  | VTrans a => let! v := getv h a in push h (OV (~~ v.1, v.2))
  (* 205-215 *)
  | VOuter a b => let! v := getv h a in let! w := getv h b in guard (~~ v.1 && w.1) ;;
      push h (OM (btab (size v.2) (size w.2) (fun i j => nmul (vel v.2 i) (vel w.2 j))))
  (* 412-423 *)
  | VDot a b => let! v := getv h a in let! w := getv h b in guard (v.1 && ~~ w.1) ;;
      guard (size v.2 == size w.2) ;;
      tell h (Value (bsum (fun k => nmul (vel v.2 k) (vel w.2 k)) (size w.2)))
  (* 233-240, 441-448: nothing is read from an empty range *)
  | VSub a p q => let! v := getv h a in guard (p <= q.+1)%N ;;
      guard ((p == q.+1) || (0 < p) && (q <= size v.2))%N ;;
      push h (OV (v.1, vtab (q.+1 - p) (fun k => vel v.2 (p.-1 + k))))
  (* matrix_BOOST.cpp 32-33 *)
  | MNew r c => push h (OM (btab r c (fun _ _ => None)))
  (* 44-48 *)
  | MRows n a => let! v := getv h a in guard v.1 ;; push h (OM (btab n (size v.2) (fun _ j => vel v.2 j)))
  (* 314-319 with the default copy = true: ublas keeps the common part *)
  | MResize a r c => let! m := getm h a in
      store h a (OM (btab r c (fun i j => if (i < m_r m)%N && (j < m_c m)%N then bel m i j else None)))
  (* 172-176 *)
  | MPut a i j x => let! m := getm h a in guard ((0 < i <= m_r m) && (0 < j <= m_c m))%N ;;
      store h a (OM (Mat (m_r m) (m_c m) (set_nth None (m_d m) (i.-1 * m_c m + j.-1)%N (Some x))))
  (* 178-182 *)
  | MGet a i j => let! m := getm h a in guard ((0 < i <= m_r m) && (0 < j <= m_c m))%N ;;
      tell h (Value (bel m i.-1 j.-1))
  (* 184-189 *)
  | MEq a b => let! m := getm h a in let! p := getm h b in
      tell h (Truth (if (m_r m != m_r p) || (m_c m != m_c p) then Some false
                     else is0 (bnormm (fun i j => nsub (bel m i j) (bel p i j)) (m_r m) (m_c m))))
  (* 192-199 *)
  | MFill a x => let! m := getm h a in store h a (OM (btab (m_r m) (m_c m) (fun _ _ => Some x)))
  (* 122-136 *)
  | MOp o a b => let! m := getm h a in let! p := getm h b in guard ((m_r m == m_r p) && (m_c m == m_c p)) ;;
      push h (OM (btab (m_r m) (m_c m) (fun i j => pm o (bel m i j) (bel p i j))))
  (* 146-160 *)
  | MUpd o a b => let! m := getm h a in let! p := getm h b in guard ((m_r m == m_r p) && (m_c m == m_c p)) ;;
      store h a (OM (btab (m_r m) (m_c m) (fun i j => pm o (bel m i j) (bel p i j))))
  (* 91-111 *)
  | MScal o a x => let! m := getm h a in
      push h (OM (btab (m_r m) (m_c m) (fun i j => calc o (bel m i j) (Some x))))
  (* 63-89 *)
  | MScalUpd o a x => let! m := getm h a in
      store h a (OM (btab (m_r m) (m_c m) (fun i j => calc o (bel m i j) (Some x))))
  (* 138-144 *)
  | MMul a b => let! m := getm h a in let! p := getm h b in guard (m_c m == m_r p) ;;
      push h (OM (btab (m_r m) (m_c p) (fun i j => bsum (fun k => nmul (bel m i k) (bel p k j)) (m_c m))))
  (* 164-168 *)
  | MVec a b => let! m := getm h a in let! v := getv h b in guard (~~ v.1) ;; guard (m_c m == size v.2) ;;
      push h (OV (false, vtab (m_r m) (fun i => bsum (fun k => nmul (bel m i k) (vel v.2 k)) (m_c m))))
  (* 223-227 *)
  | MTrans a => let! m := getm h a in push h (OM (btab (m_c m) (m_r m) (fun i j => bel m j i)))
  (* 321-330 *)
  | MSub a i1 i2 j1 j2 => let! m := getm h a in guard ((i1 <= i2.+1) && (j1 <= j2.+1))%N ;;
      guard ((i1 == i2.+1) || (j1 == j2.+1) || ((0 < i1) && (i2 <= m_r m) && (0 < j1) && (j2 <= m_c m)))%N ;;
      push h (OM (btab (i2.+1 - i1) (j2.+1 - j1) (fun i j => bel m (i1.-1 + i) (j1.-1 + j))))
  (* 113-119 *)
  | MOfSym a b => let! m := getm h a in let! s := gets h b in
      store h a (OM (btab (s_n s) (s_n s) (sel s)))
  (* 296-312: the lower triangle *)
  | MToSym a b => let! m := getm h a in let! s := gets h b in guard (m_r m == m_c m) ;;
      store h b (OS (stab (m_r m) (fun i j => bel m i j)))
  (* 337 *)
  | SNew n => push h (OS (stab n (fun _ _ => None)))
  (* 338-342: row after row is assigned, each also sets the elements mirrored at the diagonal *)
  | SRows n a => let! v := getv h a in guard v.1 ;; guard (size v.2 == n) ;;
      push h (OS (foldl (fun s i => foldl (fun s j => BSym n (set_nth None (s_d s)
        (if (j <= i)%N then (tri i + j)%N else (tri j + i)%N) (vel v.2 j))) s (iota 0 n))
        (stab n (fun _ _ => None)) (iota 0 n)))
  (* 643-648 with copy = true *)
  | SResize a n => let! s := gets h a in
      store h a (OS (stab n (fun i j => if (i < s_n s)%N && (j < s_n s)%N then sel s i j else None)))
  (* 624-628 *)
  | SPut a i j x => let! s := gets h a in guard ((0 < i <= s_n s) && (0 < j <= s_n s))%N ;;
      store h a (OS (BSym (s_n s) (set_nth None (s_d s)
        (if (j.-1 <= i.-1)%N then (tri i.-1 + j.-1)%N else (tri j.-1 + i.-1)%N) (Some x))))
  (* 630-634 *)
  | SGet a i j => let! s := gets h a in guard ((0 < i <= s_n s) && (0 < j <= s_n s))%N ;;
      tell h (Value (sel s i.-1 j.-1))
  (* 636-641 *)
  | SEq a b => let! s := gets h a in let! t := gets h b in
      tell h (Truth (if s_n s != s_n t then Some false
                     else is0 (bnormm (fun i j => nsub (sel s i j) (sel t i j)) (s_n s) (s_n s))))
  (* 451-457 *)
  | SFill a x => let! s := gets h a in store h a (OS (stab (s_n s) (fun _ _ => Some x)))
  (* 573-587 *)
  | SOp o a b => let! s := gets h a in let! t := gets h b in guard (s_n s == s_n t) ;;
      push h (OS (stab (s_n s) (fun i j => pm o (sel s i j) (sel t i j))))
  (* 557-571 *)
  | SUpd o a b => let! s := gets h a in let! t := gets h b in guard (s_n s == s_n t) ;;
      store h a (OS (stab (s_n s) (fun i j => pm o (sel s i j) (sel t i j))))
  (* 530-544 *)
  | SOpM o a b => let! s := gets h a in let! m := getm h b in guard ((s_n s == m_r m) && (s_n s == m_c m)) ;;
      push h (OM (btab (s_n s) (s_n s) (fun i j => pm o (sel s i j) (bel m i j))))
  (* 489-509 *)
  | SScal o a x => let! s := gets h a in push h (OS (stab (s_n s) (fun i j => calc o (sel s i j) (Some x))))
  (* 461-487 *)
  | SScalUpd o a x => let! s := gets h a in store h a (OS (stab (s_n s) (fun i j => calc o (sel s i j) (Some x))))
  (* 546-552 *)
  | SMulM a b => let! s := gets h a in let! p := getm h b in guard (s_n s == m_r p) ;;
      push h (OM (btab (s_n s) (m_c p) (fun i j => bsum (fun k => nmul (sel s i k) (bel p k j)) (s_n s))))
  (* 589-595 *)
  | SMulS a b => let! s := gets h a in let! t := gets h b in guard (s_n s == s_n t) ;;
      push h (OM (btab (s_n s) (s_n s) (fun i j => bsum (fun k => nmul (sel s i k) (sel t k j)) (s_n s))))
  (* 600-610 *)
  | SVec a b => let! s := gets h a in let! v := getv h b in guard (~~ v.1) ;; guard (s_n s == size v.2) ;;
      push h (OV (false, vtab (s_n s) (fun i => bsum (fun k => nmul (sel s i k) (vel v.2 k)) (s_n s))))
  (* 612-620 *)
  | SSub a i1 i2 j1 j2 => let! s := gets h a in guard ((i1 <= i2.+1) && (j1 <= j2.+1))%N ;;
      guard ((i1 == i2.+1) || (j1 == j2.+1) || ((0 < i1) && (i2 <= s_n s) && (0 < j1) && (j2 <= s_n s)))%N ;;
      push h (OM (btab (i2.+1 - i1) (j2.+1 - j1) (fun i j => sel s (i1.-1 + i) (j1.-1 + j))))
  (* 366-374; nothing is read from an empty matrix *)
  | SRow a r => let! s := gets h a in guard ((s_n s == 0) || (0 < r <= s_n s))%N ;;
      push h (OV (true, vtab (s_n s) (fun j => sel s r.-1 j)))
  end.

(** ** Eigen *)
(** Eigen::MatrixXd, column by column; also for SymmetricMatrix *)
Definition eel (m : mat) (i j : nat) : num := nth None (m_d m) (j * m_r m + i)%N.
Definition etab (r c : nat) (f : nat -> nat -> num) : mat :=
  Mat r c (flatten [seq [seq f i j | i <- iota 0 r] | j <- iota 0 c]).
(** sums of products; the order of the additions is left to Eigen, here from the last term on *)
Definition esum (f : nat -> num) (n : nat) : num := foldr (fun k acc => nadd (f k) acc) (Some 0) (iota 0 n).
(** [isApproxToConstant(0.0)]: every element [d] has [|d - 0| <= prec * min(|d|, |0|)] *)
Variable prec : R.
Definition isapprox (d : R) : bool := `|d - 0| <= prec * Num.min `|d| `|0 : R|.
Definition eall (f : nat -> num) (ks : seq nat) : option bool :=
  foldr (fun k acc => if f k is Some d then omap (andb (isapprox d)) acc else None) (Some true) ks.
Definition eallm (f : nat -> nat -> num) (r c : nat) : option bool :=
  foldr (fun j acc => if eall (fun i => f i j) (iota 0 r) is Some b then omap (andb b) acc else None) (Some true) (iota 0 c).

Definition eheap := heap mat.
Definition eigen (h : eheap) (k : call) : outcome (eheap * report) :=
  match k with
  (* vector_EIGEN.cpp 10, 209 *)
  | VNew row n => push h (OV (row, nseq n None))
  (* 11-13, 210-212 *)
  | VConst row n x => push h (OV (row, nseq n (Some x)))
  (* 14-19 *)
  | VJoin a b => let! v := getv h a in let! w := getv h b in
      guard (~~ v.1 && ~~ w.1) ;; push h (OV (false, v.2 ++ w.2))
  (* 50-60 *)
  | VAddC a b => let! v := getv h a in let! w := getv h b in
      guard (~~ v.1 && ~~ w.1) ;; push h (OV (false, v.2 ++ w.2))
  (* 243-252: the sizes are [rows()], which is 1 for a row; head and tail have size 1 *)
  | VAddR a b => let! v := getv h a in let! w := getv h b in
      guard (v.1 && w.1) ;; guard ((size v.2 == 1%N) && (size w.2 == 1%N)) ;; push h (OV (true, v.2 ++ w.2))
  (* 31-35, 224-228; Eigen's resize: the elements are lost unless the size is the same *)
  | VResize a n => let! v := getv h a in
      store h a (OV (v.1, if n == size v.2 then v.2 else nseq n None))
  (* 62-67, 254-258 *)
  | VPut a i x => let! v := getv h a in guard (0 < i <= size v.2)%N ;;
      store h a (OV (v.1, set_nth None v.2 i.-1 (Some x)))
  (* 69-74, 260-264 *)
  | VGet a i => let! v := getv h a in guard (0 < i <= size v.2)%N ;; tell h (Value (vel v.2 i.-1))
  (* 77-81, 266-270 *)
  | VEq a b => let! v := getv h a in let! w := getv h b in guard (v.1 == w.1) ;;
      tell h (Truth (if size v.2 != size w.2 then Some false
                     else eall (fun k => nsub (vel v.2 k) (vel w.2 k)) (iota 0 (size v.2))))
  (* 187-193, 375-381 *)
  | VFill a x => let! v := getv h a in store h a (OV (v.1, nseq (size v.2) (Some x)))
  (* 100-108, 289-297 *)
  | VOp o a b => let! v := getv h a in let! w := getv h b in
      guard ((v.1 == w.1) && (size v.2 == size w.2)) ;;
      push h (OV (v.1, vtab (size v.2) (fun k => pm o (vel v.2 k) (vel w.2 k))))
  (* 84-98, 273-287 *)
  | VUpd o a b => let! v := getv h a in let! w := getv h b in
      guard ((v.1 == w.1) && (size v.2 == size w.2)) ;;
      store h a (OV (v.1, vtab (size v.2) (fun k => pm o (vel v.2 k) (vel w.2 k))))
  (* 141-161, 330-350 *)
  | VScal o a x => let! v := getv h a in push h (OV (v.1, map (fun y => calc o y (Some x)) v.2))
  (* 112-138, 301-327 *)
  | VScalUpd o a x => let! v := getv h a in store h a (OV (v.1, map (fun y => calc o y (Some x)) v.2))
  (* 165-169, 354-358 *)
  | VTrans a => let! v := getv h a in push h (OV (~~ v.1, v.2))
  (* 171-177 *)
  | VOuter a b => let! v := getv h a in let! w := getv h b in guard (~~ v.1 && w.1) ;;
      push h (OM (etab (size v.2) (size w.2) (fun i j => nmul (vel v.2 i) (vel w.2 j))))
  (* 360-365 *)
  | VDot a b => let! v := getv h a in let! w := getv h b in guard (v.1 && ~~ w.1) ;;
      guard (size v.2 == size w.2) ;;
      tell h (Value (esum (fun k => nmul (vel v.2 k) (vel w.2 k)) (size w.2)))
  (* 195-199, 383-387: Eigen's segment checks the start of an empty range too *)
  | VSub a p q => let! v := getv h a in guard ((0 < p) && (p <= q.+1) && (q <= size v.2))%N ;;
      push h (OV (v.1, vtab (q.+1 - p) (fun k => vel v.2 (p.-1 + k))))
  (* matrix_EIGEN.cpp 13-14 *)
  | MNew r c => push h (OM (etab r c (fun _ _ => None)))
  (* 25-30 *)
  | MRows n a => let! v := getv h a in guard v.1 ;; push h (OM (etab n (size v.2) (fun _ j => vel v.2 j)))
  (* 231-236: the arguments copy and initialize are ignored; elements survive if the shape is
     the same (with another shape of the same size the numbers stay in memory: here lost) *)
  | MResize a r c => let! m := getm h a in
      store h a (OM (if (r == m_r m) && (c == m_c m) then m else etab r c (fun _ _ => None)))
  (* 154-158 *)
  | MPut a i j x => let! m := getm h a in guard ((0 < i <= m_r m) && (0 < j <= m_c m))%N ;;
      store h a (OM (Mat (m_r m) (m_c m) (set_nth None (m_d m) (j.-1 * m_r m + i.-1)%N (Some x))))
  (* 160-164 *)
  | MGet a i j => let! m := getm h a in guard ((0 < i <= m_r m) && (0 < j <= m_c m))%N ;;
      tell h (Value (eel m i.-1 j.-1))
  (* 166-171 *)
  | MEq a b => let! m := getm h a in let! p := getm h b in
      tell h (Truth (if (m_r m != m_r p) || (m_c m != m_c p) then Some false
                     else eallm (fun i j => nsub (eel m i j) (eel p i j)) (m_r m) (m_c m)))
  (* 174-180 *)
  | MFill a x => let! m := getm h a in store h a (OM (etab (m_r m) (m_c m) (fun _ _ => Some x)))
  (* 104-118 *)
  | MOp o a b => let! m := getm h a in let! p := getm h b in guard ((m_r m == m_r p) && (m_c m == m_c p)) ;;
      push h (OM (etab (m_r m) (m_c m) (fun i j => pm o (eel m i j) (eel p i j))))
  (* 128-142 *)
  | MUpd o a b => let! m := getm h a in let! p := getm h b in guard ((m_r m == m_r p) && (m_c m == m_c p)) ;;
      store h a (OM (etab (m_r m) (m_c m) (fun i j => pm o (eel m i j) (eel p i j))))
  (* 73-93 *)
  | MScal o a x => let! m := getm h a in
      push h (OM (etab (m_r m) (m_c m) (fun i j => calc o (eel m i j) (Some x))))
  (* 45-71 *)
  | MScalUpd o a x => let! m := getm h a in
      store h a (OM (etab (m_r m) (m_c m) (fun i j => calc o (eel m i j) (Some x))))
  (* 120-126 *)
  | MMul a b => let! m := getm h a in let! p := getm h b in guard (m_c m == m_r p) ;;
      push h (OM (etab (m_r m) (m_c p) (fun i j => esum (fun k => nmul (eel m i k) (eel p k j)) (m_c m))))
  (* 146-150 *)
  | MVec a b => let! m := getm h a in let! v := getv h b in guard (~~ v.1) ;; guard (m_c m == size v.2) ;;
      push h (OV (false, vtab (m_r m) (fun i => esum (fun k => nmul (eel m i k) (vel v.2 k)) (m_c m))))
  (* 196-200 *)
  | MTrans a => let! m := getm h a in push h (OM (etab (m_c m) (m_r m) (fun i j => eel m j i)))
  (* 238-244 *)
  | MSub a i1 i2 j1 j2 => let! m := getm h a in
      guard ((0 < i1) && (i1 <= i2.+1) && (i2 <= m_r m) && (0 < j1) && (j1 <= j2.+1) && (j2 <= m_c m))%N ;;
      push h (OM (etab (i2.+1 - i1) (j2.+1 - j1) (fun i j => eel m (i1.-1 + i) (j1.-1 + j))))
  (* 95-101 *)
  | MOfSym a b => let! m := getm h a in let! s := gets h b in
      store h a (OM (etab (m_r s) (m_c s) (eel s)))
  (* 220-229: the upper triangle *)
  | MToSym a b => let! m := getm h a in let! s := gets h b in guard (m_r m == m_c m) ;;
      store h b (OS (etab (m_r m) (m_c m) (fun i j => if (i <= j)%N then eel m i j else eel m j i)))
  (* 251 *)
  | SNew n => push h (OS (etab n n (fun _ _ => None)))
  (* 252-257 *)
  | SRows n a => let! v := getv h a in guard v.1 ;; push h (OS (etab n (size v.2) (fun _ j => vel v.2 j)))
  (* 504-509 *)
  | SResize a n => let! s := gets h a in
      store h a (OS (if (n == m_r s) && (n == m_c s) then s else etab n n (fun _ _ => None)))
  (* 485-489: one element *)
  | SPut a i j x => let! s := gets h a in guard ((0 < i <= m_r s) && (0 < j <= m_c s))%N ;;
      store h a (OS (Mat (m_r s) (m_c s) (set_nth None (m_d s) (j.-1 * m_r s + i.-1)%N (Some x))))
  (* 491-495 *)
  | SGet a i j => let! s := gets h a in guard ((0 < i <= m_r s) && (0 < j <= m_c s))%N ;;
      tell h (Value (eel s i.-1 j.-1))
  (* 497-502 *)
  | SEq a b => let! s := gets h a in let! t := gets h b in
      tell h (Truth (if (m_r s != m_r t) || (m_c s != m_c t) then Some false
                     else eallm (fun i j => nsub (eel s i j) (eel t i j)) (m_r s) (m_c s)))
  (* 313-318 *)
  | SFill a x => let! s := gets h a in store h a (OS (etab (m_r s) (m_c s) (fun _ _ => Some x)))
  (* 434-448 *)
  | SOp o a b => let! s := gets h a in let! t := gets h b in guard ((m_r s == m_r t) && (m_c s == m_c t)) ;;
      push h (OS (etab (m_r s) (m_c s) (fun i j => pm o (eel s i j) (eel t i j))))
  (* 418-432 *)
  | SUpd o a b => let! s := gets h a in let! t := gets h b in guard ((m_r s == m_r t) && (m_c s == m_c t)) ;;
      store h a (OS (etab (m_r s) (m_c s) (fun i j => pm o (eel s i j) (eel t i j))))
  (* 391-405 *)
  | SOpM o a b => let! s := gets h a in let! m := getm h b in guard ((m_r s == m_r m) && (m_c s == m_c m)) ;;
      push h (OM (etab (m_r s) (m_c s) (fun i j => pm o (eel s i j) (eel m i j))))
  (* 350-370 *)
  | SScal o a x => let! s := gets h a in
      push h (OS (etab (m_r s) (m_c s) (fun i j => calc o (eel s i j) (Some x))))
  (* 322-348 *)
  | SScalUpd o a x => let! s := gets h a in
      store h a (OS (etab (m_r s) (m_c s) (fun i j => calc o (eel s i j) (Some x))))
  (* 407-413 *)
  | SMulM a b => let! s := gets h a in let! p := getm h b in guard (m_c s == m_r p) ;;
      push h (OM (etab (m_r s) (m_c p) (fun i j => esum (fun k => nmul (eel s i k) (eel p k j)) (m_c s))))
  (* 450-456 *)
  | SMulS a b => let! s := gets h a in let! t := gets h b in guard (m_c s == m_r t) ;;
      push h (OM (etab (m_r s) (m_c t) (fun i j => esum (fun k => nmul (eel s i k) (eel t k j)) (m_c s))))
  (* 461-471 *)
  | SVec a b => let! s := gets h a in let! v := getv h b in guard (~~ v.1) ;; guard (m_c s == size v.2) ;;
      push h (OV (false, vtab (m_r s) (fun i => esum (fun k => nmul (eel s i k) (vel v.2 k)) (m_c s))))
  (* 473-481 *)
  | SSub a i1 i2 j1 j2 => let! s := gets h a in guard ((i1 <= i2.+1) && (j1 <= j2.+1))%N ;;
      guard ((i1 == i2.+1) || (j1 == j2.+1) || ((0 < i1) && (i2 <= m_r s) && (0 < j1) && (j2 <= m_c s)))%N ;;
      push h (OM (etab (i2.+1 - i1) (j2.+1 - j1) (fun i j => eel s (i1.-1 + i) (j1.-1 + j))))
  (* 281-290 *)
  | SRow a r => let! s := gets h a in guard ((m_c s == 0) || (0 < r <= m_r s))%N ;;
      push h (OV (true, vtab (m_c s) (fun j => eel s r.-1 j)))
  end.

(** a program: reports of all calls *)
Fixpoint run (H : Type) (f : H -> call -> outcome (H * report)) (h : H) (p : seq call) : outcome (H * seq report) :=
  match p with
  | [::] => Ok (h, [::])
  | k :: p' => let! r := f h k in let! q := run f r.1 p' in Ok (q.1, r.2 :: q.2)
  end.
End Numbers.
