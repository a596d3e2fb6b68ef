(** * Specification: wrapper programs as matrix algebra

    Every object is a rectangular table with indices from 1 on: a column is n x 1, a row
    1 x n.  The operations are those of matrix algebra; there is no storage. *)
From mathcomp Require Import all_ssreflect all_algebra.
From Verif Require Import Outcome ModelBackends.
Set Implicit Arguments. Unset Strict Implicit. Unset Printing Implicit Defensive.
Import Order.TTheory GRing.Theory Num.Theory.
Local Open Scope ring_scope.

Section Algebra.
Variable R : realFieldType.
Notation num := (option R).
Inductive kind := Col | Row | Full | Sym.
Record table := Table { t_kind : kind; t_rows : nat; t_cols : nat; t_at : nat -> nat -> num }.
Definition is_col (k : kind) := if k is Col then true else false.
Definition is_row (k : kind) := if k is Row then true else false.
Definition is_vec (k : kind) := is_col k || is_row k.
Definition is_full (k : kind) := if k is Full then true else false.
Definition is_sym (k : kind) := if k is Sym then true else false.

(** one operation on two numbers, one of which may be indeterminate; no quotient by 0 *)
Definition op (o : arith) (a b : num) : num :=
  match a, b with
  | Some x, Some y =>
    match o with
    | Plus => Some (x + y)
    | Minus => Some (x - y)
    | Times => Some (x * y)
    | Over => if y == 0 then None else Some (x / y)
    end
  | _, _ => None
  end.
Definition known (f : nat -> num) (n : nat) : bool := [forall k : 'I_n, isSome (f k.+1)].
Definition total (f : nat -> num) (n : nat) : num :=
  if known f n then Some (\sum_(k < n) odflt 0 (f k.+1)) else None.

(** vectors *)
Definition vector (row : bool) (n : nat) (f : nat -> num) : table :=
  if row then Table Row 1 n (fun _ j => f j) else Table Col n 1 (fun i _ => f i).
Definition len (A : table) : nat := if is_row (t_kind A) then t_cols A else t_rows A.
Definition vat (A : table) (i : nat) : num := if is_row (t_kind A) then t_at A 1 i else t_at A i 1.
Definition joined (A B : table) : table :=
  vector (is_row (t_kind A)) (len A + len B) (fun i => if (i <= len A)%N then vat A i else vat B (i - len A)).
(** tables *)
Definition square (n : nat) (f : nat -> nat -> num) : table := Table Sym n n f.
Definition same (A B : table) : bool := (t_rows A == t_rows B) && (t_cols A == t_cols B).
Definition each (f : num -> num) (A : table) : table := Table (t_kind A) (t_rows A) (t_cols A) (fun i j => f (t_at A i j)).
Definition pairwise (o : arith) (A B : table) : table :=
  Table (t_kind B) (t_rows A) (t_cols A) (fun i j => op o (t_at A i j) (t_at B i j)).
Definition product (k : kind) (A B : table) : table :=
  Table k (t_rows A) (t_cols B) (fun i j => total (fun l => op Times (t_at A i l) (t_at B l j)) (t_cols A)).
Definition transposed (A : table) : table :=
  Table (match t_kind A with Col => Row | Row => Col | k => k end) (t_cols A) (t_rows A) (fun i j => t_at A j i).
(** rows [i1..i2] and columns [j1..j2] *)
Definition part (k : kind) (A : table) (i1 i2 j1 j2 : nat) : table :=
  Table k (i2.+1 - i1) (j2.+1 - j1) (fun i j => t_at A (i1 + i).-1 (j1 + j).-1).
Definition written (A : table) (i j : nat) (x : R) : table :=
  Table (t_kind A) (t_rows A) (t_cols A) (fun a b => if (a == i) && (b == j) then Some x else t_at A a b).
(** a symmetric matrix is written on both sides of the diagonal *)
Definition written2 (A : table) (i j : nat) (x : R) : table :=
  Table (t_kind A) (t_rows A) (t_cols A)
    (fun a b => if (a == i) && (b == j) || (a == j) && (b == i) then Some x else t_at A a b).
Definition inside (A : table) (i j : nat) : bool := (1 <= i <= t_rows A)%N && (1 <= j <= t_cols A)%N.
(** the range [p..q] of [1..n]; the empty range may be anywhere *)
Definition range (p q n : nat) : bool := (p <= q.+1)%N && ((p == q.+1) || (1 <= p)%N && (q <= n)%N).
Definition block (A : table) (i1 i2 j1 j2 : nat) : bool :=
  (i1 <= i2.+1)%N && (j1 <= j2.+1)%N &&
  ((i1 == i2.+1) || (j1 == j2.+1) || (1 <= i1)%N && (i2 <= t_rows A)%N && (1 <= j1)%N && (j2 <= t_cols A)%N).
(** equality test: [None] if an element is indeterminate *)
Definition equal (A B : table) : option bool :=
  if ~~ same A B then Some false
  else if [forall i : 'I_(t_rows A), forall j : 'I_(t_cols A), isSome (t_at A i.+1 j.+1) && isSome (t_at B i.+1 j.+1)]
  then Some [forall i : 'I_(t_rows A), forall j : 'I_(t_cols A), t_at A i.+1 j.+1 == t_at B i.+1 j.+1]
  else None.

Definition look (P : kind -> bool) (h : seq table) (a : nat) : outcome table :=
  if drop a h is A :: _ then if P (t_kind A) then Ok A else Abort else Abort.
Definition new (h : seq table) (A : table) : outcome (seq table * report R) := Ok (h ++ [:: A], Silent R).
Definition set (h : seq table) (a : nat) (A : table) : outcome (seq table * report R) :=
  Ok (take a h ++ A :: drop a.+1 h, Silent R).
Definition say (h : seq table) (r : report R) : outcome (seq table * report R) := Ok (h, r).
Definition sign (minus : bool) : arith := if minus then Minus else Plus.

Definition algebra (h : seq table) (k : call R) : outcome (seq table * report R) :=
  match k with
  | VNew row n => new h (vector row n (fun _ => None))
  | VConst row n x => new h (vector row n (fun _ => Some x))
  | VJoin a b => let! A := look is_col h a in let! B := look is_col h b in new h (joined A B)
  | VAddC a b => let! A := look is_col h a in let! B := look is_col h b in new h (joined A B)
  | VAddR a b => let! A := look is_row h a in let! B := look is_row h b in new h (joined A B)
  | VResize a n => let! A := look is_vec h a in
      set h a (vector (is_row (t_kind A)) n (fun i => if (i <= len A)%N then vat A i else Some 0))
  | VPut a i x => let! A := look is_vec h a in guard (1 <= i <= len A)%N ;;
      set h a (if is_row (t_kind A) then written A 1 i x else written A i 1 x)
  | VGet a i => let! A := look is_vec h a in guard (1 <= i <= len A)%N ;; say h (Value (vat A i))
  | VEq a b => let! A := look is_vec h a in let! B := look is_vec h b in
      guard (is_row (t_kind A) == is_row (t_kind B)) ;; say h (Truth R (equal A B))
  | VFill a x => let! A := look is_vec h a in set h a (each (fun _ => Some x) A)
  | VOp o a b => let! A := look is_vec h a in let! B := look is_vec h b in
      guard ((is_row (t_kind A) == is_row (t_kind B)) && same A B) ;; new h (pairwise (sign o) A B)
  | VUpd o a b => let! A := look is_vec h a in let! B := look is_vec h b in
      guard ((is_row (t_kind A) == is_row (t_kind B)) && same A B) ;; set h a (pairwise (sign o) A B)
  | VScal o a x => let! A := look is_vec h a in new h (each (fun y => op o y (Some x)) A)
  | VScalUpd o a x => let! A := look is_vec h a in set h a (each (fun y => op o y (Some x)) A)
  | VTrans a => let! A := look is_vec h a in new h (transposed A)
  | VOuter a b => let! A := look is_col h a in let! B := look is_row h b in new h (product Full A B)
  | VDot a b => let! A := look is_row h a in let! B := look is_col h b in
      guard (t_cols A == t_rows B) ;; say h (Value (t_at (product Full A B) 1 1))
  | VSub a p q => let! A := look is_vec h a in guard (range p q (len A)) ;;
      new h (if is_row (t_kind A) then part Row A 1 1 p q else part Col A p q 1 1)
  | MNew r c => new h (Table Full r c (fun _ _ => None))
  | MRows n a => let! A := look is_row h a in new h (Table Full n (t_cols A) (fun _ j => t_at A 1 j))
  | MResize a r c => let! A := look is_full h a in
      set h a (Table Full r c (fun i j => if inside A i j then t_at A i j else None))
  | MPut a i j x => let! A := look is_full h a in guard (inside A i j) ;; set h a (written A i j x)
  | MGet a i j => let! A := look is_full h a in guard (inside A i j) ;; say h (Value (t_at A i j))
  | MEq a b => let! A := look is_full h a in let! B := look is_full h b in say h (Truth R (equal A B))
  | MFill a x => let! A := look is_full h a in set h a (each (fun _ => Some x) A)
  | MOp o a b => let! A := look is_full h a in let! B := look is_full h b in
      guard (same A B) ;; new h (pairwise (sign o) A B)
  | MUpd o a b => let! A := look is_full h a in let! B := look is_full h b in
      guard (same A B) ;; set h a (pairwise (sign o) A B)
  | MScal o a x => let! A := look is_full h a in new h (each (fun y => op o y (Some x)) A)
  | MScalUpd o a x => let! A := look is_full h a in set h a (each (fun y => op o y (Some x)) A)
  | MMul a b => let! A := look is_full h a in let! B := look is_full h b in
      guard (t_cols A == t_rows B) ;; new h (product Full A B)
  | MVec a b => let! A := look is_full h a in let! B := look is_col h b in
      guard (t_cols A == t_rows B) ;; new h (product Col A B)
  | MTrans a => let! A := look is_full h a in new h (transposed A)
  | MSub a i1 i2 j1 j2 => let! A := look is_full h a in guard (block A i1 i2 j1 j2) ;; new h (part Full A i1 i2 j1 j2)
  | MOfSym a b => let! _ := look is_full h a in let! B := look is_sym h b in
      set h a (Table Full (t_rows B) (t_cols B) (t_at B))
  (* the part on and below the diagonal *)
  | MToSym a b => let! A := look is_full h a in let! _ := look is_sym h b in guard (t_rows A == t_cols A) ;;
      set h b (square (t_rows A) (fun i j => t_at A (maxn i j) (minn i j)))
  | SNew n => new h (square n (fun _ _ => None))
  (* every row is assigned the given one; the elements below the diagonal are assigned last *)
  | SRows n a => let! A := look is_row h a in guard (t_cols A == n) ;; new h (square n (fun i j => t_at A 1 (minn i j)))
  | SResize a n => let! A := look is_sym h a in
      set h a (square n (fun i j => if inside A i j then t_at A i j else None))
  | SPut a i j x => let! A := look is_sym h a in guard (inside A i j) ;; set h a (written2 A i j x)
  | SGet a i j => let! A := look is_sym h a in guard (inside A i j) ;; say h (Value (t_at A i j))
  | SEq a b => let! A := look is_sym h a in let! B := look is_sym h b in say h (Truth R (equal A B))
  | SFill a x => let! A := look is_sym h a in set h a (each (fun _ => Some x) A)
  | SOp o a b => let! A := look is_sym h a in let! B := look is_sym h b in
      guard (same A B) ;; new h (pairwise (sign o) A B)
  | SUpd o a b => let! A := look is_sym h a in let! B := look is_sym h b in
      guard (same A B) ;; set h a (pairwise (sign o) A B)
  | SOpM o a b => let! A := look is_sym h a in let! B := look is_full h b in
      guard (same A B) ;; new h (pairwise (sign o) A B)
  | SScal o a x => let! A := look is_sym h a in new h (each (fun y => op o y (Some x)) A)
  | SScalUpd o a x => let! A := look is_sym h a in set h a (each (fun y => op o y (Some x)) A)
  | SMulM a b => let! A := look is_sym h a in let! B := look is_full h b in
      guard (t_cols A == t_rows B) ;; new h (product Full A B)
  | SMulS a b => let! A := look is_sym h a in let! B := look is_sym h b in
      guard (t_cols A == t_rows B) ;; new h (product Full A B)
  | SVec a b => let! A := look is_sym h a in let! B := look is_col h b in
      guard (t_cols A == t_rows B) ;; new h (product Col A B)
  | SSub a i1 i2 j1 j2 => let! A := look is_sym h a in guard (block A i1 i2 j1 j2) ;; new h (part Full A i1 i2 j1 j2)
  | SRow a r => let! A := look is_sym h a in guard ((t_rows A == 0%N) || (1 <= r <= t_rows A)%N) ;;
      new h (Table Row 1 (t_cols A) (fun _ j => t_at A r j))
  end.
End Algebra.
