(** * Specification vocabulary for symbolic expressions *)
From Coq Require Import Reals.
From mathcomp Require Import all_ssreflect.
From Verif Require Import Outcome ModelGinac.
Set Implicit Arguments. Unset Strict Implicit. Unset Printing Implicit Defensive.
Local Open Scope R_scope.

(** value of an expression when the symbols have the values [rho] *)
Fixpoint den (rho : nat -> R) (e : expr) : R :=
  match e with
  | Num c => c
  | Sym s => rho s
  | Add a b => den rho a + den rho b
  | Mul a b => den rho a * den rho b
  | Inv a => / den rho a
  | Pow a n => den rho a ^ n
  | Sin a => sin (den rho a)
  | Cos a => cos (den rho a)
  | Exp a => exp (den rho a)
  end.
(** no denominator is 0 *)
Fixpoint defined (rho : nat -> R) (e : expr) : Prop :=
  match e with
  | Num _ | Sym _ => True
  | Add a b | Mul a b => defined rho a /\ defined rho b
  | Inv a => defined rho a /\ den rho a <> 0
  | Pow a _ | Sin a | Cos a | Exp a => defined rho a
  end.
Fixpoint symbols (e : expr) : seq nat :=
  match e with
  | Num _ => [::]
  | Sym s => [:: s]
  | Add a b | Mul a b => symbols a ++ symbols b
  | Inv a | Pow a _ | Sin a | Cos a | Exp a => symbols a
  end.
(** the symbol [s] has the value [t] *)
Definition upd (rho : nat -> R) (s : nat) (t : R) : nat -> R := fun s' => if s' == s then t else rho s'.
(** [l] is the partial derivative of [f] for [s] *)
Definition partial (f : (nat -> R) -> R) (rho : nat -> R) (s : nat) (l : R) : Prop :=
  derivable_pt_lim (fun t => f (upd rho s t)) (rho s) l.
(** the symbols have the values of the vector *)
Definition assigns (rho : nat -> R) (syms : seq nat) (vals : seq R) : Prop :=
  size syms = size vals /\ forall j, (j < size syms)%N -> rho (nth 0%N syms j) = nth 0 vals j.
(** element [j] of a result *)
Definition elem (o : outcome (seq R)) (j : nat) : R := if o is Ok v then nth 0 v j else 0.
Definition melem (o : outcome mat) (i j : nat) : R := if o is Ok m then m_at m i j else 0.
(** [M] is positive semi-definite *)
Definition psd_ (n : nat) (M : nat -> nat -> R) : Prop :=
  forall z : nat -> R, 0 <= \big[Rplus/0]_(0 <= i < n) \big[Rplus/0]_(0 <= j < n) (z i * M i j * z j).
(** mean of the noise on the symbol [s]: the sum of the means whose symbol in [cond] is [s] *)
Definition noise_of (cond : seq nat) (mu : seq R) (s : nat) : R :=
  \big[Rplus/0]_(0 <= j < size cond | nth 0%N cond j == s) nth 0 mu j.
(** the inputs with the means of the noise added *)
Definition shifted (us cond : seq nat) (mu u : seq R) : seq R :=
  [seq nth 0 u i + noise_of cond mu (nth 0%N us i) | i <- iota 0 (size u)].
(** all functions are functions of the given symbols; no denominator is 0 *)
Definition closed (us xs : seq nat) (func : seq expr) : Prop :=
  forall f, List.In f func -> {subset symbols f <= us ++ xs}.
Definition all_defined (rho : nat -> R) (func : seq expr) : Prop := forall f, List.In f func -> defined rho f.
(** [F] is the Jacobian for the state of the function [h] of [n] elements at [x] *)
Definition is_jacobian (h : seq R -> outcome (seq R)) (n : nat) (x : seq R) (F : mat) : Prop :=
  [/\ m_rows F = n, m_cols F = size x & forall i j, (i < size x)%N -> (j < n)%N ->
    derivable_pt_lim (fun t => elem (h (set_nth 0 x i t)) j) (nth 0 x i) (m_at F j i)].
