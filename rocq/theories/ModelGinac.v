(** * Model of the symbolic conditional Gaussian
    (src/pdf/nonlinearanalyticconditionalgaussian_ginac.cpp) and of the mobile robot
    of the examples (examples/nonlinearanalyticconditionalgaussianmobile.cpp)

    GiNaC itself is not part of the repository.  A GiNaC expression is a term of
    [expr]; [diff], [subs] and [evalf] stand for the GiNaC functions of these names.
    Simplifications.  Numbers are real.  GiNaC simplifies terms (0*x becomes 0) and the
    model does not, so [evalf] of a term with a symbol left is [UB] here although the
    symbol may have disappeared in GiNaC; a division by zero is an exception, here
    [Abort].  The two conditional arguments (0: state, 1: input) are parameters instead
    of members. *)
From Coq Require Import Reals.
From mathcomp Require Import all_ssreflect.
From Verif Require Import Outcome.
Set Implicit Arguments. Unset Strict Implicit. Unset Printing Implicit Defensive.
Local Open Scope R_scope.

(** GiNaC expressions; symbols are told apart by their serial number *)
Inductive expr :=
  | Num of R | Sym of nat | Add of expr & expr | Mul of expr & expr | Inv of expr
  | Pow of expr & nat | Sin of expr | Cos of expr | Exp of expr.

(** [ex::diff] *)
Fixpoint diff (s : nat) (e : expr) : expr :=
  match e with
  | Num _ => Num 0
  | Sym t => Num (if t == s then 1 else 0)
  | Add a b => Add (diff s a) (diff s b)
  | Mul a b => Add (Mul (diff s a) b) (Mul a (diff s b))
  | Inv a => Mul (Mul (Num (-1)) (diff s a)) (Pow (Inv a) 2)
  | Pow a n => Mul (Mul (Num (INR n)) (Pow a n.-1)) (diff s a)
  | Sin a => Mul (Cos a) (diff s a)
  | Cos a => Mul (Mul (Num (-1)) (Sin a)) (diff s a)
  | Exp a => Mul (Exp a) (diff s a)
  end.
(** [ex::subs( s==v )] *)
Fixpoint subs (s : nat) (v : R) (e : expr) : expr :=
  match e with
  | Num c => Num c
  | Sym t => if t == s then Num v else Sym t
  | Add a b => Add (subs s v a) (subs s v b)
  | Mul a b => Mul (subs s v a) (subs s v b)
  | Inv a => Inv (subs s v a)
  | Pow a n => Pow (subs s v a) n
  | Sin a => Sin (subs s v a)
  | Cos a => Cos (subs s v a)
  | Exp a => Exp (subs s v a)
  end.
(** [ex_to<numeric>(e.evalf()).to_double()]: the cast is not checked *)
Fixpoint evalf (e : expr) : outcome R :=
  match e with
  | Num c => Ok c
  | Sym _ => UB
  | Add a b => let! x := evalf a in let! y := evalf b in Ok (x + y)
  | Mul a b => let! x := evalf a in let! y := evalf b in Ok (x * y)
  | Inv a => let! x := evalf a in if Req_EM_T x 0 then Abort else Ok (/ x)
  | Pow a n => let! x := evalf a in Ok (x ^ n)
  | Sin a => let! x := evalf a in Ok (sin x)
  | Cos a => let! x := evalf a in Ok (cos x)
  | Exp a => let! x := evalf a in Ok (exp x)
  end.

(** matrices, indices from 0 *)
Record mat := Mat { m_rows : nat; m_cols : nat; m_at : nat -> nat -> R }.

(** members of NonLinearAnalyticConditionalGaussian_Ginac; [g_mu] and [g_sigma] are the
    additive noise, [g_args] the number of conditional arguments *)
Record ginac := Ginac {
  g_func : seq expr; g_cond : seq nat; g_u : seq nat; g_x : seq nat;
  g_dcond : seq (seq expr); g_dx : seq (seq expr);
  g_mu : seq R; g_sigma : nat -> nat -> R; g_args : nat }.

(** lines 28-58, constructor with [cond] *)
Definition g_new_cond (func : seq expr) (u x : seq nat) (mu : seq R) (sigma : nat -> nat -> R) (cond : seq nat)
    : outcome ginac :=
  guard (size mu == size cond) ;;
  Ok (Ginac func cond u x [seq [seq diff s f | f <- func] | s <- cond] [seq [seq diff s f | f <- func] | s <- x]
        mu sigma 3).
(** lines 60-82, constructor without [cond] *)
Definition g_new (func : seq expr) (u x : seq nat) (mu : seq R) (sigma : nat -> nat -> R) : outcome ginac :=
  Ok (Ginac func [::] u x [::] [seq [seq diff s f | f <- func] | s <- x] mu sigma 2).
(** lines 83-109, copy constructor *)
Definition g_copy (g : ginac) : outcome ginac :=
  guard ((size (g_cond g) == 0%N) || (size (g_mu g) == size (g_cond g))) ;;
  Ok (Ginac (g_func g) (g_cond g) (g_u g) (g_x g)
        [seq [seq diff s f | f <- g_func g] | s <- g_cond g] [seq [seq diff s f | f <- g_func g] | s <- g_x g]
        (g_mu g) (g_sigma g) 2).
(** analyticconditionalgaussian_additivenoise.cpp 34-40: the dimension is that of the noise *)
Definition g_dimension (g : ginac) : nat := size (g_mu g).

(** lines 152-158, 191-197, 243-249: all symbols are replaced by the numbers of the vector *)
Definition subs_all (syms : seq nat) (vals : seq R) (e : expr) : outcome expr :=
  foldO (fun e j => let! s := at_ syms j in let! v := at_ vals j in Ok (subs s v e)) e (iota 0 (size syms)).
(** lines 147-162, 185-204, 239-257: the elements of a column *)
Definition g_eval (g : ginac) (u x : seq R) (fs : seq expr) : outcome (seq R) :=
  mapO (fun f => let! f1 := subs_all (g_u g) u f in let! f2 := subs_all (g_x g) x f1 in evalf f2) fs.

(** lines 138-143: the mean of the noise is added to the inputs it belongs to *)
Definition g_shift (g : ginac) (u : seq R) : outcome (seq R) :=
  foldO (fun u i => foldO (fun u j =>
      let! a := at_ (g_u g) i in let! b := at_ (g_cond g) j in
      if a == b then let! m := at_ (g_mu g) j in let! v := at_ u i in put_ u i (v + m) else Ok u)
    u (iota 0 (size (g_cond g)))) u (iota 0 (size (g_u g))).
(** addition of vectors of the same size *)
Definition vadd (a b : seq R) : outcome (seq R) :=
  guard (size a == size b) ;; Ok [seq p.1 + p.2 | p <- zip a b].
(** lines 126-169 [ExpectedValueGet] *)
Definition g_expected (g : ginac) (x u : seq R) : outcome (seq R) :=
  let! u_num := if g_cond g is [::] then Ok u else g_shift g u in
  let! func_num := g_eval g u_num x (g_func g) in
  if g_cond g is [::] then vadd func_num (g_mu g) else Ok func_num.

(** columns of numbers as a matrix with [rows] rows *)
Definition of_columns (rows : nat) (cs : seq (seq R)) : mat :=
  Mat rows (size cs) (fun j i => nth 0 (nth [::] cs i) j).
(** lines 172-220 [CovarianceGet]; convertToSymmetricMatrix (matrix_BOOST.cpp 297-312)
    takes the lower triangle *)
Definition g_covariance (g : ginac) (x u : seq R) : outcome mat :=
  if g_cond g is [::] then Ok (Mat (size (g_mu g)) (size (g_mu g)) (g_sigma g)) else
  let! cs := mapO (g_eval g u x) (g_dcond g) in
  let D := of_columns (size (g_func g)) cs in
  let n := size (g_cond g) in
  let temp := fun i j => \big[Rplus/0]_(0 <= l < n) ((\big[Rplus/0]_(0 <= k < n) (m_at D i k * g_sigma g k l)) * m_at D j l) in
  Ok (Mat (size (g_func g)) (size (g_func g)) (fun i j => if (j <= i)%N then temp i j else temp j i)).
(** lines 223-261 [dfGet] *)
Definition g_df (g : ginac) (i : nat) (x u : seq R) : outcome mat :=
  guard (i == 0%N) ;;
  let! cs := mapO (g_eval g u x) (g_dx g) in
  Ok (of_columns (size (g_func g)) cs).

(** conditionalgaussian.cpp 65-104 [SampleFrom] (methods DEFAULT and CHOLESKY): [draws] are the standard normal numbers,
    [chol] stands for [cholesky_semidefinite]; the products check the sizes *)
Definition g_sample (chol : mat -> bool * mat) (g : ginac) (x u draws : seq R) : outcome (bool * seq R) :=
  let! mu := g_expected g x u in
  let! c := g_covariance g x u in
  let: (result, low) := chol c in
  let! samples := mapO (at_ draws) (iota 0 (g_dimension g)) in
  guard (m_cols low == size samples) ;;
  let! v := vadd [seq \big[Rplus/0]_(0 <= k < m_cols low) (m_at low i k * nth 0 samples k) | i <- iota 0 (m_rows low)] mu in
  Ok (result, v).

(** systemmodel.cpp 21-50 (constructor), 97-121 [SystemPdfSet]: the number of conditional arguments must be 1 or 2 *)
Definition system_accepts (g : ginac) : outcome unit := guard ((g_args g == 1%N) || (g_args g == 2%N)).
(** nonlinearanalyticsystemmodel_gaussianuncertainty_ginac.cpp 28-31: the system model takes
    a copy of the pdf *)
Definition system_model (g : ginac) : outcome ginac :=
  let! g' := g_copy g in system_accepts g' ;; Ok g'.

(** ** The mobile robot of the examples
    examples/nonlinearanalyticconditionalgaussianmobile.cpp 37-45 [ExpectedValueGet] *)
Definition mr_expected (mu x u : seq R) : outcome (seq R) :=
  let! x1 := at_ x 0 in let! x2 := at_ x 1 in let! x3 := at_ x 2 in
  let! v := at_ u 0 in let! o := at_ u 1 in
  vadd [:: x1 + cos x3 * v, x2 + sin x3 * v, x3 + o & drop 3 x] mu.
(** lines 47-77 [dfGet]; [exit] for the other arguments *)
Definition mr_df (i : nat) (x u : seq R) : outcome mat :=
  if i == 0%N then
    let! v := at_ u 0 in let! t := at_ x 2 in
    Ok (of_columns 3 [:: [:: 1; 0; 0]; [:: 0; 1; 0]; [:: - v * sin t; v * cos t; 1]])
  else Abort.
