(** * Loops shared by the discrete classes

    Running sums, the inverse-CDF scan and Ripley's ordered uniforms appear
    with the same code in [DiscretePdf], [DiscreteConditionalPdf], [MCPdf] and
    [Mixture]; each class model cites its own lines when it uses them.
    [double] is an element of an arbitrary ordered field. *)
From mathcomp Require Import all_ssreflect all_algebra.
From Verif Require Import Outcome.
Set Implicit Arguments. Unset Strict Implicit. Unset Printing Implicit Defensive.
Import Order.TTheory GRing.Theory Num.Theory.
Local Open Scope ring_scope.

Section Tables.
Variable R : realFieldType.

(** bfl_constants.h 38-48: [Probability(double p)] asserts [p >= 0] (the
    [isfinite] assert is accounted for where a division by zero can occur). *)
Definition mkProb (x : R) : outcome R := guard (0 <= x) ;; Ok x.

(** A double division whose result becomes a [Probability]: dividing by zero
    gives Inf/NaN, rejected by the [isfinite] assert (bfl_constants.h 43). *)
Definition divProb (x y : R) : outcome R :=
  if y == 0 then Abort else mkProb (x / y).

(** [double s=0; for(i) s += v[i];]
    discretepdf.cpp 209-212, mixture.h 560-563, mcpdf.h 465-476. *)
Definition sum_loop (l : seq R) : R := foldl (fun acc x => acc + x) 0 l.

(** [*it = acc; for(i) { it++; acc += v[i]; *it = acc; }]
    discretepdf.cpp 228-240, mcpdf.h 512-523, mixture.h 580-592. *)
Fixpoint cum_loop (acc : R) (l : seq R) : seq R :=
  match l with
  | [::] => [:: acc]
  | x :: l' => acc :: cum_loop (acc + x) l'
  end.

(** [while (u > *it) { assert(index <= n); index++; it++; }]
    discretepdf.cpp 161-166 and 191-195, mcpdf.h 268-275 and 307-314,
    mixture.h 316-322 and 350-355.  [rest] is the part of the table from
    position [idx] on; reading behind its end is [UB].  Returns the index and
    the unread part of the table at loop exit. *)
Fixpoint scan (n : nat) (u : R) (idx : nat) (rest : seq R) : outcome (nat * seq R) :=
  match rest with
  | [::] => UB
  | c :: rest' =>
      if c < u then guard (idx <= n)%N ;; scan n u idx.+1 rest'
      else Ok (idx, rest)
  end.

(** The outer loop of the batch samplers: [index] and the table iterator are
    kept from one sample to the next.
    discretepdf.cpp 159-170, mcpdf.h 264-281, mixture.h 313-331. *)
Fixpoint scan_many (n : nat) (us : seq R) (idx : nat) (rest : seq R) : outcome (seq nat) :=
  match us with
  | [::] => Ok [::]
  | u :: us' =>
      let! r := scan n u idx rest in
      let! l := scan_many n us' r.1 r.2 in
      Ok (r.1 :: l)
  end.

(** Ripley's ordered uniforms, discretepdf.cpp 146-151, mcpdf.h 246-255,
    mixture.h 299-306:
    [u[n-1] = pow(u[n-1],1/n); for(i=n-2;i>=0;i--) u[i] = pow(u[i],1/(i+1))*u[i+1];]
    [root u k] stands for [pow(u, 1.0/k)], an external function.  [i] is the
    index of the first element of [us]. *)
Fixpoint ripley (root : R -> nat -> R) (us : seq R) (i : nat) : seq R :=
  match us with
  | [::] => [::]
  | [:: u] => [:: root u i.+1]
  | u :: us' =>
      let r := ripley root us' i.+1 in
      (root u i.+1 * head 0 r) :: r
  end.
End Tables.
