(** * Specification vocabulary for the conditional table *)
From mathcomp Require Import all_ssreflect all_algebra.
From Verif Require Import Outcome ModelCondPdf.
Set Implicit Arguments. Unset Strict Implicit. Unset Printing Implicit Defensive.
Import Order.TTheory GRing.Theory Num.Theory.
Local Open Scope ring_scope.

(** An in-range combination: a state below [n], one argument per dimension. *)
Definition in_range (n : nat) (dims : seq nat) (s : int) (args : seq int) : bool :=
  (0 <= s) && (s < n%:Z) && (size args == size dims) &&
  all (fun p => (0 <= p.1) && (p.1 < p.2%:Z)) (zip args dims).

(** number of combinations *)
Definition combos (n : nat) (dims : seq nat) : nat := (n * \prod_(d <- dims) d)%N.

(** The value last written to [(s, args)] in a history (latest call last). *)
Fixpoint last_written (T : Type) (h : seq (T * int * seq int)) (s : int) (args : seq int)
  : option T :=
  match h with
  | [::] => None
  | x :: h' => match last_written h' s args with
               | Some v => Some v
               | None => if (x.1.2 == s) && (x.2 == args) then Some x.1.1 else None
               end
  end.

Section Spec.
Variable R : realFieldType.
Implicit Types (d : dcpdf R).
(** table of the right size *)
Definition dc_wf d : Prop := size (dc_tab d) = combos (dc_n d) (dc_dims d).

(** every call of the history is in range *)
Definition ok_hist n dims (h : seq (R * int * seq int)) : bool :=
  all (fun x => in_range n dims x.1.2 x.2) h.

(** what [ProbabilityGet] shows for the row of the arguments [args] *)
Definition row_is d args (row : seq R) : Prop :=
  size row = dc_n d /\
  forall s : nat, (s < dc_n d)%N -> dc_get d s%:Z args = Ok (nth 0 row s).

End Spec.
