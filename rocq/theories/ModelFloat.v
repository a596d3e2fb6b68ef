(** * Particle-set table and scan in IEEE-754 doubles (src/pdf/mcpdf.h)

    The same loops as [ModelMCPdf], with Coq's primitive floats instead of an
    ordered field; sample values are left out. *)
From Coq Require Import List NArith Floats Uint63.
From Verif Require Import Outcome.
Import ListNotations.

(** mcpdf.h 394-419 [ListOfSamplesSet(vector<Sample>)]: weight of each of the
    [n] samples, [1.0/n] with [n] converted from unsigned. *)
Definition f_weight (n : int) : float := (1 / PrimFloat.of_uint63 n)%float.

(** mcpdf.h 509-525 [CumPDFUpdate] after [SumWeights = 1.0]: prefix table of a
    weight repeated [n] times. *)
Definition f_cum (w : float) (n : N) : list float :=
  rev_append (snd (N.iter n (fun s => let acc := (fst s + w / 1)%float in (acc, acc :: snd s))
                            (0%float, [0%float]))) [].

(** mcpdf.h 307-314 and 268-275: the scan [while (u > *it)]; reading behind the
    table is [UB]. *)
Fixpoint f_scan (n : N) (u : float) (idx : N) (rest : list float) : outcome N :=
  match rest with
  | [] => UB
  | c :: rest' => if (c <? u)%float
                  then if N.leb idx n then f_scan n u (N.succ idx) rest' else Abort
                  else Ok idx
  end.
