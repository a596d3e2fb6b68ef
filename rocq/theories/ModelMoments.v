(** * Moments of particle sets (src/pdf/mcpdf.cpp) *)
From Coq Require Import ZArith.
From mathcomp Require Import all_ssreflect all_algebra.
From mathcomp Require Import zify ssrZ.
From Verif Require Import Outcome ModelTables ModelMCPdf ModelMatrix.
Set Implicit Arguments. Unset Strict Implicit. Unset Printing Implicit Defensive.
Import Order.TTheory GRing.Theory Num.Theory.
Local Open Scope ring_scope.

Section Vectors.
Variable R : realFieldType.
Variable n : nat.
Notation vec := 'cV[R]_n.

(** mcpdf.cpp 76-84 [ExpectedValueGet] for [ColumnVector]. *)
Definition mc_mean (d : mcpdf R vec) : vec :=
  (mc_sum d)^-1 *: foldl (fun acc x => acc + x.2 *: x.1) 0 (mc_los d).

(** mcpdf.cpp 87-102 [CovarianceGet] for [ColumnVector]. *)
Definition mc_cov (d : mcpdf R vec) : 'M[R]_n :=
  let mean := mc_mean d in
  sym_lower ((mc_sum d)^-1 *:
    foldl (fun acc x => let diff := x.1 - mean in acc + diff *m (x.2 *: diff^T)) 0 (mc_los d)).
End Vectors.

(** [unsigned int] arithmetic: 32 bits. *)
Definition wrap32 (z : Z) : Z := Z.modulo z (Z.pow 2 32).

(** [(unsigned int) x] for a non-negative double: truncation.  Rationals are
    used because truncation needs an archimedean field. *)
Definition trunc (x : rat) : Z := Z_of_int (numq x %/ denq x)%Z.

(** mcpdf.cpp 110-124 [ExpectedValueGet] for [unsigned int]. *)
Definition mcu_mean (d : mcpdf [realFieldType of rat] Z) : Z :=
  let cum := foldl (fun acc x => acc + (int_of_Z x.1)%:~R * x.2) 0 (mc_los d) in
  wrap32 (trunc (cum / mc_sum d + 1 / 2%:R)).

(** mcpdf.cpp 139-142: [diff = value - mean; (double)(diff*diff)] in unsigned
    arithmetic. *)
Definition usquare (v mean : Z) : Z :=
  let diff := wrap32 (Z.sub v mean) in wrap32 (Z.mul diff diff).

(** mcpdf.cpp 129-148 [CovarianceGet] for [unsigned int]. *)
Definition mcu_cov (d : mcpdf [realFieldType of rat] Z) : rat :=
  let mean := mcu_mean d in
  foldl (fun acc x => acc + (int_of_Z (usquare x.1 mean))%:~R * x.2) 0 (mc_los d) / mc_sum d.
