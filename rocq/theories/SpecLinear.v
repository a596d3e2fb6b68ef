(** * Specification of the linear conditional Gaussian

    Matrices and arguments as functions of their index; the mean by elements. *)
From mathcomp Require Import all_ssreflect all_algebra.
From Verif Require Import Outcome ModelKalman ModelLinear.
Set Implicit Arguments. Unset Strict Implicit. Unset Printing Implicit Defensive.
Import GRing.Theory.
Local Open Scope ring_scope.

Section Spec.
Variable R : realFieldType.
(** element [j] of a vector, element [(j,l)] of a matrix, 0 outside *)
Definition ent (v : meas R) (j : nat) : R := if insub j is Some j' then projT2 v j' 0 else 0.
Definition entm (A : rmat R) (j l : nat) : R :=
  if (insub j, insub l) is (Some j', Some l') then projT2 A j' l' else 0.

Record lin := Lin { l_num : nat; l_mat : nat -> rmat R; l_arg : nat -> meas R; l_mu : meas R; l_sigma : smat R }.
(** sizes fit: matrix [i] is [n] by the size of argument [i], the noise has size [n] *)
Definition fits n (c : lin) : bool :=
  all (fun i => projT1 (l_mat c i) == (n, projT1 (l_arg c i))) (iota 0 (l_num c)) && (projT1 (l_mu c) == n).
(** sum over all arguments of matrix times argument, plus the mean of the noise *)
Definition lin_mean n (c : lin) : 'cV[R]_n :=
  \col_j (\sum_(i < l_num c) \sum_(k < projT1 (l_arg c i)) entm (l_mat c i) j k * ent (l_arg c i) k + ent (l_mu c) j).

Definition upd A (f : nat -> A) i x : nat -> A := fun k => if k == i then x else f k.
Definition l_set_arg c i v := Lin (l_num c) (l_mat c) (upd (l_arg c) i v) (l_mu c) (l_sigma c).
Definition l_set_mat c i A := Lin (l_num c) (upd (l_mat c) i A) (l_arg c) (l_mu c) (l_sigma c).
(** first argument always, second argument if there are exactly two *)
Definition l_at c (u x : meas R) : lin :=
  if l_num c == 2%N then l_set_arg (l_set_arg c 0%N x) 1%N u else l_set_arg c 0%N x.
Definition need_index (c : lin) i A (r : outcome A) : outcome A := if (i < l_num c)%N then r else Abort.
Definition q_mean n c : outcome (lres R * lin) := if fits n c then Ok (RVec (vec (lin_mean n c)), c) else Abort.
Definition l_step n (c : lin) (o : lop R) : outcome (lres R * lin) :=
  match o with
  | LArg i v => need_index c i (Ok (RNone, l_set_arg c i v))
  | LArgs l => if size l == l_num c
               then Ok (RNone, Lin (l_num c) (l_mat c) (nth (vec0 R) l) (l_mu c) (l_sigma c)) else Abort
  | LMat i A => need_index c i (Ok (RNone, l_set_mat c i A))
  | LMu v => Ok (RNone, Lin (l_num c) (l_mat c) (l_arg c) v (l_sigma c))
  | LSigma s => Ok (RNone, Lin (l_num c) (l_mat c) (l_arg c) (l_mu c) s)
  | LNum k => Ok (RNone, Lin k (fun i => if (i < l_num c)%N then l_mat c i else rmat0 R)
                               (fun i => if (i < l_num c)%N then l_arg c i else vec0 R) (l_mu c) (l_sigma c))
  | LFirst A => need_index c 0%N (Ok (RNone, l_set_mat c 0%N A))
  | LSecond A => need_index c 1%N (Ok (RNone, l_set_mat c 1%N A))
  | QMean => q_mean n c
  | QCov => Ok (RSym (l_sigma c), c)
  | QDf i => need_index c i (Ok (RMat (l_mat c i), c))
  | QMat i => need_index c i (Ok (RMat (l_mat c i), c))
  | QArg i => need_index c i (Ok (RVec (l_arg c i), c))
  | QFirst => need_index c 0%N (Ok (RMat (l_mat c 0%N), c))
  | QSecond => need_index c 1%N (Ok (RMat (l_mat c 1%N), c))
  | QPredict u x => need_index c 0%N (q_mean n (l_at c u x))
  | QJac u x => need_index c 0%N (Ok (RMat (l_mat c 0%N), l_at c u x))
  | QNoise u x => need_index c 0%N (Ok (RSym (l_sigma c), l_at c u x))
  end.
Fixpoint l_run n (c : lin) (os : seq (lop R)) : outcome (seq (lres R) * lin) :=
  if os is o :: os' then
    let! r := l_step n c o in let! q := l_run n r.2 os' in Ok (r.1 :: q.1, q.2)
  else Ok ([::], c).
(** the object in memory that represents it *)
Definition stored (c : lin) : lcg R :=
  LCG (l_num c) (mkseq (l_arg c) (l_num c)) (mkseq (l_mat c) (l_num c)) (l_mu c) (l_sigma c).
End Spec.
