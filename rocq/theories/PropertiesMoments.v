(** * C20: mean and covariance of particle sets *)
From Coq Require Import ZArith Lia.
From mathcomp Require Import all_ssreflect all_algebra.
From mathcomp Require Import ring zify ssrZ.
From Verif Require Import OrdLra Outcome SpecProb ModelTables ProofsTables ModelMCPdf SpecMCPdf
  ProofsMCPdf ModelMatrix SpecMatrix ProofsMatrix ModelMoments ProofsMoments.
Set Implicit Arguments. Unset Strict Implicit. Unset Printing Implicit Defensive.
Import Order.TTheory GRing.Theory Num.Theory.
Local Open Scope ring_scope.

Section Vectors.
Variables (R : realFieldType) (n : nat).
Implicit Types (d : mcpdf R 'cV[R]_n).

Theorem C20_mean_is_weighted_sum d : mc_valid d ->
  mc_mean d = \sum_(x <- mc_los d) x.2 *: x.1.
Proof. exact: mc_meanE. Qed.
Theorem C20_mean_in_hull d i lo hi : mc_valid d ->
  (forall x, List.In x (mc_los d) -> lo <= x.1 i 0 <= hi) -> lo <= mc_mean d i 0 <= hi.
Proof.
move=> hv h; rewrite mc_meanE // summxE.
under eq_bigr do rewrite mxE.
by apply: (weighted_bounds (f := fun v : 'cV[R]_n => v i 0)) => //; case: hv.
Qed.
Theorem C20_covariance d : mc_valid d ->
  [/\ mc_cov d = \sum_(x <- mc_los d) x.2 *: ((x.1 - mc_mean d) *m (x.1 - mc_mean d)^T),
      mc_cov d = \sum_(x <- mc_los d) x.2 *: (x.1 *m x.1^T) - mc_mean d *m (mc_mean d)^T &
      psd (mc_cov d)].
Proof. by move=> h; split; [exact: mc_covE|exact: mc_cov_second|exact: mc_cov_psd]. Qed.
End Vectors.

(** unsigned: the mean is the weighted mean rounded half up *)
Theorem C20_unsigned_mean_rounds (d : mcpdf Q2 Z) : mc_valid d ->
  (forall x, List.In x (mc_los d) -> Z.le 0 x.1 /\ Z.lt x.1 (Z.pow 2 32)) ->
  z2q (mcu_mean d) - 1 / 2%:R <= \sum_(x <- mc_los d) x.2 * z2q x.1 < z2q (mcu_mean d) + 1 / 2%:R.
Proof. exact: mcu_mean_ok. Qed.
(** the unsigned covariance is exact as long as no sample is 2^16 or more away
    from the (rounded) mean *)
Theorem C20_unsigned_cov_close (d : mcpdf Q2 Z) : mc_valid d ->
  (forall x, List.In x (mc_los d) -> Z.lt (Z.abs (Z.sub x.1 (mcu_mean d))) (Z.pow 2 16)) ->
  mcu_cov d = \sum_(x <- mc_los d) z2q (Z.pow (Z.sub x.1 (mcu_mean d)) 2) * x.2.
Proof. exact: mcu_cov_ok. Qed.
(** finding: two equally likely particles 65536 below and above m have
    covariance 0 *)
Theorem C20_unsigned_cov_wraps_refuted m junk :
  Z.le (Z.pow 2 16) m -> Z.lt m (Z.sub (Z.pow 2 32) (Z.pow 2 16)) ->
  exists d : mcpdf Q2 Z, [/\
    mc_setU junk (mc_new junk 0) [:: Z.sub m (Z.pow 2 16); Z.add m (Z.pow 2 16)] = Ok (true, d),
    mc_valid d, mcu_mean d = m & mcu_cov d = 0].
Proof.
move=> h1 h2; rewrite mc_setUE; last exact: mc_new_sized.
eexists; split; first by [].
- by apply: valid_build; exact: equal_distr.
- exact: two_far_mean.
- exact: two_far_cov.
Qed.

Print Assumptions C20_mean_is_weighted_sum.
Print Assumptions C20_mean_in_hull.
Print Assumptions C20_covariance.
Print Assumptions C20_unsigned_mean_rounds.
Print Assumptions C20_unsigned_cov_close.
Print Assumptions C20_unsigned_cov_wraps_refuted.

(** ** Concrete cases *)
Section Examples.
Let q (a b : nat) : rat := a%:R / b%:R.
(* a valid vector-valued particle set *)
Let l2 : seq ('cV[rat]_2 * rat) := [:: (\col_(i < 2) i%:R, q 1 4); (\col_(i < 2) (i.+1)%:R, q 3 4)].
Example C20_valid_example : mc_valid (MC (R := Q2) l2 (cum_loop (0 : Q2) (weights (R := Q2) l2)) 1).
Proof. by apply: (valid_build (R := Q2)); split; [vm_compute | rewrite /total unlock; apply/eqP; vm_compute]. Qed.
(* unsigned particles 1 and 4 with weights 1/4 and 3/4: mean 13/4 rounds to 3,
   covariance 1/4*4 + 3/4*1 *)
Let du : mcpdf Q2 Z := MC (R := Q2) [:: (Z.pos xH, q 1 4); (Z.pos 4, q 3 4)] [:: 0; q 1 4; 1] 1.
Example C20_unsigned_example : Z.eqb (mcu_mean du) (Z.pos 3) && (mcu_cov du == q 7 4).
Proof. by vm_compute. Qed.
End Examples.
