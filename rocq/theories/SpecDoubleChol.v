(** * Specification for the Cholesky factor of a 2x2 covariance (C113) *)
From Coq Require Import ZArith Reals.
Local Open Scope R_scope.

(** [x y z], the lower triangle of a matrix, times its transpose gives [a b c] up to the given
    errors of the three entries *)
Definition factor_of (x y z a b c e1 e2 e3 : R) : Prop :=
  Rabs (x * x - a) <= e1 /\ Rabs (x * y - b) <= e2 /\ Rabs (y * y + z * z - c) <= e3.
(** a covariance: positive semidefinite, definite *)
Definition semidef (a b c : R) : Prop := 0 <= a /\ 0 <= c /\ b * b <= a * c.
Definition posdef (a b c : R) : Prop := 0 < a /\ b * b < a * c.
