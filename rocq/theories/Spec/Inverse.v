(** * Specification vocabulary: inverses, singular triangular matrices *)
From Coq Require Import Bool Arith Lia.
From Verif.Core Require Import Scalar.
From Verif.Spec Require Import LinAlg.

Section Inv.
Context {E : Env}.
(** X is the (two-sided) inverse of the n-by-n matrix A *)
Definition inverse (n : nat) (A X : mat) : Prop :=
  forall i j, i < n -> j < n -> mmul n A X i j = idm i j /\ mmul n X A i j = idm i j.
(** k (1-based) is the position of the first zero on the diagonal *)
Definition first_zero_diagonal (n k : nat) (A : mat) : Prop :=
  1 <= k <= n /\ A (k - 1) (k - 1) = zero /\ forall j, j < k - 1 -> A j j <> zero.
End Inv.
