(** * Specification vocabulary: Cholesky factorization *)
From Coq Require Import Bool Arith Lia.
From Verif.Core Require Import Scalar.
From Verif.Spec Require Import LinAlg PosDef.

Section Chol.
Context {E : Env}.
(** the [u] triangle of F holds a Cholesky factor of the n-by-n matrix H: F has a real positive diagonal and
    U^H U = H (Upper) or L L^H = H (Lower) *)
Definition cholesky_factor (u : uplo_t) (n : nat) (F H : mat) : Prop :=
  (forall j, j < n -> conj (F j j) = F j j /\ ltb zero (F j j) = true) /\
  forall i j, i < n -> j < n ->
    match u with
    | Upper => mmul n (ctr (trim Upper NonUnit F)) (trim Upper NonUnit F) i j = H i j
    | _ => mmul n (trim Lower NonUnit F) (ctr (trim Lower NonUnit F)) i j = H i j
    end.
(** k (1-based) is the order of the first leading principal submatrix of H that is not positive definite *)
Definition first_not_posdef (n k : nat) (H : mat) : Prop :=
  1 <= k <= n /\ posdef (k - 1) H /\ ~ posdef k H.
End Chol.
