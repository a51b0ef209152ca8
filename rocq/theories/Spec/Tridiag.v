(** * Specification vocabulary: Hermitian tridiagonal matrices and their L D L^H factorization *)
From Coq Require Import Bool Arith Lia.
From Verif.Core Require Import Scalar.
From Verif.Spec Require Import LinAlg.

Section Tri.
Context {E : Env}.
(** the Hermitian tridiagonal matrix with diagonal d and subdiagonal e *)
Definition tridiag (d e : nat -> T) : mat := fun i j =>
  if i =? j then d i else if i =? S j then e j else if j =? S i then conj (e i) else zero.
(** the unit lower bidiagonal matrix with subdiagonal e *)
Definition bidiag (e : nat -> T) : mat := fun i j => if i =? j then one else if i =? S j then e j else zero.
(** the diagonal matrix *)
Definition diagm (d : nat -> T) : mat := fun i j => if i =? j then d i else zero.
End Tri.
