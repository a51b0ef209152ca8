(** * Symmetric tridiagonal eigenvalue problems *)
From Coq Require Import Bool Arith Reals.
From Verif.Core Require Import Scalar RealLaws.
From Verif.Spec Require Import LinAlg Norms Householder Reduce.
Local Open Scope T_scope.

Section S.
Context {E : Env}.
(** the symmetric tridiagonal matrix with diagonal d and off-diagonal e *)
Definition symtri (d e : nat -> T) : mat := fun i j =>
  if (i =? j)%nat then d i else if (i =? j + 1)%nat then e j else if (j =? i + 1)%nat then e i else 0.
(** the diagonal matrix with diagonal d *)
Definition diagm (d : nat -> T) : mat := fun i j => if (i =? j)%nat then d i else 0.
(** a plane rotation in the coordinates j1, j2: the columns j1 and j2 of M times it are
    c M(:,j1) + s M(:,j2) and c M(:,j2) - conj(s) M(:,j1) *)
Definition givens (j1 j2 : nat) (c s : T) : mat := fun r q =>
  if (q =? j1)%nat then (if (r =? j1)%nat then c else if (r =? j2)%nat then s else 0)
  else if (q =? j2)%nat then (if (r =? j1)%nat then - conj s else if (r =? j2)%nat then c else 0)
  else idm r q.
End S.
Section R.
Context {E : Env} {RL : RLaws E}.
(** the Frobenius norm of an m-by-n matrix *)
Definition fro (m n : nat) (A : mat) : R := sqrt (fro2 m n A).
End R.
