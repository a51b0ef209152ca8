(** * Specification vocabulary: row interchanges, linear dependence of columns *)
From Coq Require Import Bool Arith Lia.
From Verif.Core Require Import Scalar.
From Verif.Spec Require Import LinAlg.

Section LU.
Context {E : Env}.
(** the matrix with rows j and p exchanged *)
Definition exchange (j p : nat) (A : mat) : mat := fun i c =>
  A (if i =? j then p else if i =? p then j else i) c.
(** the matrix after exchanging row 0 with row ip 0, then row 1 with row ip 1, ..., then row k-1 with row ip (k-1) *)
Fixpoint interchange (k : nat) (ip : nat -> nat) (A : mat) : mat :=
  match k with O => A | S k' => exchange k' (ip k') (interchange k' ip A) end.
(** the first c columns of A (with m rows) are linearly dependent *)
Definition dependent (m c : nat) (A : mat) : Prop :=
  exists x : nat -> T, (exists j, j < c /\ x j <> zero) /\ forall i, i < m -> mvmul c A x i = zero.
(** no nontrivial combination of the first c columns of A vanishes *)
Definition independent (m c : nat) (A : mat) : Prop :=
  forall x : nat -> T, (forall i, i < m -> mvmul c A x i = zero) -> forall j, j < c -> x j = zero.
End LU.

From Coq Require Import ZArith.
From Verif.Core Require Import Prog View IVec.
Section LU2.
Context {E : Env}.
(** nothing outside the scalar locations [P] and the index locations [Q] has changed *)
Definition only_changes2 (P Q : Z -> Prop) (s s' : state) : Prop :=
  (forall l, ~ P l -> mem s' l = mem s l) /\ (forall l, ~ Q l -> imem s' l = imem s l).
(** [piv] (in state [s]) holds valid row interchanges [ip 0 .. ip (k-1)] for a matrix with [m] rows: step j
    exchanges row j with a row that is not above it *)
Definition pivots (m k : nat) (piv : view) (s : state) (ip : nat -> nat) : Prop :=
  forall j, j < k -> ival piv s j = Z.of_nat (ip j) /\ j <= ip j < m.
(** the locations of the first [k] entries of the vector [piv] *)
Definition first_entries (piv : view) (k : nat) (l : Z) : Prop := exists j, j < k /\ l = ad piv j 0.
End LU2.
