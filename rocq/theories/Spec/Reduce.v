(** * Two-sided reductions: Hessenberg, bidiagonal and tridiagonal forms *)
From Coq Require Import Bool Arith Reals.
From Verif.Core Require Import Scalar RealLaws.
From Verif.Spec Require Import LinAlg Norms Householder.
Local Open Scope T_scope.

Section S.
Context {E : Env}.
(** The vector of reflector [i] stored below the subdiagonal in column [i] of A: zero up to place i, 1 at place i+1,
    then the stored elements up to (excluding) place [hi], zero from there *)
Definition subvec (hi : nat) (A : mat) (i : nat) : nat -> T := fun r =>
  if (r =? i + 1)%nat then 1 else if ((i + 1 <? r) && (r <? hi))%nat then A r i else 0.
(** The vector of reflector [i] stored, conjugated, to the right of the superdiagonal in row [i] of A *)
Definition suprow (hi : nat) (A : mat) (i : nat) : nat -> T := subvec hi (ctr A) i.
(** The vector of reflector [i] stored above the superdiagonal in column i+1 of A: 1 at place i, zero after it *)
Definition supvec (A : mat) (i : nat) : nat -> T := fun r =>
  if (r =? i)%nat then 1 else if (r <? i)%nat then A r (i + 1)%nat else 0.

(** ** Hessenberg form.  Q = H_ilo H_(ilo+1) ... H_(ihi-2) *)
Definition hessq (n ilo ihi : nat) (A : mat) (tau : nat -> T) : mat :=
  mprod n (fun t => refl (tau (ilo + t)%nat) (subvec ihi A (ilo + t)%nat)) (ihi - 1 - ilo).
(** what remains of A without the stored vectors *)
Definition hesspart (ilo ihi : nat) (A : mat) : mat := fun i j =>
  if ((ilo <=? j) && (j + 1 <? i) && (i <? ihi))%nat then 0 else A i j.
(** A0 = Q H Q^H with Q unitary; the new subdiagonal elements are real *)
Definition hess_reduction (n ilo ihi : nat) (A0 A : mat) (tau : nat -> T) : Prop :=
  let Q := hessq n ilo ihi A tau in
  unitary n Q /\
  (forall i j, (i < n)%nat -> (j < n)%nat -> A0 i j = mmul n (mmul n Q (hesspart ilo ihi A)) (ctr Q) i j) /\
  (forall i, (ilo <= i)%nat -> (i + 1 < ihi)%nat -> conj (A (i + 1)%nat i) = A (i + 1)%nat i).
(** A0 is block upper triangular as far as gehd2 relies on it: the rows from [ihi] on are zero in columns
    ilo+1, ..., ihi-1, and rows ilo+1, ..., ihi-1 are zero in the columns before [ilo] *)
Definition hess_input (n ilo ihi : nat) (A0 : mat) : Prop := forall i j, (i < n)%nat -> (j < n)%nat ->
  ((ihi <= i)%nat /\ (ilo < j < ihi)%nat \/ (ilo < i < ihi)%nat /\ (j < ilo)%nat) -> A0 i j = 0.

(** ** Bidiagonal form.  Q = H_0 ... , Z = G_0 ... ; for m >= n B is upper bidiagonal, otherwise lower bidiagonal *)
Definition bidq (m n : nat) (A : mat) (tauv : nat -> T) : mat :=
  if (n <=? m)%nat then mprod m (fun j => refl (tauv j) (qvec A j)) n
  else mprod m (fun j => refl (tauv j) (subvec m A j)) (m - 1).
Definition bidz (m n : nat) (A : mat) (tauw : nat -> T) : mat :=
  if (n <=? m)%nat then mprod n (fun j => refl (tauw j) (suprow n A j)) (n - 1)
  else mprod n (fun j => refl (tauw j) (qvec (ctr A) j)) m.
Definition bidpart (m n : nat) (A : mat) : mat := fun i j =>
  if ((i =? j) || (if n <=? m then j =? i + 1 else i =? j + 1))%nat then A i j else 0.
(** A0 = Q B Z^H with Q and Z unitary and B real *)
Definition bid_reduction (m n : nat) (A0 A : mat) (tauv tauw : nat -> T) : Prop :=
  let Q := bidq m n A tauv in let Z := bidz m n A tauw in let B := bidpart m n A in
  unitary m Q /\ unitary n Z /\
  (forall i j, (i < m)%nat -> (j < n)%nat -> A0 i j = mmul n (mmul m Q B) (ctr Z) i j) /\
  (forall i j, (i < m)%nat -> (j < n)%nat -> conj (B i j) = B i j).

(** ** Tridiagonal form of a Hermitian matrix.  Q = H_0 ... H_(n-2) (Lower), Q = H_(n-2) ... H_0 (Upper) *)
Definition tridq (u : uplo_t) (n : nat) (A : mat) (tau : nat -> T) : mat :=
  match u with
  | Upper => rprod n (fun i => refl (tau i) (supvec A i)) (n - 1)
  | _ => mprod n (fun i => refl (tau i) (subvec n A i)) (n - 1)
  end.
(** the symmetric tridiagonal matrix whose diagonal and sub- or superdiagonal are in A *)
Definition tridpart (u : uplo_t) (A : mat) : mat := fun i j =>
  if (i =? j)%nat then A i j
  else if (i =? j + 1)%nat then match u with Upper => A j i | _ => A i j end
  else if (j =? i + 1)%nat then match u with Upper => A i j | _ => A j i end else 0.
(** A0 = Q T Q^H with Q unitary and T real *)
Definition trid_reduction (u : uplo_t) (n : nat) (A0 A : mat) (tau : nat -> T) : Prop :=
  let Q := tridq u n A tau in let T3 := tridpart u A in
  unitary n Q /\
  (forall i j, (i < n)%nat -> (j < n)%nat -> A0 i j = mmul n (mmul n Q T3) (ctr Q) i j) /\
  (forall i j, (i < n)%nat -> (j < n)%nat -> conj (T3 i j) = T3 i j).

(** ** Hessenberg-triangular form of a pair: A0 = U A V^H and B0 = U B V^H (B0 without the elements below its diagonal)
    with U and V unitary, B upper triangular and A upper Hessenberg in rows and columns ilo, ..., ihi-1; elsewhere the
    elements below the diagonal of A are those of A0.  Q = Q0 U and Z = Z0 V if they are wanted. *)
Definition upper_part (B : mat) : mat := fun i j => if (j <? i)%nat then 0 else B i j.
Definition hesstri_reduction (n ilo ihi : nat) (wantq wantz : bool) (A0 B0 Q0 Z0 A B Q Z : mat) : Prop := exists U V : mat,
  unitary n U /\ unitary n V /\
  (forall i j, (i < n)%nat -> (j < n)%nat -> A0 i j = mmul n (mmul n U A) (ctr V) i j) /\
  (forall i j, (i < n)%nat -> (j < n)%nat -> upper_part B0 i j = mmul n (mmul n U B) (ctr V) i j) /\
  (forall i j, (i < n)%nat -> (j < n)%nat -> Q i j = if wantq then mmul n Q0 U i j else Q0 i j) /\
  (forall i j, (i < n)%nat -> (j < n)%nat -> Z i j = if wantz then mmul n Z0 V i j else Z0 i j) /\
  (forall i j, (i < n)%nat -> (j < i)%nat -> B i j = 0) /\
  (forall i j, (i < ihi)%nat -> (ilo <= j)%nat -> (j + 1 < i)%nat -> A i j = 0) /\
  (forall i j, (i < n)%nat -> (j < i)%nat -> (j < ilo \/ ihi <= i)%nat -> A i j = A0 i j).
End S.
Section R.
Context {E : Env} {RL : RLaws E}.
(** the sum of the squares of the moduli of all elements of an m-by-n matrix *)
Definition fro2 (m n : nat) (A : mat) : R := rsum n (fun j => vsq m (fun i => A i j)).
End R.
