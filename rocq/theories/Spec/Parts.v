(** * Parts of a matrix *)
From Coq Require Import Bool Arith ZArith.
From Verif.Core Require Import Scalar Prog View.
From Verif.Spec Require Import Outcome.

(** the positions (i,j) of a matrix selected by a matrix type *)
Definition selected (u : uplo_t) (i j : nat) : Prop :=
  match u with
  | General => True
  | Upper => i <= j
  | Lower => j <= i
  | StrictUpper => i < j
  | StrictLower => j < i
  | UpperHessenberg => i <= j + 1
  | LowerHessenberg => j <= i + 1
  end.
(** the band with kl subdiagonals and ku superdiagonals *)
Definition in_band (kl ku i j : nat) : Prop := i <= j + kl /\ j <= i + ku.

Section S.
Context {E : Env}.
(** the elements of [B] at the positions [P] now hold [F]; nothing else in memory has changed *)
Definition sets (B : view) (P : nat -> nat -> Prop) (F : nat -> nat -> T) (s s' : state) : Prop :=
  (forall i j, i < nr B -> j < nc B -> P i j -> val B s' i j = F i j) /\ only_changes (cells B P) s s'.
End S.
