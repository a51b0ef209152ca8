(** * Specification vocabulary: quadratic forms and positive definiteness *)
From Coq Require Import Bool Arith Lia.
From Verif.Core Require Import Scalar.
From Verif.Spec Require Import LinAlg.

Section PosDef.
Context {E : Env}.
(** x^H H x for the leading k-by-k block of H *)
Definition qform (k : nat) (H : mat) (x : nat -> T) : T :=
  sum k (fun i => sum k (fun j => mul (mul (conj (x i)) (H i j)) (x j))).
(** the leading k-by-k block of H is positive definite *)
Definition posdef (k : nat) (H : mat) : Prop :=
  forall x : nat -> T, (exists i, i < k /\ x i <> zero) -> ltb zero (qform k H x) = true.
(** H is Hermitian (leading n-by-n block) *)
Definition hermitian (n : nat) (H : mat) : Prop := forall i j, i < n -> j < n -> H i j = conj (H j i).
End PosDef.
